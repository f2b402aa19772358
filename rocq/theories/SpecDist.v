(** Specification of distances between dots of rules. *)

From Coq Require Import List Arith.
From Verif Require Import Spec.
Import ListNotations.

(** A right-hand side with a marker put at a dot. *)
Definition mark (m d : nat) (r : list nat) : list nat := firstn d r ++ m :: skipn d r.

(** The rules of [l], and in addition copies of rule [fst a] with the marker [ma] at position [snd a],
    of rule [fst b] with the marker [mb] at position [snd b], or with both in this order when it is
    one rule. *)
Definition dotted (l : list (nat * list nat)) (ma mb : nat) (a b : nat * nat) : productions :=
  fun A q => exists i r, nth_error l i = Some (A, r) /\
    (q = r \/
     (i = fst a /\ snd a <= length r /\ q = mark ma (snd a) r) \/
     (i = fst b /\ snd b <= length r /\ q = mark mb (snd b) r) \/
     (i = fst a /\ i = fst b /\ snd a <= snd b /\ snd b <= length r /\ q = mark ma (snd a) (mark mb (snd b) r))).

(** The terminal string [w] leads from the dot [a] to the dot [b] in a grammar with [n] symbols and
    the rules [l]: some symbol has a derivation that uses the two rules so that the two dots,
    marked by the fresh symbols [n] and [S n], are separated by [w]. *)
Definition leads (l : list (nat * list nat)) (n : nat) (a b : nat * nat) (w : list nat) : Prop :=
  Forall (fun s => s < n /\ terminal (of_list l) s) w /\
  exists C x y, C < n /\ derives (dotted l n (S n) a b) [C] (x ++ n :: w ++ S n :: y).
