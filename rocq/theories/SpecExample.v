(** Specification of the sentences of the example grammar [ambiguous_math].  Symbols are numbers in the order in which
    they are made: 0 to 2 are [expr], [op], [num], 3 to 6 the four operators, 7 to 16 the ten digits. *)

From Coq Require Import List Arith.
Import ListNotations.

Definition operator (s : nat) : Prop := 3 <= s <= 6.
Definition digit (s : nat) : Prop := 7 <= s <= 16.
Definition number (w : list nat) : Prop := w <> [] /\ Forall digit w.

(** [expression n w]: [w] is a chain of [n] operators between [n + 1] numbers. *)
Inductive expression : nat -> list nat -> Prop :=
| expression_number : forall x, number x -> expression 0 x
| expression_operator : forall n x o w, number x -> operator o -> expression n w -> expression (S n) (x ++ o :: w).

(** The Catalan numbers. *)
Definition catalan (c : nat -> nat) : Prop :=
  c 0 = 1 /\ forall n, c (S n) = list_sum (map (fun i => c i * c (n - i)) (seq 0 (S n))).
