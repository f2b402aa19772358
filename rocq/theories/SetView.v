(** Specification of symbol sets and of derivation costs. *)

From Coq Require Import List Arith NArith Bool.
From Verif Require Import Spec.
Import ListNotations.

(** A symbol is a member of a symbol set. *)
Definition member (b : list bool) (s : nat) : Prop := nth_error b s = Some true.

(** [forest P v0 u c]: the symbols of [u] have derivation trees in which every inner node
    uses a non-empty production and every leaf is a symbol with an initial value; [c] is the
    sum of the values of the leaves. *)
Inductive forest (P : productions) (v0 : nat -> option N) : list nat -> N -> Prop :=
| forest_nil : forest P v0 [] 0
| forest_leaf : forall s u c d,
    v0 s = Some c -> forest P v0 u d -> forest P v0 (s :: u) (c + d)
| forest_node : forall A r u c d,
    P A r -> r <> [] -> forest P v0 r c -> forest P v0 u d -> forest P v0 (A :: u) (c + d).

(** The same with trees in which no symbol occurs below itself, nor below the symbols to [avoid]
    as if they stood above. There are finitely many such trees. *)
Inductive short_forest (P : productions) (v0 : nat -> option N) : list nat -> list nat -> N -> Prop :=
| sf_nil : forall avoid, short_forest P v0 avoid [] 0
| sf_leaf : forall avoid s u c d,
    ~ In s avoid -> v0 s = Some c -> short_forest P v0 avoid u d -> short_forest P v0 avoid (s :: u) (c + d)
| sf_node : forall avoid A r u c d,
    ~ In A avoid -> P A r -> r <> [] -> short_forest P v0 (A :: avoid) r c ->
    short_forest P v0 avoid u d -> short_forest P v0 avoid (A :: u) (c + d).

(** [c] is the cost of some derivation tree of [s]. *)
Definition tree_cost (P : productions) (v0 : nat -> option N) (s : nat) (c : N) : Prop :=
  forest P v0 [s] c.

(** [m] is the least number that satisfies [Q], or nothing does. *)
Definition least (Q : N -> Prop) (m : option N) : Prop :=
  match m with
  | Some c => Q c /\ forall d, Q d -> (c <= d)%N
  | None => forall d, ~ Q d
  end.

(** The value of a symbol in a list of values. *)
Definition value_of (v : list (option N)) (s : nat) : option N :=
  match nth_error v s with Some x => x | None => None end.
