(** Specification of parse trees.  A grammar is a list of rules (left-hand side, right-hand side) here:
    two equal rules in the list are two different ways to parse. *)

From Coq Require Import List Arith.
Import ListNotations.

(** [Leaf s] is a symbol that is not expanded, [Node i ts] an application of rule number [i]. *)
Inductive tree := Leaf (s : nat) | Node (i : nat) (ts : list tree).

(** [parses l A t]: [t] is a complete parse tree of symbol [A]. *)
Inductive parses (l : list (nat * list nat)) : nat -> tree -> Prop :=
| parses_leaf : forall s, (forall r, ~ In (s, r) l) -> parses l s (Leaf s)
| parses_node : forall A r i ts, nth_error l i = Some (A, r) -> Forall2 (parses l) r ts -> parses l A (Node i ts).

(** The string that a tree is a parse of. *)
Fixpoint yield (t : tree) : list nat :=
  match t with
  | Leaf s => [s]
  | Node _ ts => flat_map yield ts
  end.

(** No string has two parse trees from the symbol [A]. *)
Definition unambiguous (l : list (nat * list nat)) (A : nat) : Prop :=
  forall t t', parses l A t -> parses l A t' -> yield t = yield t' -> t = t'.

(** The parse trees in [l] of the symbols [S] and those in [l'] correspond one to one, [change] being what
    happens to the string. *)
Definition same_trees (S : nat -> Prop) (change : list nat -> list nat) (l l' : list (nat * list nat)) : Prop :=
  exists f : tree -> tree,
    (forall A t, S A -> parses l A t -> parses l' A (f t) /\ yield (f t) = change (yield t)) /\
    (forall A t u, S A -> parses l A t -> parses l A u -> f t = f u -> t = u) /\
    (forall A t', S A -> parses l' A t' -> exists t, parses l A t /\ f t = t').

(** The same with a renaming: the trees of [A] in [l] correspond to those of [rename A] in [l'], the strings being
    renamed. *)
Definition renamed_trees (S : nat -> Prop) (rename : nat -> nat) (l l' : list (nat * list nat)) : Prop :=
  exists f : tree -> tree,
    (forall A t, S A -> parses l A t -> parses l' (rename A) (f t) /\ yield (f t) = map rename (yield t)) /\
    (forall A t u, S A -> parses l A t -> parses l A u -> f t = f u -> t = u) /\
    (forall A t', S A -> parses l' (rename A) t' -> exists t, parses l A t /\ f t = t').

(** Different trees in [l] of a symbol of [S] over the leaves [T] stand for different trees in [l'] with the same
    string: [l] is no more ambiguous than [l']. *)
Definition embeds (S T : nat -> Prop) (l l' : list (nat * list nat)) : Prop :=
  exists f : tree -> tree,
    (forall A t, S A -> parses l A t -> Forall T (yield t) -> parses l' A (f t) /\ yield (f t) = yield t) /\
    (forall A t u, S A -> parses l A t -> Forall T (yield t) -> parses l A u -> Forall T (yield u) -> f t = f u -> t = u).

(** The trees in [l] of the symbols [S] over the leaves [T] correspond one to one to the trees in [l']. *)
Definition same_trees_over (S T : nat -> Prop) (l l' : list (nat * list nat)) : Prop :=
  exists f : tree -> tree,
    (forall A t, S A -> parses l A t -> Forall T (yield t) -> parses l' A (f t) /\ yield (f t) = yield t) /\
    (forall A t u, S A -> parses l A t -> Forall T (yield t) -> parses l A u -> Forall T (yield u) -> f t = f u -> t = u) /\
    (forall A t', S A -> parses l' A t' -> exists t, parses l A t /\ Forall T (yield t) /\ f t = t').

(** The parse trees of the string [w] from [A] can be listed. *)
Definition finitely_parsed (l : list (nat * list nat)) (A : nat) (w : list nat) : Prop :=
  exists L, forall t, parses l A t -> yield t = w -> In t L.

(** No list has all parse trees of the string [w] from [A]. *)
Definition infinitely_parsed (l : list (nat * list nat)) (A : nat) (w : list nat) : Prop :=
  forall L, exists t, parses l A t /\ yield t = w /\ ~ In t L.

(** The parse trees of [A] in [l] correspond one to one to those of [B] in [l'], [change] being what happens to the
    string. *)
Definition trees_match (change : list nat -> list nat) (l : list (nat * list nat)) (A : nat) (l' : list (nat * list nat)) (B : nat) : Prop :=
  exists f : tree -> tree,
    (forall t, parses l A t -> parses l' B (f t) /\ yield (f t) = change (yield t)) /\
    (forall t u, parses l A t -> parses l A u -> f t = f u -> t = u) /\
    (forall t', parses l' B t' -> exists t, parses l A t /\ f t = t').
