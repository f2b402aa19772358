(** What the textbook says about LR(0) items.

    A grammar is the list of its rules in order.  An item is a pair of a rule's position in that
    list and a dot position in its right-hand side. *)

From Coq Require Import List Arith.
From Verif Require Import Spec.
Import ListNotations.

Section Items.
  Context (l : list (nat * list nat)).

  (** The symbol after the dot *)
  Definition after_dot (x : nat * nat) (B : nat) : Prop :=
    exists A r, nth_error l (fst x) = Some (A, r) /\ nth_error r (snd x) = Some B.

  (** [item_closure I]: the least set that contains [I] and, with every item that has a symbol
      [B] after its dot, the items with the dot in front for all the rules of [B]. *)
  Inductive item_closure (I : nat * nat -> Prop) : nat * nat -> Prop :=
  | cl_given : forall x, I x -> item_closure I x
  | cl_rule : forall x B j r, item_closure I x -> after_dot x B -> nth_error l j = Some (B, r) ->
      item_closure I (j, 0).

  (** [moved I X]: the items of [I] with [X] after the dot, the dot moved over it. *)
  Definition moved (I : nat * nat -> Prop) (X : nat) (x : nat * nat) : Prop :=
    exists i d, x = (i, S d) /\ I (i, d) /\ after_dot (i, d) X.

  (** What remains of the closure when every rule has at most one item, the items with the dot in
      front replace the given ones, and a rule that had an item is not expanded again:
      [expanded I B] says that the rules of [B] are added, [stored_closure I] is the resulting set. *)
  Inductive expanded (I : nat * nat -> Prop) : nat -> Prop :=
  | ex_given : forall x B, I x -> after_dot x B -> expanded I B
  | ex_rule : forall A j r B, expanded I A -> nth_error l j = Some (A, r) -> (forall d, ~ I (j, d)) ->
      after_dot (j, 0) B -> expanded I B.
  Definition stored_closure (I : nat * nat -> Prop) (x : nat * nat) : Prop :=
    exists A r, nth_error l (fst x) = Some (A, r) /\
      (expanded I A -> snd x = 0) /\ (~ expanded I A -> I x).

  (** Two different items of one rule.  A set of items stored with one item per rule cannot hold
      both. *)
  Definition one_per_rule (I : nat * nat -> Prop) : Prop :=
    forall i d d', I (i, d) -> I (i, d') -> d = d'.

  (** [rightmost u w]: [u] derives [w] by steps that each replace the rightmost nonterminal. *)
  Inductive rightmost (u : list nat) : list nat -> Prop :=
  | rm_refl : rightmost u u
  | rm_step : forall x A z r, rightmost u (x ++ A :: z) -> of_list l A r -> Forall (terminal (of_list l)) z ->
      rightmost u (x ++ r ++ z).

  (** The item [x] is valid for the viable prefix [w]: there is a rightmost derivation from [S]
      to [p A z], and [w] is [p] followed by the part of the right-hand side before the dot. *)
  Definition valid_item (S : nat) (w : list nat) (x : nat * nat) : Prop :=
    exists A r p z, nth_error l (fst x) = Some (A, r) /\ snd x <= length r /\
      rightmost [S] (p ++ A :: z) /\ Forall (terminal (of_list l)) z /\ w = p ++ firstn (snd x) r.
End Items.
