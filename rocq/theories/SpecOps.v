(** Specification of operator tables that can be read in one way only. *)

From Coq Require Import List Arith.
From Verif Require Import SpecPrec.
Import ListNotations.

(** The alternative begins with the symbol [x]. *)
Definition begins (alt : alternative) (x : nat) : Prop := exists l, snd alt = x :: l.
(** The alternative has an operand first, and [o] follows it. *)
Definition operator (E : nat) (alt : alternative) (o : nat) : Prop := exists l, snd alt = E :: o :: l.

(** The alternatives [alts] on the levels [0 .. top] are an operator table with the operand [E].
    - Each alternative has a symbol besides operands, and operands are not adjacent.
    - Groups have symbols at both ends.
    - Alternatives beginning with a symbol begin with different ones, those beginning with an operand have different
      operators.  A symbol may have both uses, like a minus sign.
    - A symbol that follows an operand inside of an alternative is not an operator.
    - On one level, there is not both an alternative with an operand of this very level at the left end and an
      alternative with one at the right end. *)
Record operator_table (E top : nat) (alts : list alternative) : Prop := {
  ot_some : forall alt, In alt alts -> snd alt <> [] /\ snd alt <> [E];
  ot_apart : forall alt u v, In alt alts -> snd alt <> u ++ E :: E :: v;
  ot_group : forall j l m, In (j, AGroup, l) alts -> l <> E :: m /\ l <> m ++ [E];
  ot_begin : forall i i' alt alt' x, nth_error alts i = Some alt -> nth_error alts i' = Some alt' ->
    x <> E -> begins alt x -> begins alt' x -> i = i';
  ot_operator : forall i i' alt alt' o, nth_error alts i = Some alt -> nth_error alts i' = Some alt' ->
    operator E alt o -> operator E alt' o -> i = i';
  ot_inner : forall alt alt' u x v, In alt alts -> snd alt = u ++ E :: x :: v -> u <> [] ->
    In alt' alts -> ~ operator E alt' x;
  ot_level : forall j a l a' l' u v, In (j, a, l) alts -> In (j, a', l') alts ->
    places E top (j, a, l) = Opd j :: u -> places E top (j, a', l') <> v ++ [Opd j]
}.
