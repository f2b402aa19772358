(** Specification of FIRST, LAST and FOLLOW. *)

From Coq Require Import List Arith.
From Verif Require Import Spec.
Import ListNotations.

(** The terminal [t] begins a sentential form derived from [u]. *)
Definition begins (P : productions) (u : list nat) (t : nat) : Prop :=
  terminal P t /\ exists v, derives P u (t :: v).

(** The terminal [t] ends a sentential form derived from [u]. *)
Definition ends (P : productions) (u : list nat) (t : nat) : Prop :=
  terminal P t /\ exists v, derives P u (v ++ [t]).

(** The terminal [t] directly follows [A] in a sentential form of some symbol. *)
Definition follows (P : productions) (A t : nat) : Prop :=
  terminal P t /\ exists C u v, derives P [C] (u ++ A :: t :: v).

(** [A] ends a sentential form derived from one of the roots. *)
Definition can_end (P : productions) (roots : list nat) (A : nat) : Prop :=
  exists R u, In R roots /\ derives P [R] (u ++ [A]).

(** The terminal [t] selects the production [A ::= r] in an LL(1) parser: the right-hand side can
    start with it, or vanish and be followed by it. *)
Definition selects (P : productions) (A : nat) (r : list nat) (t : nat) : Prop :=
  begins P r t \/ (derives P r [] /\ follows P A t).

(** Two rules of [B], at different places of the list of rules, are selected by one terminal. *)
Definition ll1_conflict (P : productions) (l : list (nat * list nat)) (B : nat) : Prop :=
  exists i j r r' t, i <> j /\ nth_error l i = Some (B, r) /\ nth_error l j = Some (B, r') /\
  selects P B r t /\ selects P B r' t.

(** Two rules of [B], at different places of the list of rules, can both vanish. *)
Definition vanish_conflict (P : productions) (l : list (nat * list nat)) (B : nat) : Prop :=
  exists i j r r', i <> j /\ nth_error l i = Some (B, r) /\ nth_error l j = Some (B, r') /\ derives P r [] /\ derives P r' [].

(** A production starts, after symbols that vanish, with a symbol that can vanish or begin with a terminal. *)
Definition leading_optional (P : productions) : Prop :=
  exists A u s v t, P A (u ++ s :: v) /\ derives P u [] /\ nullable P s /\ begins P [s] t.
