(** Specification of derivation relations, usefulness, cycles and recursion. *)

From Coq Require Import List Arith Relations.
From Verif Require Import Spec.
Import ListNotations.

(** A unit rule between two distinct symbols. *)
Definition unit_step (P : productions) (A B : nat) : Prop := P A [B] /\ A <> B.

(** [A] derives [B] by one or more such rules. *)
Definition unit_derives (P : productions) : nat -> nat -> Prop := clos_trans nat (unit_step P).

(** No symbol derives itself through unit rules over two or more symbols. *)
Definition cycle_free_grammar (P : productions) : Prop := forall A, ~ unit_derives P A A.

(** A production on such a cycle:  A ::= B  where B derives A again. *)
Definition on_cycle (P : productions) (A : nat) (r : list nat) : Prop :=
  exists B, r = [B] /\ unit_derives P B A.

(** A production is useful for the given roots, in the sense of the documentation: its
    left-hand side is reachable from a root and it is productive. *)
Definition reachable_from (P : productions) (roots : list nat) (A : nat) : Prop :=
  exists R, In R roots /\ reaches P R A.
Definition productive_rhs (P : productions) (r : list nat) : Prop :=
  exists w, derives P r w /\ Forall (terminal P) w.
Definition useful (P : productions) (roots : list nat) (A : nat) (r : list nat) : Prop :=
  reachable_from P roots A /\ productive_rhs P r.

(** In the sense of textbooks: it is used in the derivation of a terminal string from a root. *)
Definition contributes (P : productions) (roots : list nat) (A : nat) (r : list nat) : Prop :=
  exists R u v w, In R roots /\ derives P [R] (u ++ A :: v) /\ P A r /\
                  derives P (u ++ r ++ v) w /\ Forall (terminal P) w.

(** Two symbols on the same cycle. *)
Definition same_cycle (P : productions) (a b : nat) : Prop := unit_derives P a b /\ unit_derives P b a.

(** [A ::= r] is recursive: some form derived from [r] contains [A]. *)
Definition recursive (P : productions) (A : nat) (r : list nat) : Prop :=
  exists u v, derives P r (u ++ A :: v).
(** Left-recursive, as in textbooks: some form derived from [r] starts with [A]. *)
Definition left_recursive (P : productions) (A : nat) (r : list nat) : Prop :=
  exists v, derives P r (A :: v).
