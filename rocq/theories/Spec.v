(** Specification: textbook context-free grammars.

    This file is the vocabulary in which the properties are stated.  It imports
    nothing from the model.  A symbol is a number.  A grammar is a set of
    productions, given as a relation between a left-hand side and a right-hand
    side. *)

From Coq Require Import List Arith.
Import ListNotations.

(** A set of productions. *)
Definition productions := nat -> list nat -> Prop.

(** The productions of a finite list. *)
Definition of_list (l : list (nat * list nat)) : productions :=
  fun A r => In (A, r) l.

(** [derives P u w]: the sentential form [u] derives the sentential form [w] in
    zero or more steps, each of which replaces one symbol by the right-hand side of
    one of its productions. *)
Inductive derives (P : productions) : list nat -> list nat -> Prop :=
| derives_refl : forall u, derives P u u
| derives_step : forall u A v r w,
    P A r -> derives P (u ++ r ++ v) w -> derives P (u ++ A :: v) w.

(** One or more steps. *)
Definition derives1 (P : productions) (u w : list nat) : Prop :=
  exists x A y r, u = x ++ A :: y /\ P A r /\ derives P (x ++ r ++ y) w.

(** A terminal is a symbol without productions. *)
Definition terminal (P : productions) (a : nat) : Prop := forall r, ~ P a r.

Definition nonterminal (P : productions) (a : nat) : Prop := exists r, P a r.

(** The language of a symbol: the terminal strings it derives. *)
Definition language (P : productions) (A : nat) (w : list nat) : Prop :=
  derives P [A] w /\ Forall (terminal P) w.

(** The strings that [A] derives and that are made only of symbols in [T]. *)
Definition language_over (T : nat -> Prop) (P : productions) (A : nat) (w : list nat) : Prop :=
  derives P [A] w /\ Forall T w.

Definition nullable (P : productions) (A : nat) : Prop := derives P [A] [].

(** A symbol is productive if it derives some terminal string. *)
Definition productive (P : productions) (A : nat) : Prop :=
  exists w, language P A w.

(** [B] occurs in some sentential form derived from [A]. *)
Definition reaches (P : productions) (A B : nat) : Prop :=
  exists u v, derives P [A] (u ++ B :: v).

(** [B] occurs in some sentential form derived from [A] in one or more steps. *)
Definition reaches1 (P : productions) (A B : nat) : Prop :=
  exists u v, derives1 P [A] (u ++ B :: v).

(** A symbol occurs in a production. *)
Definition occurs (P : productions) (s : nat) : Prop :=
  exists A r, P A r /\ (s = A \/ In s r).

(** Productions with every right-hand side reversed. *)
Definition reversed (P : productions) : productions := fun A r => P A (rev r).

(** Productions renamed by a function on symbols. *)
Definition renamed (f : nat -> nat) (P : productions) : productions :=
  fun A r => exists B q, P B q /\ A = f B /\ r = map f q.

(** The union of two sets of productions. *)
Definition union (P Q : productions) : productions := fun A r => P A r \/ Q A r.

(** The least set of symbols that contains [S0] and is closed under: if all
    right-hand-side symbols of a non-empty production are in the set, then so is the
    left-hand side. *)
Inductive closure_all (P : productions) (S0 : nat -> Prop) : nat -> Prop :=
| ca_init : forall s, S0 s -> closure_all P S0 s
| ca_rule : forall A r,
    P A r -> r <> [] -> Forall (closure_all P S0) r -> closure_all P S0 A.

(** The same with: if some right-hand-side symbol is in the set. *)
Inductive closure_any (P : productions) (S0 : nat -> Prop) : nat -> Prop :=
| cy_init : forall s, S0 s -> closure_any P S0 s
| cy_rule : forall A r s,
    P A r -> In s r -> closure_any P S0 s -> closure_any P S0 A.
