(** Specification: parsing from the top down, with one symbol of lookahead. *)

From Coq Require Import List Relations.
From Verif Require Import Spec SpecPredict.
Import ListNotations.

(** A stack of symbols that are expected, and the input that is ahead.  A terminal on the stack is compared with the next symbol of
    the input; a nonterminal is replaced by the right-hand side of a production that the next symbol selects. *)
Inductive td_step (P : productions) : list nat * list nat -> list nat * list nat -> Prop :=
| td_match : forall t s i, terminal P t -> td_step P (t :: s, t :: i) (s, i)
| td_predict : forall A r s t i, P A r -> selects P A r t -> td_step P (A :: s, t :: i) (r ++ s, t :: i).

Definition td_steps (P : productions) := clos_refl_trans_1n _ (td_step P).

(** The whole input is read and nothing more is expected. *)
Definition td_accepts (P : productions) (A : nat) (w : list nat) : Prop := td_steps P ([A], w) ([], []).

(** There is never more than one step to choose from. *)
Definition td_deterministic (P : productions) (A : nat) : Prop :=
  forall w c c1 c2, td_steps P ([A], w) c -> td_step P c c1 -> td_step P c c2 -> c1 = c2.

(** No input is read forever. *)
Definition td_ends (P : productions) (A : nat) : Prop := forall w, Acc (fun c' c => td_step P c c') ([A], w).
