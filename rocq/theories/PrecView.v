(** How a sequence of calls of the precedence builder is read. *)

From Coq Require Import List Arith.
From Verif Require Import Base SpecPrec HistoryModel CfgModel PrecModel.
Import ListNotations.

(** The alternatives that the calls declare.  A call of [associativity] applies to the next
    alternative; [lower_precedence] starts a looser level. *)
Fixpoint alternatives (level : nat) (a : assoc) (calls : list prec_call) : list alternative :=
  match calls with
  | [] => []
  | PHistory _ :: c => alternatives level a c
  | PRhs l :: c => (level, a, l) :: alternatives level ALeft c
  | PRhsHistory l _ :: c => (level, a, l) :: alternatives level ALeft c
  | PAssoc a' :: c => alternatives level a' c
  | PLower :: c => alternatives (S level) a c
  end.

(** The loosest level. *)
Fixpoint loosest (calls : list prec_call) : nat :=
  match calls with
  | [] => 0
  | PLower :: c => S (loosest c)
  | _ :: c => loosest c
  end.

(** The symbols in the alternatives. *)
Definition call_syms (c : prec_call) : list nat :=
  match c with
  | PRhs l => l
  | PRhsHistory l _ => l
  | _ => []
  end.
