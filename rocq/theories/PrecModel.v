(** Model of cfg-grammar/src/precedenced_rule.rs. *)

From Coq Require Import List Arith NArith Bool.
From Verif Require Import Base SpecPrec SymbolModel HistoryModel CfgModel.
Import ListNotations.

(** precedenced_rule.rs 13-20: enum Associativity is [SpecPrec.assoc]. *)

(** precedenced_rule.rs 23 *)
Definition default_assoc : assoc := ALeft.

(** precedenced_rule.rs 26-35: struct PrecedencedRuleBuilder.  The looseness, a u32, is
    unbounded. *)
Record prec_builder := mkPrec {
  pb_cfg : cfg;
  pb_lhs : nat;
  pb_tighter : nat;
  pb_current : nat;
  pb_hist : option history;
  pb_assoc : assoc;
  pb_loose : nat;
  pb_group : list rule
}.

(** precedenced_rule.rs 39-51: new *)
Definition prec_new (g : cfg) (l : nat) : prec_builder :=
  let (s, g1) := next_sym g None in
  mkPrec g1 l s s None ALeft 0 [].

(** precedenced_rule.rs 105-121: replaces the operands of a rule that is not a group.  The
    iterator yields the occurrences of [l]; the extreme one is taken first. *)
Fixpoint replace_leftmost (l cur tight : nat) (syms : list nat) : list nat :=
  match syms with
  | [] => []
  | s :: rest =>
      if s =? l then cur :: map (fun x => if x =? l then tight else x) rest
      else s :: replace_leftmost l cur tight rest
  end.
Definition replace_rightmost (l cur tight : nat) (syms : list nat) : list nat :=
  rev (replace_leftmost l cur tight (rev syms)).

(** precedenced_rule.rs 87-132: rhs_with_history *)
Definition prec_rhs_with_history (b : prec_builder) (syms : list nat) (h : history)
    : res prec_builder :=
  do h' <- process_linked (LAssignPrecedence (N.of_nat (pb_loose b))) h;
  match pb_assoc b with
  | AGroup =>
      Ok (mkPrec (pb_cfg b) (pb_lhs b) (pb_tighter b) (pb_current b) None default_assoc
                 (pb_loose b) (pb_group b ++ [mkRule (pb_current b) syms h']))
  | a =>
      let syms' := match a with
                   | ALeft => replace_leftmost (pb_lhs b) (pb_current b) (pb_tighter b) syms
                   | _ => replace_rightmost (pb_lhs b) (pb_current b) (pb_tighter b) syms
                   end in
      do g <- add_rule (pb_cfg b) (mkRule (pb_current b) syms' h');
      Ok (mkPrec g (pb_lhs b) (pb_tighter b) (pb_current b) None default_assoc
                 (pb_loose b) (pb_group b))
  end.

(** The calls of the builder: 67-70 history, 74-83 rhs, 87-132 rhs_with_history, 136-139
    associativity, 143-154 lower_precedence *)
Inductive prec_call :=
| PHistory (h : history)
| PRhs (syms : list nat)
| PRhsHistory (syms : list nat) (h : history)
| PAssoc (a : assoc)
| PLower.

Definition prec_step (b : prec_builder) (c : prec_call) : res prec_builder :=
  match c with
  | PHistory h =>
      Ok (mkPrec (pb_cfg b) (pb_lhs b) (pb_tighter b) (pb_current b) (Some h) (pb_assoc b)
                 (pb_loose b) (pb_group b))
  | PRhs syms =>
      let h := match pb_hist b with
               | Some h => h
               | None => process_root (RRule (pb_lhs b))
               end in
      prec_rhs_with_history b syms h
  | PRhsHistory syms h => prec_rhs_with_history b syms h
  | PAssoc a =>
      Ok (mkPrec (pb_cfg b) (pb_lhs b) (pb_tighter b) (pb_current b) (pb_hist b) a
                 (pb_loose b) (pb_group b))
  | PLower =>
      let tighter := pb_current b in
      let (cur, g1) := next_sym (pb_cfg b) None in
      do g2 <- add_rule g1 (mkRule cur [tighter] (process_root RNoOp));
      Ok (mkPrec g2 (pb_lhs b) tighter cur (pb_hist b) (pb_assoc b) (S (pb_loose b)) (pb_group b))
  end.

(** precedenced_rule.rs 157-172: finalize.  The result is the grammar inside of the rule
    builder. *)
Definition prec_finalize (b : prec_builder) : res cfg :=
  let loosest := pb_current b in
  do g <- fold_res (fun g r => add_rule g
             (mkRule (lhs r) (map (fun x => if x =? pb_lhs b then loosest else x) (rhs r)) (hist r)))
           (pb_group b) (pb_cfg b);
  add_rule g (mkRule (pb_lhs b) [loosest] (process_root RNoOp)).

(** [grammar.precedenced_rule(l). ... .finalize()] *)
Definition prec_build (g : cfg) (l : nat) (calls : list prec_call) : res cfg :=
  do b <- fold_res prec_step calls (prec_new g l);
  prec_finalize b.
