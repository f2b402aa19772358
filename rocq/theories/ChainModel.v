(** Model of chained declarations: the calls of RuleBuilder and PrecedencedRuleBuilder that give each other.

    Which of the two builders a chain is at is part of its Rust type; a call that the type does not have does not
    compile, and has no step here. *)

From Coq Require Import List Arith NArith Bool.
From Verif Require Import Base SymbolModel HistoryModel CfgModel SpecPrec PrecModel.
Import ListNotations.

(** The value that the next call is made on *)
Inductive chain_state := AtRule (b : builder) | AtPrec (b : prec_builder).

(** The calls with which a chain starts or goes over to the other builder: cfg.rs 534-541 and rule_builder.rs 30-34
    (rule), 82-85 and precedenced_rule.rs 55-57 (precedenced_rule), 60-62 (rule), 157-172 (finalize); the other calls
    are those of the two builders. *)
Inductive chain_call :=
| KRule (l : nat)
| KPrecedenced (l : nat)
| KFinalize
| KAlternative (c : build_call)
| KOperator (c : prec_call).

(** precedenced_rule.rs 157-172: finalize; the builder that is given back is still at [lhs] *)
Definition prec_finish (b : prec_builder) : res builder :=
  do g <- prec_finalize b; Ok (mkBuilder (Some (pb_lhs b)) None g).

Definition chain_step (s : chain_state) (c : chain_call) : option (res chain_state) :=
  match s, c with
  | AtRule b, KRule l => Some (do b' <- builder_call b (BRule l); Ok (AtRule b'))
  | AtRule b, KPrecedenced l => Some (Ok (AtPrec (prec_new (b_cfg b) l)))
  | AtRule b, KAlternative c => Some (do b' <- builder_call b c; Ok (AtRule b'))
  | AtPrec b, KRule l => Some (do b' <- prec_finish b; do b'' <- builder_call b' (BRule l); Ok (AtRule b''))
  | AtPrec b, KPrecedenced l => Some (do b' <- prec_finish b; Ok (AtPrec (prec_new (b_cfg b') l)))
  | AtPrec b, KFinalize => Some (do b' <- prec_finish b; Ok (AtRule b'))
  | AtPrec b, KOperator c => Some (do b' <- prec_step b c; Ok (AtPrec b'))
  | _, _ => None
  end.

Fixpoint chain_run (s : chain_state) (l : list chain_call) : option (res chain_state) :=
  match l with
  | [] => Some (Ok s)
  | c :: l' =>
      match chain_step s c with
      | None => None
      | Some (Ok s') => chain_run s' l'
      | Some Panic => Some Panic
      | Some OutOfFuel => Some OutOfFuel
      end
  end.

(** The grammar after the chain; a builder that is dropped does nothing more *)
Definition chain_cfg (s : chain_state) : cfg := match s with AtRule b => b_cfg b | AtPrec b => pb_cfg b end.

(** [cfg.rule(l)] or [cfg.precedenced_rule(l)], and the calls on it *)
Definition chained (g : cfg) (l : list chain_call) : option (res cfg) :=
  match chain_run (AtRule (builder_new g)) l with
  | None => None
  | Some r => Some (do s <- r; Ok (chain_cfg s))
  end.
