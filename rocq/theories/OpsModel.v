(** Every operation on a grammar, as data: a history of a grammar is a list of operations. *)

From Coq Require Import List Arith NArith Bool String.
From Verif Require Import Base Spec SpecSeq SpecPrec SymbolModel HistoryModel CfgModel View BitSetModel ElimModel
  PrecModel SeqModel ClassifyModel LRModel RemapModel SpecRemap.
Import ListNotations.

(** The operations that change a grammar, with their arguments.
    cfg-grammar/src/cfg.rs: next_sym 156-159, set_roots 189-191, set_wrapped_roots 207-209,
    limit_rhs_len 234-239, sort 248-250, sort_by 253-255, dedup 258-260, extend 264-266,
    binarize_and_eliminate_nulling_rules 296-399, retain 461-463, add_rule 470-519, clear_rules
    522-524, reverse 527-531, rule 534-536, precedenced_rule 539-541, wrap_input 634-657;
    cfg-sequence: sequence(..) and the builder; cfg-classify: make_proper, remove_useless_rules,
    remove_cycles, rewrite_cycles, make_lr0_fsm; cfg-symbol-bit-matrix: Remap *)
Inductive operation :=
| OpSym (name : option string)
| OpAddRule (r : rule)
| OpRules (calls : list build_call)
| OpSequences (calls : list seq_call)
| OpPrecedence (E : nat) (calls : list prec_call)
| OpSetRoots (l : list nat)
| OpSetWrapped (l : list wrapped_root)
| OpLimit (lim : option nat)
| OpSort
| OpSortBy (cmp : rule -> rule -> comparison)
| OpDedup
| OpRetain (f : rule -> bool)
| OpExtend (other : cfg)
| OpClear
| OpReverse
| OpWrap
| OpEliminate
| OpMakeProper
| OpRemoveUseless (l : list nat)
| OpRemoveCycles
| OpRewriteCycles
| OpAutomaton (start : nat)
| OpRemap (ops : list remap_op).

(** What an operation makes of a grammar; results other than the grammar are dropped. *)
Definition op_step (debug : bool) (g : cfg) (o : operation) : res cfg :=
  match o with
  | OpSym name => Ok (snd (next_sym g name))
  | OpAddRule r => add_rule g r
  | OpRules calls => do b <- fold_res builder_call calls (builder_new g); Ok (b_cfg b)
  | OpSequences calls =>
      do b <- fold_res (seq_builder_call (add_to_cfg debug)) calls (seq_builder_new g); Ok (sb_dest b)
  | OpPrecedence E calls => prec_build g E calls
  | OpSetRoots l => Ok (set_roots g l)
  | OpSetWrapped l => Ok (set_wrapped_roots g l)
  | OpLimit lim => limit_rhs_len g lim
  | OpSort => Ok (cfg_sort g)
  | OpSortBy cmp => Ok (cfg_sort_by cmp g)
  | OpDedup => Ok (cfg_dedup g)
  | OpRetain f => Ok (cfg_retain f g)
  | OpExtend other => Ok (cfg_extend g other)
  | OpClear => Ok (clear_rules g)
  | OpReverse => Ok (cfg_reverse g)
  | OpWrap => wrap_input g
  | OpEliminate => do (g', _) <- eliminate_nulling g; Ok g'
  | OpMakeProper => do (_, g') <- make_proper g; Ok g'
  | OpRemoveUseless l => do u <- usefulness_with_roots g l; us_remove_useless_rules u g
  | OpRemoveCycles => do c <- cycles_new g; do c' <- remove_cycles c; Ok (cy_grammar c')
  | OpRewriteCycles => do c <- cycles_new g; do c' <- rewrite_cycles c; Ok (cy_grammar c')
  | OpAutomaton start => do (_, g') <- make_lr0_fsm g start; Ok g'
  | OpRemap ops => do r <- remap_run ops g; Ok (rm_grammar r)
  end.

(** * The specification *)

Definition in_rule (r : rule) (s : nat) : Prop := s = lhs r \/ In s (rhs r).
Definition in_wrapped (W : wrapped_root) (s : nat) : Prop :=
  s = wr_start W \/ s = wr_inner W \/ s = wr_end W \/ s = wr_root W.
Definition in_separator (sep : separator) (s : nat) : Prop :=
  match sep with
  | Trailing x | Proper x | Liberal x => s = x
  | Null => False
  end.

(** A symbol in a rule, root or wrapped root of a grammar. *)
Definition in_cfg (g : cfg) (s : nat) : Prop :=
  (exists r, In r (rules g) /\ in_rule r s) \/ In s (roots g) \/
  (exists W, In W (wroots g) /\ in_wrapped W s).

(** A symbol in the arguments of an operation. *)
Definition given (o : operation) (s : nat) : Prop :=
  match o with
  | OpAddRule r => in_rule r s
  | OpRules calls => exists c, In c calls /\
      match c with
      | BRule l => s = l
      | BHistory _ => False
      | BRhs r | BRhsHistory r _ | BRhsLinked r _ => In s r
      end
  | OpSequences calls => exists c, In c calls /\
      match c with
      | SSequence l => s = l
      | SSeparator sep => in_separator sep s
      | SHistory _ | SInclusive _ _ | SRange _ _ => False
      | SRhs x | SRhsHistory x _ => s = x
      end
  | OpPrecedence E calls => s = E \/ exists c, In c calls /\
      match c with
      | PRhs l | PRhsHistory l _ => In s l
      | PHistory _ | PAssoc _ | PLower => False
      end
  | OpSetRoots l => In s l
  | OpSetWrapped l => exists W, In W l /\ in_wrapped W s
  | OpExtend other => exists r, In r (rules other) /\ in_rule r s
  | OpAutomaton start => s = start
  | _ => False
  end.

(** Renumbering operations, which may take symbols back. *)
Definition renumbers (o : operation) : bool :=
  match o with OpRemap _ => true | _ => false end.
