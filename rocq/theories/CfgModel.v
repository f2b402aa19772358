(** Model of the crate [cfg-grammar]: cfg.rs, compare.rs, rule_builder.rs. *)

From Coq Require Import List Arith NArith Bool String.
From Verif Require Import Base SymbolModel HistoryModel.
Import ListNotations.

(** cfg-symbol/src/source.rs 68-71: SymbolSource, as used inside of a grammar.  [num] is
    next_symbol.usize().  Simplification: the counter is unbounded; the numeric limits are
    modelled in SymbolModel.v. *)
Record source := mkSrc { num : nat; names : list (option string) }.

Definition src_new : source := mkSrc 0 [].

(** cfg-symbol/src/source.rs 122-127: next_sym *)
Definition src_next (s : source) (name : option string) : nat * source :=
  (num s, mkSrc (S (num s)) (names s ++ [name])).

(** cfg-grammar/src/cfg.rs 41-50: struct CfgRule *)
Record rule := mkRule { lhs : nat; rhs : list nat; hist : history }.

(** cfg-grammar/src/cfg.rs 69-84: struct WrappedRoot *)
Record wrapped_root := mkWrapped {
  wr_start : nat;
  wr_inner : nat;
  wr_end : nat;
  wr_root : nat
}.

(** cfg-grammar/src/cfg.rs 25-39: struct Cfg.  Left out: [lexemes] (written by fn lexeme and
    never read), [eliminate_nulling] (no code sets it to true), [tmp_stack] (scratch space,
    empty between calls). *)
Record cfg := mkCfg {
  src : source;
  rules : list rule;
  roots : list nat;
  wroots : list wrapped_root;
  limit : option nat
}.

(** cfg-grammar/src/cfg.rs 127-145: Cfg::new, with_sym_source *)
Definition cfg_with_source (s : source) : cfg := mkCfg s [] [] [] None.
Definition cfg_new : cfg := cfg_with_source src_new.

(** cfg-grammar/src/cfg.rs 177-179: num_syms *)
Definition num_syms (g : cfg) : nat := num (src g).

(** cfg-grammar/src/cfg.rs 156-159: next_sym; 162-167: lexeme has the same visible effect *)
Definition next_sym (g : cfg) (name : option string) : nat * cfg :=
  let (s, src') := src_next (src g) name in
  (s, mkCfg src' (rules g) (roots g) (wroots g) (limit g)).

(** cfg-grammar/src/cfg.rs 148-150: sym *)
Fixpoint syms (g : cfg) (k : nat) : list nat * cfg :=
  match k with
  | 0 => ([], g)
  | S k' => let (s, g1) := next_sym g None in
            let (l, g2) := syms g1 k' in (s :: l, g2)
  end.

Definition set_rules (g : cfg) (l : list rule) : cfg :=
  mkCfg (src g) l (roots g) (wroots g) (limit g).

(** [self.rules.push(rule)] *)
Definition push_rule (g : cfg) (r : rule) : cfg := set_rules g (rules g ++ [r]).

(** cfg-grammar/src/cfg.rs 189-191: set_roots *)
Definition set_roots (g : cfg) (l : list nat) : cfg :=
  mkCfg (src g) (rules g) l (wroots g) (limit g).

(** cfg-grammar/src/cfg.rs 207-209: set_wrapped_roots *)
Definition set_wrapped_roots (g : cfg) (l : list wrapped_root) : cfg :=
  mkCfg (src g) (rules g) (roots g) l (limit g).

(** cfg-grammar/src/cfg.rs 243-245: rule_rhs_len_allowed_range().contains(&len).  The range
    is half open; without a limit it ends at usize::MAX, which no length reaches. *)
Definition len_allowed (lim : option nat) (len : nat) : bool :=
  match lim with
  | None => true
  | Some l => len <? l
  end.

(** cfg-grammar/src/cfg.rs 488-516: the while loop of add_rule.  [r] is the rule, [l] the
    limit, [rhs_rev] the reversed rest of the right-hand side.  One unit of fuel is one
    iteration. *)
Fixpoint split_loop (fuel : nat) (r : rule) (l : nat) (parts : nat) (rhs_rev : list nat)
    (g : cfg) : res (nat * cfg) :=
  if is_nil rhs_rev then Ok (parts, g)
  else match fuel with
  | 0 => OutOfFuel
  | S fuel' =>
      let tail_idx := List.length rhs_rev - l in
      let tail := rev (skipn tail_idx rhs_rev) in
      let rest := firstn tail_idx rhs_rev in
      let '(lh, rest', g1) :=
        if is_nil rest then (lhs r, rest, g)
        else let (s, g1) := next_sym g None in (s, rest ++ [s], g1) in
      let h :=
        if ((parts =? 0) && is_nil rest') || negb (l =? 2) then hist r
        else history_binarize (hist r) parts (List.length (rhs r)) (is_nil rest') in
      split_loop fuel' r l (S parts) rest' (push_rule g1 (mkRule lh tail h))
  end.

(** cfg-grammar/src/cfg.rs 470-519: add_rule; the first component is the returned number of
    parts. *)
Definition add_rule_fuel (fuel : nat) (g : cfg) (r : rule) : res (nat * cfg) :=
  match limit g with
  | None => Ok (1, push_rule g r)
  | Some l =>
      if List.length (rhs r) <? l then Ok (1, push_rule g r)
      else split_loop fuel r l 0 (rev (rhs r)) g
  end.

(** The loop runs at most [length rhs] times when it ends at all (proved:
    [add_rule_fuel_enough]). *)
Definition add_rule_parts (g : cfg) (r : rule) : res (nat * cfg) :=
  add_rule_fuel (List.length (rhs r)) g r.

Definition add_rule (g : cfg) (r : rule) : res cfg :=
  do (_, g') <- add_rule_parts g r; Ok g'.

(** cfg-grammar/src/cfg.rs 234-239: limit_rhs_len *)
Definition limit_rhs_len (g : cfg) (lim : option nat) : res cfg :=
  fold_res add_rule (rules g) (mkCfg (src g) [] (roots g) (wroots g) lim).

(** cfg-grammar/src/cfg.rs 248-250: sort.  The key is (lhs, rhs), compared lexicographically. *)
Definition rule_compare (a b : rule) : comparison :=
  match Nat.compare (lhs a) (lhs b) with
  | Eq => list_compare (rhs a) (rhs b)
  | c => c
  end.
Definition cfg_sort (g : cfg) : cfg := set_rules g (sort_by rule_compare (rules g)).

(** cfg-grammar/src/cfg.rs 253-255: sort_by *)
Definition cfg_sort_by (cmp : rule -> rule -> comparison) (g : cfg) : cfg :=
  set_rules g (sort_by cmp (rules g)).

(** cfg-grammar/src/cfg.rs 258-260: dedup *)
Definition same_key (a b : rule) : bool :=
  match rule_compare a b with Eq => true | _ => false end.
Fixpoint dedup_rules_from (x : rule) (l : list rule) : list rule :=
  match l with
  | [] => []
  | y :: l' => if same_key x y then dedup_rules_from x l' else y :: dedup_rules_from y l'
  end.
Definition dedup_rules (l : list rule) : list rule :=
  match l with
  | [] => []
  | x :: l' => x :: dedup_rules_from x l'
  end.
Definition cfg_dedup (g : cfg) : cfg := set_rules g (dedup_rules (rules g)).

(** cfg-grammar/src/cfg.rs 264-266: extend *)
Definition cfg_extend (g other : cfg) : cfg := set_rules g (rules g ++ rules other).

(** cfg-grammar/src/cfg.rs 461-463: retain *)
Definition cfg_retain (f : rule -> bool) (g : cfg) : cfg := set_rules g (filter f (rules g)).

(** cfg-grammar/src/cfg.rs 522-524: clear_rules *)
Definition clear_rules (g : cfg) : cfg := set_rules g [].

(** cfg-grammar/src/cfg.rs 527-531: reverse *)
Definition cfg_reverse (g : cfg) : cfg :=
  set_rules g (map (fun r => mkRule (lhs r) (rev (rhs r)) (hist r)) (rules g)).

(** cfg-grammar/src/cfg.rs 103-117: struct DotInfo *)
Record dot_info := mkDotInfo {
  di_lhs : nat;
  di_predot : option nat;
  di_postdot : option nat;
  di_dot : rule_dot
}.

(** cfg-grammar/src/cfg.rs 437-445: column.  [col.wrapping_sub(1)] is usize::MAX for 0, which
    is beyond every right-hand side. *)
Definition column (g : cfg) (col : nat) : list dot_info :=
  map (fun r => mkDotInfo (lhs r)
                          (match col with
                           | 0 => None
                           | S c => nth_error (rhs r) c
                           end)
                          (nth_error (rhs r) col)
                          (history_dot (hist r) col)) (rules g).

Definition nm (s : string) : option string := Some s.

(** cfg-grammar/src/cfg.rs 638-656: one iteration of the loop in wrap_input *)
Definition wrap_one (g : cfg) (inner : nat) : res cfg :=
  let (root, g1) := next_sym g (nm "root") in
  let (soi, g2) := next_sym g1 (nm "start_of_input") in
  let (eoi, g3) := next_sym g2 (nm "end_of_input") in
  do g4 <- add_rule g3 (mkRule root [soi; inner; eoi] (process_root (RRule root)));
  Ok (mkCfg (src g4) (rules g4) (roots g4 ++ [root])
            (wroots g4 ++ [mkWrapped soi inner eoi root]) (limit g4)).

(** cfg-grammar/src/cfg.rs 634-657: wrap_input *)
Definition wrap_input (g : cfg) : res cfg :=
  fold_res wrap_one (roots g) (mkCfg (src g) (rules g) [] [] (limit g)).

(** cfg-grammar/src/cfg.rs 660-669: is_empty.  [binary_search] on the sorted copy of the
    roots is membership. *)
Definition cfg_is_empty (g : cfg) : bool :=
  if is_nil (wroots g) then is_nil (rules g)
  else forallb (fun r => mem (lhs r) (sort_nat (roots g))) (rules g).

(** cfg-grammar/src/compare.rs 5-11: equivalent *)
Definition rule_zip_eq (a b : rule) : bool :=
  (lhs a =? lhs b) && forallb (fun p => fst p =? snd p) (combine (rhs a) (rhs b)).
Definition equivalent (g1 g2 : cfg) : bool :=
  fold_left (fun eq p => eq && rule_zip_eq (fst p) (snd p))
            (combine (rules g1) (rules g2)) true.

(** cfg-grammar/src/cfg.rs 54-67: struct NamedCfgRule *)
Record named_rule := mkNamed {
  nr_lhs : nat;
  nr_rhs : list nat;
  nr_hist : option history;
  nr_names : list (option string)
}.

(** cfg-grammar/src/cfg.rs 731-738: CfgRule::named *)
Definition rule_named (r : rule) (s : source) : named_rule :=
  mkNamed (lhs r) (rhs r) (Some (hist r)) (names s).

(** Decidable equality on histories: derive(Eq) *)
Definition option_eqb {A} (eqb : A -> A -> bool) (a b : option A) : bool :=
  match a, b with
  | Some x, Some y => eqb x y
  | None, None => true
  | _, _ => false
  end.
Definition dot_eqb (a b : rule_dot) : bool :=
  (dot_event a =? dot_event b)%N && (dot_trace_id a =? dot_trace_id b)%N
  && (dot_trace_pos a =? dot_trace_pos b)%N && (dot_distance a =? dot_distance b)%N.
Definition seq_details_eqb (a b : sequence_details) : bool :=
  Bool.eqb (sd_top a) (sd_top b) && (sd_rhs a =? sd_rhs b)
  && option_eqb Nat.eqb (sd_sep a) (sd_sep b).
Definition history_eqb (a b : history) : bool :=
  dot_eqb (h_dot0 a) (h_dot0 b) && dot_eqb (h_dot1 a) (h_dot1 b)
  && dot_eqb (h_dot2 a) (h_dot2 b) && (h_origin a =? h_origin b)%N
  && option_eqb (fun x y => (fst x =? fst y) && Bool.eqb (snd x) (snd y))
                (h_nullable a) (h_nullable b)
  && option_eqb N.eqb (h_weight a) (h_weight b)
  && option_eqb seq_details_eqb (h_sequence a) (h_sequence b).

(** cfg-grammar/src/cfg.rs 791-802: PartialEq for NamedCfgRule.  [names[i]] panics when out
    of range.  Conjunctions are lazy. *)
Definition names_eq (a b : named_rule) (sa sb : nat) : res bool :=
  do na <- get_ix (nr_names a) sa;
  do nb <- get_ix (nr_names b) sb;
  Ok (option_eqb String.eqb na nb).
Fixpoint names_all (a b : named_rule) (l : list (nat * nat)) : res bool :=
  match l with
  | [] => Ok true
  | (x, y) :: l' => do e <- names_eq a b x y; if e then names_all a b l' else Ok false
  end.
Definition named_eq (a b : named_rule) : res bool :=
  do e <- names_eq a b (nr_lhs a) (nr_lhs b);
  if negb e then Ok false
  else if negb (List.length (nr_rhs a) =? List.length (nr_rhs b)) then Ok false
  else do e2 <- names_all a b (combine (nr_rhs a) (nr_rhs b));
       if negb e2 then Ok false
       else Ok (match nr_hist a, nr_hist b with
                | Some ha, Some hb => history_eqb ha hb
                | _, _ => true
                end).

(** cfg-grammar/src/rule_builder.rs 14-85: RuleBuilder.  The calls of the fluent interface. *)
Inductive build_call :=
| BRule (l : nat)
| BHistory (h : history)
| BRhs (r : list nat)
| BRhsHistory (r : list nat) (h : history)
| BRhsLinked (r : list nat) (node : linked_node).

Record builder := mkBuilder {
  b_lhs : option nat;
  b_hist : option history;
  b_cfg : cfg
}.
(** cfg-grammar/src/rule_builder.rs 20-26 *)
Definition builder_new (g : cfg) : builder := mkBuilder None None g.

(** rule_builder.rs 65-69: rhs_with_history; the pending history is kept *)
Definition builder_rhs_with_history (b : builder) (r : list nat) (h : history) : res builder :=
  match b_lhs b with
  | None => Panic
  | Some l => do g <- add_rule (b_cfg b) (mkRule l r h); Ok (mkBuilder (b_lhs b) (b_hist b) g)
  end.

Definition builder_call (b : builder) (c : build_call) : res builder :=
  match c with
  | BRule l => Ok (mkBuilder (Some l) None (b_cfg b))
  | BHistory h => Ok (mkBuilder (b_lhs b) (Some h) (b_cfg b))
  | BRhs r =>
      match b_hist b with
      | Some h => builder_rhs_with_history (mkBuilder (b_lhs b) None (b_cfg b)) r h
      | None => match b_lhs b with
                | None => Panic
                | Some l => builder_rhs_with_history b r (process_root (RRule l))
                end
      end
  | BRhsHistory r h => builder_rhs_with_history b r h
  | BRhsLinked r node =>
      match b_lhs b with
      | None => Panic
      | Some l => do h <- process_linked node (process_root (RRule l));
                  builder_rhs_with_history b r h
      end
  end.

(** [grammar.rule(l).rhs(r)]: cfg.rs 534-536 and rule_builder.rs 51-61 *)
Definition rule_rhs (g : cfg) (l : nat) (r : list nat) : res cfg :=
  add_rule g (mkRule l r (process_root (RRule l))).
(** [grammar.rule(l).history(h).rhs(r)] *)
Definition rule_history_rhs (g : cfg) (l : nat) (h : history) (r : list nat) : res cfg :=
  add_rule g (mkRule l r h).

(** cfg-grammar/src/cfg.rs 680-712: stringify_to_bnf *)
Definition newline : string := String (Ascii.ascii_of_nat 10) EmptyString.
Definition stringify_sym (no_names : bool) (s : source) (x : nat) : string :=
  if no_names then string_of_nat x
  else append (names_name_of (names s) x) (append "(" (append (string_of_nat x) ")")).
Definition concat_sep (sep : string) (l : list string) : string :=
  match l with
  | [] => EmptyString
  | x :: l' => fold_left (fun acc y => append acc (append sep y)) l' x
  end.
Definition stringify_rule (no_names : bool) (s : source) (r : rule) : string :=
  append (stringify_sym no_names s (lhs r))
    (append " ::= "
      (append (match rhs r with
               | [] => "()"%string
               | _ => concat_sep " ~ " (map (stringify_sym no_names s) (rhs r))
               end)
              (append ";" newline))).
Definition stringify_to_bnf (g : cfg) : string :=
  let no_names := forallb (fun n => match n with None => true | Some _ => false end)
                          (names (src g)) in
  fold_left (fun acc r => append acc (stringify_rule no_names (src g) r)) (rules g) EmptyString.
