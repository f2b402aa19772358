(** Model of cfg-classify/src/ll.rs. *)

From Coq Require Import List Arith Bool.
From Verif Require Import Base SymbolModel HistoryModel CfgModel BitSetModel ClosureModel SetsModel.
Import ListNotations.

(** ll.rs 11-20: LlParseTable and its keys (nonterminal, terminal); a BTreeMap, ordered by key *)
Definition ll_table := list ((nat * nat) * list nat).

(** derived Ord for LlParseTableKey *)
Definition key_compare (a b : nat * nat) : comparison :=
  match Nat.compare (fst a) (fst b) with
  | Eq => Nat.compare (snd a) (snd b)
  | c => c
  end.

(** entry(key).or_default().push(rule_idx) *)
Fixpoint ll_push (m : ll_table) (k : nat * nat) (idx : nat) : ll_table :=
  match m with
  | [] => [(k, [idx])]
  | (k', l) :: m' => match key_compare k k' with
                     | Lt => (k, [idx]) :: m
                     | Eq => (k', l ++ [idx]) :: m'
                     | Gt => (k', l) :: ll_push m' k idx
                     end
  end.

(** ll.rs 49-70: one rule *)
Definition ll_add_rule (first : first_sets) (follow : set_map) (m : ll_table) (p : nat * rule)
    : res ll_table :=
  let (rule_idx, r) := p in
  do rhs_first_set <- first_set_for_string first (rhs r);
  let m1 := fold_left (fun m t => ll_push m (lhs r, t) rule_idx) (set_list rhs_first_set) m in
  if has_none rhs_first_set then
    match map_get follow (lhs r) with
    | None => Panic
    | Some lhs_follow_set =>
        Ok (fold_left (fun m t => ll_push m (lhs r, t) rule_idx) (set_list lhs_follow_set) m1)
    end
  else Ok m1.

(** ll.rs 39-72: LlParseTable::new *)
Definition ll_parse_table (g : cfg) : res ll_table :=
  do first <- first_sets_new g;
  do follow <- follow_sets_new g (fs_map first);
  fold_res (ll_add_rule first follow) (combine (seq 0 (List.length (rules g))) (rules g)) [].

(** ll.rs 30-35: LlNonterminalClass *)
Inductive ll_class := Ll1 | ContextFree.

(** ll.rs 79-90: classes from the table *)
Definition ll_class_entry (c : list (nat * ll_class)) (e : (nat * nat) * list nat) : list (nat * ll_class) :=
  let '((nonterminal, _), rs) := e in
  if 1 <? List.length rs then map_put c nonterminal ContextFree
  else match map_get c nonterminal with
       | None => map_put c nonterminal Ll1
       | Some _ => c
       end.

(** ll.rs 75-105: classify *)
Definition ll_classify (g : cfg) (table : ll_table) : res (list (nat * ll_class)) :=
  let classes := fold_left ll_class_entry table [] in
  do property <- fold_res (fun p e => match snd e with
                                      | ContextFree => bs_set p (fst e) true
                                      | Ll1 => Ok p
                                      end) classes (bs_from_elem g false);
  do property' <- rhs_closure_for_any g property;
  map_res (fun e : nat * ll_class =>
             do b <- bs_get property' (fst e);
             Ok (fst e, if b then ContextFree else snd e)) classes.
