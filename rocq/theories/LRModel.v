(** Model of cfg-classify/src/lr.rs: LR(0) item sets and the LR(0) automaton.

    Rule ids, dots and set ids are u32 in the code; here they are unbounded. *)

From Coq Require Import List Arith Bool.
From Verif Require Import Base LoopModel HistoryModel CfgModel BitSetModel SetsModel.
Import ListNotations.

(** lr.rs 24-27: Lr0Item *)
Record lr_item := mkItem { it_rhs : list nat; it_dot : nat }.

(** lr.rs 19-21: Lr0Items, a BTreeMap ordered by rule id *)
Definition lr_items := list (nat * lr_item).

(** The derived equality of Lr0Item and Lr0Items *)
Fixpoint syms_eqb (a b : list nat) : bool :=
  match a, b with
  | [], [] => true
  | x :: a', y :: b' => (x =? y) && syms_eqb a' b'
  | _, _ => false
  end.
Definition item_eqb (a b : lr_item) : bool :=
  syms_eqb (it_rhs a) (it_rhs b) && (it_dot a =? it_dot b).
Fixpoint items_eqb (a b : lr_items) : bool :=
  match a, b with
  | [], [] => true
  | (i, x) :: a', (j, y) :: b' => (i =? j) && item_eqb x y && items_eqb a' b'
  | _, _ => false
  end.

(** Iterator::enumerate *)
Definition enum_rules (l : list rule) : list (nat * rule) := combine (seq 0 (List.length l)) l.

(** lr.rs 120-122: postdot *)
Definition lr_postdot (it : lr_item) : option nat := nth_error (it_rhs it) (it_dot it).

(** lr.rs 124-135: nonterminal_postdot; indexing the set panics when out of range *)
Definition lr_nonterminal_postdot (ts : bitset) (it : lr_item) : res (option nat) :=
  match lr_postdot it with
  | Some s => do t <- bs_get ts s; Ok (if t then None else Some s)
  | None => Ok None
  end.

(** lr.rs 77-91: one rule in the loop over the rules *)
Definition lr_closure_rule (A : nat) (st : list lr_item * lr_items) (p : nat * rule)
    : list lr_item * lr_items :=
  if lhs (snd p) =? A then
    let new_item := mkItem (rhs (snd p)) 0 in
    (match map_get (snd st) (fst p) with
     | None => fst st ++ [new_item]
     | Some _ => fst st
     end, map_put (snd st) (fst p) new_item)
  else st.

(** lr.rs 75-93: one iteration of the while loop *)
Definition lr_closure_step (ts : bitset) (l : list rule) (st : list lr_item * lr_items)
    : (list lr_item * lr_items) + res lr_items :=
  match fst st with
  | [] => inr (Ok (snd st))
  | it :: q =>
      match lr_nonterminal_postdot ts it with
      | Ok None => inl (q, snd st)
      | Ok (Some A) => inl (fold_left (lr_closure_rule A) (enum_rules l) (q, snd st))
      | Panic => inr Panic
      | OutOfFuel => inr OutOfFuel
      end
  end.

(** lr.rs 71-94: closure.  Every item and every rule is queued at most once, so the loop
    makes at most 2^(items + rules) iterations (proved: closure_total in LRProof). *)
Definition lr_closure (ts : bitset) (l : list rule) (m : lr_items) : res lr_items :=
  run_loop (lr_closure_step ts l) (List.length m + List.length l) (map snd m, m).

(** lr.rs 62-94: Lr0ClosureBuilder::new and one call of closure *)
Definition lr0_closure (g : cfg) (m : lr_items) : res lr_items :=
  do ts <- terminal_symbols g; lr_closure ts (rules g) m.

(** lr.rs 97-110: the loop of advance; the new entries come in the order of the ids *)
Definition lr_moved (m : lr_items) (sym : nat) : lr_items :=
  fold_left (fun acc p => match lr_postdot (snd p) with
                          | Some s => if s =? sym
                                      then map_put acc (fst p) (mkItem (it_rhs (snd p)) (it_dot (snd p) + 1))
                                      else acc
                          | None => acc
                          end) m [].

(** lr.rs 97-118: advance *)
Definition lr_advance (ts : bitset) (l : list rule) (m : lr_items) (sym : nat) : res (option lr_items) :=
  let moved := lr_moved m sym in
  if is_nil moved then Ok None
  else do c <- lr_closure ts l moved; Ok (Some c).

(** lr.rs 62-118: Lr0ClosureBuilder::new and one call of advance *)
Definition lr0_advance (g : cfg) (m : lr_items) (sym : nat) : res (option lr_items) :=
  do ts <- terminal_symbols g; lr_advance ts (rules g) m sym.

(** lr.rs 46-51: Lr0Node; link is a BTreeMap *)
Record lr_node := mkNode { nd_items : lr_items; nd_link : list (nat * nat) }.

(** lr.rs 37-41: Lr0FsmBuilder.  [cached_sets] is the list of the sets in the order of
    their ids, because the id given to a new set is the number of sets so far. *)
Record fsm := mkFsm { sets_queue : list lr_items; cached_sets : list lr_items }.

Fixpoint set_index (c : list lr_items) (m : lr_items) : option nat :=
  match c with
  | [] => None
  | x :: c' => if items_eqb x m then Some 0 else option_map S (set_index c' m)
  end.

(** lr.rs 193-207: id_of and introduce_set *)
Definition id_of (b : fsm) (m : lr_items) : nat * fsm :=
  match set_index (cached_sets b) m with
  | Some id => (id, b)
  | None => (List.length (cached_sets b), mkFsm (sets_queue b ++ [m]) (cached_sets b ++ [m]))
  end.

(** lr.rs 159-164: one terminal *)
Definition fsm_terminal (ts : bitset) (l : list rule) (m : lr_items)
    (st : fsm * list (nat * nat)) (t : nat) : res (fsm * list (nat * nat)) :=
  do a <- lr_advance ts l m t;
  match a with
  | None => Ok st
  | Some s => let (id, b) := id_of (fst st) s in Ok (b, map_put (snd st) t id)
  end.

(** lr.rs 156-166: one iteration of the while loop *)
Definition fsm_step (ts : bitset) (l : list rule) (st : fsm * list lr_node)
    : (fsm * list lr_node) + res (list lr_node) :=
  match sets_queue (fst st) with
  | [] => inr (Ok (snd st))
  | m :: q =>
      match fold_res (fsm_terminal ts l m) (bs_iter ts) (mkFsm q (cached_sets (fst st)), []) with
      | Ok (b, link) => inl (b, snd st ++ [mkNode m link])
      | Panic => inr Panic
      | OutOfFuel => inr OutOfFuel
      end
  end.

(** lr.rs 182-191: augment_grammar *)
Definition augment_grammar (g : cfg) (start_sym : nat) : res (nat * nat * cfg) :=
  let (new_start, g1) := next_sym g None in
  let rule_id := List.length (rules g1) in
  do g2 <- add_rule g1 (mkRule new_start [start_sym] (process_root RNoOp));
  Ok (new_start, rule_id, g2).

(** The number of sets is at most the product over the rules of their length plus 2 (proved:
    fsm_total in LRProof2). *)
Definition fsm_exponent (l : list rule) : nat :=
  fold_right (fun r n => List.length (rhs r) + 2 + n) 1 l.

(** lr.rs 140-180: Lr0FsmBuilder::new, make_lr0_fsm and initial_item_set.  The terminal set is
    taken when the builder is made, before the grammar is augmented.  Gives the nodes and the
    augmented grammar. *)
Definition make_lr0_fsm (g : cfg) (start_sym : nat) : res (list lr_node * cfg) :=
  do ts <- terminal_symbols g;
  do r <- augment_grammar g start_sym;
  let '(_, rule_id, g2) := r in
  do init <- lr_closure ts (rules g2) (map_put [] rule_id (mkItem [start_sym] 0));
  do nodes <- run_loop (fsm_step ts (rules g2)) (fsm_exponent (rules g2)) (mkFsm [init] [init], []);
  Ok (nodes, g2).
