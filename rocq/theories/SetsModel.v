(** Model of the crate [cfg-predict-sets]. *)

From Coq Require Import List Arith Bool.
From Verif Require Import Base LoopModel HistoryModel CfgModel BitSetModel.
Import ListNotations.

(** sets.rs 14-20: PerSymbolSetVal *)
Record set_val := mkSet { has_none : bool; set_list : list nat }.

(** sets.rs 33-38: new *)
Definition set_new : set_val := mkSet false [].

(** sets.rs 50-52: len *)
Definition set_len (v : set_val) : nat := List.length (set_list v) + Nat.b2n (has_none v).

(** sets.rs 23: PerSymbolSets, a BTreeMap: entries ordered by symbol *)
Definition set_map := list (nat * set_val).

(** BTreeMap::get *)
Fixpoint map_get {V : Type} (m : list (nat * V)) (s : nat) : option V :=
  match m with
  | [] => None
  | (k, v) :: m' => if k =? s then Some v else map_get m' s
  end.

(** Writing through BTreeMap::entry or get_mut *)
Fixpoint map_put {V : Type} (m : list (nat * V)) (s : nat) (v : V) : list (nat * V) :=
  match m with
  | [] => [(s, v)]
  | (k, w) :: m' => match Nat.compare s k with
                    | Lt => (s, v) :: m
                    | Eq => (s, v) :: m'
                    | Gt => (k, w) :: map_put m' s v
                    end
  end.

(** BTreeMap::entry(s).or_insert_with(PerSymbolSetVal::new) *)
Definition map_entry (m : set_map) (s : nat) : set_val :=
  match map_get m s with Some v => v | None => set_new end.

(** sort_unstable and dedup *)
Definition sort_dedup (l : list nat) : list nat := dedup (sort_nat l).

(** first.rs 97-130: first_set_collect; [la] is the list of self.lookahead *)
Fixpoint first_set_collect (terminal_set : bitset) (m : set_map) (la : list nat) (rhs : list nat)
    : res set_val :=
  match rhs with
  | [] => Ok (mkSet true la)
  | sym :: rhs' =>
      do t <- bs_get terminal_set sym;
      if t then Ok (mkSet false (sort_dedup (la ++ [sym])))
      else match map_get m sym with
           | None => Ok (mkSet false la)
           | Some v =>
               let la' := sort_dedup (la ++ set_list v) in
               if has_none v then first_set_collect terminal_set m la' rhs'
               else Ok (mkSet false la')
           end
  end.

(** first.rs 84-95: process_rule; the result says if the set changed *)
Definition first_process_rule (terminal_set : bitset) (st : set_map * bool) (r : rule)
    : res (set_map * bool) :=
  let (m, changed) := st in
  do la <- first_set_collect terminal_set m [] (rhs r);
  let first_set := map_entry m (lhs r) in
  let prev_cardinality := set_len first_set in
  let first_set' := mkSet (has_none first_set || has_none la)
                          (sort_dedup (set_list first_set ++ set_list la)) in
  Ok (map_put m (lhs r) first_set', changed || negb (prev_cardinality =? set_len first_set')).

(** first.rs 74-82: collect_from, one iteration *)
Definition first_step (terminal_set : bitset) (l : list rule) (m : set_map) : set_map + res set_map :=
  match fold_res (first_process_rule terminal_set) l (m, false) with
  | Ok (m', changed) => if changed then inl m' else inr (Ok m')
  | Panic => inr Panic
  | OutOfFuel => inr OutOfFuel
  end.

(** first.rs 15-20: FirstSets; the lookahead is empty and changed is false between calls *)
Record first_sets := mkFirst { fs_map : set_map; fs_terminal_set : bitset }.

(** first.rs 38-48: new.  The number of iterations is bounded; the bound is never reached
    (C40_first_exact). *)
Definition first_sets_new (g : cfg) : res first_sets :=
  do terminal_set <- terminal_symbols g;
  do m <- run_loop (first_step terminal_set (rules g)) (2 * num_syms g + 2) [];
  Ok (mkFirst m terminal_set).

(** first.rs 51-72: first_set_for_string *)
Fixpoint first_string_loop (f : first_sets) (string : list nat) : res (list nat) :=
  match string with
  | [] => Ok []
  | sym :: rest =>
      do t <- bs_get (fs_terminal_set f) sym;
      if t then Ok [sym]
      else match map_get (fs_map f) sym with
           | None => Panic
           | Some first_set =>
               if is_nil (set_list first_set) then first_string_loop f rest
               else Ok (set_list first_set)
           end
  end.
Definition first_set_for_string (f : first_sets) (string : list nat) : res set_val :=
  do result <- first_string_loop f string;
  Ok (mkSet (is_nil result) result).

(** last.rs 22-32: LastSets::new *)
Definition last_sets_new (g : cfg) : res set_map :=
  do f <- first_sets_new (cfg_reverse g);
  Ok (fs_map f).

(** follow.rs 27-37: an entry for each left-hand side *)
Definition follow_init (g : cfg) : set_map :=
  fold_left (fun m r =>
    let follow_set := map_entry m (lhs r) in
    map_put m (lhs r) (if mem (lhs r) (roots g) then mkSet true (set_list follow_set) else follow_set))
    (rules g) [].

(** follow.rs 50-68: one symbol of a right-hand side, from the right *)
Definition follow_symbol (terminal_set : bitset) (first : set_map)
    (st : set_map * set_val * bool) (sym : nat) : res (set_map * set_val * bool) :=
  let '(m, follow_set, changed) := st in
  do t <- bs_get terminal_set sym;
  if t then Ok (m, mkSet false [sym], changed)
  else match map_get m sym with
       | None => Panic
       | Some followed =>
           let followed' := mkSet (has_none followed)
                                  (sort_dedup (set_list followed ++ set_list follow_set)) in
           let changed' := changed || negb (set_len followed =? set_len followed') in
           match map_get first sym with
           | None => Panic
           | Some first_set =>
               let fs := if has_none first_set then follow_set else set_new in
               Ok (map_put m sym followed', mkSet (has_none fs) (set_list fs ++ set_list first_set), changed')
           end
       end.

(** follow.rs 43-69: one rule *)
Definition follow_rule (terminal_set : bitset) (first : set_map)
    (st : set_map * bool) (r : rule) : res (set_map * bool) :=
  let (m, changed) := st in
  match map_get m (lhs r) with
  | None => Panic
  | Some follow_set =>
      do (mf, changed') <- fold_res (follow_symbol terminal_set first) (rev (rhs r)) (m, follow_set, changed);
      Ok (fst mf, changed')
  end.

(** follow.rs 40-70: one iteration.  The terminal set is computed in each iteration; it is the same
    each time. *)
Definition follow_step (terminal_set : bitset) (first : set_map) (l : list rule) (m : set_map)
    : set_map + res set_map :=
  match fold_res (follow_rule terminal_set first) l (m, false) with
  | Ok (m', changed) => if changed then inl m' else inr (Ok m')
  | Panic => inr Panic
  | OutOfFuel => inr OutOfFuel
  end.

(** follow.rs 22-73: FollowSets::new.  Bounded as for FIRST. *)
Definition follow_sets_new (g : cfg) (first : set_map) : res set_map :=
  do terminal_set <- terminal_symbols g;
  run_loop (follow_step terminal_set first (rules g)) (2 * num_syms g + 2) (follow_init g).

(** cfg_sets_ext.rs 23-25: follow_sets *)
Definition follow_sets (g : cfg) : res set_map :=
  do f <- first_sets_new g;
  follow_sets_new g (fs_map f).
