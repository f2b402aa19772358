(** Model of the crate [cfg-predict-distance] and of cfg-classify's recursion distances.

    Distances are u32: sums panic above u32::MAX in debug builds and wrap in release builds. *)

From Coq Require Import List Arith NArith Bool.
From Verif Require Import Base LoopModel SymbolModel HistoryModel CfgModel BitSetModel ClosureModel
  MatrixModel ClassifyModel.
Import ListNotations.

(** lib.rs 11-22: MinimalDistance and Distances; the grammar is passed separately *)
Record min_dist := mkDist {
  md_distances : list (list (option N));
  md_fwd_before : list (option N);
  md_fwd_after : list (option N);
  md_bwd_before : list (option N);
  md_bwd_after : list (option N);
  md_min_length : list (option N)
}.

(** lib.rs 27-62: DistanceDirection *)
Inductive direction := Forward | Backward | Symmetric.

(** lib.rs 65-77 *)
Definition includes_forward (d : direction) : bool := match d with Backward => false | _ => true end.
Definition includes_backward (d : direction) : bool := match d with Forward => false | _ => true end.

(** lib.rs 91-103: new *)
Definition md_new (g : cfg) : min_dist :=
  let none := repeat (@None N) (num_syms g) in
  mkDist (map (fun r => repeat None (List.length (rhs r) + 1)) (rules g)) none none none none none.

(** lib.rs 125-141: minimal_sentence_lengths *)
Definition minimal_sentence_lengths (debug : bool) (g : cfg) (v : list (option N)) : res (list (option N)) :=
  do terminal_set <- terminal_symbols g;
  do v1 <- fold_res (fun v t => set_ix v t (Some 1%N)) (bs_iter terminal_set) v;
  do v2 <- fold_res (fun v r => if is_nil (rhs r) then set_ix v (lhs r) (Some 0%N) else Ok v) (rules g) v1;
  rhs_closure_with_values debug g v2.

(** lib.rs 245-257: set_min, the new value and whether it changed *)
Definition set_min (current : option N) (new : N) : option N * bool :=
  match current with
  | Some c => if (new <? c)%N then (Some new, true) else (Some c, false)
  | None => (Some new, true)
  end.
Definition set_min_at (v : list (option N)) (i : nat) (new : N) : res (list (option N) * bool) :=
  do c <- get_ix v i;
  Ok (upd v i (fst (set_min c new)), snd (set_min c new)).

(** set_min(&mut self.distances[idx][dot], cur) *)
Definition set_distance (m : min_dist) (idx dot : nat) (cur : N) : res (min_dist * bool) :=
  do row <- get_ix (md_distances m) idx;
  do (row', changed) <- set_min_at row dot cur;
  Ok (mkDist (upd (md_distances m) idx row') (md_fwd_before m) (md_fwd_after m) (md_bwd_before m)
             (md_bwd_after m) (md_min_length m), changed).

(** lib.rs 220-241: update_sym_distance *)
Definition update_sym_distance (debug : bool) (m : min_dist) (cur : N) (sym : nat) (reverse : bool)
    : res (min_dist * N) :=
  do (after', _) <- set_min_at (if reverse then md_bwd_after m else md_fwd_after m) sym cur;
  let m' := if reverse
            then mkDist (md_distances m) (md_fwd_before m) (md_fwd_after m) (md_bwd_before m) after' (md_min_length m)
            else mkDist (md_distances m) (md_fwd_before m) after' (md_bwd_before m) (md_bwd_after m) (md_min_length m) in
  do len <- get_ix (md_min_length m') sym;
  match len with
  | None => Panic
  | Some len =>
      do cur' <- add_u32 debug cur len;
      do before <- get_ix (if reverse then md_bwd_before m' else md_fwd_before m') sym;
      Ok (m', match before with Some sym_predicted => N.min cur' sym_predicted | None => cur' end)
  end.

(** lib.rs 203-217: the loops over the right-hand side.  [l] is rhs.iter().enumerate(), reversed for
    the forward direction. *)
Fixpoint update_dots (debug : bool) (m : min_dist) (cur : N) (l : list (nat * nat)) (idx : nat) (reverse : bool)
    : res (min_dist * N) :=
  match l with
  | [] => Ok (m, cur)
  | (dot, sym) :: l' =>
      do (m1, _) <- set_distance m idx (if reverse then dot else dot + 1) cur;
      do (m2, cur') <- update_sym_distance debug m1 cur sym reverse;
      update_dots debug m2 cur' l' idx reverse
  end.

(** lib.rs 196-218: update_rule_distances *)
Definition update_rule_distances (debug : bool) (m : min_dist) (cur : N) (rhs : list nat) (idx : nat)
    (reverse : bool) : res (min_dist * N * bool) :=
  let dots := combine (seq 0 (List.length rhs)) rhs in
  do (m', cur') <- update_dots debug m cur (if reverse then dots else rev dots) idx reverse;
  do (m2, changed) <- set_distance m' idx (if reverse then List.length rhs else 0) cur';
  Ok (m2, cur', changed).

(** lib.rs 157-172: immediate_process_dot; slices panic when the dot is beyond the end *)
Definition immediate_process_dot (debug : bool) (m : min_dist) (idx : nat) (r : rule) (dot_pos : nat)
    (d : direction) : res min_dist :=
  do m1 <- (if includes_forward d then
              if dot_pos <=? List.length (rhs r) then
                do (mc, _) <- update_rule_distances debug m 0 (firstn dot_pos (rhs r)) idx false;
                let (m', min) := mc : min_dist * N in
                do (before', _) <- set_min_at (md_fwd_before m') (lhs r) min;
                Ok (mkDist (md_distances m') before' (md_fwd_after m') (md_bwd_before m') (md_bwd_after m')
                           (md_min_length m'))
              else Panic
            else Ok m);
  if includes_backward d then
    if dot_pos <=? List.length (rhs r) then
      do (mc, _) <- update_rule_distances debug m1 0 (skipn dot_pos (rhs r)) idx true;
      let (m', min) := mc : min_dist * N in
      do (before', _) <- set_min_at (md_bwd_before m') (lhs r) min;
      Ok (mkDist (md_distances m') (md_fwd_before m') (md_fwd_after m') before' (md_bwd_after m')
                 (md_min_length m'))
    else Panic
  else Ok m1.

(** Ord for (usize, usize) *)
Definition dot_compare (a b : nat * nat) : comparison :=
  match Nat.compare (fst a) (fst b) with
  | Eq => Nat.compare (snd a) (snd b)
  | c => c
  end.

(** lib.rs 259-270: binary_search_span, on sorted dots.  When (idx, 0) is listed several times, the
    standard library does not say which one is found: [skip idx] of them, but not all, are left
    out. *)
Definition binary_search_span (skip : nat -> nat) (dots : list (nat * nat)) (idx : nat) : list (nat * nat) :=
  let span := filter (fun d => fst d =? idx) dots in
  skipn (Nat.min (skip idx) (List.length (filter (fun d => snd d =? 0) span) - 1)) span.

(** lib.rs 143-155: immediate_minimal_distances *)
Definition immediate_minimal_distances (debug : bool) (skip : nat -> nat) (l : list rule) (m : min_dist)
    (dots : list (nat * nat)) (d : direction) : res min_dist :=
  fold_res (fun m (p : nat * rule) =>
    fold_res (fun m (dot : nat * nat) => immediate_process_dot debug m (fst p) (snd p) (snd dot) d)
             (binary_search_span skip dots (fst p)) m)
    (combine (seq 0 (List.length l)) l) m.

(** lib.rs 180-192: the body of the loop over rules *)
Definition transitive_rule (debug : bool) (st : min_dist * bool) (p : nat * rule) : res (min_dist * bool) :=
  let (m, changed) := st in
  let (idx, r) := p in
  do x <- get_ix (md_fwd_after m) (lhs r);
  do (m1, changed1) <- match x with
                       | Some distance =>
                           do (mc, now) <- update_rule_distances debug m distance (rhs r) idx false;
                           Ok (fst mc, changed || now)
                       | None => Ok (m, changed)
                       end;
  do y <- get_ix (md_bwd_after m1) (lhs r);
  match y with
  | Some distance =>
      do (mc, now) <- update_rule_distances debug m1 distance (rhs r) idx true;
      Ok (fst mc, changed1 || now)
  | None => Ok (m1, changed1)
  end.

(** lib.rs 175-194: transitive_minimal_distances.  The number of iterations is below
    2^(36 + number of rules) (proved). *)
Definition transitive_step (debug : bool) (l : list rule) (m : min_dist) : min_dist + res min_dist :=
  match fold_res (transitive_rule debug) (combine (seq 0 (List.length l)) l) (m, false) with
  | Ok (m', changed) => if changed then inl m' else inr (Ok m')
  | Panic => inr Panic
  | OutOfFuel => inr OutOfFuel
  end.
Definition transitive_minimal_distances (debug : bool) (l : list rule) (m : min_dist) : res min_dist :=
  run_loop (transitive_step debug l) (36 + List.length l) m.

(** lib.rs 112-123: minimal_distances *)
Definition minimal_distances (debug : bool) (skip : nat -> nat) (g : cfg) (m : min_dist)
    (dots : list (nat * nat)) (d : direction) : res min_dist :=
  do len <- minimal_sentence_lengths debug g (md_min_length m);
  let m1 := mkDist (md_distances m) (md_fwd_before m) (md_fwd_after m) (md_bwd_before m) (md_bwd_after m) len in
  do m2 <- immediate_minimal_distances debug skip (rules g) m1 (sort_by dot_compare dots) d;
  transitive_minimal_distances debug (rules g) m2.

(** cfg-classify recursive.rs 83-97: the dots in front of recursive symbols *)
Definition recursive_dots (m : matrix) (l : list rule) : res (list (nat * nat)) :=
  fold_res (fun acc (p : nat * rule) =>
    fold_res (fun acc (q : nat * nat) =>
                do b <- mx_get m (snd q) (lhs (snd p));
                Ok (if b : bool then acc ++ [(fst p, fst q)] else acc))
             (combine (seq 0 (List.length (rhs (snd p)))) (rhs (snd p))) acc)
    (combine (seq 0 (List.length l)) l) [].

(** recursive.rs 82-106, 132-157: Recursion::minimal_distances; per recursive rule the distances at
    its first and last dot *)
Definition unwrap_or_max (x : option N) : N := match x with Some c => c | None => u32_max end.
Definition recursion_minimal_distances (debug : bool) (skip : nat -> nat) (g : cfg)
    : res (list (rule * recursion_kind * (N * N))) :=
  do m <- reachability_matrix g;
  do dots <- recursive_dots m (rules g);
  do md <- minimal_distances debug skip g (md_new g) dots Symmetric;
  fold_res (fun acc (p : nat * rule) =>
    do k <- rule_recursion m (snd p);
    match k with
    | None => Ok acc
    | Some k =>
        do row <- get_ix (md_distances md) (fst p);
        do first <- get_ix row 0;
        do last <- get_ix row (List.length row - 1);
        Ok (acc ++ [(snd p, k, (unwrap_or_max first, unwrap_or_max last))])
    end) (combine (seq 0 (List.length (rules g))) (rules g)) [].
