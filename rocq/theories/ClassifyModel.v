(** Model of the crate cfg-classify: useful.rs, cyclical.rs, recursive.rs and lib.rs. *)

From Coq Require Import List Arith Bool.
From Verif Require Import Base CfgModel BitSetModel ClosureModel MatrixModel.
Import ListNotations.

(** * useful.rs *)

(** useful.rs 58-64: productive_syms *)
Definition productive_syms (g : cfg) : res bitset :=
  do b <- bs_terminal g;
  do b <- bs_nulling g b;
  rhs_closure_for_all g b.

(** useful.rs 13-17: struct Usefulness *)
Record usefulness := mkUseful {
  us_reachability : matrix;
  us_reachable : bitset;
  us_productivity : bitset
}.

(** useful.rs 69-89: Usefulness::new.  Of the debug assertion on the matrix size only the number
    of rows is checked; the number of columns is the same by construction. *)
Definition usefulness_new (g : cfg) : res usefulness :=
  do productivity <- productive_syms g;
  do m <- reachability_matrix g;
  do reachability <- reflexive m;
  do unused <- bs_unused g;
  do productivity' <- bs_union productivity unused;
  do reachable_syms <- bs_union (bs_from_elem g false) unused;
  if List.length reachability =? bs_space productivity'
  then Ok (mkUseful reachability reachable_syms productivity') else Panic.

(** useful.rs 93-95: productivity *)
Definition us_productive (u : usefulness) (s : nat) : res bool := bs_get (us_productivity u) s.

(** useful.rs 98-104: reachable *)
Definition us_add_reachable (u : usefulness) (syms : list nat) : res usefulness :=
  do b <- fold_res (fun b s =>
                      do row <- iter_row_syms (us_reachability u) s;
                      fold_res (fun b d => bs_set b d true) row b)
                   syms (us_reachable u);
  Ok (mkUseful (us_reachability u) b (us_productivity u)).

(** useful.rs 107-119: all_useful, all_productive, all_reachable *)
Definition us_all_useful (u : usefulness) : bool := bs_all (us_productivity u) && bs_all (us_reachable u).
Definition us_all_productive (u : usefulness) : bool := bs_all (us_productivity u).
Definition us_all_reachable (u : usefulness) : bool := bs_all (us_reachable u).

(** useful.rs 26-33: struct RuleUsefulness *)
Record rule_usefulness := mkRuleUse { ru_reachable : bool; ru_productive : bool }.

(** useful.rs 48-50: is_useless *)
Definition is_useless (x : rule_usefulness) : bool := negb (ru_reachable x) || negb (ru_productive x).

(** useful.rs 122-132: usefulness of a rule *)
Definition us_rule (u : usefulness) (r : rule) : res rule_usefulness :=
  do productive <- all_res (bs_get (us_productivity u)) (rhs r);
  do reachable <- bs_get (us_reachable u) (lhs r);
  Ok (mkRuleUse reachable productive).

Fixpoint filter_res {A : Type} (f : A -> res bool) (l : list A) : res (list A) :=
  match l with
  | [] => Ok []
  | x :: l' => do b <- f x; do r <- filter_res f l'; Ok (if b then x :: r else r)
  end.

(** useful.rs 134-154: uselessness_if_useless, useless_rules *)
Definition us_useless_rules (u : usefulness) (g : cfg) : res (list rule) :=
  filter_res (fun r => do x <- us_rule u r; Ok (is_useless x)) (rules g).

(** useful.rs 157-168: remove_useless_rules *)
Definition rule_is_useful (u : usefulness) (r : rule) : res bool :=
  do productive <- all_res (bs_get (us_productivity u)) (rhs r);
  do reachable <- bs_get (us_reachable u) (lhs r);
  Ok (productive && reachable).
Definition us_remove_useless_rules (u : usefulness) (g : cfg) : res cfg :=
  if us_all_useful u then Ok g
  else do l <- filter_res (rule_is_useful u) (rules g); Ok (set_rules g l).

(** lib.rs 68-79: usefulness, usefulness_with_roots *)
Definition usefulness_with_roots (g : cfg) (l : list nat) : res usefulness :=
  do u <- usefulness_new g;
  us_add_reachable u l.
Definition cfg_usefulness (g : cfg) : res usefulness := usefulness_with_roots g (roots g).

(** lib.rs 81-93: make_proper *)
Definition make_proper (g : cfg) : res (bool * cfg) :=
  do u <- cfg_usefulness g;
  let contains_useless_rules := negb (us_all_useful u) in
  do g' <- (if contains_useless_rules then us_remove_useless_rules u g else Ok g);
  Ok (negb contains_useless_rules, g').

(** * cyclical.rs *)

(** cyclical.rs 12-16: struct Cycles *)
Record cycles := mkCycles {
  cy_grammar : cfg;
  cy_unit : matrix;
  cy_free : option bool
}.

(** cyclical.rs 20-26: new *)
Definition cycles_new (g : cfg) : res cycles :=
  do m <- unit_derivation_matrix g;
  Ok (mkCycles g m None).

(** cyclical.rs 29-35: cycle_free.  The answer is cached. *)
Definition cycle_free (c : cycles) : res (bool * cycles) :=
  match cy_free c with
  | Some b => Ok (b, c)
  | None =>
      do b <- all_res (fun i => do x <- mx_get (cy_unit c) i i; Ok (negb x))
                      (seq 0 (num_syms (cy_grammar c)));
      Ok (b, mkCycles (cy_grammar c) (cy_unit c) (Some b))
  end.

(** cyclical.rs 38-45: the condition of classify, also used by remove_cycles and rewrite_cycles *)
Definition is_cyclical (m : matrix) (r : rule) : res bool :=
  match rhs r with
  | [s] => mx_get m s (lhs r)
  | _ => Ok false
  end.

(** cyclical.rs 38-45: classify *)
Fixpoint classify_rules (m : matrix) (l : list rule) : res (list (rule * bool)) :=
  match l with
  | [] => Ok []
  | r :: l' => do b <- is_cyclical m r; do rest <- classify_rules m l'; Ok ((r, b) :: rest)
  end.
Definition cy_classify (c : cycles) : res (list (rule * bool)) :=
  classify_rules (cy_unit c) (rules (cy_grammar c)).

(** cyclical.rs 48-56: cycle_participants *)
Definition cycle_participants (c : cycles) (get_cyclical : bool) : res (list rule) :=
  do l <- cy_classify c;
  Ok (map fst (filter (fun p => xorb (snd p) (negb get_cyclical)) l)).

(** cyclical.rs 62-68: remove_cycles *)
Definition remove_cycles (c : cycles) : res cycles :=
  do (free, c1) <- cycle_free c;
  if free then Ok c1
  else do l <- filter_res (fun r => do b <- is_cyclical (cy_unit c1) r; Ok (negb b))
                          (rules (cy_grammar c1));
       Ok (mkCycles (set_rules (cy_grammar c1) l) (cy_unit c1) (cy_free c1)).

(** cyclical.rs 73, 90-93: the translation map, a BTreeMap, as a function *)
Definition translation := nat -> option (option nat).
Definition tr_insert (t : translation) (k : nat) (v : option nat) : translation :=
  fun x => if x =? k then Some v else t x.

(** cyclical.rs 82-89: the symbols that participate in the cycle of [a] *)
Definition cycle_row (m : matrix) (a : nat) : res (list nat) :=
  do r <- get_ix m a;
  filter_res (fun s => do b <- get_ix r s; if b then mx_get m s a else Ok false)
             (seq 0 (List.length r)).

(** cyclical.rs 77-98: the first retain.  The state is the translation and the kept rules. *)
Definition rewrite_scan (m : matrix) (st : translation * list rule) (r : rule)
    : res (translation * list rule) :=
  let (t, kept) := st in
  do b <- is_cyclical m r;
  if b then
    match t (lhs r) with
    | Some _ => Ok (t, kept)
    | None =>
        do row <- cycle_row m (lhs r);
        let t1 := fold_left (fun t s => tr_insert t s (Some (lhs r))) row t in
        Ok (tr_insert t1 (lhs r) None, kept)
    end
  else Ok (t, kept ++ [r]).

(** cyclical.rs 103-126: the second retain.  [translate] gives the new symbol and whether it is
    rewritten. *)
Definition translate (t : translation) (s : nat) : nat * bool :=
  match t s with
  | Some (Some n) => (n, true)
  | _ => (s, false)
  end.
Definition rewrite_rule (t : translation) (r : rule) : rule * bool :=
  let (l, c) := translate t (lhs r) in
  (mkRule l (map (fun s => fst (translate t s)) (rhs r)) (hist r),
   c || existsb (fun s => snd (translate t s)) (rhs r)).

(** cyclical.rs 72-130: rewrite_cycles *)
Definition rewrite_cycles (c : cycles) : res cycles :=
  do (free, c1) <- cycle_free c;
  if free then Ok c1
  else
    let g := cy_grammar c1 in
    do (t, kept) <- fold_res (rewrite_scan (cy_unit c1)) (rules g) (fun _ => None, []);
    let unchanged := filter (fun r => negb (snd (rewrite_rule t r))) kept in
    let rewritten := map (fun r => fst (rewrite_rule t r))
                         (filter (fun r => snd (rewrite_rule t r)) kept) in
    do g' <- fold_res add_rule rewritten (set_rules g unchanged);
    Ok (mkCycles g' (cy_unit c1) (cy_free c1)).

(** * recursive.rs *)

(** recursive.rs 15-23: struct RecursionKind *)
Record recursion_kind := mkRec { rk_left : bool; rk_middle : bool; rk_right : bool }.

(** recursive.rs 157-186: rule_recursion, any.  [any_res] stops at the first hit. *)
Definition rule_recursion (m : matrix) (r : rule) : res (option recursion_kind) :=
  match rhs r with
  | [] => Ok None
  | s :: _ =>
      do l <- mx_get m s (lhs r);
      do rt <- mx_get m (last (rhs r) s) (lhs r);
      do mid <- any_res (fun x => mx_get m x (lhs r))
                           (firstn (List.length (rhs r) - 2) (skipn 1 (rhs r)));
      Ok (if l || mid || rt then Some (mkRec l mid rt) else None)
  end.

(** recursive.rs 66-73, 108-130: Recursion::new, recursive_rules *)
Fixpoint recursive_from (m : matrix) (l : list rule) : res (list (rule * recursion_kind)) :=
  match l with
  | [] => Ok []
  | r :: l' =>
      do k <- rule_recursion m r;
      do rest <- recursive_from m l';
      Ok (match k with Some x => (r, x) :: rest | None => rest end)
  end.
Definition recursive_rules (g : cfg) : res (list (rule * recursion_kind)) :=
  do m <- reachability_matrix g;
  recursive_from m (rules g).
