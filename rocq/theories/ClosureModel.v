(** Model of the closures in cfg-grammar/src/cfg.rs and of occurence_map.rs. *)

From Coq Require Import List Arith NArith Bool.
From Verif Require Import Base SymbolModel LoopModel CfgModel BitSetModel.
Import ListNotations.

(** occurence_map.rs 7-17: OccurenceMap.  The BTreeMap is a function from symbols to lists of
    rule indices; the default is the empty list (45-47: get).  The lists of left-hand side
    occurrences are left out, as nothing reads them (58-60). *)
Definition occ_map := nat -> list nat.
Definition occ_push (m : occ_map) (s i : nat) : occ_map :=
  fun x => if x =? s then m x ++ [i] else m x.

(** occurence_map.rs 20-43: from_rules *)
Fixpoint occ_from (i : nat) (l : list rule) (m : occ_map) : occ_map :=
  match l with
  | [] => m
  | r :: l' =>
      let rhs_syms := dedup (sort_nat (rhs r)) in
      occ_from (S i) l' (fold_left (fun m s => occ_push m s i) rhs_syms m)
  end.
Definition occ_from_rules (l : list rule) : occ_map := occ_from 0 l (fun _ => []).

(** cfg.rs: enum RhsPropertyMode *)
Inductive property_mode := PAll | PAny.

(** [rhs_iter.all(get_property)], [rhs_iter.any(get_property)]; both stop early *)
Fixpoint all_res (f : nat -> res bool) (l : list nat) : res bool :=
  match l with
  | [] => Ok true
  | s :: l' => do b <- f s; if b then all_res f l' else Ok false
  end.
Fixpoint any_res (f : nat -> res bool) (l : list nat) : res bool :=
  match l with
  | [] => Ok false
  | s :: l' => do b <- f s; if b then Ok true else any_res f l'
  end.

(** cfg.rs 568-580: body of the inner loop.  The stack is a list whose head is the top. *)
Definition closure_rule (mode : property_mode) (l : list rule) (st : bitset * list nat) (id : nat)
    : res (bitset * list nat) :=
  let (p, stack) := st in
  do r <- get_ix l id;
  do sat <- match mode with
            | PAll => all_res (bs_get p) (rhs r)
            | PAny => any_res (bs_get p) (rhs r)
            end;
  do pl <- bs_get p (lhs r);
  if negb pl && sat then do p' <- bs_set p (lhs r) true; Ok (p', lhs r :: stack)
  else Ok (p, stack).

(** cfg.rs 567-581: the while loop; one unit of fuel is one iteration *)
Fixpoint closure_loop (fuel : nat) (mode : property_mode) (l : list rule) (occ : occ_map)
    (p : bitset) (stack : list nat) : res bitset :=
  match stack with
  | [] => Ok p
  | s :: stack' =>
      match fuel with
      | 0 => OutOfFuel
      | S fuel' =>
          do (p', st') <- fold_res (closure_rule mode l) (occ s) (p, stack');
          closure_loop fuel' mode l occ p' st'
      end
  end.

(** cfg.rs 561-584: rhs_closure.  The loop runs at most once for each symbol that the set has
    space for (proved). *)
Definition rhs_closure (g : cfg) (p : bitset) (mode : property_mode) : res bitset :=
  closure_loop (List.length p) mode (rules g) (occ_from_rules (rules g)) p (rev (bs_iter p)).

(** cfg.rs 546-548, 553-555 *)
Definition rhs_closure_for_all (g : cfg) (p : bitset) : res bitset := rhs_closure g p PAll.
Definition rhs_closure_for_any (g : cfg) (p : bitset) : res bitset := rhs_closure g p PAny.

(** u32 addition: overflow panics in debug builds and wraps around in release builds. *)
Definition add_u32 (debug : bool) (a b : N) : res N :=
  if (a + b <=? u32_max)%N then Ok (a + b)%N
  else if debug then Panic else Ok ((a + b) mod (u32_max + 1))%N.

(** cfg.rs 607-610: try_fold *)
Fixpoint sum_values (debug : bool) (v : list (option N)) (acc : N) (r : list nat) : res (option N) :=
  match r with
  | [] => Ok (Some acc)
  | s :: r' =>
      do x <- get_ix v s;
      match x with
      | None => Ok None
      | Some val => do acc' <- add_u32 debug acc val; sum_values debug v acc' r'
      end
  end.

(** cfg.rs 606-620: body of the inner loop *)
Definition values_rule (debug : bool) (l : list rule) (st : list (option N) * list nat) (id : nat)
    : res (list (option N) * list nat) :=
  let (v, stack) := st in
  do r <- get_ix l id;
  do m <- sum_values debug v 0 (rhs r);
  match m with
  | None => Ok (v, stack)
  | Some work_value =>
      do cur <- get_ix v (lhs r);
      let skip := match cur with Some c => (c <=? work_value)%N | None => false end in
      if skip then Ok (v, stack)
      else do v' <- set_ix v (lhs r) (Some work_value); Ok (v', lhs r :: stack)
  end.

(** cfg.rs 600-621: one iteration of the while loop *)
Definition values_step (debug : bool) (l : list rule) (occ : occ_map)
    (st : list (option N) * list nat) : (list (option N) * list nat) + res (list (option N)) :=
  let (v, stack) := st in
  match stack with
  | [] => inr (Ok v)
  | s :: stack' =>
      match fold_res (values_rule debug l) (occ s) (v, stack') with
      | Ok st' => inl st'
      | Panic => inr Panic
      | OutOfFuel => inr OutOfFuel
      end
  end.

(** cfg.rs 592-596: symbols that have a value *)
Fixpoint valued_from (i : nat) (v : list (option N)) : list nat :=
  match v with
  | [] => []
  | Some _ :: v' => i :: valued_from (S i) v'
  | None :: v' => valued_from (S i) v'
  end.

(** cfg.rs 590-624: rhs_closure_with_values.  The number of iterations is below
    2^(35 + number of symbols) (proved, a generous bound). *)
Definition rhs_closure_with_values (debug : bool) (g : cfg) (v : list (option N))
    : res (list (option N)) :=
  run_loop (values_step debug (rules g) (occ_from_rules (rules g))) (35 + List.length v)
           (v, rev (valued_from 0 v)).
