(** Model of cfg-symbol-bit-matrix/src/remap_symbols.rs. *)

From Coq Require Import List Arith Bool.
From Verif Require Import Base SymbolModel HistoryModel CfgModel BitSetModel.
Import ListNotations.

(** remap_symbols.rs 13-16: struct Remap.  The grammar is borrowed mutably; here it is a field. *)
Record remap := mkRemap { rm_grammar : cfg; rm_mapping : mapping }.

(** remap_symbols.rs 20-32: new *)
Definition remap_new (g : cfg) : remap :=
  mkRemap g (mkMapping (map Some (seq 0 (num_syms g))) (seq 0 (num_syms g))).

(** remap_symbols.rs 90-97: a rule with its symbols mapped.  [map] is a function that may panic;
    Rust allows it to have state, which is not modelled. *)
Definition remap_rule (f : nat -> res nat) (r : rule) : res rule :=
  do l <- f (lhs r);
  do rs <- map_res f (rhs r);
  Ok (mkRule l rs (hist r)).

Fixpoint eqb_list (a b : list nat) : bool :=
  match a, b with
  | [], [] => true
  | x :: a', y :: b' => (x =? y) && eqb_list a' b'
  | _, _ => false
  end.

(** remap_symbols.rs 88: the rule is not changed.  In Rust the test stops at the first changed
    symbol; then the rest is mapped by 91-95, so all symbols are mapped in both. *)
Definition same_symbols (a b : rule) : bool := (lhs a =? lhs b) && eqb_list (rhs a) (rhs b).

(** remap_symbols.rs 79-99: the retain; the result is the kept rules and the added rules. *)
Fixpoint remap_rules (f : nat -> res nat) (l : list rule) : res (list rule * list rule) :=
  match l with
  | [] => Ok ([], [])
  | r :: l' =>
      do r' <- remap_rule f r;
      do (kept, added) <- remap_rules f l';
      Ok (if same_symbols r' r then (r :: kept, added) else (kept, r' :: added))
  end.

(** remap_symbols.rs 118-137: the wrapped roots *)
Definition remap_wrapped (f : nat -> res nat) (w : wrapped_root) : res wrapped_root :=
  do i <- f (wr_inner w);
  do r <- f (wr_root w);
  do s <- f (wr_start w);
  do e <- f (wr_end w);
  Ok (mkWrapped s i e r).

(** cfg-symbol/src/source.rs 179-192: SymbolSource::remap_symbols *)
Definition src_remap (f : nat -> res nat) (s : source) : res source :=
  do l <- map_res f (seq 0 (List.length (names s)));
  Ok (mkSrc (num s) (remap_names (fun i => nth i l 0) (names s))).

(** remap_symbols.rs 74-141: remap_symbols, on the grammar *)
Definition remap_symbols (f : nat -> res nat) (g : cfg) : res cfg :=
  do (kept, added) <- remap_rules f (rules g);
  do g1 <- fold_res add_rule added (set_rules g kept);
  do rs <- map_res f (roots g1);
  let g2 := set_roots g1 rs in
  do ws <- map_res (remap_wrapped f) (wroots g2);
  let g3 := set_wrapped_roots g2 ws in
  do s <- src_remap f (src g3);
  Ok (mkCfg s (rules g3) (roots g3) (wroots g3) (limit g3)).

(** remap_symbols.rs 51, 59-66: the inverse of the sorted list, filled in a new mapping *)
Definition fill_internal (te : list nat) (n : nat) : res (list (option nat)) :=
  fold_res (fun ti p => set_ix ti (fst p) (Some (snd p)))
           (combine te (seq 0 (List.length te))) (to_internal (mapping_new n)).

(** remap_symbols.rs 46-69: reorder_symbols.  The sort is the one of Base. *)
Definition reorder_symbols (cmp : nat -> nat -> comparison) (r : remap) : res remap :=
  let n := num_syms (rm_grammar r) in
  let te := sort_by cmp (seq 0 n) in
  do ti <- fill_internal te n;
  let new_mapping := mkMapping ti te in
  do m <- mapping_translate (rm_mapping r) new_mapping;
  do g <- remap_symbols (fun s => do o <- get_ix ti s;
                                  match o with Some x => Ok x | None => Panic end) (rm_grammar r);
  Ok (mkRemap g m).

(** Ord for bool *)
Definition bool_cmp (a b : bool) : comparison :=
  match a, b with
  | false, true => Lt
  | true, false => Gt
  | _, _ => Eq
  end.

(** cfg-symbol/src/source.rs 200-214: truncate; without the numeric limits, see SymbolModel.v *)
Definition src_truncate (s : source) (n : nat) : res source :=
  if n =? 0 then Panic else Ok (mkSrc n (firstn n (names s))).

(** remap_symbols.rs 35-42: remove_unused_symbols.  The comparison indexes the set, which has all
    symbols that are compared. *)
Definition remove_unused_symbols (r : remap) : res remap :=
  do unused <- unused_symbols (rm_grammar r);
  do r1 <- reorder_symbols (fun a b => bool_cmp (nth a unused false) (nth b unused false)) r;
  let g := rm_grammar r1 in
  do s <- src_truncate (src g) (num_syms g - List.length (bs_iter unused));
  Ok (mkRemap (mkCfg s (rules g) (roots g) (wroots g) (limit g)) (rm_mapping r1)).

(** The operations of a Remap that keep its mapping up to date. *)
Inductive remap_op :=
| Reorder (cmp : nat -> nat -> comparison)
| RemoveUnused.
Definition remap_step (r : remap) (o : remap_op) : res remap :=
  match o with
  | Reorder cmp => reorder_symbols cmp r
  | RemoveUnused => remove_unused_symbols r
  end.
Definition remap_run (ops : list remap_op) (g : cfg) : res remap :=
  fold_res remap_step ops (remap_new g).
