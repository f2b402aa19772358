(** Model of cfg-grammar/src/symbol_bit_set.rs.  A BitVec is a list of booleans. *)

From Coq Require Import List Arith Bool.
From Verif Require Import Base CfgModel.
Import ListNotations.

Definition bitset := list bool.

(** symbol_bit_set.rs 26-30: new *)
Definition bs_new : bitset := [].

(** symbol_bit_set.rs 33-37: from_elem *)
Definition bs_from_elem (g : cfg) (elem : bool) : bitset := repeat elem (num_syms g).

(** symbol_bit_set.rs 44-48: reset *)
Definition bs_reset (g : cfg) : bitset := repeat false (num_syms g).

(** symbol_bit_set.rs 54-58: set_all *)
Definition bs_set_all (g : cfg) : bitset := repeat true (num_syms g).

(** symbol_bit_set.rs 140-142: set; BitVec::set panics when out of range *)
Definition bs_set (b : bitset) (s : nat) (elem : bool) : res bitset := set_ix b s elem.

(** symbol_bit_set.rs 193-203: Index; panics when out of range *)
Definition bs_get (b : bitset) (s : nat) : res bool := get_ix b s.

(** symbol_bit_set.rs 61-69: used *)
Definition bs_mark_rule (elem : bool) (b : bitset) (r : rule) : res bitset :=
  do b1 <- bs_set b (lhs r) elem;
  fold_res (fun b s => bs_set b s elem) (rhs r) b1.
Definition bs_used (g : cfg) : res bitset := fold_res (bs_mark_rule true) (rules g) (bs_reset g).

(** symbol_bit_set.rs 73-81: unused *)
Definition bs_unused (g : cfg) : res bitset := fold_res (bs_mark_rule false) (rules g) (bs_set_all g).

(** symbol_bit_set.rs 85-87: negate *)
Definition bs_negate (b : bitset) : bitset := map negb b.

(** symbol_bit_set.rs 93-98: terminal *)
Definition bs_terminal (g : cfg) : res bitset :=
  fold_res (fun b r => bs_set b (lhs r) false) (rules g) (bs_set_all g).

(** symbol_bit_set.rs 104-113: nulling *)
Definition bs_nulling (g : cfg) (b : bitset) : res bitset :=
  let b0 := if List.length b =? 0 then bs_reset g else b in
  fold_res (fun b r => if is_nil (rhs r) then bs_set b (lhs r) true else Ok b) (rules g) b0.

(** symbol_bit_set.rs 119-126: productive *)
Definition bs_productive (g : cfg) (b : bitset) : res bitset :=
  let b0 := if List.length b =? 0 then bs_reset g else b in
  fold_res (fun b r => bs_set b (lhs r) true) (rules g) b0.

(** symbol_bit_set.rs 130-137: subtract_productive *)
Definition bs_subtract_productive (g : cfg) (b : bitset) : res bitset :=
  let b0 := if List.length b =? 0 then bs_set_all g else b in
  fold_res (fun b r => bs_set b (lhs r) false) (rules g) b0.

(** symbol_bit_set.rs 155-160: iter.  The symbols zipped in have the usize values 0, 1, ... *)
Fixpoint bs_iter_from (i : nat) (b : bitset) : list nat :=
  match b with
  | [] => []
  | true :: b' => i :: bs_iter_from (S i) b'
  | false :: b' => bs_iter_from (S i) b'
  end.
Definition bs_iter (b : bitset) : list nat := bs_iter_from 0 b.

(** symbol_bit_set.rs 163-165: union; BitVec::or asserts that the lengths are equal *)
Definition bs_union (a b : bitset) : res bitset :=
  if List.length a =? List.length b then Ok (map (fun p => fst p || snd p) (combine a b)) else Panic.

(** symbol_bit_set.rs 168-170: space *)
Definition bs_space (b : bitset) : nat := List.length b.

(** symbol_bit_set.rs 174-176: all *)
Definition bs_all (b : bitset) : bool := forallb (fun x => x) b.

(** symbol_bit_set.rs 179-181: is_empty *)
Definition bs_is_empty (b : bitset) : bool := existsb (fun x => x) b.

(** symbol_bit_set.rs 184-187: reserve *)
Definition bs_reserve (b : bitset) (len : nat) : bitset := b ++ repeat false (len - List.length b).

(** symbol_bit_set.rs 207-211: Cfg::terminal_symbols *)
Definition terminal_symbols (g : cfg) : res bitset := bs_terminal g.

(** symbol_bit_set.rs 214-219: Cfg::nulling_symbols *)
Definition nulling_symbols (g : cfg) : res bitset := bs_nulling g (bs_reset g).

(** symbol_bit_set.rs 222-227: Cfg::unused_symbols *)
Definition unused_symbols (g : cfg) : res bitset := bs_unused g.
