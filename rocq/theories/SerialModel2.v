(** Model of the serialization of origins, events, distances, dotted rules and symbol sets. *)

From Coq Require Import List Arith NArith Bool String.
From Verif Require Import Base SymbolModel BitSetModel SerialModel.
Import ListNotations.
Local Open Scope string_scope.

(** miniserde: Serialize and Deserialize for u32 *)
Definition u32_write (n : N) : json := JNat n.
Definition u32_read (j : json) : option N :=
  match j with JNat n => if (n <=? u32_max)%N then Some n else None | _ => None end.

(** What derive(Serialize, Deserialize) makes of a struct with one field of type u32 *)
Definition field_write (key : string) (n : N) : json := JObj [(key, u32_write n)].
Definition field_read (key : string) (j : json) : option N :=
  match j with
  | JObj l => match obj_field u32_read key l with Some (Some n) => Some n | _ => None end
  | _ => None
  end.

(** cfg-history/src/earley/mod.rs 13-22: ExternalOrigin *)
Definition origin_write (id : N) : json := field_write "id" id.
Definition origin_read (j : json) : option N := field_read "id" j.
(** cfg-history/src/earley/mod.rs 24-33: EventId *)
Definition event_write (id : N) : json := field_write "id" id.
Definition event_read (j : json) : option N := field_read "id" j.
(** cfg-history/src/earley/mod.rs 35-44: MinimalDistance *)
Definition distance_write (d : N) : json := field_write "distance" d.
Definition distance_read (j : json) : option N := field_read "distance" j.
(** cfg-history/src/earley/mod.rs 48-58: ExternalDottedRule, as the pair of id and pos *)
Definition dotted_write (d : N * N) : json := JObj [("id", u32_write (fst d)); ("pos", u32_write (snd d))].
Definition dotted_read (j : json) : option (N * N) :=
  match j with
  | JObj l =>
      match obj_field u32_read "id" l, obj_field u32_read "pos" l with
      | Some (Some i), Some (Some p) => Some (i, p)
      | _, _ => None
      end
  | _ => None
  end.

(** cfg-history/src/earley/mod.rs 91-93: ExternalOrigin::is_null *)
Definition origin_is_null (id : N) : bool := (id =? u32_max)%N.

(** The same with derive(SerBin, DeBin): the fields in their order *)
Definition number_ser_bin (n : N) : list N := u32_ser_bin n.
Definition number_de_bin (offset : nat) (bytes : list N) : option (N * nat) := u32_de_bin offset bytes.
Definition dotted_ser_bin (d : N * N) : list N := (u32_ser_bin (fst d) ++ u32_ser_bin (snd d))%list.
Definition dotted_de_bin (offset : nat) (bytes : list N) : option (N * N * nat) :=
  match u32_de_bin offset bytes with
  | Some (i, o) => match u32_de_bin o bytes with Some (p, o') => Some (i, p, o') | None => None end
  | None => None
  end.

(** bit_vec::BitVec: blocks of 32 bits, the least significant one first, and the number of bits *)
Record bit_vec := mkBitVec { bv_storage : list N; bv_nbits : nat }.
Fixpoint block_of (l : list bool) : N :=
  match l with
  | [] => 0%N
  | b :: l' => ((if b then 1 else 0) + 2 * block_of l')%N
  end.
Fixpoint blocks_of (fuel : nat) (b : list bool) : list N :=
  match fuel, b with
  | S fuel', _ :: _ => block_of (firstn 32 b) :: blocks_of fuel' (skipn 32 b)
  | _, _ => []
  end.
Definition bit_vec_of (b : bitset) : bit_vec := mkBitVec (blocks_of (List.length b) b) (List.length b).
(** BitVec::get *)
Definition bv_get (v : bit_vec) (i : nat) : option bool :=
  if Nat.ltb i (bv_nbits v) then
    match nth_error (bv_storage v) (i / 32) with
    | Some block => Some (N.testbit block (N.of_nat (i mod 32)))
    | None => None
    end
  else None.

(** cfg-grammar/src/symbol_bit_set.rs 12-16: derive(Serialize, Deserialize) for SymbolBitSet, and bit-vec's
    derive for BitVec; usize has 64 bits *)
Definition usize_max : N := 18446744073709551615%N.
Definition size_read (j : json) : option nat :=
  match j with JNat n => if (n <=? usize_max)%N then Some (N.to_nat n) else None | _ => None end.
Definition bit_vec_write (v : bit_vec) : json :=
  JObj [("storage", JArr (map u32_write (bv_storage v))); ("nbits", JNat (N.of_nat (bv_nbits v)))].
Definition bit_vec_read (j : json) : option bit_vec :=
  match j with
  | JObj l =>
      match obj_field (read_vec u32_read) "storage" l, obj_field size_read "nbits" l with
      | Some (Some s), Some (Some n) => Some (mkBitVec s n)
      | _, _ => None
      end
  | _ => None
  end.
Definition set_write (b : bitset) : json := JObj [("bit_vec", bit_vec_write (bit_vec_of b))].
Definition set_read (j : json) : option bit_vec :=
  match j with
  | JObj l => match obj_field bit_vec_read "bit_vec" l with Some (Some v) => Some v | _ => None end
  | _ => None
  end.

(** symbol_bit_set.rs 193-204: Index; BitVec's Index panics where [get] is None *)
Definition set_index (v : bit_vec) (s : nat) : res bool :=
  match bv_get v s with Some b => Ok b | None => Panic end.
