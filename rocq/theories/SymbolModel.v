(** Model of the crate [cfg-symbol]: symbols, symbol sources, mappings. *)

From Coq Require Import List Arith NArith Bool String DecimalString.
From Verif Require Import Base.
Import ListNotations.

Definition u32_max : N := 4294967295%N.

(** cfg-symbol/src/symbol.rs 17-40: trait SymbolPrimitive, its three implementations and
    their constant MAX. *)
Inductive width := W8 | W16 | W32.

Definition max_of (w : width) : N :=
  match w with
  | W8 => 255%N
  | W16 => 65535%N
  | W32 => u32_max
  end.

(** cfg-symbol/src/symbol.rs 46-48: [Symbol { n }], a non-zero number.  A symbol is
    modelled by the number [n]; [valid_sym] is the type invariant of NonZeroU8/16/32. *)
Definition nzsym := N.
Definition valid_sym (w : width) (s : nzsym) : Prop := (1 <= s /\ s <= max_of w)%N.

(** cfg-symbol/src/symbol.rs 58-66: Symbol::first *)
Definition sym_first : nzsym := 1%N.

(** cfg-symbol/src/symbol.rs 73-78: Symbol::usize (the same as Into<u32>, 81-86) *)
Definition sym_usize (s : nzsym) : N := (s - 1)%N.

(** cfg-symbol/src/symbol.rs 119-128: miniserde Serialize *)
Definition sym_serialize (s : nzsym) : N := sym_usize s.

(** cfg-symbol/src/symbol.rs 97-111: miniserde Visitor::nonnegative.  The argument is a
    u64.  NonZeroU32::new((n+1) as u32) truncates to 32 bits; the conversion to the
    narrower type fails when the number does not fit. *)
Definition sym_deserialize (w : width) (n : N) : option nzsym :=
  if (n <? max_of w)%N then
    let m := ((n + 1) mod (u32_max + 1))%N in
    if (m =? 0)%N then None
    else if (m <=? max_of w)%N then Some m else None
  else None.

(** cfg-symbol/src/source.rs 65-69: struct SymbolSource *)
Record symbol_source := mkSource {
  next_symbol : nzsym;
  source_names : list (option string)
}.

(** cfg-symbol/src/source.rs 81-90: fn advance.  [debug] tells whether debug assertions
    are on. *)
Definition sym_advance (debug : bool) (w : width) (n : nzsym) : res nzsym :=
  let x := if (n =? u32_max)%N then n else (n + 1)%N in
  if (x <=? max_of w)%N then
    if debug && (x =? max_of w)%N then Panic else Ok x
  else Panic.

(** cfg-symbol/src/source.rs 94-99: SymbolSource::new *)
Definition source_new : symbol_source := mkSource sym_first [].

(** cfg-symbol/src/source.rs 122-127: SymbolSource::next_sym *)
Definition source_next_sym (debug : bool) (w : width) (src : symbol_source)
    (name : option string) : res (nzsym * symbol_source) :=
  do nx <- sym_advance debug w (next_symbol src);
  Ok (next_symbol src, mkSource nx (source_names src ++ [name])).

(** cfg-symbol/src/source.rs 101-120: SymbolSource::sym, with_names; 156-158, 245-250:
    generate.  All of them call next_sym repeatedly. *)
Fixpoint source_issue (debug : bool) (w : width) (src : symbol_source)
    (names : list (option string)) : res (list nzsym * symbol_source) :=
  match names with
  | [] => Ok ([], src)
  | name :: names' =>
      do (s, src1) <- source_next_sym debug w src name;
      do (l, src2) <- source_issue debug w src1 names';
      Ok (s :: l, src2)
  end.

(** cfg-symbol/src/source.rs 162-176: generate_fresh: the first [k] symbols. *)
Fixpoint generate_from (debug : bool) (w : width) (n : nzsym) (k : nat) : res (list nzsym) :=
  match k with
  | 0 => Ok []
  | S k' =>
      do nx <- sym_advance debug w n;
      do l <- generate_from debug w nx k';
      Ok (n :: l)
  end.
Definition generate_fresh (debug : bool) (w : width) (k : nat) : res (list nzsym) :=
  generate_from debug w sym_first k.

(** cfg-symbol/src/source.rs 151-153: num_syms *)
Definition source_num_syms (src : symbol_source) : N := sym_usize (next_symbol src).

Definition string_of_nat (n : nat) : string := NilEmpty.string_of_uint (Nat.to_uint n).

(** cfg-symbol/src/source.rs 134-139: name_of, on the list of names *)
Definition names_name_of (names : list (option string)) (s : nat) : string :=
  match nth_error names s with
  | Some (Some name) => name
  | _ => append "g" (string_of_nat s)
  end.
Definition source_name_of (src : symbol_source) (s : nzsym) : string :=
  names_name_of (source_names src) (N.to_nat (sym_usize s)).

(** cfg-symbol/src/source.rs 143-148: original_name_of, on the list of names *)
Definition names_original_name_of (names : list (option string)) (s : nat) : option string :=
  match nth_error names s with
  | Some n => n
  | None => None
  end.
Definition source_original_name_of (src : symbol_source) (s : nzsym) : option string :=
  names_original_name_of (source_names src) (N.to_nat (sym_usize s)).

(** cfg-symbol/src/source.rs 200-214: truncate.  [new_len as u32 + 1] overflows for
    u32::MAX, which panics in debug mode and gives zero, hence a panic too, otherwise. *)
Definition source_truncate (w : width) (src : symbol_source) (new_len : N) : res symbol_source :=
  if (new_len =? 0)%N then Panic
  else if (max_of w <? new_len)%N then Panic
  else if (max_of w <? new_len + 1)%N then Panic
  else Ok (mkSource (new_len + 1)%N (firstn (N.to_nat new_len) (source_names src))).

(** cfg-symbol/src/source.rs 179-192: remap_symbols, on the list of names.  The loop body:
    extend the new list with None up to the target, then write.  [map] is on usize values. *)
Fixpoint remap_names_loop (map : nat -> nat) (i : nat) (names new_names : list (option string))
    : list (option string) :=
  match names with
  | [] => new_names
  | name :: names' =>
      let new_sym := map i in
      let extended := (new_names ++ repeat None (S new_sym - List.length new_names))%list in
      remap_names_loop map (S i) names' (upd extended new_sym name)
  end.
Definition remap_names (map : nat -> nat) (names : list (option string)) : list (option string) :=
  remap_names_loop map 0 names [].

(** cfg-symbol/src/source.rs 228-234: name_map.  The HashMap is a list of pairs, in
    insertion order; a later pair replaces an earlier one with the same name. *)
Fixpoint name_pairs (i : nat) (names : list (option string)) : list (string * nat) :=
  match names with
  | [] => []
  | Some name :: names' => (name, i) :: name_pairs (S i) names'
  | None :: names' => name_pairs (S i) names'
  end.
Definition name_map (names : list (option string)) : list (string * nat) := name_pairs 0 names.
Fixpoint map_lookup (l : list (string * nat)) (name : string) : option nat :=
  match l with
  | [] => None
  | (k, v) :: l' =>
      match map_lookup l' name with
      | Some x => Some x
      | None => if String.eqb k name then Some v else None
      end
  end.

(** cfg-symbol/src/intern.rs 12-17: struct Mapping; symbols are usize values. *)
Record mapping := mkMapping {
  to_internal : list (option nat);
  to_external : list nat
}.

(** cfg-symbol/src/intern.rs 22-27: Mapping::new *)
Definition mapping_new (num_external : nat) : mapping :=
  mkMapping (repeat None num_external) [].

Fixpoint map_res {A B : Type} (f : A -> res B) (l : list A) : res (list B) :=
  match l with
  | [] => Ok []
  | a :: l' => do b <- f a; do l2 <- map_res f l'; Ok (b :: l2)
  end.

(** cfg-symbol/src/intern.rs 31-48: Mapping::translate *)
Definition mapping_translate (self other : mapping) : res mapping :=
  let ti := map (fun internal =>
                   match internal with
                   | Some sym => match nth_error (to_internal other) sym with
                                 | Some x => x
                                 | None => None
                                 end
                   | None => None
                   end) (to_internal self) in
  do te <- map_res (fun middle => get_ix (to_external self) middle) (to_external other);
  Ok (mkMapping ti te).
