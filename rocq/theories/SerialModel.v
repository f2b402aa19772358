(** Model of the serialization of symbols, symbol sources and mappings (crate [cfg-symbol]).
    JSON texts are given as trees; writing and parsing the text itself is done by miniserde. *)

From Coq Require Import List Arith NArith Bool String.
From Verif Require Import Base SymbolModel.
Import ListNotations.
Local Open Scope string_scope.

(** miniserde::json::Value; [JOther] stands for negative and floating-point numbers *)
Inductive json :=
| JNull
| JBool (b : bool)
| JNat (n : N)
| JOther
| JStr (s : string)
| JArr (l : list json)
| JObj (l : list (string * json)).

(** What derive(Deserialize) makes of the entries of an object for one of the fields: every entry with its key
    is read, the last one counts, others are ignored.  None is an error, Some None a missing field. *)
Fixpoint obj_field {A : Type} (read : json -> option A) (key : string) (l : list (string * json)) : option (option A) :=
  match l with
  | [] => Some None
  | (k, v) :: l' =>
      if String.eqb k key then
        match read v, obj_field read key l' with
        | Some a, Some None => Some (Some a)
        | Some _, Some (Some b) => Some (Some b)
        | _, _ => None
        end
      else obj_field read key l'
  end.

(** miniserde: Deserialize for Vec *)
Fixpoint read_all {A : Type} (read : json -> option A) (l : list json) : option (list A) :=
  match l with
  | [] => Some []
  | v :: l' => match read v, read_all read l' with
               | Some a, Some r => Some (a :: r)
               | _, _ => None
               end
  end.
Definition read_vec {A : Type} (read : json -> option A) (j : json) : option (list A) :=
  match j with JArr l => read_all read l | _ => None end.

(** miniserde: Deserialize and Serialize for Option *)
Definition read_option {A : Type} (read : json -> option A) (j : json) : option (option A) :=
  match j with
  | JNull => Some None
  | _ => match read j with Some a => Some (Some a) | None => None end
  end.
Definition write_option {A : Type} (write : A -> json) (x : option A) : json :=
  match x with Some a => write a | None => JNull end.

(** cfg-symbol/src/symbol.rs 88-129: miniserde Serialize, Deserialize for Symbol *)
Definition sym_write (s : nzsym) : json := JNat (sym_serialize s).
Definition sym_read (w : width) (j : json) : option nzsym :=
  match j with JNat n => sym_deserialize w n | _ => None end.

(** cfg-symbol/src/source.rs 253-277: miniserde Serialize, Deserialize for SymbolName *)
Definition name_write (s : string) : json := JStr s.
Definition name_read (j : json) : option string :=
  match j with JStr s => Some s | _ => None end.

(** cfg-symbol/src/source.rs 66-71: derive(Serialize, Deserialize) for SymbolSource *)
Definition source_write (src : symbol_source) : json :=
  JObj [("next_symbol", sym_write (next_symbol src));
        ("names", JArr (map (write_option name_write) (source_names src)))].
Definition source_read (w : width) (j : json) : option symbol_source :=
  match j with
  | JObj l =>
      match obj_field (sym_read w) "next_symbol" l, obj_field (read_vec (read_option name_read)) "names" l with
      | Some (Some n), Some (Some names) => Some (mkSource n names)
      | _, _ => None
      end
  | _ => None
  end.

(** cfg-symbol/src/intern.rs 11-17: derive(Serialize, Deserialize) for Mapping; symbols are usize values *)
Definition usize_write (s : nat) : json := JNat (N.of_nat s).
Definition usize_read (j : json) : option nat :=
  match sym_read W32 j with Some s => Some (N.to_nat (sym_usize s)) | None => None end.
Definition mapping_write (m : mapping) : json :=
  JObj [("to_internal", JArr (map (write_option usize_write) (to_internal m)));
        ("to_external", JArr (map usize_write (to_external m)))].
Definition mapping_read (j : json) : option mapping :=
  match j with
  | JObj l =>
      match obj_field (read_vec (read_option usize_read)) "to_internal" l,
            obj_field (read_vec usize_read) "to_external" l with
      | Some (Some a), Some (Some b) => Some (mkMapping a b)
      | _, _ => None
      end
  | _ => None
  end.

(** nanoserde: SerBin and DeBin for u32, least significant byte first; bytes are numbers below 256.  [None] is
    DeBinErr, otherwise the number and the new offset. *)
Definition u32_ser_bin (n : N) : list N :=
  [n mod 256; n / 256 mod 256; n / 65536 mod 256; n / 16777216 mod 256]%N.
Definition u32_de_bin (offset : nat) (bytes : list N) : option (N * nat) :=
  match skipn offset bytes with
  | (a :: b :: c :: d :: _) => Some ((a + 256 * b + 65536 * c + 16777216 * d)%N, offset + 4)
  | _ => None
  end.

(** cfg-symbol/src/symbol.rs 141-146: SerBin for Symbol<NonZeroU32> *)
Definition sym_ser_bin (s : nzsym) : list N := u32_ser_bin s.
(** cfg-symbol/src/symbol.rs 132-139: DeBin for Symbol<NonZeroU32>; try_into().unwrap() panics on zero *)
Definition sym_de_bin (offset : nat) (bytes : list N) : res (option (nzsym * nat)) :=
  match u32_de_bin offset bytes with
  | None => Ok None
  | Some (n, offset') => if (n =? 0)%N then Panic else Ok (Some (n, offset'))
  end.
