(** Model of cfg-grammar/src/cfg.rs: rules that are written with names. *)

From Coq Require Import List Arith NArith Bool String.
From Verif Require Import Base SymbolModel HistoryModel CfgModel.
Import ListNotations.

(** cfg-grammar/src/cfg.rs 742-774: NamedCfgRule::new and with_history.  For an empty list, [names.len() - 1]
    panics in debug builds; in release builds it wraps around, and no memory holds so many symbols: [OutOfFuel]. *)
Definition named_new (debug : bool) (names : list (option string)) (h : option history) : res named_rule :=
  match names with
  | [] => if debug then Panic else OutOfFuel
  | _ :: _ =>
      do l <- generate_fresh debug W32 (List.length names);
      match map (fun s => N.to_nat (sym_usize s)) l with
      | lhs :: rhs => Ok (mkNamed lhs rhs h names)
      | [] => Panic
      end
  end.
