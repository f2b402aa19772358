(** Model of cfg-grammar/src/cfg.rs: binarize_and_eliminate_nulling_rules. *)

From Coq Require Import List Arith NArith Bool.
From Verif Require Import Base SymbolModel HistoryModel CfgModel BitSetModel ClosureModel.
Import ListNotations.

(** [rhs.get(i).map(is_nullable)] *)
Definition opt_nullable (p : bitset) (s : option nat) : res (option bool) :=
  match s with
  | None => Ok None
  | Some x => do b <- bs_get p x; Ok (Some b)
  end.

(** cfg.rs 319-330: maybe_which *)
Definition elim_which (p : bitset) (r : rule) : res (option rhs_range) :=
  do n0 <- opt_nullable p (nth_error (rhs r) 0);
  do n1 <- opt_nullable p (nth_error (rhs r) 1);
  match n0, n1 with
  | Some true, Some true => Ok (Some (RAll 2))
  | Some true, None => Ok (Some (RAll 1))
  | None, None => Ok (Some (RAll 0))
  | Some true, Some false => Ok (Some RLeft)
  | Some false, Some true => Ok (Some RRight)
  | Some false, None => Ok None
  | Some false, Some false => Ok None
  | None, Some _ => Panic
  end.

(** cfg.rs 313-370: the loop body.  The state is (rewritten_work, result). *)
Definition elim_rule (p : bitset) (st : cfg * cfg) (r : rule) : res (cfg * cfg) :=
  let (work, result) := st in
  if negb (List.length (rhs r) <=? 2) then Panic else
  do maybe_which <- elim_which p r;
  match maybe_which with
  | None => Ok (work, result)
  | Some which =>
      do h <- history_eliminate_nulling (hist r) (nth_error (rhs r) 0) (nth_error (rhs r) 1) which;
      match which with
      | RAll n =>
          do work1 <- (if n =? 2 then
                         do w1 <- rule_history_rhs work (lhs r) h (firstn 1 (rhs r));
                         rule_history_rhs w1 (lhs r) h (firstn 1 (skipn 1 (rhs r)))
                       else Ok work);
          do result1 <- rule_history_rhs result (lhs r) h (range_slice which (rhs r));
          Ok (work1, result1)
      | RLeft | RRight =>
          do keep <- range_negate which;
          do work1 <- rule_history_rhs work (lhs r) h (range_slice keep (rhs r));
          Ok (work1, result)
      end
  end.

(** cfg.rs 296-399: the grammar that is left and the returned grammar *)
Definition eliminate_nulling (g : cfg) : res (cfg * cfg) :=
  do g1 <- limit_rhs_len g (Some 2);
  let result := cfg_with_source (src g1) in
  do nulling <- nulling_symbols g1;
  do p <- rhs_closure_for_all g1 nulling;
  if List.length (bs_iter p) =? 0 then Ok (g1, result)
  else
    do (work, result1) <- fold_res (elim_rule p) (rules g1) (cfg_new, result);
    let g2 := cfg_extend g1 work in
    let g3 := cfg_retain (fun r => negb (is_nil (rhs r))) g2 in
    do t <- bs_terminal g3;
    do q <- bs_subtract_productive result1 t;
    do productive <- rhs_closure_for_all g3 q;
    (* the closure of retain indexes the set; rules are within its space *)
    Ok (cfg_retain (fun r => nth (lhs r) productive false) g3, result1).
