(** Model of the crate [cfg-history]. *)

From Coq Require Import List Arith NArith Bool.
From Verif Require Import Base SymbolModel FloatModel.
Import ListNotations.

(** [!0u32] *)
Definition not0 : N := u32_max.

(** [n as u32] *)
Definition as_u32 (n : nat) : N := (N.of_nat n mod (u32_max + 1))%N.

(** cfg-history/src/earley/rule_dot.rs 7-14: struct RuleDot; earley/mod.rs 19-58:
    EventId, MinimalDistance, ExternalDottedRule *)
Record rule_dot := mkDot {
  dot_event : N;
  dot_trace_id : N;
  dot_trace_pos : N;
  dot_distance : N
}.

(** cfg-history/src/earley/rule_dot.rs 18-24: RuleDot::new *)
Definition dot_new (id pos : N) : rule_dot := mkDot 0 id pos not0.
(** cfg-history/src/earley/rule_dot.rs 27-33: RuleDot::none *)
Definition dot_none : rule_dot := mkDot 0 not0 not0 not0.
(** derive(Default) for RuleDot: all fields zero *)
Definition dot_default : rule_dot := mkDot 0 0 0 0.

(** cfg-history/src/earley/mod.rs 122-126: struct SequenceDetails *)
Record sequence_details := mkSeqDetails {
  sd_top : bool;
  sd_rhs : nat;
  sd_sep : option nat
}.

(** cfg-history/src/earley/mod.rs 105-119: struct History.  [dots] has three elements. *)
Record history := mkHistory {
  h_dot0 : rule_dot;
  h_dot1 : rule_dot;
  h_dot2 : rule_dot;
  h_origin : N;
  h_nullable : option (nat * bool);
  h_weight : option N;
  h_sequence : option sequence_details
}.

(** derive(Default) for History *)
Definition history_default : history :=
  mkHistory dot_default dot_default dot_default 0 None None None.

(** cfg-history/src/earley/mod.rs 191-197: History::new *)
Definition history_new (id : N) : history :=
  mkHistory dot_default dot_default dot_default id None None None.

(** cfg-history/src/earley/mod.rs 210-212: History::dot *)
Definition history_dot (h : history) (n : nat) : rule_dot :=
  match n with
  | 0 => h_dot0 h
  | 1 => h_dot1 h
  | 2 => h_dot2 h
  | _ => dot_none
  end.

(** cfg-history/src/earley/mod.rs 214-216: History::at_dot *)
Definition at_dot (h : history) (n : nat) : rule_dot := dot_new (h_origin h) (as_u32 n).

(** cfg-history/src/earley/mod.rs 218-251: History::binarize.  [full_len - 2 - height]
    is a usize subtraction (a debug panic on underflow); here it is truncated at zero, and
    [binarize_no_underflow] in the proofs shows that add_rule never underflows. *)
Definition history_binarize (h : history) (height full_len : nat) (is_top : bool) : history :=
  let '(d0, d1, d2) :=
    if is_top then
      if full_len =? 2 then (at_dot h 0, dot_none, at_dot h 1)
      else if 3 <=? full_len then (at_dot h 0, at_dot h (full_len - 2), at_dot h (full_len - 1))
      else (at_dot h 0, dot_none, dot_none)
    else (dot_none, at_dot h (full_len - 2 - height), dot_none) in
  mkHistory d0 d1 d2 (if is_top then h_origin h else not0)
            (h_nullable h) (h_weight h) (h_sequence h).

(** cfg-history/src/lib.rs 281-288: enum BinarizedRhsRange *)
Inductive rhs_range := RLeft | RRight | RAll (num : nat).

(** cfg-history/src/lib.rs 292-298: as_range, as a slice operation on a right-hand side *)
Definition range_slice (r : rhs_range) (l : list nat) : list nat :=
  match r with
  | RLeft => firstn 1 l
  | RRight => firstn 1 (skipn 1 l)
  | RAll n => firstn n l
  end.

(** cfg-history/src/lib.rs 305-311: negate (unreachable!() for All) *)
Definition range_negate (r : rhs_range) : res rhs_range :=
  match r with
  | RLeft => Ok RRight
  | RRight => Ok RLeft
  | RAll _ => Panic
  end.

(** cfg-history/src/earley/mod.rs 253-275: History::eliminate_nulling *)
Definition history_eliminate_nulling (h : history) (rhs0 rhs1 : option nat) (subset : rhs_range)
    : res history :=
  match subset with
  | RAll _ => Ok (mkHistory dot_default dot_default dot_default (h_origin h) None None None)
  | RRight =>
      match rhs1 with
      | Some sym => Ok (mkHistory (h_dot0 h) (h_dot1 h) (h_dot2 h) (h_origin h)
                                  (Some (sym, true)) (h_weight h) (h_sequence h))
      | None => Panic
      end
  | RLeft =>
      match rhs0 with
      | Some sym => Ok (mkHistory (h_dot0 h) (h_dot1 h) (h_dot2 h) (h_origin h)
                                  (Some (sym, false)) (h_weight h) (h_sequence h))
      | None => Panic
      end
  end.

(** cfg-history/src/earley/mod.rs 93-98: enum SymKind *)
Inductive sym_kind := KElement | KSeparator | KOther.

(** cfg-history/src/earley/mod.rs 291-330: History::rewrite_sequence_bottom.  [kinds] is the
    iterator [syms]; the loop takes three elements. *)
Definition seq_kind (d : sequence_details) (s : nat) : sym_kind :=
  if s =? sd_rhs d then KElement
  else match sd_sep d with
       | Some sep => if s =? sep then KSeparator else KOther
       | None => KOther
       end.
Definition seq_dot (h : history) (to_left to_right : sym_kind) : rule_dot :=
  match to_left, to_right with
  | _, KSeparator => h_dot1 h
  | KSeparator, _ => h_dot2 h
  | KElement, _ => h_dot1 h
  | _, KElement => h_dot0 h
  | _, _ => dot_none
  end.
Fixpoint seq_dots (h : history) (to_left : sym_kind) (kinds : list sym_kind) (n : nat)
    : list rule_dot :=
  match n with
  | 0 => []
  | S n' => match kinds with
            | [] => dot_none :: seq_dots h to_left [] n'
            | k :: kinds' => seq_dot h to_left k :: seq_dots h k kinds' n'
            end
  end.
Definition rewrite_sequence_bottom (h : history) (d : sequence_details) (new_rhs : list nat)
    : history :=
  let dots := seq_dots h KOther (map (seq_kind d) new_rhs ++ [KOther]) 3 in
  mkHistory (nth 0 dots dot_none) (nth 1 dots dot_none) (nth 2 dots dot_none) 0 None None None.
(** cfg-history/src/earley/mod.rs 277-289: rewrite_sequence, rewrite_sequence_top *)
Definition rewrite_sequence (h : history) (d : sequence_details) (new_rhs : list nat) : history :=
  let b := rewrite_sequence_bottom h d new_rhs in
  if sd_top d then
    mkHistory (h_dot0 b) (h_dot1 b) (h_dot2 b) (h_origin h) (h_nullable b) (h_weight b)
              (h_sequence b)
  else b.

(** cfg-history/src/lib.rs 19-87: enum LinkedHistoryNode *)
Inductive linked_node :=
| LBinarize (height full_len : nat) (is_top : bool)
| LEliminateNulling (rhs0 rhs1 : option nat) (which : rhs_range)
| LAssignPrecedence (looseness : N)
| LRewriteSequence (top : bool) (rhs : nat) (sep : option nat)
| LSequenceRhs (rhs : list nat)
| LWeight (weight : f64).

(** cfg-history/src/earley/mod.rs 144-173: process_linked.  In the case SequenceRhs the
    result of rewrite_sequence is dropped by the code, so the history is unchanged. *)
Definition process_linked (node : linked_node) (prev : history) : res history :=
  match node with
  | LAssignPrecedence _ => Ok prev
  | LBinarize height full_len is_top => Ok (history_binarize prev height full_len is_top)
  | LEliminateNulling rhs0 rhs1 which => history_eliminate_nulling prev rhs0 rhs1 which
  | LRewriteSequence top rhs sep =>
      Ok (mkHistory (h_dot0 prev) (h_dot1 prev) (h_dot2 prev) (h_origin prev)
                    (h_nullable prev) (h_weight prev) (Some (mkSeqDetails top rhs sep)))
  | LWeight weight =>
      Ok (mkHistory (h_dot0 prev) (h_dot1 prev) (h_dot2 prev) (h_origin prev)
                    (h_nullable prev) (Some (f64_to_u32 (f64_mul weight (f64_of 1000)))) (h_sequence prev))
  | LSequenceRhs rhs =>
      let _dropped := match h_sequence prev with
                      | Some details => rewrite_sequence prev details rhs
                      | None => prev
                      end in
      Ok prev
  end.

(** cfg-history/src/lib.rs 92-105: enum RootHistoryNode *)
Inductive root_node := RNoOp | RRule (lhs : nat) | ROrigin (origin : nat).

(** cfg-history/src/earley/mod.rs 175-181: process_root *)
Definition process_root (node : root_node) : history :=
  match node with
  | RNoOp => history_new not0
  | RRule _ => history_new 0
  | ROrigin origin => history_new (as_u32 origin)
  end.
