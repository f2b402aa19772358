(** Model of the crate [cfg-sequence]. *)

From Coq Require Import List Arith NArith ZArith Bool.
From Verif Require Import Base SpecSeq SymbolModel LoopModel HistoryModel CfgModel ClosureModel.
Import ListNotations.

(** lib.rs 40-51: enum Separator is [SpecSeq.separator]. *)

(** lib.rs 22-36: struct Sequence; start and end are u32 numbers *)
Record sequence := mkSeq {
  sq_lhs : nat;
  sq_rhs : nat;
  sq_start : N;
  sq_end : option N;
  sq_sep : separator;
  sq_hist : option history
}.

(** lib.rs 55-59: inclusive *)
Definition seq_inclusive (s : sequence) (start : N) (end_ : option N) : sequence :=
  mkSeq (sq_lhs s) (sq_rhs s) start end_ (sq_sep s) (sq_hist s).
(** lib.rs 62-65: separator *)
Definition seq_separator (s : sequence) (sep : separator) : sequence :=
  mkSeq (sq_lhs s) (sq_rhs s) (sq_start s) (sq_end s) sep (sq_hist s).

(** std::ops::Bound<u32> *)
Inductive bound := Included (n : N) | Excluded (n : N) | Unbounded.

(** lib.rs 69-73, builder.rs 73-77: to_option.  [as i64] is exact, [as u32] wraps. *)
Definition bound_to_option (b : bound) (diff : Z) : option N :=
  match b with
  | Included n => Some n
  | Excluded n => Some (Z.to_N ((Z.of_N n + diff) mod 4294967296))
  | Unbounded => None
  end.
Definition range_start (b : bound) : N :=
  match bound_to_option b 1 with Some n => n | None => 0%N end.
Definition range_end (b : bound) : option N := bound_to_option b (-1).

(** lib.rs 68-78: range *)
Definition seq_range (s : sequence) (lo hi : bound) : sequence :=
  seq_inclusive s (range_start lo) (range_end hi).
(** [sequence.range(a..=b)] *)
Definition seq_range_incl (s : sequence) (a b : N) : sequence :=
  seq_range s (Included a) (Included b).

(** lib.rs 83-88: prefix_separator *)
Definition prefix_separator (s : separator) : separator :=
  match s with
  | Proper sep | Liberal sep => Trailing sep
  | other => other
  end.

(** lib.rs 91-98: From<Separator> for Option<Symbol> *)
Definition separator_to_option (s : separator) : option nat :=
  match s with
  | Trailing sep => Some sep
  | _ => None
  end.

(** rewrite.rs 28-34, 42-51: struct PartialSequence and its conversion *)
Record seq_key := mkKey { k_rhs : nat; k_start : N; k_end : option N; k_sep : separator }.
Definition key_of (s : sequence) : seq_key := mkKey (sq_rhs s) (sq_start s) (sq_end s) (sq_sep s).

Definition separator_eqb (a b : separator) : bool :=
  match a, b with
  | Trailing x, Trailing y | Proper x, Proper y | Liberal x, Liberal y => x =? y
  | Null, Null => true
  | _, _ => false
  end.
Definition key_eqb (a b : seq_key) : bool :=
  (k_rhs a =? k_rhs b) && (k_start a =? k_start b)%N && option_eqb N.eqb (k_end a) (k_end b)
  && separator_eqb (k_sep a) (k_sep b).

(** rewrite.rs 19-25: struct SequencesToProductions.  The HashMap is an association list; the
    stack is a list whose head is the top; [lhs] and [top] are arguments instead. *)
Record seq_state := mkSS {
  ss_cfg : cfg;
  ss_stack : list sequence;
  ss_map : list (seq_key * nat)
}.

Fixpoint key_lookup (m : list (seq_key * nat)) (k : seq_key) : option nat :=
  match m with
  | [] => None
  | (k', s) :: m' => if key_eqb k' k then Some s else key_lookup m' k
  end.

(** rewrite.rs 94-108: recurse *)
Definition seq_recurse (st : seq_state) (s : sequence) : nat * seq_state :=
  match key_lookup (ss_map st) (key_of s) with
  | Some l => (l, st)
  | None =>
      let (l, g) := next_sym (ss_cfg st) None in
      (l, mkSS g (mkSeq l (sq_rhs s) (sq_start s) (sq_end s) (sq_sep s) (sq_hist s) :: ss_stack st)
               ((key_of s, l) :: ss_map st))
  end.

(** rewrite.rs 110-124: rhs.  [h] is self.top, [l] is self.lhs. *)
Definition seq_rhs (h : history) (l : nat) (st : seq_state) (r : list nat) : res seq_state :=
  if negb (List.length r <=? 3) then Panic else
  do h' <- process_linked (LSequenceRhs r) h;
  do g <- rule_history_rhs (ss_cfg st) l h' r;
  Ok (mkSS g (ss_stack st) (ss_map st)).

(** u32::next_power_of_two: above 2^31 it panics in debug builds and gives 0 in release
    builds. *)
Definition next_power_of_two (debug : bool) (n : N) : res N :=
  if (n <=? 1)%N then Ok 1%N
  else if (n <=? 2147483648)%N then Ok (2 ^ N.log2_up n)%N
  else if debug then Panic else Ok 0%N.

(** u32 subtraction: underflow panics in debug builds and wraps in release builds *)
Definition sub_u32 (debug : bool) (a b : N) : res N :=
  if (b <=? a)%N then Ok (a - b)%N
  else if debug then Panic else Ok (a + (u32_max + 1) - b)%N.

(** rewrite.rs 126-227: reduce; [h] is self.top *)
Definition seq_reduce (debug : bool) (h : history) (st : seq_state) (s : sequence) : res seq_state :=
  let l := sq_lhs s in
  let x := sq_rhs s in
  match sq_sep s with
  | Liberal sep =>
      let (sym1, st1) := seq_recurse st (seq_separator s (Proper sep)) in
      let (sym2, st2) := seq_recurse st1 (seq_separator s (Trailing sep)) in
      do st3 <- seq_rhs h l st2 [sym1];
      seq_rhs h l st3 [sym2]
  | _ =>
      if (sq_start s =? 0)%N then
        match sq_end s with
        | Some 0%N => seq_rhs h l st []
        | end_ =>
            do st1 <- seq_rhs h l st [];
            let (sym, st2) := seq_recurse st1 (seq_inclusive s 1 end_) in
            seq_rhs h l st2 [sym]
        end
      else
      match sq_sep s with
      | Trailing sep =>
          let (sym, st1) := seq_recurse st (seq_separator s (Proper sep)) in
          seq_rhs h l st1 [sym; sep]
      | separator =>
          if (sq_start s =? 1)%N then
            match sq_end s with
            | None =>
                do st1 <- seq_rhs h l st [x];
                match separator with
                | Proper sep => seq_rhs h l st1 [l; sep; x]
                | _ => seq_rhs h l st1 [l; x]
                end
            | Some 1%N => seq_rhs h l st [x]
            | Some 2%N =>
                let (sym1, st1) := seq_recurse st (seq_range_incl s 1 1) in
                let (sym2, st2) := seq_recurse st1 (seq_range_incl s 2 2) in
                do st3 <- seq_rhs h l st2 [sym1];
                seq_rhs h l st3 [sym2]
            | Some end_ =>
                do p <- next_power_of_two debug end_;
                let pow2 := (p / 2)%N in
                do d <- sub_u32 debug end_ pow2;
                let seq1 := seq_range_incl s 1 pow2 in
                let block := seq_range_incl s pow2 pow2 in
                let seq2 := seq_range_incl s 1 d in
                let (rhs1, st1) := seq_recurse st seq1 in
                let (blk, st2) := seq_recurse st1 (seq_separator block (prefix_separator separator)) in
                let (rhs2, st3) := seq_recurse st2 seq2 in
                do st4 <- seq_rhs h l st3 [rhs1];
                seq_rhs h l st4 [blk; rhs2]
            end
          else if (sq_start s =? 2)%N && option_eqb N.eqb (sq_end s) (Some 2%N) then
            match separator with
            | Proper sep => seq_rhs h l st [x; sep; x]
            | _ => seq_rhs h l st [x; x]
            end
          else
            do (seq1, seq2) <-
              (if option_eqb N.eqb (Some (sq_start s)) (sq_end s) then
                 do p <- next_power_of_two debug (sq_start s);
                 let pow2 := (p / 2)%N in
                 do d <- sub_u32 debug (sq_start s) pow2;
                 Ok (seq_range_incl s pow2 pow2, seq_range_incl s d d)
               else
                 do n <- match sq_end s with
                         | None => Ok None
                         | Some e => do d <- sub_u32 debug e (sq_start s);
                                     do d1 <- add_u32 debug d 1; Ok (Some d1)
                         end;
                 Ok (seq_range_incl s (sq_start s - 1) (sq_start s - 1), seq_inclusive s 1 n));
            let (rhs1, st1) := seq_recurse st (seq_separator seq1 (prefix_separator separator)) in
            let (rhs2, st2) := seq_recurse st1 (seq_separator seq2 separator) in
            seq_rhs h l st2 [rhs1; rhs2]
      end
  end.

(** rewrite.rs 88-91: one iteration of the while loop *)
Definition seq_step (debug : bool) (h : history) (st : seq_state) : seq_state + res seq_state :=
  match ss_stack st with
  | [] => inr (Ok st)
  | s :: stack' =>
      if (sq_start s <=? match sq_end s with Some e => e | None => u32_max end)%N then
        match seq_reduce debug h (mkSS (ss_cfg st) stack' (ss_map st)) s with
        | Ok st' => inl st'
        | Panic => inr Panic
        | OutOfFuel => inr OutOfFuel
        end
      else inr Panic
  end.

(** rewrite.rs 66-92: rewrite.  At most 2^80 iterations (proved, for valid ranges). *)
Definition seq_rewrite (debug : bool) (g : cfg) (top : sequence) : res cfg :=
  let prev := match sq_hist top with Some h => h | None => process_root (RRule (sq_lhs top)) end in
  do h_top <- process_linked (LRewriteSequence true (sq_rhs top) (separator_to_option (sq_sep top))) prev;
  do st <- seq_reduce debug h_top (mkSS g [] []) top;
  let prev2 := match sq_hist top with Some h => h | None => process_root RNoOp end in
  do h_bot <- process_linked (LRewriteSequence false (sq_rhs top) (separator_to_option (sq_sep top))) prev2;
  do st' <- run_loop (seq_step debug h_bot) 80 st;
  Ok (ss_cfg st').

(** builder.rs 11-17: struct SequenceRuleBuilder; the destination is one of: a vector of
    sequences (destination.rs 18-21), or a grammar (rewrite.rs 36-40).  [S] is its state. *)
Record seq_builder (S : Type) := mkSB {
  sb_lhs : option nat;
  sb_range : option (N * option N);
  sb_sep : separator;
  sb_hist : option history;
  sb_dest : S
}.
Arguments mkSB {S}. Arguments sb_lhs {S}. Arguments sb_range {S}. Arguments sb_sep {S}.
Arguments sb_hist {S}. Arguments sb_dest {S}.

(** builder.rs 24-32: new *)
Definition seq_builder_new {S : Type} (d : S) : seq_builder S := mkSB None None Null None d.

(** builder.rs 35-101: the calls.  [range] is [SRange], [inclusive] is [SInclusive],
    [intersperse(s)] is [SSeparator (Proper s)], [rhs_with_range(x, r)] is [SRange] followed by
    [SRhs]. *)
Inductive seq_call :=
| SSequence (l : nat)
| SSeparator (s : separator)
| SHistory (h : history)
| SInclusive (start : N) (end_ : option N)
| SRange (lo hi : bound)
| SRhs (x : nat)
| SRhsHistory (x : nat) (h : option history).

Section SeqBuilder.
Context {S : Type}.
Variable add_sequence : S -> sequence -> res S.

(** builder.rs 90-101: rhs_with_history *)
Definition sb_rhs_with_history (b : seq_builder S) (x : nat) (h : option history) : res (seq_builder S) :=
  match sb_range b, sb_lhs b with
  | Some (start, end_), Some l =>
      do d <- add_sequence (sb_dest b) (mkSeq l x start end_ (sb_sep b) h);
      Ok (mkSB (sb_lhs b) None (sb_sep b) (sb_hist b) d)
  | _, _ => Panic
  end.

Definition seq_builder_call (b : seq_builder S) (c : seq_call) : res (seq_builder S) :=
  match c with
  | SSequence l => Ok (mkSB (Some l) (sb_range b) Null (sb_hist b) (sb_dest b))
  | SSeparator s => Ok (mkSB (sb_lhs b) (sb_range b) s (sb_hist b) (sb_dest b))
  | SHistory h => Ok (mkSB (sb_lhs b) (sb_range b) (sb_sep b) (Some h) (sb_dest b))
  | SInclusive start end_ =>
      Ok (mkSB (sb_lhs b) (Some (start, end_)) (sb_sep b) (sb_hist b) (sb_dest b))
  | SRange lo hi =>
      Ok (mkSB (sb_lhs b) (Some (range_start lo, range_end hi)) (sb_sep b) (sb_hist b) (sb_dest b))
  | SRhs x =>
      sb_rhs_with_history (mkSB (sb_lhs b) (sb_range b) (sb_sep b) None (sb_dest b)) x (sb_hist b)
  | SRhsHistory x h => sb_rhs_with_history b x h
  end.
End SeqBuilder.

(** destination.rs 18-21; rewrite.rs 36-40 *)
Definition add_to_vec (d : list sequence) (s : sequence) : res (list sequence) := Ok (d ++ [s]).
Definition add_to_cfg (debug : bool) (g : cfg) (s : sequence) : res cfg := seq_rewrite debug g s.
