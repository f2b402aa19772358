(** Model of the crate cfg-generate: weighted choice of productions and random generation.

    Weights and random values are the floating-point numbers of FloatModel.v. *)

From Coq Require Import List Arith NArith ZArith Bool.
From Verif Require Import Base LoopModel HistoryModel CfgModel BitSetModel SetsModel FloatModel.
Import ListNotations.
Local Open Scope nat_scope.
Local Notation length := List.length.

(** weighted/weighted_rhs_by_lhs.rs 23-27: WeightedRhs; [wr_from] is its field [weight], the sum of the
    weights before it *)
Record weighted_rhs := mkWrhs { wr_from : f64; wr_rhs : list nat }.

(** weighted_rhs_by_lhs.rs 17-21: WeightedRhsList *)
Record weighted_list := mkWlist { wl_total : f64; wl_rhs : list weighted_rhs }.

(** weighted_rhs_by_lhs.rs 12-15: WeightedRhsByLhs, a BTreeMap *)
Definition weighted_map := list (nat * weighted_list).

(** weighted_rhs_by_lhs.rs 36-43: add_weight *)
Definition add_weight (m : weighted_map) (weight : f64) (l : nat) (r : list nat) : weighted_map :=
  let w := match map_get m l with Some w => w | None => mkWlist f64_zero [] end in
  map_put m l (mkWlist (f64_add (wl_total w) weight) (wl_rhs w ++ [mkWrhs (wl_total w) r])).

(** weighted_rhs_by_lhs.rs 59: the weight of a rule, in units of 1/1000, 1000 by default *)
Definition rule_weight (r : rule) : f64 :=
  f64_div (f64_of (match h_weight (hist r) with Some w => w | None => 1000%N end)) (f64_of 1000).

(** weighted_rhs_by_lhs.rs 56-63: weighted *)
Definition weighted (g : cfg) : weighted_map :=
  fold_left (fun m r => add_weight m (rule_weight r) (lhs r) (rhs r)) (rules g) [].

(** weighted_rhs_by_lhs.rs 79-84: the comparison; it panics ("invalid float") if one side is a NaN *)
Definition compare_weight (w : weighted_rhs) (v : f64) : res comparison :=
  match f64_cmp (wr_from w) v with
  | Some c => Ok c
  | None => Panic
  end.

(** core::slice::binary_search_by (Rust 1.82 and later): the loop that narrows the range; [fuel] at
    least the size is enough *)
Fixpoint search_base (v : f64) (l : list weighted_rhs) (fuel size base : nat) : res nat :=
  match fuel with
  | 0 => Ok base
  | S fuel' =>
      if 1 <? size then
        let half := Nat.div2 size in
        let mid := base + half in
        do w <- get_ix l mid;
        do c <- compare_weight w v;
        search_base v l fuel' (size - half) (match c with Gt => base | _ => mid end)
      else Ok base
  end.

(** binary_search_by: Ok(i) and Err(i) are both mapped to i by the caller *)
Definition search_index (v : f64) (l : list weighted_rhs) : res nat :=
  match l with
  | [] => Ok 0
  | _ =>
      do base <- search_base v l (length l) (length l) 0;
      do w <- get_ix l base;
      do c <- compare_weight w v;
      Ok (match c with Lt => base + 1 | _ => base end)
  end.

(** random.rs 25-32: Limits *)
Record limits := mkLimits { terminals : N; negative_rule_attempts : N }.

(** random.rs 13-23: the result, with RandomGenError *)
Inductive gen_out :=
| Generated (result : list nat) (string : list nat)
| LimitExceeded
| NegativeRuleAttemptsExceeded.

(** str::ends_with on slices of chars *)
Fixpoint is_prefix (a b : list nat) : bool :=
  match a, b with
  | [], _ => true
  | x :: a', y :: b' => (x =? y) && is_prefix a' b'
  | _, _ => false
  end.
Definition ends_with (s f : list nat) : bool := is_prefix (rev f) (rev s).

Section Gen.
  (** random.rs 80-89: the trait GenRange; [generate] can panic (an empty range).
      random.rs 51: the function [to_char] can use the source too. *)
  Context {R : Type} (generate : R -> f64 -> res (f64 * R)) (mutate_start : R -> N -> R)
          (to_char : nat -> R -> option nat * R).

  (** weighted_rhs_by_lhs.rs 69-90: pick_rhs *)
  Definition pick_rhs (m : weighted_map) (l : nat) (rng : R) : res (list nat * R) :=
    match map_get m l with
    | Some w =>
        if length (wl_rhs w) =? 1 then
          do x <- get_ix (wl_rhs w) 0; Ok (wr_rhs x, rng)
        else
          do p <- generate rng (wl_total w);
          let (v, rng') := p in
          do i <- search_index v (wl_rhs w);
          do x <- get_ix (wl_rhs w) (i - 1);
          Ok (wr_rhs x, rng')
    | None => Ok ([], rng)
    end.

  (** random.rs 149-154: BacktrackState *)
  Record bt_state := mkBt { bt_forbidden : list nat; bt_rng : R; bt_result_len : nat; bt_prev_work : list nat }.

  (** random.rs 166-179: the local variables of the loop; characters are code points *)
  Record gen := mkGen {
    g_work : list nat;
    g_result : list nat;
    g_string : list nat;
    g_rng : R;
    g_back : list (nat * list bt_state);
    g_attempts : list (nat * N)
  }.

  (** random.rs 193-208: the loop over the states for one length *)
  Fixpoint gen_backtrack (states : list bt_state) (st : gen) : res (gen + gen_out) :=
    match states with
    | [] => Ok (inl st)
    | s :: states' =>
        if ends_with (g_string st) (bt_forbidden s) then
          let string := firstn (length (g_string st) - length (bt_forbidden s)) (g_string st) in
          match map_get (g_attempts st) (length string) with
          | None => Panic
          | Some a =>
              let st' := mkGen (bt_prev_work s) (firstn (bt_result_len s) (g_result st)) string
                               (mutate_start (bt_rng s) a) (g_back st)
                               (map_put (g_attempts st) (length string) (a + 1)%N) in
              if (256 * 64 <? a + 1)%N then Ok (inr NegativeRuleAttemptsExceeded)
              else gen_backtrack states' st'
          end
        else gen_backtrack states' st
    end.

  (** random.rs 182-210: a terminal *)
  Definition gen_terminal (limit : option limits) (sym : nat) (st : gen) : res (gen + gen_out) :=
    let result := g_result st ++ [sym] in
    let (c, rng) := to_char sym (g_rng st) in
    let string := match c with Some ch => g_string st ++ [ch] | None => g_string st end in
    let over := match limit with
                | Some lim => (terminals lim <? N.of_nat (length result))%N
                | None => false
                end in
    if over then Ok (inr LimitExceeded)
    else
      let st' := mkGen (g_work st) result string rng (g_back st) (g_attempts st) in
      match map_get (g_back st) (length string) with
      | Some states => gen_backtrack states st'
      | None => Ok (inl st')
      end.

  (** random.rs 211-223: a negative symbol *)
  Definition gen_negative (forbidden : list nat) (st : gen) : gen :=
    let key := length (g_string st) + length forbidden in
    let old := match map_get (g_back st) key with Some l => l | None => [] end in
    let s := mkBt forbidden (g_rng st) (length (g_result st)) (g_work st) in
    mkGen (g_work st) (g_result st) (g_string st) (g_rng st)
          (map_put (g_back st) key (old ++ [s]))
          (match map_get (g_attempts st) (length (g_string st)) with
           | Some _ => g_attempts st
           | None => map_put (g_attempts st) (length (g_string st)) 0%N
           end).

  (** random.rs 180-231: one iteration *)
  Definition gen_step (w : weighted_map) (ts : bitset) (negative : list (nat * list nat)) (limit : option limits)
      (st : gen) : gen + res gen_out :=
    match g_work st with
    | [] => inr (Ok (Generated (g_result st) (g_string st)))
    | sym :: work =>
        let st1 := mkGen work (g_result st) (g_string st) (g_rng st) (g_back st) (g_attempts st) in
        match bs_get ts sym with
        | Ok true =>
            match gen_terminal limit sym st1 with
            | Ok (inl st') => inl st'
            | Ok (inr out) => inr (Ok out)
            | Panic => inr Panic
            | OutOfFuel => inr OutOfFuel
            end
        | Ok false =>
            match map_get negative sym with
            | Some forbidden => inl (gen_negative forbidden st1)
            | None =>
                match pick_rhs w sym (g_rng st) with
                | Ok (r, rng) => inl (mkGen (r ++ work) (g_result st) (g_string st) rng (g_back st) (g_attempts st))
                | Panic => inr Panic
                | OutOfFuel => inr OutOfFuel
                end
            end
        | Panic => inr Panic
        | OutOfFuel => inr OutOfFuel
        end
    end.

  (** random.rs 174-177: the map of the negative rules; a later rule for a symbol replaces an earlier one *)
  Definition negative_map (negative_rules : list (nat * list nat)) : list (nat * list nat) :=
    fold_left (fun m p => map_put m (fst p) (snd p)) negative_rules [].

  (** random.rs 157-233: Random for Cfg.  The loop need not end; it is given 2^p iterations. *)
  Definition random (p : nat) (g : cfg) (start : nat) (limit : option limits) (rng : R)
      (negative_rules : list (nat * list nat)) : res gen_out :=
    do ts <- terminal_symbols g;
    run_loop (gen_step (weighted g) ts (negative_map negative_rules) limit) p
             (mkGen [start] [] [] rng [] []).
End Gen.

(** random.rs 75-78: ByteSource; the iterator is the list of the bytes to come, and 0 after them *)
Record byte_source := mkBytes { bytes_ahead : list N; bytes_pushed : list N }.

(** random.rs 89-94: new *)
Definition bytes_new (l : list N) : byte_source := mkBytes l [].

Definition next_byte (s : byte_source) : N * byte_source :=
  match bytes_ahead s with
  | [] => (0%N, s)
  | b :: l => (b, mkBytes l (bytes_pushed s))
  end.

(** random.rs 111-117: generate; the Vec is a list with its last element first *)
Definition bytes_generate (s : byte_source) (limit : f64) : res (f64 * byte_source) :=
  let (b, s') := match bytes_pushed s with
                 | b :: l => (b, mkBytes (bytes_ahead s) l)
                 | [] => next_byte s
                 end in
  Ok (f64_div (f64_mul (f64_of b) limit) (f64_of 255), s').

(** random.rs 120-126: mix, on u8 *)
Definition mix_shift (b : N) : N := N.lxor b (N.shiftr b 5).
Definition mix (b : N) : N :=
  mix_shift (N.modulo (mix_shift (N.modulo (mix_shift b * 123) 256) * 34) 256).

(** random.rs 128-134: the loop of mutate_start *)
Fixpoint mutate_bytes (n : nat) (attempt : N) (s : byte_source) (acc : list N) : byte_source * list N :=
  match n with
  | 0 => (s, acc)
  | S n' => let (b, s') := next_byte s in
            mutate_bytes n' attempt s' (acc ++ [mix (N.lxor b (N.modulo attempt 256))])
  end.

(** random.rs 119-137: mutate_start; [result] is reversed and appended, so its first byte is popped first *)
Definition bytes_mutate_start (s : byte_source) (attempt : N) : byte_source :=
  let (s', result) := mutate_bytes (S (N.to_nat (N.div attempt 256))) attempt s [] in
  mkBytes (bytes_ahead s') (result ++ bytes_pushed s').
