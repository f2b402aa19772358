(** The tests of the repository, replayed on the model.

    Each example below is one test of /repo: the same calls, and the outcome the test expects of the
    Rust code.  These are checks of the model on literal inputs, not proofs of a property. *)

From Coq Require Import List Arith NArith ZArith Ascii Bool String.
From Verif Require Import Base LoopModel SymbolModel HistoryModel CfgModel BitSetModel ClosureModel MatrixModel
  ClassifyModel ElimModel RemapModel DistModel SetsModel LRModel LLModel SpecPrec PrecModel SpecSeq SeqModel LoadModel
  SpecRegex RegexModel SpecAdv AdvModel FloatModel GenModel NamedModel ExampleModel.
Import ListNotations.
Local Open Scope string_scope.
Local Open Scope nat_scope.
Local Open Scope list_scope.
Local Notation length := List.length.

(** cfg/tests/support/mod.rs 5-50: rules are compared as sorted lists of pairs, roots as sorted lists *)
Fixpoint list_compare (a b : list nat) : comparison :=
  match a, b with
  | [], [] => Eq
  | [], _ => Lt
  | _, [] => Gt
  | x :: a', y :: b' => match Nat.compare x y with Eq => list_compare a' b' | c => c end
  end.
Definition pair_compare (a b : nat * list nat) : comparison :=
  match Nat.compare (fst a) (fst b) with Eq => list_compare (snd a) (snd b) | c => c end.
Definition sorted_rules (g : cfg) : list (nat * list nat) :=
  sort_by pair_compare (map (fun r => (lhs r, rhs r)) (rules g)).
Definition sorted_roots (g : cfg) : list nat := sort_by Nat.compare (roots g).

Definition with_syms (n : nat) : cfg := snd (syms cfg_new n).

(** A chain of calls of the rule builder: a symbol and its right-hand sides *)
Definition chain (l : list (nat * list (list nat))) : list build_call :=
  flat_map (fun p => BRule (fst p) :: map BRhs (snd p)) l.
Definition build (n : nat) (l : list (nat * list (list nat))) : res cfg :=
  do b <- fold_res builder_call (chain l) (builder_new (with_syms n)); Ok (b_cfg b).
Definition expected (l : list (nat * list (list nat))) : list (nat * list nat) :=
  sort_by pair_compare (flat_map (fun p => map (fun r => (fst p, r)) (snd p)) l).
Definition all_useful (g : cfg) : res bool := do u <- cfg_usefulness g; Ok (us_all_useful u).

(** * cfg/tests/test_binarize.rs *)

(** 11-55: start a b c x y = 0..5 *)
Definition small : list (nat * list (list nat)) :=
  [(0, [[1; 4; 2]; [3]]); (2, [[1; 1]; [1; 3]]); (3, [[4]; [5]]); (1, [[]])].
Example test_binarize :
  (do g0 <- build 6 small;
   do g <- limit_rhs_len (set_roots g0 [0]) (Some 2);
   do u <- all_useful g;
   Ok (sorted_rules g, sorted_roots g, u)) =
  Ok (expected [(0, [[6; 2]]); (6, [[1; 4]]); (0, [[3]]); (2, [[1; 1]; [1; 3]]); (3, [[4]; [5]]); (1, [[]])],
      [0], true).
Proof. vm_compute. reflexivity. Qed.

(** 57-100 *)
Definition cycled (num_syms rhs_len : nat) : list nat := map (fun i => 1 + i mod num_syms) (seq 0 rhs_len).
Fixpoint halves (fuel next : nat) (l : list nat) : list (nat * list nat) :=
  match fuel, l with
  | S fuel', x :: y :: z :: rest => (next, [x; y]) :: halves fuel' (S next) (next :: z :: rest)
  | _, _ => [(0, l)]
  end.
Definition very_long_rule (num_syms rhs_len : nat) : bool :=
  match
    (do g0 <- rule_rhs (with_syms (1 + num_syms)) 0 (cycled num_syms rhs_len);
     let g1 := set_roots g0 [0] in
     do u <- all_useful g1;
     do g <- limit_rhs_len g1 (Some 2);
     Ok (u, g))
  with
  | Ok (u, g) =>
      u && (length (rules g) =? rhs_len - 1)
      && (if list_eq_dec (fun a b : nat * list nat => ltac:(decide equality; [apply (list_eq_dec Nat.eq_dec)|apply Nat.eq_dec]))
               (sorted_rules g)
               (sort_by pair_compare (halves rhs_len (1 + num_syms) (cycled num_syms rhs_len)))
          then true else false)
      && (if list_eq_dec Nat.eq_dec (sorted_roots g) [0] then true else false)
  | _ => false
  end.
Example test_binarize_very_long_rule :
  very_long_rule 3 10 = true /\ very_long_rule 100 1000 = true /\ very_long_rule 423 1000 = true.
Proof. vm_compute. auto. Qed.

(** * cfg/tests/test_cycles.rs *)

(** 8-41: start a b c d = 0..4 *)
Example test_remove_cycles :
  (do g <- build 5 [(0, [[1]]); (1, [[2]]); (2, [[3]]); (3, [[4]]); (4, [[1]])];
   do c <- cycles_new g;
   do l <- cycle_participants c true;
   do c' <- remove_cycles c;
   do c'' <- cycles_new (cy_grammar c');
   do (free, _) <- cycle_free c'';
   Ok (map lhs l, sorted_rules (cy_grammar c'), free)) =
  Ok ([1; 2; 3; 4], expected [(0, [[1]])], true).
Proof. vm_compute. reflexivity. Qed.

(** 43-64: start first second = 0..2 *)
Example test_rewrite_cycles :
  (do g <- build 3 [(0, [[2]]); (1, [[2]]); (2, [[1]])];
   do c <- cycles_new g;
   do c' <- rewrite_cycles c;
   do c'' <- cycles_new (cy_grammar c');
   do (free, _) <- cycle_free c'';
   Ok (sorted_rules (cy_grammar c'), free)) = Ok (expected [(0, [[1]])], true).
Proof. vm_compute. reflexivity. Qed.

(** 66-99 *)
Example test_cycle_branch :
  (do g <- build 5 [(0, [[1]]); (1, [[2]]); (2, [[3]]); (3, [[1]]); (3, [[4]])];
   do c <- cycles_new g;
   do l <- cycle_participants c true;
   do c' <- rewrite_cycles c;
   do c'' <- cycles_new (cy_grammar c');
   do (free, _) <- cycle_free c'';
   Ok (map lhs l, sorted_rules (cy_grammar c'), free)) =
  Ok ([1; 2; 3], expected [(0, [[1]]); (1, [[4]])], true).
Proof. vm_compute. reflexivity. Qed.

(** * cfg/tests/test_eliminate_nulling.rs 6-63 *)
Example test_binarize_and_eliminate_nulling_rules :
  (do g0 <- build 6 small;
   do (g, nulling) <- eliminate_nulling (set_roots g0 [0]);
   do u <- all_useful g;
   Ok (sorted_rules nulling, sorted_roots nulling, sorted_rules g, sorted_roots g, u)) =
  Ok (expected [(1, [[]]); (2, [[1; 1]])], [],
      expected [(0, [[3]; [6]; [6; 2]]); (2, [[1]; [1]; [1; 1]; [1; 3]; [3]]); (3, [[4]; [5]]); (6, [[1; 4]; [4]])],
      [0], true).
Proof. vm_compute. reflexivity. Qed.

(** * cfg/tests/test_first_sets.rs and test_last_sets.rs: start a x b c y = 0..5 *)
Definition small' : list (nat * list (list nat)) :=
  [(0, [[1; 2; 3]; [4]]); (3, [[1; 1]; [1; 4]]); (4, [[2]; [5]]); (1, [[]])].
Definition altered : list (nat * list (list nat)) :=
  [(0, [[1; 2; 3]]); (3, [[1; 1]; [1; 4]]); (4, [[2]; [5]]); (1, [[]])].

Example test_simple_first_sets :
  (do g <- build 6 small'; do f <- first_sets_new g; Ok (fs_map f)) =
  Ok [(0, mkSet false [2; 5]); (1, mkSet true []); (3, mkSet true [2; 5]); (4, mkSet false [2; 5])].
Proof. vm_compute. reflexivity. Qed.

Example test_simple_first_sets_altered :
  (do g <- build 6 altered; do f <- first_sets_new g; Ok (fs_map f)) =
  Ok [(0, mkSet false [2]); (1, mkSet true []); (3, mkSet true [2; 5]); (4, mkSet false [2; 5])].
Proof. vm_compute. reflexivity. Qed.

Example test_simple_last_sets :
  (do g <- build 6 small'; last_sets_new g) =
  Ok [(0, mkSet false [2; 5]); (1, mkSet true []); (3, mkSet true [2; 5]); (4, mkSet false [2; 5])].
Proof. vm_compute. reflexivity. Qed.

Example test_simple_last_sets_altered :
  (do g <- build 6 altered; last_sets_new g) =
  Ok [(0, mkSet false [2; 5]); (1, mkSet true []); (3, mkSet true [2; 5]); (4, mkSet false [2; 5])].
Proof. vm_compute. reflexivity. Qed.

(** * cfg/tests/test_classification.rs *)

(** 14-43: start a x b c y = 0..5 *)
Example test_ll_classification :
  (do g <- build 6 small'; do t <- ll_parse_table g; ll_classify g t) =
  Ok [(0, ContextFree); (1, Ll1); (3, Ll1); (4, Ll1)].
Proof. vm_compute. reflexivity. Qed.

(** 45-71: start a b x y = 0..4 *)
Example test_ll_transitive_classification :
  (do g <- build 5 [(0, [[1]]); (1, [[3; 2]]); (2, [[3; 4]; [3]])]; do t <- ll_parse_table g; ll_classify g t) =
  Ok [(0, ContextFree); (1, ContextFree); (2, ContextFree)].
Proof. vm_compute. reflexivity. Qed.

(** 73-176 *)
Example test_lr0 :
  (do g <- build 6 small'; do (nodes, _) <- make_lr0_fsm g 0; Ok nodes) =
  Ok [mkNode [(0, mkItem [1; 2; 3] 0); (1, mkItem [4] 0); (4, mkItem [2] 0); (5, mkItem [5] 0); (6, mkItem [] 0);
              (7, mkItem [0] 0)] [(2, 1); (5, 2)];
      mkNode [(4, mkItem [2] 1)] [];
      mkNode [(5, mkItem [5] 1)] []].
Proof. vm_compute. reflexivity. Qed.

(** 178-207: start foo bar = 0..2.  The rule has the history that the builder gives it. *)
Example test_recursive_left :
  (do g <- build 3 [(0, [[1; 1]]); (1, [[2]; [1; 2]])]; recursive_rules g) =
  Ok [(mkRule 1 [1; 2] (process_root (RRule 1)), mkRec true false false)].
Proof. vm_compute. reflexivity. Qed.

(** 209-238: start foo bar buzz = 0..3 *)
Example test_recursive_right_rec :
  (do g <- build 4 [(0, [[1; 1]]); (1, [[2]; [2; 2; 3; 1]])]; recursive_rules g) =
  Ok [(mkRule 1 [2; 2; 3; 1] (process_root (RRule 1)), mkRec false false true)].
Proof. vm_compute. reflexivity. Qed.

(** * cfg/tests/test_minimum_distance.rs 6-43.  The result does not depend on the way the binary search
      goes ([skip]). *)
Example test_minimum_distance :
  (do g <- build 6 [(1, [[]]); (0, [[1; 4; 2; 3; 5]; [3]]); (2, [[1; 1]; [1; 3]]); (3, [[4]; [5]])];
   do m <- minimal_distances true (fun _ => 0) g (md_new g) [(1, 3)] Forward;
   Ok (md_distances m)) =
  Ok [[Some 0]; [Some 1; Some 1; Some 0; Some 0; None; None]; [None; None]; [Some 0; Some 0; Some 0];
      [Some 1; Some 1; Some 0]; [Some 1; Some 0]; [Some 1; Some 0]]%N.
Proof. vm_compute. reflexivity. Qed.

(** * cfg/tests/test_precedence.rs *)

(** 9-80: start top num var = 0..3; l_paren r_paren exp mul div plus minus eq = 4..11 *)
Example test_simple_precedence :
  (do g0 <- build 12 [(0, [[1]])];
   do g <- prec_build g0 1
     [PRhs [2]; PRhs [3]; PAssoc AGroup; PRhs [4; 1; 5]; PLower; PRhs [10; 1]; PAssoc ARight; PRhs [1; 6; 1];
      PLower; PRhs [1; 7; 1]; PRhs [1; 8; 1]; PLower; PRhs [1; 9; 1]; PRhs [1; 10; 1]; PLower; PRhs [3; 11; 1]];
   do u <- all_useful (set_roots g [0]);
   Ok (sorted_rules g, u)) =
  Ok (expected [(0, [[1]]); (12, [[2]; [3]]); (13, [[12]; [10; 13]; [12; 6; 13]]);
                (14, [[13]; [14; 7; 13]; [14; 8; 13]]); (15, [[14]; [15; 9; 14]; [15; 10; 14]]);
                (16, [[15]; [3; 11; 16]]); (12, [[4; 16; 5]]); (1, [[16]])], true).
Proof. vm_compute. reflexivity. Qed.

(** 82-124: start top num ternary_op quaternary_op sep = 0..5 *)
Example test_ternary_quaternary :
  (do g0 <- build 6 [(0, [[1]])];
   do g <- prec_build g0 1
     [PRhs [2]; PLower; PAssoc ARight; PRhs [1; 3; 1; 5; 1]; PAssoc ARight; PRhs [1; 4; 1; 5; 1; 5; 1]];
   do u <- all_useful (set_roots g [0]);
   Ok (sorted_rules g, u)) =
  Ok (expected [(0, [[1]]); (6, [[2]]); (7, [[6]; [6; 3; 6; 5; 7]; [6; 4; 6; 5; 6; 5; 7]]); (1, [[7]])], true).
Proof. vm_compute. reflexivity. Qed.

(** * cfg/tests/test_remap.rs: start a x b c gg y = 0..6 *)

(** 9-51 *)
Example test_remap_unused_symbols :
  (do g0 <- build 7 [(0, [[1; 2; 3]; [4]]); (3, [[1; 1]; [1; 4]]); (4, [[2]; [6]]); (1, [[]])];
   do r <- remap_run [RemoveUnused] (set_roots g0 [0]);
   do u <- all_useful (rm_grammar r);
   Ok (sorted_rules (rm_grammar r), u)) =
  Ok (expected small', true).
Proof. vm_compute. reflexivity. Qed.

(** 53-97 and 99-146: start a x b c y = 0..5 *)
Definition by_ordering (a b : nat) : comparison :=
  Nat.compare (nth a [1; 2; 5; 3; 4; 6] 0) (nth b [1; 2; 5; 3; 4; 6] 0).
Example test_reorder_symbols_and_maps :
  (do g0 <- build 6 [(0, [[1; 2; 3; 4; 5]; [4]]); (3, [[1; 1]; [1; 4]]); (4, [[2]; [5]]); (1, [[]])];
   do u0 <- all_useful (set_roots g0 [0]);
   do r <- remap_run [Reorder by_ordering] (set_roots g0 [0]);
   do u <- all_useful (rm_grammar r);
   Ok (u0, sorted_rules (rm_grammar r), u, to_external (rm_mapping r), to_internal (rm_mapping r))) =
  Ok (true, expected [(1, [[]]); (0, [[1; 4; 2; 3; 5]; [3]]); (2, [[1; 1]; [1; 3]]); (3, [[4]; [5]])], true,
      [0; 1; 3; 4; 2; 5], [Some 0; Some 1; Some 4; Some 2; Some 3; Some 5]).
Proof. vm_compute. reflexivity. Qed.

(** * cfg/tests/test_sequence.rs *)
Definition sequence_calls (n : nat) (calls : list seq_call) : res cfg :=
  do b <- fold_res (seq_builder_call (add_to_cfg true)) calls (seq_builder_new (with_syms n));
  Ok (set_roots (sb_dest b) [0]).

(** 10-31 *)
Example test_sequence :
  (do g <- sequence_calls 3 [SSequence 0; SSeparator (Trailing 2); SInclusive 1%N (Some 1%N); SRhs 1];
   do u <- all_useful g;
   Ok (sorted_rules g, sorted_roots g, u)) = Ok (expected [(0, [[3; 2]]); (3, [[1]])], [0], true).
Proof. vm_compute. reflexivity. Qed.

(** 33-49 *)
Example test_nulling_sequence :
  (do g <- sequence_calls 2 [SSequence 0; SInclusive 0%N (Some 0%N); SRhs 1];
   Ok (sorted_rules g)) = Ok (expected [(0, [[]])]).
Proof. vm_compute. reflexivity. Qed.

(** 51-85 *)
Example test_sequence_1_4 :
  (do g <- sequence_calls 3 [SSequence 0; SSeparator (Trailing 2); SInclusive 1%N (Some 4%N); SRhs 1];
   do u <- all_useful g;
   Ok (sorted_rules g, u)) =
  Ok (expected [(0, [[3; 2]]); (3, [[4]; [5; 4]]); (5, [[6; 2]]); (6, [[1; 2; 1]]); (4, [[7]; [6]]); (7, [[1]])],
      true).
Proof. vm_compute. reflexivity. Qed.

(** 87-99 *)
Example test_sequence_combinations :
  forallb (fun i =>
    match (do g <- sequence_calls 2 [SSequence 0; SInclusive (N.of_nat i) (Some 99%N); SRhs 1]; all_useful g) with
    | Ok b => b
    | _ => false
    end) (seq 0 50) = true.
Proof. vm_compute. reflexivity. Qed.

(** * cfg-load/tests/test_load.rs *)

(** The text of a raw string literal *)
Definition nl : string := String (ascii_of_nat 10) EmptyString.
Definition lines (l : list string) : string := String.concat nl l.
Fixpoint chars (s : string) : text :=
  match s with EmptyString => [] | String c s' => N_of_ascii c :: chars s' end.
Definition quoted (s : string) : string := String (ascii_of_nat 34) (s ++ String (ascii_of_nat 34) EmptyString)%string.

(** What regex_syntax makes of the two expressions that occur *)
Definition test_rx (t : text) : option hir :=
  if text_eqb t (chars "test") then Some (HLiteral (chars "test"))
  else if text_eqb t (chars "test(er)?") then
    Some (HConcat [HLiteral (chars "test"); HRepetition 0 (Some 1%N) (HCapture (HLiteral (chars "er")))])
  else None.

(** 5-15 *)
Example test_load :
  match load true (lines [""; "        start ::= a b c d;"; "        a ::= y;"; "    "]) with
  | Ok (Loaded g) => length (rules g) = 2
  | _ => False
  end.
Proof. vm_compute. reflexivity. Qed.

Definition start_line : string := "        start ::= a ~ b ~ c ~ d;".
Definition rule_count (l : list string) : option nat :=
  match load_advanced true test_rx (chars (lines l)) with
  | Ok (inl a) => Some (length (rules (ag_cfg a)))
  | _ => None
  end.
(** The first range of every class *)
Definition class_keys (a : adv_grammar_loaded) : list (N * N) :=
  flat_map (fun p => firstn 1 (fst p)) (lm_classes (ag_lexer_map a)).

(** 17-79 *)
Example test_load_advanced_counts :
  rule_count [""; start_line; "        a ::= y;"; "    "] = Some 2 /\
  rule_count [""; start_line; "        a ::= " ++ quoted "y" ++ ";"; "    "]%string = Some 3 /\
  rule_count [""; start_line; "        a ::= " ++ quoted "y" ++ ";"; "        lexer {";
              "            x ::= " ++ quoted "z" ++ ";"; "        }"; "    "]%string = Some 5.
Proof. vm_compute. auto. Qed.

Definition advanced_text (lhs regexp : string) : text :=
  chars (lines [""; start_line; "        " ++ lhs ++ " ::= " ++ quoted "y" ++ ";"; "        lexer {";
     "            x ::= " ++ quoted "zzt" ++ ";"; "            x ::= Regexp(" ++ quoted regexp ++ ");"; "        }";
     "    "])%string.
Example test_load_advanced :
  match load_advanced true test_rx (advanced_text "a" "test") with
  | Ok (inl a) =>
      length (rules (ag_cfg a)) = 7 /\
      class_keys a = [(101, 102); (115, 116); (116, 117); (121, 122); (122, 123)]%N /\
      to_bnf (ag_cfg a) = lines ["start ::= a b c d;"; "__lex0 ::= g6;"; "a ::= __lex0;"; "__lex1 ::= g9 g9 g10;";
                                 "x ::= __lex1;"; "g13 ::= g10 g11 g12 g10;"; "x ::= g13;"; ""] /\
      length (bs_iter (ag_sbs a)) = 3
  | _ => False
  end.
Proof. vm_compute. auto. Qed.

(** 81-97 *)
Example test_err :
  match load_advanced true test_rx (advanced_text "x" "test") with Ok (inr _) => True | _ => False end.
Proof. vm_compute. exact I. Qed.

(** 99-143 *)
Example test_big :
  match load_advanced true test_rx (advanced_text "a" "test(er)?") with
  | Ok (inl a) =>
      length (rules (ag_cfg a)) = 11 /\
      class_keys a = [(101, 102); (114, 115); (115, 116); (116, 117); (121, 122); (122, 123)]%N /\
      to_bnf (ag_cfg a) = lines ["start ::= a b c d;"; "__lex0 ::= g6;"; "a ::= __lex0;"; "__lex1 ::= g9 g9 g10;";
                                 "x ::= __lex1;"; "g14 ::= g11 g12;"; "g15 ::= ;"; "g15 ::= g16;"; "g16 ::= g14;";
                                 "g17 ::= g10 g11 g13 g10 g15;"; "x ::= g17;"; ""] /\
      length (bs_iter (ag_sbs a)) = 3
  | _ => False
  end.
Proof. vm_compute. auto. Qed.

(** * cfg-regexp-logic/src/lib.rs 267-280.  The class of the digits is given by its first, second and last
      range only. *)
Definition either_case (c : N) : hir := HClass [(c - 32, c - 32); (c, c)]%N.
Example it_works :
  (do (g, m) <- cfg_from_hir true
     (HConcat [HCapture (HAlternation [HConcat (map either_case (chars "foo")); HConcat (map either_case (chars "bar"))]);
               HRepetition 1 None (HClass [(48, 57); (1632, 1641); (130032, 130041)]%N)]);
   do m' <- compute m;
   do counts <- map_res (fun c => do l <- lexer_get m' c; Ok (length l)) [98; 99; 66; 68; 111; 130032; 130041]%N;
   Ok (length (rules g), counts)) = Ok (5, [1; 0; 1; 0; 1; 1; 1]).
Proof. vm_compute. reflexivity. Qed.

(** * cfg-examples/tests/test_c.rs, on the grammar of cfg-examples/src/c.rs *)
Definition named (g : cfg) (r : rule) : string * list string :=
  let name s := match nth s (names (src g)) None with Some x => x | None => "" end in
  (name (lhs r), map name (rhs r)).

(** 8-12 *)
Example test_useful : (do g <- c_grammar; all_useful g) = Ok true.
Proof. vm_compute. reflexivity. Qed.

(** 14-42 *)
Example test_recursive :
  (do g <- c_grammar; do l <- recursive_rules g; Ok (map (fun p => (named g (fst p), snd p)) (firstn 2 l))) =
  Ok [(("primary_expression", ["lparen"; "expression"; "rparen"]), mkRec false true false);
      (("postfix_expression", ["primary_expression"]), mkRec true false true)]%string.
Proof. vm_compute. reflexivity. Qed.

(** 44-80 *)
Example test_recursive_distances :
  (do g <- c_grammar; do l <- recursion_minimal_distances true (fun _ => 0) g;
   Ok (map (fun p => (named g (fst (fst p)), snd (fst p), snd p)) (firstn 2 l))) =
  Ok [(("primary_expression", ["lparen"; "expression"; "rparen"]), mkRec false true false, (0, 1)%N);
      (("postfix_expression", ["primary_expression"]), mkRec true false true, (0, 1)%N)]%string.
Proof. vm_compute. reflexivity. Qed.

(** * cfg/tests/test_random_math.rs, with the generator SmallRng of the crate rand 0.9 (xoshiro256++, not a
      part of the code that is modelled) *)
Definition u64 (x : N) : N := N.land x 18446744073709551615.
Definition rotl (x k : N) : N := u64 (N.lor (N.shiftl x k) (N.shiftr x (64 - k))).
Record small_rng := mkRng { s0 : N; s1 : N; s2 : N; s3 : N }.
Definition next_u64 (r : small_rng) : N * small_rng :=
  let res := u64 (rotl (u64 (s0 r + s3 r)) 23 + s0 r) in
  let t := u64 (N.shiftl (s1 r) 17) in
  let c := N.lxor (s2 r) (s0 r) in
  let d := N.lxor (s3 r) (s1 r) in
  let b := N.lxor (s1 r) c in
  let a := N.lxor (s0 r) d in
  (res, mkRng a b (N.lxor c t) (rotl d 45)).
Definition splitmix (state : N) : N :=
  let z := u64 (N.lxor state (N.shiftr state 30) * 13787848793156543929) in
  let z := u64 (N.lxor z (N.shiftr z 27) * 10723151780598845931) in
  N.lxor z (N.shiftr z 31).
Definition seed_from_u64 (n : N) : small_rng :=
  let phi := 11400714819323198485%N in
  let st k := u64 (n + k * phi) in
  mkRng (splitmix (st 1%N)) (splitmix (st 2%N)) (splitmix (st 3%N)) (splitmix (st 4%N)).
(** random_range(0.0..limit): 52 bits of a draw, as a fraction of the limit *)
Definition rng_generate (r : small_rng) (limit : f64) : res (f64 * small_rng) :=
  let (x, r') := next_u64 r in
  Ok (f64_mul (f64_div (f64_of (N.shiftr x 12)) (f64_of 4503599627370496)) limit, r').
(** random.rs 100-104 *)
Definition rng_mutate_start (r : small_rng) (attempt : N) : small_rng :=
  N.iter (attempt + 1) (fun r => snd (next_u64 r)) r.

(** cfg/tests/grammars/precedenced_arith.rs 42-96: sum product factor number + - * / ( ) neg = 0..10, then
    the digits *)
Definition arith : res cfg :=
  do b <- fold_res builder_call
    [BRule 0; BRhsLinked [0; 4; 1] (LWeight (f64_of 1)); BRhsLinked [0; 5; 1] (LWeight (f64_of 1)); BRhsLinked [1] (LWeight (f64_of 3));
     BRule 1; BRhsLinked [1; 6; 2] (LWeight (f64_of 1)); BRhsLinked [1; 7; 2] (LWeight (f64_of 1)); BRhsLinked [2] (LWeight (f64_of 3));
     BRule 2; BRhsLinked [8; 0; 9] (LWeight (f64_of 1)); BRhsLinked [10; 3] (LWeight (f64_of 3));
     BRule 10; BRhsLinked [] (LWeight (f64_of 1))] (builder_new (with_syms 11));
  do g <- fold_res (fun g (_ : nat) =>
                      let (s, g1) := next_sym g None in
                      do b <- fold_res builder_call [BRule 3; BRhs [s; 3]; BRhs [s]] (builder_new g1);
                      Ok (b_cfg b)) (seq 0 10) (b_cfg b);
  limit_rhs_len g (Some 2).
Definition arith_char (s : nat) (r : small_rng) : option nat * small_rng :=
  (match s with
   | 4 => Some 43 | 5 => Some 45 | 6 => Some 42 | 7 => Some 47 | 8 => Some 40 | 9 => Some 41
   | _ => if (11 <=? s) && (s <=? 20) then Some (48 + (s - 11)) else None
   end, r).
Definition arith_random (negative : list (nat * list nat)) : res (option string) :=
  do g <- arith;
  do out <- random rng_generate rng_mutate_start arith_char 20 g 0 (Some (mkLimits 1000000 1024))
                   (seed_from_u64 4242) negative;
  Ok (match out with
      | Generated _ l => Some (fold_right (fun c s => String (ascii_of_nat c) s) EmptyString l)
      | _ => None
      end).

(** 17-48 *)
Example test_precedenced_arith :
  arith_random [] = Ok (Some
    "33/5*10*6+2-890/(((5/6601-40)/970-1/0-40/8*2/70-(9*91700))*(768-(6/26*(1+508/41-(97))/((((315483)*86*2/0)-8-61*0436238*72629)+8*66)+69/9667974*43-1))/3)/8*(830/(3+5/460/01/02-0066/956-(8*45*(((((4969)/5))-(3*6+4/9796416*((3*627-5*66/(77)/(316/0/84/51+8)+6+3*866/4)))+7/7+578/749)*6/(7)*88*6)+87*03/9*(8))/7412/50)+1)")%string.
Proof. vm_compute. reflexivity. Qed.

(** 50-88 *)
Example test_precedenced_arith_with_negative_lookahead :
  arith_random [(10, [48])] = Ok (Some
    "33/5*10*6+2-890/(((5/6601-40)/970-1/3-40/8*2-828)*(9)/1700)/(768-(6/26*(1+508/41-(97))/((((315483)*86*2/5)-9-1)+((2629-8*66)/(9-67974/43)))+1-48))*(830/(3+5/460/1/2-66/956-(8*45*(((((4969)/5))-(3*6+4/9796416*((3*627-5*66/(77)/(316/8/4/51+8)+6+3*866/4)))+7/7+578/749)*6/(7)*88*6)+87*3/9*(8))/7412/50)+1)")%string.
Proof. vm_compute. reflexivity. Qed.

(** * cfg-generate/src/weighted/random.rs 230-252: one rule and one terminal; the draws are not used *)
Example test_simplest_random_generation :
  (do g0 <- rule_rhs (with_syms 2) 0 [1];
   do g <- limit_rhs_len g0 (Some 2);
   do out <- random rng_generate rng_mutate_start (fun s r => (if s =? 1 then Some 88 else None, r)) 10 g 0
                    (Some (mkLimits 1 0)) (seed_from_u64 0) [];
   Ok (num_syms g, length (rules g), out)) = Ok (2, 1, Generated [1] [88]).
Proof. vm_compute. reflexivity. Qed.
