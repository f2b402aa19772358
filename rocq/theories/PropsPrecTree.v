(** Property C93: operator tables are read in one way. *)

From Coq Require Import List Arith NArith Bool Lia Permutation.
From Verif Require Import Base ListFacts Spec SpecPrec SpecOps SpecTree GrammarFacts SymbolModel HistoryModel CfgModel View CfgProof
  PrecModel PrecView PrecProof TreeProof TreeMap TreeLimit PrecTree PrecTree2 PropsTree PropsSeqTree.
Import ListNotations.
Local Notation length := List.length.

(** ** C93.  [c] are the rules that the table is built to.  Read on their own, the symbols other than the operand being
    terminals, they have at most one tree for every string. *)
Theorem C93_one_parse_partial : forall g E calls, limit g = None -> E < num_syms g ->
  Forall (fun c => Forall (fun s => s < num_syms g) (call_syms c)) calls ->
  operator_table E (loosest calls) (alternatives 0 ALeft calls) ->
  exists g' c, prec_build g E calls = Ok g' /\ rules g' = rules g ++ c /\ unambiguous (rule_pairs c) E.
Proof.
  intros g E calls HL HE HF HO. destruct (build_rules g E calls HL) as [g' [c [E1 [E2 E3]]]]. exists g', c. split; auto. split; auto.
  assert (HU : unambiguous (op_rules (num_syms g) E (loosest calls) (alternatives 0 ALeft calls)) E).
  { apply ops_unambiguous; auto. intros alt Hin. apply (alternatives_bound (num_syms g) calls 0 ALeft HF alt Hin). }
  assert (HS : same_trees (fun _ => True) (fun w => w) (op_rules (num_syms g) E (loosest calls) (alternatives 0 ALeft calls)) (rule_pairs c)).
  { apply permuted_same. apply Permutation_sym. exact E3. }
  exact (proj1 (same_trees_unambiguous (fun _ => True) (fun w => w) _ _ E HS I (fun u v H => H)) HU).
Qed.
Print Assumptions C93_one_parse_partial.

(** Not so on the tightest level: with the single level [E - E | n], n - n - n has two trees.  E = 0, - = 1, n = 2. *)
Definition ops_g (n : nat) : cfg := mkCfg (mkSrc n (repeat None n)) [] [0] [] None.

Theorem C93_tightest_refuted : exists g', prec_build (ops_g 3) 0 [PRhs [0; 1; 0]; PRhs [2]] = Ok g' /\
  ~ unambiguous (rule_pairs (rules g')) 0.
Proof.
  eexists. split; [vm_compute; reflexivity|]. cbn [rule_pairs map lhs rhs rules].
  apply (two_trees _ _ (Node 2 [Node 0 [Node 0 [Node 1 [Leaf 2]; Leaf 1; Node 1 [Leaf 2]]; Leaf 1; Node 1 [Leaf 2]]])
                       (Node 2 [Node 0 [Node 1 [Leaf 2]; Leaf 1; Node 0 [Node 1 [Leaf 2]; Leaf 1; Node 1 [Leaf 2]]]]));
    [tree_tac|tree_tac|reflexivity|discriminate].
Qed.
Print Assumptions C93_tightest_refuted.

(** The condition on levels is needed: with [E + E] left and [E ^ E] right on one level, n ^ n + n has two trees.
    E = 0, + = 1, n = 2, ^ = 3. *)
Example C93_mixed_example : exists g', prec_build (ops_g 4) 0 [PRhs [2]; PLower; PRhs [0; 1; 0]; PAssoc ARight; PRhs [0; 3; 0]] = Ok g' /\
  rule_pairs (rules g') = [(4, [2]); (5, [4]); (5, [5; 1; 4]); (5, [4; 3; 5]); (0, [5])] /\
  ~ unambiguous (rule_pairs (rules g')) 0.
Proof.
  eexists. split; [vm_compute; reflexivity|]. split; [reflexivity|]. cbn [rule_pairs map lhs rhs rules].
  apply (two_trees _ _
    (Node 4 [Node 2 [Node 3 [Node 0 [Leaf 2]; Leaf 3; Node 1 [Node 0 [Leaf 2]]]; Leaf 1; Node 0 [Leaf 2]]])
    (Node 4 [Node 3 [Node 0 [Leaf 2]; Leaf 3; Node 2 [Node 1 [Node 0 [Leaf 2]]; Leaf 1; Node 0 [Leaf 2]]]]));
    [tree_tac|tree_tac|reflexivity|discriminate].
Qed.

(** A table:  n | ( E ) | if E then E end  ;  E !  ;  - E | E ^ E right  ;  E * E  ;  E + E | E - E  ;  E ? E : E right.
    E = 0, n = 1, ( = 2, ) = 3, if = 4, then = 5, end = 6, ! = 7, - = 8, ^ = 9, * = 10, + = 11, ? = 12, : = 13. *)
Definition ops_calls : list prec_call :=
  [PRhs [1]; PAssoc AGroup; PRhs [2; 0; 3]; PAssoc AGroup; PRhs [4; 0; 5; 0; 6];
   PLower; PRhs [0; 7];
   PLower; PAssoc ARight; PRhs [8; 0]; PAssoc ARight; PRhs [0; 9; 0];
   PLower; PRhs [0; 10; 0];
   PLower; PRhs [0; 11; 0]; PRhs [0; 8; 0];
   PLower; PAssoc ARight; PRhs [0; 12; 0; 13; 0]].

Ltac alt_cases H := cbn [In] in H; repeat (destruct H as [H|H]; [|]); [..|contradiction]; try (match type of H with _ = ?a => is_var a; subst a end).

Lemma cut : forall (l u v : list nat), l = u ++ v -> exists k, k <= length l /\ u = firstn k l /\ v = skipn k l.
Proof.
  intros l u v ->. exists (length u). rewrite app_length, firstn_app, skipn_app, Nat.sub_diag, firstn_all, skipn_all, app_nil_r. cbn. split; [lia|auto].
Qed.
Lemma cut_place : forall (l u : list place) (x : place), l = u ++ [x] -> last l (Sym 0) = x.
Proof. intros l u x ->. apply last_last. Qed.

Lemma ops_table : operator_table 0 (loosest ops_calls) (alternatives 0 ALeft ops_calls).
Proof.
  change (loosest ops_calls) with 5.
  change (alternatives 0 ALeft ops_calls) with
    [(0, ALeft, [1]); (0, AGroup, [2; 0; 3]); (0, AGroup, [4; 0; 5; 0; 6]); (1, ALeft, [0; 7]); (2, ARight, [8; 0]); (2, ARight, [0; 9; 0]);
     (3, ALeft, [0; 10; 0]); (4, ALeft, [0; 11; 0]); (4, ALeft, [0; 8; 0]); (5, ARight, [0; 12; 0; 13; 0])].
  constructor.
  - intros alt H. alt_cases H; cbn; split; discriminate.
  - intros alt u v H E. apply cut in E. destruct E as [k [K [_ E]]].
    alt_cases H; cbn [snd length] in *; do 6 (destruct k as [|k]; [discriminate|]); lia.
  - intros j l m H. alt_cases H; try discriminate; injection H as <- <-; split; try discriminate; intros E; apply cut in E; destruct E as [k [K [_ E]]]; cbn [length] in K;
      do 6 (destruct k as [|k]; [discriminate|]); lia.
  - intros i i' alt alt' x H H' Hx [l B] [l' B'].
    do 10 (destruct i as [|i]; [do 10 (destruct i' as [|i']; [cbn in H, H'; injection H as <-; injection H' as <-; cbn in B, B'; congruence|]);
                                cbn in H'; destruct i'; discriminate|]); cbn in H; destruct i; discriminate.
  - intros i i' alt alt' x H H' [l B] [l' B'].
    do 10 (destruct i as [|i]; [do 10 (destruct i' as [|i']; [cbn in H, H'; injection H as <-; injection H' as <-; cbn in B, B'; congruence|]);
                                cbn in H'; destruct i'; discriminate|]); cbn in H; destruct i; discriminate.
  - intros alt alt' u x v H E Hu H' [l B].
    assert (Hx : x = 3 \/ x = 5 \/ x = 6 \/ x = 13).
    { apply cut in E. destruct E as [k [K [E1 E]]]. clear H' B.
      alt_cases H; cbn [snd length] in *; (destruct k as [|k]; [cbn in E1; congruence|]); do 5 (destruct k as [|k]; [cbn in E; try discriminate; injection E; intros; subst; auto|]); lia. }
    alt_cases H'; cbn [snd] in B; try discriminate; injection B as B _; lia.
  - intros j a l a' l' u v H H' E E'. apply cut_place in E'.
    alt_cases H; injection H as <- <- <-; cbn in E; try discriminate; alt_cases H'; try discriminate; injection H' as <- <-; cbn in E'; discriminate.
Qed.

(** - n ! ^ n - ( n ) * n  is read as  ((- ((n !) ^ n)) - (n) * n). *)
Example C93_example : limit (ops_g 14) = None /\ 0 < num_syms (ops_g 14) /\
  Forall (fun c => Forall (fun s => s < num_syms (ops_g 14)) (call_syms c)) ops_calls /\
  operator_table 0 (loosest ops_calls) (alternatives 0 ALeft ops_calls) /\
  exists g', prec_build (ops_g 14) 0 ops_calls = Ok g' /\
    exists t, parses (rule_pairs (rules g')) 0 t /\ yield t = [8; 1; 7; 9; 1; 8; 2; 1; 3; 10; 1].
Proof.
  split; [reflexivity|]. split; [vm_compute; lia|]. split; [unfold num_syms; cbn; repeat constructor; lia|]. split; [exact ops_table|].
  eexists. split; [vm_compute; reflexivity|].
  set (n16 := Node 3 [Node 1 [Node 0 [Leaf 1]]]).
  set (neg := Node 4 [Leaf 8; Node 5 [Node 2 [Node 1 [Node 0 [Leaf 1]]; Leaf 7]; Leaf 9; n16]]).
  set (paren := Node 13 [Leaf 2; Node 11 [Node 8 [Node 6 [n16]]]; Leaf 3]).
  exists (Node 15 [Node 11 [Node 10 [Node 8 [Node 6 [neg]]; Leaf 8; Node 7 [Node 6 [Node 3 [Node 1 [paren]]]; Leaf 10; n16]]]]).
  unfold neg, paren, n16. split; [cbn [rule_pairs map lhs rhs rules]; tree_tac|reflexivity].
Qed.
