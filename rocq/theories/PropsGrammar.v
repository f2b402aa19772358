(** Properties C09 - C11, C17 - C23, C59: operations on grammars. *)

From Coq Require Import List Arith NArith Bool Lia String Permutation Sorted.
From Verif Require Import Base ListFacts Spec GrammarFacts SymbolModel HistoryModel CfgModel View
  CfgProof CfgProof2.
Import ListNotations.
Local Notation length := List.length.

(** The grammar used in the examples:  S ::= A b c d e | S x A ;  A ::= f |  ;   roots S.
    S = 0, A = 1, b c d e = 2 3 4 5, x = 6, f = 7. *)
Definition hd0 := history_default.
Definition ex_g : cfg :=
  mkCfg (mkSrc 8 (repeat None 8))
        [mkRule 0 [1; 2; 3; 4; 5] hd0; mkRule 0 [0; 6; 1] hd0; mkRule 1 [7] hd0; mkRule 1 [] hd0]
        [0] [] None.

Lemma ex_g_closed : closed ex_g.
Proof.
  split; [|split; [repeat constructor|constructor]].
  intros x Hx. simpl in Hx. unfold num_syms; simpl.
  repeat (destruct Hx as [<- | Hx]; [simpl; repeat constructor; lia|]). destruct Hx.
Qed.

(** ** C01, for a grammar: [sym] gives as many new symbols as asked for, in order and without names, and changes nothing else. *)
Theorem C01_cfg_sym : forall g k, exists g', syms g k = (seq (num_syms g) k, g') /\ num_syms g' = num_syms g + k /\
  names (src g') = names (src g) ++ repeat None k /\
  rules g' = rules g /\ roots g' = roots g /\ wroots g' = wroots g /\ limit g' = limit g.
Proof.
  intros g k. revert g. induction k as [|k IH]; intros g.
  - exists g. cbn. rewrite app_nil_r. repeat split; auto.
  - cbn [syms]. unfold next_sym, src_next. set (g1 := mkCfg _ _ _ _ _). destruct (IH g1) as [g' [E [H1 [H2 H3]]]].
    exists g'. rewrite E. split; [reflexivity|]. split; [rewrite H1; unfold g1, num_syms; cbn; lia|]. split; auto.
    rewrite H2. unfold g1. cbn. rewrite <- app_assoc. reflexivity.
Qed.
Print Assumptions C01_cfg_sym.

(** ** C09 *)
Theorem C09_limit_language : forall g lim g',
  closed_rules g -> good_limit lim -> limit_rhs_len g lim = Ok g' ->
  forall s w, s < num_syms g -> (language (prods g') s w <-> language (prods g) s w).
Proof. exact limit_rhs_len_language. Qed.
Print Assumptions C09_limit_language.

(** The same for sentential forms over the old symbols. *)
Theorem C09_limit_derives : forall g lim g',
  closed_rules g -> good_limit lim -> limit_rhs_len g lim = Ok g' ->
  forall u w, Forall (fun s => s < num_syms g) u -> Forall (fun s => s < num_syms g) w ->
  (derives (prods g') u w <-> derives (prods g) u w).
Proof. exact limit_rhs_len_derives. Qed.
Print Assumptions C09_limit_derives.

(** A rule added while the limit is on counts as one production. *)
Theorem C09_add_rule_language : forall g A r h,
  closed_rules g -> good_limit (limit g) -> A < num_syms g ->
  Forall (fun s => s < num_syms g) r ->
  exists g', add_rule g (mkRule A r h) = Ok g' /\
    forall s w, s < num_syms g ->
      (language (prods g') s w <-> language (union (prods g) (of_list [(A, r)])) s w).
Proof.
  intros g A r h HC HL HA Hr.
  destruct (add_rule_Repr g (prods g) (fun _ => False) A r h HL (closed_Repr g HC) HA) as [g' [E [G R]]]; auto.
  { apply Forall_forall; auto. }
  exists g'. split; auto. intros s w Hs.
  rewrite (represents_language _ _ _ (rp_rep _ _ _ R)) by (intros [[]|?]; lia).
  apply language_ext. intros B q. unfold plus_rule, union, of_list. simpl.
  split; intros [?|H]; auto.
  - destruct H as [-> ->]; auto.
  - destruct H as [H|[]]; inversion H; auto.
Qed.
Print Assumptions C09_add_rule_language.

Example C09_example : exists g', closed_rules ex_g /\ good_limit (Some 2) /\
  limit_rhs_len ex_g (Some 2) = Ok g' /\
  map (fun x => (lhs x, rhs x)) (rules g') =
    [(8, [1; 2]); (9, [8; 3]); (10, [9; 4]); (0, [10; 5]); (11, [0; 6]); (0, [11; 1]); (1, [7]); (1, [])].
Proof.
  eexists. split; [apply ex_g_closed|]. split; [simpl; lia|]. split; vm_compute; reflexivity.
Qed.

(** ** C10 *)
Theorem C10_length_enforced : forall g n g', 2 <= n -> limit_rhs_len g (Some n) = Ok g' ->
  Forall (fun x => length (rhs x) <= n) (rules g').
Proof. exact limit_rhs_len_bound. Qed.
Print Assumptions C10_length_enforced.

(** The new rules are, in order, the parts of the old ones: a rule that fits is its own only
    part; a longer rule has 1 + ceil((m - n) / (n - 1)) parts. *)
Theorem C10_parts : forall g n g', 2 <= n -> limit_rhs_len g (Some n) = Ok g' ->
  exists parts, rules g' = List.concat parts /\
    Forall2 (fun r p =>
      (length (rhs r) <= n -> p = [r]) /\
      (n < length (rhs r) ->
         (length p - 2) * (n - 1) < length (rhs r) - n <= (length p - 1) * (n - 1) /\ 2 <= length p))
      (rules g) parts.
Proof.
  intros g n g' Hn E. destruct (limit_rhs_len_parts g n g' Hn E) as [parts [E1 HF]].
  exists parts. split; auto. clear - HF Hn. induction HF; constructor; auto.
  destruct H as [H1 [H2 _]]. split; auto. intros Hlt. unfold part_count in H1.
  assert (length (rhs x) <=? n = false) as X by (apply Nat.leb_gt; auto). rewrite X in H1.
  set (m := length (rhs x)) in *.
  pose proof (Nat.div_mod (m - n + (n - 2)) (n - 1) ltac:(lia)) as D.
  pose proof (Nat.mod_upper_bound (m - n + (n - 2)) (n - 1) ltac:(lia)) as U.
  set (q := (m - n + (n - 2)) / (n - 1)) in *.
  assert (1 <= q). { destruct q; lia. }
  rewrite H1. split; [|lia].
  replace (1 + q - 2) with (q - 1) by lia. replace (1 + q - 1) with q by lia.
  destruct q; [lia|]. replace (S q - 1) with q by lia. nia.
Qed.
Print Assumptions C10_parts.

Theorem C10_idempotent : forall g n g', 2 <= n -> limit_rhs_len g (Some n) = Ok g' ->
  limit_rhs_len g' (Some n) = Ok g'.
Proof. exact limit_rhs_len_idem. Qed.
Print Assumptions C10_idempotent.

Example C10_example : exists g', limit_rhs_len ex_g (Some 3) = Ok g' /\
  map (fun x => (lhs x, rhs x)) (rules g') =
    [(8, [1; 2; 3]); (0, [8; 4; 5]); (0, [0; 6; 1]); (1, [7]); (1, [])].
Proof. eexists. split; vm_compute; reflexivity. Qed.

(** ** C11 *)
Theorem C11_terminates_partial : forall g lim, good_limit lim -> closed_rules g ->
  exists g', limit_rhs_len g lim = Ok g'.
Proof. intros. destruct (limit_rhs_len_Repr g lim H0 H) as [g' [E _]]. eauto. Qed.
Print Assumptions C11_terminates_partial.

(** With limit 0 or 1 it returns exactly when every rule already fits, and a limit of 0 then
    drops all (empty) rules. *)
Theorem C11_small_limits : forall g l, l < 2 ->
  limit_rhs_len g (Some l) =
  if forallb (fun r => length (rhs r) <=? l) (rules g)
  then Ok (mkCfg (src g) (if l =? 0 then [] else rules g) (roots g) (wroots g) (Some l))
  else OutOfFuel.
Proof.
  intros. unfold limit_rhs_len. rewrite (limit_small l) by auto.
  destruct (forallb _ _); auto. destruct (l =? 0); auto.
Qed.
Print Assumptions C11_small_limits.

(** The claim is false: a rule of two symbols under limit 1 makes the loop run forever (it is
    unfinished after any number of iterations). *)
Theorem C11_refuted : exists g r, limit g = Some 1 /\
  forall iterations, add_rule_fuel iterations g r = OutOfFuel.
Proof.
  exists (mkCfg (mkSrc 3 [None; None; None]) [] [] [] (Some 1)), (mkRule 0 [1; 2] hd0).
  split; auto. intros. eapply add_rule_diverges; simpl; eauto.
Qed.
Print Assumptions C11_refuted.

Theorem C11_loss_refuted : exists g g',
  limit_rhs_len g (Some 0) = Ok g' /\ rules g <> [] /\ rules g' = [].
Proof.
  exists (mkCfg (mkSrc 1 [None]) [mkRule 0 [] hd0] [0] [] None).
  eexists. split; [reflexivity|]. split; [discriminate | reflexivity].
Qed.
Print Assumptions C11_loss_refuted.

(** ** C17 *)
Theorem C17_exact_partial : forall g r g' n,
  limit g = Some 2 -> n = length (rhs r) -> 3 <= n -> (N.of_nat n <= u32_max)%N ->
  add_rule g r = Ok g' ->
  exists c, rules g' = rules g ++ c /\ length c = n - 1 /\
    forall i x, nth_error c i = Some x ->
      (S i < n - 1 ->
         h_origin (hist x) = 4294967295%N /\
         h_dot0 (hist x) = mkDot 0 4294967295 4294967295 4294967295 /\ h_dot2 (hist x) = mkDot 0 4294967295 4294967295 4294967295 /\
         h_dot1 (hist x) = mkDot 0 (h_origin (hist r)) (N.of_nat (n - 2 - i)) 4294967295) /\
      (S i = n - 1 ->
         h_origin (hist x) = h_origin (hist r) /\
         h_dot0 (hist x) = mkDot 0 (h_origin (hist r)) 0 4294967295 /\
         h_dot1 (hist x) = mkDot 0 (h_origin (hist r)) (N.of_nat (n - 2)) 4294967295 /\
         h_dot2 (hist x) = mkDot 0 (h_origin (hist r)) (N.of_nat (n - 1)) 4294967295).
Proof.
  intros g r g' n HL -> Hn Hu E.
  destruct (add_rule_spec g r) as [k [c [E' [Hk Hc]]]]; [rewrite HL; simpl; auto|].
  rewrite E in E'. inversion E'; subst g'; clear E'.
  destruct Hc as [[_ H] | [l [EL [Hlt Hch]]]]; [specialize (H _ HL); lia|].
  rewrite HL in EL. inversion EL; subst l; clear EL.
  exists c. split; [reflexivity|].
  assert (HU : forall m, m <= length (rhs r) -> as_u32 m = N.of_nat m).
  { intros. unfold as_u32. apply N.mod_small. lia. }
  assert (HS := fun i x => chain2_shape _ _ _ _ _ Hch ltac:(lia) i x).
  assert (HLc : length c = length (rhs r) - 1).
  { destruct c as [|y c']; [discriminate|]. apply (HS 0 y eq_refl). }
  split; auto. intros i x Hx. destruct (HS i x Hx) as [HH _]. rewrite HLc in HH. cbn [plus] in HH.
  split; intros Hi.
  - assert (S i =? length (rhs r) - 1 = false) as Q by (apply Nat.eqb_neq; lia).
    rewrite HH, Q. unfold part_hist. rewrite andb_false_r. simpl.
    unfold at_dot. rewrite HU by lia. auto.
  - assert (S i =? length (rhs r) - 1 = true) as Q by (apply Nat.eqb_eq; lia).
    rewrite HH, Q. unfold part_hist.
    assert (i =? 0 = false) as Q0 by (apply Nat.eqb_neq; lia). rewrite Q0. simpl.
    unfold history_binarize.
    assert (length (rhs r) =? 2 = false) as Q1 by (apply Nat.eqb_neq; lia). rewrite Q1.
    assert (3 <=? length (rhs r) = true) as Q2 by (apply Nat.leb_le; lia). rewrite Q2. simpl.
    unfold at_dot. rewrite !HU by lia. auto.
Qed.
Print Assumptions C17_exact_partial.

(** The claim is false.  Splitting S ::= a b c d gives a rule with right-hand side a b.  One
    original symbol comes before the dot between a and b, but the recorded position is 2. *)
Theorem C17_refuted : exists g g' x,
  limit g = Some 2 /\ add_rule g (mkRule 0 [1; 2; 3; 4] (history_new 7)) = Ok g' /\
  In x (rules g') /\ rhs x = [1; 2] /\
  dot_trace_id (h_dot1 (hist x)) = 7%N /\ dot_trace_pos (h_dot1 (hist x)) = 2%N.
Proof.
  exists (mkCfg (mkSrc 5 (repeat None 5)) [] [] [] (Some 2)).
  eexists. eexists. split; [reflexivity|]. split; [vm_compute; reflexivity|].
  split; [left; reflexivity|]. repeat split; reflexivity.
Qed.
Print Assumptions C17_refuted.

(** ** C18 *)
Theorem C18_wrap_input : forall g, closed_rules g ->
  Forall (fun s => s < num_syms g) (roots g) -> good_limit (limit g) ->
  exists g', wrap_input g = Ok g' /\
    roots g' = map wr_root (wroots g') /\
    map wr_inner (wroots g') = roots g /\
    (forall W, In W (wroots g') ->
       NoDup [wr_root W; wr_start W; wr_end W] /\
       num_syms g <= wr_root W /\ num_syms g <= wr_start W /\ num_syms g <= wr_end W /\
       terminal (prods g') (wr_start W) /\ terminal (prods g') (wr_end W) /\
       forall w, language (prods g') (wr_root W) w <->
                 exists v, language (prods g) (wr_inner W) v /\ w = wr_start W :: v ++ [wr_end W]) /\
    (forall s w, s < num_syms g -> (language (prods g') s w <-> language (prods g) s w)).
Proof. exact wrap_input_spec. Qed.
Print Assumptions C18_wrap_input.

(** The new symbols have names, and the others keep theirs. *)
Theorem C18_names : forall g g', good_limit (limit g) -> length (names (src g)) = num_syms g -> wrap_input g = Ok g' ->
  (forall W, In W (wroots g') ->
     names_original_name_of (names (src g')) (wr_root W) = Some "root"%string /\
     names_original_name_of (names (src g')) (wr_start W) = Some "start_of_input"%string /\
     names_original_name_of (names (src g')) (wr_end W) = Some "end_of_input"%string) /\
  forall s, s < num_syms g -> names_original_name_of (names (src g')) s = names_original_name_of (names (src g)) s.
Proof.
  assert (APP : forall (l l' : list (option string)) s, s < length l -> names_original_name_of (l ++ l') s = names_original_name_of l s).
  { intros l l' s H. unfold names_original_name_of. rewrite nth_error_app1 by exact H. reflexivity. }
  assert (ONE : forall g r g', good_limit (limit g) -> length (names (src g)) = num_syms g -> wrap_one g r = Ok g' ->
    limit g' = limit g /\ length (names (src g')) = num_syms g' /\
    (exists l, names (src g') = names (src g) ++ Some "root"%string :: Some "start_of_input"%string :: Some "end_of_input"%string :: l) /\
    wroots g' = wroots g ++ [mkWrapped (num_syms g + 1) r (num_syms g + 2) (num_syms g)]).
  { intros g r g' HL HN E. unfold wrap_one, next_sym, src_next, nm in E. cbn [src num names roots wroots limit rules] in E.
    match type of E with context [add_rule ?g0 ?r0] => destruct (add_rule_spec g0 r0 HL) as [k [c [EA _]]] end.
    rewrite EA in E. cbn [bind added src num names roots wroots limit rules] in E. injection E as <-. cbn [src num names roots wroots limit rules]. unfold num_syms in *.
    cbn [src num names]. split; [reflexivity|]. split; [|split].
    - rewrite !app_length, repeat_length. cbn [length]. lia.
    - exists (repeat None k). rewrite <- !app_assoc. reflexivity.
    - do 2 f_equal. f_equal; lia. }
  intros g g' HL HN E. unfold wrap_input in E.
  assert (ALL : forall l g1, good_limit (limit g1) -> length (names (src g1)) = num_syms g1 -> fold_res wrap_one l g1 = Ok g' ->
    (exists k, names (src g') = names (src g1) ++ k) /\ exists ws, wroots g' = wroots g1 ++ ws /\ forall W, In W ws ->
     names_original_name_of (names (src g')) (wr_root W) = Some "root"%string /\
     names_original_name_of (names (src g')) (wr_start W) = Some "start_of_input"%string /\
     names_original_name_of (names (src g')) (wr_end W) = Some "end_of_input"%string).
  { induction l as [|r l IH]; intros g1 HL1 HN1 E1; cbn [fold_res] in E1.
    - injection E1 as <-. split; [exists []; rewrite app_nil_r; reflexivity|]. exists []. split; [rewrite app_nil_r; reflexivity|intros W []].
    - destruct (wrap_one g1 r) as [g2| |] eqn:E2; cbn [bind] in E1; try discriminate.
      destruct (ONE g1 r g2 HL1 HN1 E2) as [L2 [N2 [[k2 K2] W2]]]. rewrite <- L2 in HL1.
      destruct (IH g2 HL1 N2 E1) as [[k K] [ws [EW HW]]].
      split; [rewrite K, K2, <- app_assoc; eexists; reflexivity|].
      exists (mkWrapped (num_syms g1 + 1) r (num_syms g1 + 2) (num_syms g1) :: ws).
      split; [rewrite EW, W2, <- app_assoc; reflexivity|].
      intros W [<-|HI]; [|exact (HW W HI)]. cbn [wr_root wr_start wr_end]. rewrite K, K2, <- app_assoc. unfold names_original_name_of.
      assert (X : forall i, i < 3 -> nth_error (names (src g1) ++ (Some "root" :: Some "start_of_input" :: Some "end_of_input" :: k2)%string ++ k) (num_syms g1 + i) =
        nth_error [Some "root"; Some "start_of_input"; Some "end_of_input"]%string i).
      { intros i Hi. rewrite nth_error_app2 by lia. rewrite HN1. replace (num_syms g1 + i - num_syms g1) with i by lia.
        destruct i as [|[|[|i]]]; try reflexivity. lia. }
      rewrite (X 1), (X 2) by lia. rewrite <- (Nat.add_0_r (num_syms g1)), (X 0) by lia. auto. }
  destruct (ALL (roots g) (mkCfg (src g) (rules g) [] [] (limit g)) HL HN E) as [[k K] [ws [EW HW]]]. cbn [src wroots app] in K, EW. split.
  - intros W H. rewrite EW in H. exact (HW W H).
  - intros s Hs. rewrite K. apply APP. rewrite HN. exact Hs.
Qed.
Print Assumptions C18_names.

Example C18_example : exists g', wrap_input ex_g = Ok g' /\ roots g' = [8] /\
  wroots g' = [mkWrapped 9 0 10 8] /\ In (mkRule 8 [9; 0; 10] (history_new 0)) (rules g').
Proof. eexists. split; [vm_compute; reflexivity|]. repeat split; simpl; auto 10. Qed.

(** ** C19 *)
Theorem C19_unwrapped : forall g, wroots g = [] -> (cfg_is_empty g = true <-> rules g = []).
Proof. intros. rewrite cfg_is_empty_spec. intuition. Qed.
Print Assumptions C19_unwrapped.

Theorem C19_wrapped_partial : forall g g', closed_rules g ->
  Forall (fun s => s < num_syms g) (roots g) ->
  (limit g = None \/ exists n, limit g = Some n /\ 3 <= n) ->
  wrap_input g = Ok g' -> (cfg_is_empty g' = true <-> rules g = []).
Proof. exact is_empty_after_wrap. Qed.
Print Assumptions C19_wrapped_partial.

(** The claim is false under limit 2: the wrapper rule is split, and its first part belongs
    to no root. *)
Theorem C19_refuted : exists g g', closed g /\ limit g = Some 2 /\ rules g = [] /\
  wrap_input g = Ok g' /\ cfg_is_empty g' = false.
Proof.
  exists (mkCfg (mkSrc 1 [None]) [] [0] [] (Some 2)). eexists.
  split; [|split; [reflexivity|split; [reflexivity|split; [vm_compute; reflexivity | reflexivity]]]].
  split; [intros x []|]. split; [repeat constructor | constructor].
Qed.
Print Assumptions C19_refuted.

Example C19_example : exists g', wrap_input ex_g = Ok g' /\ cfg_is_empty g' = false /\
  exists g2, wrap_input (clear_rules ex_g) = Ok g2 /\ cfg_is_empty g2 = true /\ rules g2 <> [].
Proof.
  eexists. split; [vm_compute; reflexivity|]. split; [reflexivity|].
  eexists. split; [vm_compute; reflexivity|]. split; [reflexivity|]. discriminate.
Qed.

(** ** C20 *)
Theorem C20_reverse_language : forall g s w,
  language (prods (cfg_reverse g)) s w <-> language (prods g) s (rev w).
Proof. exact reverse_language. Qed.
Print Assumptions C20_reverse_language.

Theorem C20_reverse_twice : forall g, cfg_reverse (cfg_reverse g) = g.
Proof. exact reverse_involutive. Qed.
Print Assumptions C20_reverse_twice.

Example C20_example : language (prods ex_g) 0 [2; 3; 4; 5] /\
  language (prods (cfg_reverse ex_g)) 0 [5; 4; 3; 2].
Proof.
  assert (H : language (prods ex_g) 0 [2; 3; 4; 5]).
  { split.
    - apply (derives_rule_then _ _ [1; 2; 3; 4; 5]).
      { exists (mkRule 0 [1; 2; 3; 4; 5] hd0). simpl. auto. }
      apply (derives_step (prods ex_g) [] 1 [2; 3; 4; 5] [] [2; 3; 4; 5]); [|constructor].
      exists (mkRule 1 [] hd0). simpl. auto 10.
    - repeat constructor; intros r [x [Hx [E _]]]; simpl in Hx;
        repeat (destruct Hx as [<-|Hx]; [simpl in E; discriminate|]); destruct Hx. }
  split; auto. apply C20_reverse_language. exact H.
Qed.

(** ** C21 *)
Theorem C21_sort : forall g,
  Permutation (rules g) (rules (cfg_sort g)) /\ StronglySorted rule_le (rules (cfg_sort g)).
Proof. intros. split; apply sort_spec. Qed.
Print Assumptions C21_sort.

(** Sorting is stable: the rules with a given left- and right-hand side keep their order. *)
Theorem C21_sort_stable : forall g A r,
  filter (fun x => (lhs x =? A) && (if list_eq_dec Nat.eq_dec (rhs x) r then true else false))
         (rules (cfg_sort g)) =
  filter (fun x => (lhs x =? A) && (if list_eq_dec Nat.eq_dec (rhs x) r then true else false))
         (rules g).
Proof. intros. apply sort_spec. Qed.
Print Assumptions C21_sort_stable.

Theorem C21_dedup : forall g, drops_repeats (rules g) (rules (cfg_dedup g)).
Proof. intros. apply dedup_spec. Qed.
Print Assumptions C21_dedup.

Theorem C21_sort_dedup_no_repeats : forall g,
  NoDup (map (fun x => (lhs x, rhs x)) (rules (cfg_dedup (cfg_sort g)))).
Proof. intros. eapply drops_nodup; [apply C21_dedup | apply C21_sort]. Qed.
Print Assumptions C21_sort_dedup_no_repeats.

Theorem C21_same_derivations : forall g u w,
  (derives (prods (cfg_sort g)) u w <-> derives (prods g) u w) /\
  (derives (prods (cfg_dedup g)) u w <-> derives (prods g) u w).
Proof.
  intros. split; apply derives_ext.
  - intros. symmetry. apply prods_perm. apply C21_sort.
  - apply prods_dedup.
Qed.
Print Assumptions C21_same_derivations.

(** sort_by with any comparison function (even an inconsistent one) only permutes. *)
Theorem C21_sort_by_permutes : forall cmp g, Permutation (rules g) (rules (cfg_sort_by cmp g)).
Proof. intros. apply sort_perm. Qed.
Print Assumptions C21_sort_by_permutes.

Example C21_example :
  map (fun x => (lhs x, rhs x)) (rules (cfg_dedup (cfg_sort (cfg_extend ex_g ex_g)))) =
  [(0, [0; 6; 1]); (0, [1; 2; 3; 4; 5]); (1, []); (1, [7])].
Proof. reflexivity. Qed.

(** ** C22 *)
Theorem C22_equivalent_partial : forall g1 g2,
  Forall2 (fun a b => length (rhs a) = length (rhs b)) (rules g1) (rules g2) ->
  (equivalent g1 g2 = true <->
   map (fun x => (lhs x, rhs x)) (rules g1) = map (fun x => (lhs x, rhs x)) (rules g2)).
Proof. exact equivalent_spec. Qed.
Print Assumptions C22_equivalent_partial.

(** The claim is false: a grammar is reported equivalent to any prefix of it, and a rule to
    any rule that it begins with. *)
Theorem C22_refuted : exists g1 g2, equivalent g1 g2 = true /\
  length (rules g1) <> length (rules g2) /\
  exists g3, equivalent g1 g3 = true /\ map lhs (rules g1) = map lhs (rules g3) /\
    map (fun x => length (rhs x)) (rules g1) <> map (fun x => length (rhs x)) (rules g3).
Proof.
  exists (set_rules ex_g [mkRule 0 [1; 2] hd0]), (set_rules ex_g []).
  split; [reflexivity|]. split; [discriminate|].
  exists (set_rules ex_g [mkRule 0 [1] hd0]). repeat split; try discriminate.
Qed.
Print Assumptions C22_refuted.

Example C22_example : equivalent ex_g (cfg_sort ex_g) = false /\ equivalent ex_g ex_g = true /\
  Forall2 (fun a b => length (rhs a) = length (rhs b)) (rules ex_g) (rules ex_g).
Proof. repeat split; repeat constructor. Qed.

(** ** C23 *)
Theorem C23_column : forall g c,
  length (column g c) = length (rules g) /\
  forall i x, nth_error (rules g) i = Some x ->
    exists d, nth_error (column g c) i = Some d /\
      di_lhs d = lhs x /\
      (forall s, di_postdot d = Some s <-> exists u v, rhs x = u ++ s :: v /\ length u = c) /\
      (forall s, di_predot d = Some s <-> exists u v, rhs x = u ++ s :: v /\ S (length u) = c) /\
      (di_postdot d = None <-> length (rhs x) <= c) /\
      (di_predot d = None <-> c = 0 \/ length (rhs x) < c) /\
      di_dot d = history_dot (hist x) c.
Proof.
  intros. unfold column. split; [apply map_length|]. intros i x Hx.
  assert (HN : forall (l : list nat) n s, nth_error l n = Some s <-> exists u v, l = u ++ s :: v /\ length u = n).
  { intros. split.
    - intros H. destruct (nth_error_split l n H) as [u [v [? ?]]]. eauto.
    - intros [u [v [-> <-]]]. rewrite nth_error_app2, Nat.sub_diag; auto. }
  eexists. split; [rewrite nth_error_map, Hx; reflexivity|]. cbn [di_lhs di_postdot di_predot di_dot].
  split; auto. split; [intros; apply HN|]. split.
  - intros s. destruct c.
    + split; [discriminate|]. intros [u [v [_ H]]]; discriminate.
    + rewrite HN. split; intros [u [v [? ?]]]; exists u, v; split; auto.
  - split; [apply nth_error_None|]. split; auto. destruct c.
    + tauto.
    + rewrite nth_error_None. lia.
Qed.
Print Assumptions C23_column.

Example C23_example :
  map (fun d => (di_lhs d, di_predot d, di_postdot d)) (column ex_g 1) =
  [(0, Some 1, Some 2); (0, Some 0, Some 6); (1, Some 7, None); (1, None, None)].
Proof. reflexivity. Qed.

(** ** C59 *)

(** What equality of named rules is, for rules whose symbols all have a name entry. *)
Theorem C59_meaning : forall a b, named_ok a -> named_ok b ->
  exists e, named_eq a b = Ok e /\
   (e = true <->
    name_at a (nr_lhs a) = name_at b (nr_lhs b) /\
    map (name_at a) (nr_rhs a) = map (name_at b) (nr_rhs b) /\
    (forall ha hb, nr_hist a = Some ha -> nr_hist b = Some hb -> ha = hb)).
Proof. exact named_eq_spec. Qed.
Print Assumptions C59_meaning.

Theorem C59_reflexive_symmetric_partial : forall a b, named_ok a -> named_ok b ->
  named_eq a a = Ok true /\ named_eq a b = named_eq b a.
Proof.
  intros a b Ha Hb. split.
  - destruct (named_eq_spec a a Ha Ha) as [e [E He]]. rewrite E. f_equal. apply He.
    repeat split; auto. intros; congruence.
  - destruct (named_eq_spec a b Ha Hb) as [e1 [E1 H1]], (named_eq_spec b a Hb Ha) as [e2 [E2 H2]].
    rewrite E1, E2. f_equal. apply eq_true_iff_eq. rewrite H1, H2. split; intros [? [? ?]]; repeat split; auto;
      intros; symmetry; eauto.
Qed.
Print Assumptions C59_reflexive_symmetric_partial.

(** Transitivity holds when the histories are given. *)
Theorem C59_transitive_partial : forall a b c, named_ok a -> named_ok b -> named_ok c ->
  nr_hist b <> None -> named_eq a b = Ok true -> named_eq b c = Ok true -> named_eq a c = Ok true.
Proof.
  intros a b c Ha Hb Hc Hh E1 E2.
  destruct (named_eq_spec a b Ha Hb) as [e1 [F1 H1]], (named_eq_spec b c Hb Hc) as [e2 [F2 H2]],
    (named_eq_spec a c Ha Hc) as [e3 [F3 H3]].
  rewrite F1 in E1. rewrite F2 in E2. inversion E1; subst e1. inversion E2; subst e2.
  rewrite F3. f_equal. apply H3. destruct H1 as [H1 _], H2 as [H2 _].
  destruct (H1 eq_refl) as [A1 [A2 A3]], (H2 eq_refl) as [B1 [B2 B3]].
  split; [congruence|]. split; [congruence|].
  intros ha hc Q1 Q2. destruct (nr_hist b) as [hb|] eqn:Q; [|congruence].
  rewrite (A3 ha hb); auto.
Qed.
Print Assumptions C59_transitive_partial.

(** The claim is false: a rule without history equals rules with different histories. *)
Theorem C59_refuted : exists a b c, named_ok a /\ named_ok b /\ named_ok c /\
  named_eq a b = Ok true /\ named_eq b c = Ok true /\ named_eq a c = Ok false.
Proof.
  exists (mkNamed 0 [] (Some (history_new 1)) [None]), (mkNamed 0 [] None [None]),
    (mkNamed 0 [] (Some (history_new 2)) [None]).
  unfold named_ok; simpl. repeat split; auto.
Qed.
Print Assumptions C59_refuted.
