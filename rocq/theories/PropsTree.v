(** Properties C88 - C89: parse trees under operations on grammars. *)

From Coq Require Import List Arith Bool Lia Permutation Sorted.
From Verif Require Import Base ListFacts Spec SpecClassify SpecRemap SpecTree GrammarFacts SymbolModel HistoryModel CfgModel View CfgProof CfgProof2
  TreeProof TreeLang TreeMap TreeLimit TreeOps RemapModel ClassifyModel UsefulProof PropsGrammar PropsClassify PropsRemap.
Import ListNotations.
Local Notation length := List.length.

(** The rules of a grammar in order, as parse trees refer to them. *)
Definition rule_list (g : cfg) : list (nat * list nat) := map (fun x => (lhs x, rhs x)) (rules g).

Lemma rule_list_prods : forall g A r, of_list (rule_list g) A r <-> prods g A r.
Proof.
  intros g A r. unfold of_list, rule_list, prods. rewrite in_map_iff. split.
  - intros [x [E H]]. injection E as <- <-. eauto.
  - intros [x [H [<- <-]]]. eauto.
Qed.

Lemma rule_list_below : forall g, closed_rules g -> Forall (below (num_syms g)) (map pr (rules g)).
Proof.
  intros g HC. apply Forall_forall. intros p Hp. apply in_map_iff in Hp. destruct Hp as [x [<- Hx]]. apply HC in Hx. exact Hx.
Qed.

Lemma rule_list_syms : forall g, closed_rules g -> forall A r, In (A, r) (rule_list g) -> A < num_syms g /\ Forall (fun s => s < num_syms g) r.
Proof.
  intros g HC A r H. unfold rule_list in H. apply in_map_iff in H. destruct H as [x [E Hx]]. injection E as <- <-. apply HC. exact Hx.
Qed.

Lemma yield_below : forall g A t, closed_rules g -> A < num_syms g -> parses (rule_list g) A t -> Forall (fun s => s < num_syms g) (yield t).
Proof.
  intros g A t HC HA H. revert HA.
  apply (parses_ind2 (rule_list g) (fun A t => A < num_syms g -> Forall (fun s => s < num_syms g) (yield t))) with (A := A) (t := t); auto.
  - intros s _ Hs. cbn. auto.
  - intros B r i ts E _ HF _. apply nth_error_In in E. apply (rule_list_syms g HC) in E. destruct E as [_ E]. cbn [yield].
    induction HF as [|x u r us Hx HF IH]; cbn [flat_map]; [constructor|]. inversion E; subst. apply Forall_app. auto.
Qed.

(** The language of a symbol is the set of strings of its parse trees. *)
Theorem C88_trees_are_parses : forall g A w, language (prods g) A w <-> exists t, parses (rule_list g) A t /\ yield t = w.
Proof.
  intros g A w. rewrite <- parses_language. apply language_ext. intros. symmetry. apply rule_list_prods.
Qed.
Print Assumptions C88_trees_are_parses.

(** ** C88 *)
Theorem C88_limit_rhs_len : forall g lim g', closed_rules g -> good_limit lim -> limit_rhs_len g lim = Ok g' ->
  same_trees (fun A => A < num_syms g) (fun w => w) (rule_list g) (rule_list g') /\
  forall A, A < num_syms g -> (unambiguous (rule_list g) A <-> unambiguous (rule_list g') A).
Proof.
  intros g lim g' HC HL E.
  assert (H : same_trees (fun A => A < num_syms g) (fun w => w) (rule_list g) (rule_list g')).
  { unfold limit_rhs_len in E.
    apply (limit_fold_same (rules g) (mkCfg (src g) [] (roots g) (wroots g) lim) g' (num_syms g)); auto.
    - constructor.
    - apply rule_list_below; auto. }
  split; auto. intros A HA. eapply same_trees_unambiguous; eauto.
Qed.
Print Assumptions C88_limit_rhs_len.

(** Rules added while a limit is on: as if the whole rule had been added. *)
Theorem C88_add_rule : forall g A r h, closed_rules g -> good_limit (limit g) -> A < num_syms g -> Forall (fun s => s < num_syms g) r ->
  exists g', add_rule g (mkRule A r h) = Ok g' /\
    same_trees (fun B => B < num_syms g) (fun w => w) (rule_list g ++ [(A, r)]) (rule_list g') /\
    forall B, B < num_syms g -> (unambiguous (rule_list g ++ [(A, r)]) B <-> unambiguous (rule_list g') B).
Proof.
  intros g A r h HC HL HA Hr. destruct (C09_add_rule_language g A r h HC HL HA Hr) as [g' [E _]]. exists g'. split; auto.
  assert (H : same_trees (fun B => B < num_syms g) (fun w => w) (rule_list g ++ [(A, r)]) (rule_list g')).
  { destruct (add_rule_same g (mkRule A r h) g' [] HL E (rule_list_below g HC)) as [X _]; [constructor|split; auto|].
    rewrite app_nil_r in X. exact X. }
  split; auto. intros B HB. eapply same_trees_unambiguous; eauto.
Qed.
Print Assumptions C88_add_rule.

(** E ::= E p E | a ;  E p a = 0 1 2.   Two parses of a p a p a before and after. *)
Definition ex_ambiguous : cfg := mkCfg (mkSrc 3 (repeat None 3)) [mkRule 0 [0; 1; 0] hd0; mkRule 0 [2] hd0] [0] [] None.

Lemma leaf_tac : forall l s, (forallb (fun p => negb (fst p =? s)) l = true) -> parses l s (Leaf s).
Proof.
  intros l s H. constructor. intros r Hr. rewrite forallb_forall in H. apply H in Hr. cbn [fst] in Hr. rewrite Nat.eqb_refl in Hr. discriminate.
Qed.
Ltac tree_tac := repeat (first [apply leaf_tac; reflexivity | eapply parses_node; [reflexivity|] | apply Forall2_cons | apply Forall2_nil]).

Lemma two_trees : forall l A t t', parses l A t -> parses l A t' -> yield t = yield t' -> t <> t' -> ~ unambiguous l A.
Proof. intros l A t t' H H' E HN HU. apply HN. apply HU; auto. Qed.

Example C88_example : closed_rules ex_ambiguous /\ ~ unambiguous (rule_list ex_ambiguous) 0 /\
  exists g', limit_rhs_len ex_ambiguous (Some 2) = Ok g' /\ rule_list g' = [(3, [0; 1]); (0, [3; 0]); (0, [2])] /\
    ~ unambiguous (rule_list g') 0.
Proof.
  assert (HC : closed_rules ex_ambiguous) by closed_tac.
  assert (HN : ~ unambiguous (rule_list ex_ambiguous) 0).
  { apply (two_trees _ _ (Node 0 [Node 1 [Leaf 2]; Leaf 1; Node 0 [Node 1 [Leaf 2]; Leaf 1; Node 1 [Leaf 2]]])
                         (Node 0 [Node 0 [Node 1 [Leaf 2]; Leaf 1; Node 1 [Leaf 2]]; Leaf 1; Node 1 [Leaf 2]])); [tree_tac|tree_tac|reflexivity|discriminate]. }
  split; auto. split; auto. eexists. split; [vm_compute; reflexivity|]. split; [reflexivity|].
  intros HU. apply HN. eapply (proj2 (C88_limit_rhs_len ex_ambiguous (Some 2) _ HC ltac:(cbn; lia) ltac:(vm_compute; reflexivity))); [cbn; lia|exact HU].
Qed.

(** ** C89 *)
Theorem C89_reverse : forall g, same_trees (fun _ => True) (@rev nat) (rule_list g) (rule_list (cfg_reverse g)) /\
  forall A, unambiguous (rule_list g) A <-> unambiguous (rule_list (cfg_reverse g)) A.
Proof.
  intros g. assert (H : same_trees (fun _ => True) (@rev nat) (rule_list g) (rule_list (cfg_reverse g))).
  { pose proof (reverse_same (rule_list g)) as H. unfold rule_list, cfg_reverse in *. cbn [rules set_rules] in *. rewrite map_map in H. rewrite map_map. exact H. }
  split; auto. intros A. eapply same_trees_unambiguous; [exact H|exact I|].
  intros u v E. rewrite <- (rev_involutive u), E. apply rev_involutive.
Qed.
Print Assumptions C89_reverse.

Theorem C89_sort : forall g cmp,
  (same_trees (fun _ => True) (fun w => w) (rule_list g) (rule_list (cfg_sort g)) /\
   same_trees (fun _ => True) (fun w => w) (rule_list g) (rule_list (cfg_sort_by cmp g))) /\
  forall A, (unambiguous (rule_list g) A <-> unambiguous (rule_list (cfg_sort g)) A) /\
            (unambiguous (rule_list g) A <-> unambiguous (rule_list (cfg_sort_by cmp g)) A).
Proof.
  intros g cmp.
  assert (H1 : same_trees (fun _ => True) (fun w => w) (rule_list g) (rule_list (cfg_sort g))) by (apply permuted_same, Permutation_map, C21_sort).
  assert (H2 : same_trees (fun _ => True) (fun w => w) (rule_list g) (rule_list (cfg_sort_by cmp g))) by (apply permuted_same, Permutation_map, C21_sort_by_permutes).
  split; auto. intros A. split; eapply same_trees_unambiguous; eauto; exact I.
Qed.
Print Assumptions C89_sort.

(** Deduplicating removes parses that only differ in which of two equal rules is used; it adds none.
    That it loses no string is C21. *)
Theorem C89_dedup : forall g, embeds (fun _ => True) (fun _ => True) (rule_list (cfg_dedup g)) (rule_list g) /\
  forall A, unambiguous (rule_list g) A -> unambiguous (rule_list (cfg_dedup g)) A.
Proof.
  intros g. destruct (drops_index _ _ (C21_dedup g)) as [q [Q1 Q2]].
  assert (H : embeds (fun _ => True) (fun _ => True) (rule_list (cfg_dedup g)) (rule_list g)).
  { apply (part_embeds _ _ q); auto.
    - intros i p E. unfold rule_list in *. rewrite nth_error_map in *. destruct (nth_error (rules (cfg_dedup g)) i) as [x|] eqn:Ex; [|discriminate].
      rewrite (Q2 _ _ Ex). exact E.
    - intros s _ HN r Hr. unfold rule_list in Hr. apply in_map_iff in Hr. destruct Hr as [x [E Hx]]. injection E as <- <-.
      destruct (drops_keys _ _ (C21_dedup g) _ Hx) as [y [Hy [Y1 Y2]]]. apply (HN (rhs y)). unfold rule_list. rewrite <- Y1.
      apply in_map_iff. exists y. auto. }
  split; auto. intros A HU. eapply embeds_unambiguous; [exact H|exact I| |exact HU]. intros. apply Forall_forall. auto.
Qed.
Print Assumptions C89_dedup.

(** A ::= x twice: two parses, one after deduplicating. *)
Example C89_dedup_example : let g := mkCfg (mkSrc 2 (repeat None 2)) [mkRule 0 [1] hd0; mkRule 0 [1] hd0] [0] [] None in
  ~ unambiguous (rule_list g) 0 /\ unambiguous (rule_list (cfg_dedup g)) 0.
Proof.
  intros g. split.
  - apply (two_trees _ _ (Node 0 [Leaf 1]) (Node 1 [Leaf 1])); [tree_tac|tree_tac|reflexivity|discriminate].
  - assert (HX : forall t, parses (rule_list (cfg_dedup g)) 0 t -> t = Node 0 [Leaf 1]).
    { intros t H. destruct t as [s|i ts].
      - apply parses_leaf_inv in H. destruct H as [<- H]. exfalso. apply (H [1]). cbn. auto.
      - apply parses_node_inv in H. destruct H as [r [E HF]]. destruct i as [|[|i]]; try discriminate. injection E as <-.
        inversion HF as [|? t ? ts' Ht HF']; subst. inversion HF'; subst. destruct t as [s|i us]; [apply parses_leaf_inv in Ht; destruct Ht as [<- _]; reflexivity|].
        apply parses_node_inv in Ht. destruct Ht as [r [E _]]. destruct i as [|[|i]]; discriminate. }
    intros t t' H H' _. rewrite (HX t H), (HX t' H'). reflexivity.
Qed.

(** Reordering and renaming symbols. *)
Theorem C89_reorder : forall cmp g m,
  closed g -> fits g -> names_wf g -> num_syms g <= length (to_external m) -> total_order cmp ->
  exists r h, reorder_symbols cmp (mkRemap g m) = Ok r /\ inj_below (num_syms g) h /\ roots (rm_grammar r) = map h (roots g) /\
  renamed_trees (fun A => A < num_syms g) h (rule_list g) (rule_list (rm_grammar r)) /\
  forall A, A < num_syms g -> (unambiguous (rule_list g) A <-> unambiguous (rule_list (rm_grammar r)) (h A)).
Proof.
  intros cmp g m HC HF HN HM HT. destruct (C37_reorder cmp g m HC HF HN HM HT) as [r [h [E H]]]. cbn zeta in H.
  destruct H as [_ [_ [HI [_ [_ [HP [HR _]]]]]]]. exists r, h. split; auto. split; auto. split; auto. destruct HC as [HC _].
  assert (H : renamed_trees (fun A => A < num_syms g) h (rule_list g) (rule_list (rm_grammar r))).
  { eapply renamed_permuted; [apply rename_same|].
    - apply rule_list_syms; auto.
    - exact HI.
    - unfold rule_list. rewrite map_map. apply Permutation_sym in HP. apply (Permutation_map (fun x => (lhs x, rhs x))) in HP. rewrite map_map in HP. exact HP. }
  split; auto. intros A HA. eapply (renamed_unambiguous _ (fun s => s < num_syms g)); eauto. intros t Ht. eapply yield_below; eauto.
Qed.
Print Assumptions C89_reorder.

Theorem C89_remove_unused : forall g m,
  closed g -> fits g -> names_wf g -> num_syms g <= length (to_external m) -> rules g <> [] ->
  exists r h, remove_unused_symbols (mkRemap g m) = Ok r /\ roots (rm_grammar r) = map h (roots g) /\
  (forall a b, occurs (prods g) a -> occurs (prods g) b -> h a = h b -> a = b) /\
  renamed_trees (occurs (prods g)) h (rule_list g) (rule_list (rm_grammar r)) /\
  forall A, occurs (prods g) A -> (unambiguous (rule_list g) A <-> unambiguous (rule_list (rm_grammar r)) (h A)).
Proof.
  intros g m HC HF HN HM HR. destruct (C38_remove_unused_partial g m HC HF HN HM HR) as [r [U [h [E H]]]]. cbn zeta in H.
  destruct H as [HS [HU [_ [Hh [HP [HRo _]]]]]]. exists r, h. split; auto. split; auto.
  assert (HI : forall a b, occurs (prods g) a -> occurs (prods g) b -> h a = h b -> a = b).
  { intros a b Ha Hb EQ. apply HU in Ha. apply HU in Hb. apply In_nth_error in Ha. apply In_nth_error in Hb. destruct Ha as [i Ei]. destruct Hb as [j Ej].
    rewrite (Hh _ _ Ei), (Hh _ _ Ej) in EQ. subst j. congruence. }
  assert (HO : forall A r0, In (A, r0) (rule_list g) -> occurs (prods g) A /\ Forall (occurs (prods g)) r0).
  { intros A r0 H. apply rule_list_prods in H. split; [exists A, r0; auto|]. apply Forall_forall. intros x Hx. exists A, r0. auto. }
  split; auto.
  assert (H : renamed_trees (occurs (prods g)) h (rule_list g) (rule_list (rm_grammar r))).
  { eapply renamed_permuted; [apply rename_same|].
    - exact HO.
    - exact HI.
    - unfold rule_list. rewrite map_map. apply Permutation_sym in HP. apply (Permutation_map (fun x => (lhs x, rhs x))) in HP. rewrite map_map in HP. exact HP. }
  split; auto. intros A HA. eapply (renamed_unambiguous _ (occurs (prods g))); eauto.
  intros t Ht. revert HA. apply (parses_ind2 (rule_list g) (fun A t => occurs (prods g) A -> Forall (occurs (prods g)) (yield t))) with (A := A) (t := t); auto.
  - intros s _ Hs. cbn. auto.
  - intros B r0 i ts EB _ HFB _. apply nth_error_In in EB. apply HO in EB. destruct EB as [_ EB]. cbn [yield].
    induction HFB as [|x u r0 us Hx HFB IH]; cbn [flat_map]; [constructor|]. inversion EB; subst. apply Forall_app. auto.
Qed.
Print Assumptions C89_remove_unused.

(** Removing useless rules: the trees of a root, over the terminals of the original grammar (a symbol whose rules
    were all useless looks like a terminal afterwards, see C32), are the same. *)
Lemma useful_trees : forall g g' l, closed_rules g ->
  (forall x, In x (rules g') <-> In x (rules g) /\ useful (prods g) l (lhs x) (rhs x)) -> (exists f, rules g' = filter f (rules g)) ->
  same_trees_over (fun R => In R l) (terminal (prods g)) (rule_list g') (rule_list g).
Proof.
  intros g g' l HC HM [f HF]. destruct (filter_index _ f (rules g)) as [q [Q1 [Q2 Q3]]]. rewrite <- HF in *.
  assert (R2 : forall i p, nth_error (rule_list g') i = Some p -> nth_error (rule_list g) (q i) = Some p).
  { intros i p E. unfold rule_list in *. rewrite nth_error_map in *. destruct (nth_error (rules g') i) as [x|] eqn:Ex; [|discriminate].
    rewrite (Q2 _ _ Ex). exact E. }
  assert (RT : forall s, terminal (prods g) s -> (forall r, ~ In (s, r) (rule_list g')) -> forall r, ~ In (s, r) (rule_list g)).
  { intros s Hs _ r Hr. apply rule_list_prods in Hr. eapply Hs; eauto. }
  assert (RR : forall j A r ts, nth_error (rule_list g) j = Some (A, r) -> reachable_from (prods g) l A -> Forall2 (parses (rule_list g)) r ts ->
    Forall (reachable_from (prods g) l) r /\ exists i, q i = j /\ nth_error (rule_list g') i = Some (A, r)).
  { intros j A r ts E HA HP. assert (HI := nth_error_In _ _ E). apply rule_list_prods in HI. split.
    - apply Forall_forall. intros x Hx. destruct HA as [R [HR HRA]]. exists R. split; auto. eapply reaches_rule; eauto.
    - unfold rule_list in E. rewrite nth_error_map in E. destruct (nth_error (rules g) j) as [x|] eqn:Ex; [|discriminate]. injection E as <- <-.
      assert (Hu : useful (prods g) l (lhs x) (rhs x)).
      { split; auto. exists (flat_map yield ts). clear - HP. induction HP as [|a t r ts Ha HP IH]; cbn [flat_map]; [split; constructor|].
        destruct IH as [I1 I2]. apply parses_derives in Ha. destruct Ha as [H1 H2]. split.
        - apply derives_cons; auto. eapply derives_ext; [|exact H1]. intros; symmetry; apply rule_list_prods.
        - apply Forall_app. split; auto. eapply Forall_impl; [|exact H2]. intros s Hs r' Hr'. apply (Hs r'). apply rule_list_prods. exact Hr'. }
      assert (Hx : In x (rules g')) by (apply HM; split; auto; eapply nth_error_In; eauto).
      assert (Hf : f x = true) by (rewrite HF in Hx; apply filter_In in Hx; tauto).
      destruct (Q3 j x Ex Hf) as [i [<- Ei]]. exists i. split; auto. unfold rule_list. rewrite nth_error_map, Ei. reflexivity. }
  exists (part q). split; [|split].
  - intros A t HA Ht HY. split; [eapply part_ok; eauto|apply part_yield].
  - intros A t u _ _ _ _ _ E. eapply part_inj; eauto.
  - intros A t HA Ht. destruct (part_onto _ _ q R2 (reachable_from (prods g) l) RR A t Ht) as [t' [T1 T2]].
    { exists A. split; auto. apply reaches_iff. auto. }
    exists t'. split; auto. split; auto. rewrite <- (part_yield q t'), T2. apply parses_derives in Ht. destruct Ht as [_ Ht].
    eapply Forall_impl; [|exact Ht]. intros s Hs r Hr. apply (Hs r). apply rule_list_prods. exact Hr.
Qed.

Theorem C89_remove_useless : forall g l, closed_rules g -> Forall (fun s => s < num_syms g) l ->
  exists u g', usefulness_with_roots g l = Ok u /\ us_remove_useless_rules u g = Ok g' /\
  same_trees_over (fun R => In R l) (terminal (prods g)) (rule_list g') (rule_list g).
Proof.
  intros g l HC HL. destruct (usefulness_spec g l HC HL) as [u [E AN]]. exists u.
  destruct (remove_useless_spec g l u HC AN) as [g' [E' [M [F _]]]]. exists g'. split; auto. split; auto. apply useful_trees; auto.
Qed.
Print Assumptions C89_remove_useless.

Theorem C89_make_proper : forall g, closed_rules g -> Forall (fun s => s < num_syms g) (roots g) ->
  exists b g', make_proper g = Ok (b, g') /\ roots g' = roots g /\
  same_trees_over (fun R => In R (roots g)) (terminal (prods g)) (rule_list g') (rule_list g) /\
  forall R, In R (roots g) -> productive (prods g) R -> (unambiguous (rule_list g') R <-> unambiguous (rule_list g) R).
Proof.
  intros g HC HL. destruct (C32_make_proper g HC HL) as [b [g' [E [HRo [_ [_ [_ HLang]]]]]]]. 
  destruct (make_proper_spec g HC HL) as [b' [g2 [E' [_ [M [F [_ _]]]]]]]. rewrite E in E'. injection E' as <- <-.
  exists b, g'. split; auto. split; auto.
  assert (H : same_trees_over (fun R => In R (roots g)) (terminal (prods g)) (rule_list g') (rule_list g)) by (apply useful_trees; auto).
  split; auto. intros R HR HP. destruct H as [f [F1 [F2 F3]]].
  assert (HT : forall t, parses (rule_list g') R t -> Forall (terminal (prods g)) (yield t)).
  { intros t Ht. assert (HW : language (prods g') R (yield t)) by (apply C88_trees_are_parses; eauto).
    apply (proj2 (HLang R HR) HP) in HW. apply HW. }
  split; intros HU t t' Ht Ht' EQ.
  - destruct (F3 R t HR Ht) as [u [U1 [U2 <-]]]. destruct (F3 R t' HR Ht') as [u' [U3 [U4 <-]]]. f_equal. apply HU; auto.
    rewrite <- (proj2 (F1 R u HR U1 U2)), <- (proj2 (F1 R u' HR U3 U4)). exact EQ.
  - apply (F2 R); auto. destruct (F1 R t HR Ht (HT t Ht)). destruct (F1 R t' HR Ht' (HT t' Ht')). apply HU; auto. congruence.
Qed.
Print Assumptions C89_make_proper.

Example C89_example : closed ex_g /\ parses (rule_list ex_g) 0 (Node 1 [Node 0 [Node 3 []; Leaf 2; Leaf 3; Leaf 4; Leaf 5]; Leaf 6; Node 2 [Leaf 7]]) /\
  yield (Node 1 [Node 0 [Node 3 []; Leaf 2; Leaf 3; Leaf 4; Leaf 5]; Leaf 6; Node 2 [Leaf 7]]) = [2; 3; 4; 5; 6; 7] /\
  closed_rules ex_useless /\ parses (rule_list ex_useless) 0 (Node 1 [Leaf 3]) /\ productive (prods ex_useless) 0.
Proof.
  split; [exact ex_g_closed|]. split; [tree_tac|]. split; [reflexivity|]. split; [exact ex_useless_closed|]. split; [tree_tac|].
  assert (H : language (prods ex_useless) 0 [3]) by (apply C88_trees_are_parses; exists (Node 1 [Leaf 3]); split; [tree_tac|reflexivity]).
  exists [3]. exact H.
Qed.
