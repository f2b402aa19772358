(** Property C108: the analyses of a renumbered grammar are those of the original, renumbered. *)

From Coq Require Import List Arith NArith Bool Lia Permutation Sorted Relations.
From Verif Require Import Base ListFacts Spec SpecClassify SpecPredict SpecRemap SetView GrammarFacts LoopModel SymbolModel HistoryModel CfgModel View
  BitSetModel ClosureModel SetProof MatrixModel MatrixProof ClassifyModel UsefulProof CyclesProof SetsModel SetsProof FollowProof
  LLModel LLProof DistModel DistSem DistProof LengthProof DistTotal LoadProof RemapModel RemapProof RemapProof2
  PropsGrammar PropsSets PropsClassify PropsPredict PropsLL PropsDist PropsRemap PropsOrder.
Import ListNotations.
Local Notation length := List.length.

Section Renaming.
  Context (P Q : productions) (f : nat -> nat).
  Context (HQ : forall A r, Q A r <-> renamed f P A r).
  Context (HInj : forall a b, occurs P a -> occurs P b -> f a = f b -> a = b).

  Lemma prod_occurs : forall A q, P A q -> occurs P A /\ Forall (occurs P) q.
  Proof. intros A q HA. split; [exists A, q; auto|]. apply Forall_forall. intros s Hs. exists A, q. auto. Qed.

  Lemma rn_fwd : forall u w, derives P u w -> derives Q (map f u) (map f w).
  Proof. intros u w H. apply (derives_ext _ _ HQ). apply renamed_derives_fwd; auto. Qed.

  Lemma rn_bwd : forall x y, derives Q x y -> forall u, x = map f u -> Forall (occurs P) u ->
    exists w, y = map f w /\ Forall (occurs P) w /\ derives P u w.
  Proof.
    intros x y H. induction H as [x|x A y q w HP HD IH]; intros u Eu HU.
    - exists u. split; auto. split; auto. constructor.
    - symmetry in Eu. apply map_eq_app in Eu. destruct Eu as [u1 [u2 [-> [E1 E2]]]].
      apply map_eq_cons in E2. destruct E2 as [B [u3 [-> [E2 E3]]]].
      apply HQ in HP. destruct HP as [B' [t [HP [EA ER]]]]. apply Forall_app in HU. destruct HU as [HU1 HU2].
      inversion HU2; subst. destruct (prod_occurs B' t HP) as [HB' Hq].
      assert (B = B') by (apply HInj; auto). subst B'.
      destruct (IH (u1 ++ t ++ u3)) as [w' [Ew [HW HD']]].
      + rewrite !map_app. auto.
      + apply Forall_app. split; auto. apply Forall_app. auto.
      + exists w'. split; auto. split; auto. apply derives_step with t; auto.
  Qed.

  Lemma rn_occurs : forall y, occurs Q y <-> exists a, occurs P a /\ y = f a.
  Proof.
    intros y. split.
    - intros [A [r [HP HX]]]. apply HQ in HP. destruct HP as [B [q [HP [-> ->]]]]. destruct (prod_occurs B q HP) as [HB Hq].
      destruct HX as [->|HX]; [exists B; auto|]. apply in_map_iff in HX. destruct HX as [a [<- Ha]]. rewrite Forall_forall in Hq. exists a. auto.
    - intros [a [[A [r [HP HX]]] ->]]. exists (f A), (map f r). split; [apply HQ; exists A, r; auto|].
      destruct HX as [->|HX]; auto. right. apply in_map. auto.
  Qed.

  Lemma rn_prods : forall a q, occurs P a -> (Q (f a) (map f q) <-> exists q', P a q' /\ map f q' = map f q).
  Proof.
    intros a q Ha. rewrite HQ. split.
    - intros [B [t [HP [E1 E2]]]]. destruct (prod_occurs B t HP) as [HB _]. apply HInj in E1; auto. subst B. exists t. auto.
    - intros [q' [HP E]]. exists a, q'. auto.
  Qed.

  Lemma rn_empty : forall a, occurs P a -> (Q (f a) [] <-> P a []).
  Proof.
    intros a Ha. rewrite (rn_prods a [] Ha). split; [|intros H; exists []; auto]. intros [q [HP E]]. destruct q; [auto|discriminate].
  Qed.

  Lemma rn_terminal : forall a, occurs P a -> (terminal Q (f a) <-> terminal P a).
  Proof.
    intros a Ha. split.
    - intros H q HP. apply (H (map f q)). apply HQ. exists a, q; auto.
    - intros H q HP. apply HQ in HP. destruct HP as [B [t [HP [Ea _]]]]. destruct (prod_occurs B t HP). apply HInj in Ea; auto. subst. eapply H; eauto.
  Qed.

  Lemma rn_nonterminal : forall a, occurs P a -> (nonterminal Q (f a) <-> nonterminal P a).
  Proof.
    intros a Ha. split.
    - intros [q HP]. apply HQ in HP. destruct HP as [B [t [HP [Ea _]]]]. destruct (prod_occurs B t HP). apply HInj in Ea; auto. subst. exists t. auto.
    - intros [q HP]. exists (map f q). apply HQ. exists a, q. auto.
  Qed.

  Lemma one : forall a, occurs P a -> Forall (occurs P) [a].
  Proof. intros. constructor; auto. Qed.

  Lemma map_nil : forall w : list nat, [] = map f w -> w = [].
  Proof. intros [|? ?]; [auto|discriminate]. Qed.

  Lemma rn_nullable : forall a, occurs P a -> (nullable Q (f a) <-> nullable P a).
  Proof.
    intros a Ha. split.
    - intros H. destruct (rn_bwd _ _ H [a] eq_refl (one a Ha)) as [w [E [_ HD]]]. apply map_nil in E. subst w. exact HD.
    - intros H. apply rn_fwd in H. exact H.
  Qed.

  Lemma split_map : forall u y v w, u ++ y :: v = map f w -> exists u' b v', w = u' ++ b :: v' /\ u = map f u' /\ y = f b /\ v = map f v'.
  Proof.
    intros u y v w E. symmetry in E. apply map_eq_app in E. destruct E as [u' [x [-> [<- E]]]].
    apply map_eq_cons in E. destruct E as [b [v' [-> [<- <-]]]]. exists u', b, v'. auto.
  Qed.

  Lemma mid : forall u b v, Forall (occurs P) (u ++ b :: v) -> occurs P b.
  Proof. intros u b v H. apply Forall_app in H. destruct H as [_ H]. inversion H; auto. Qed.

  Lemma rn_reaches : forall a b, occurs P a -> occurs P b -> (reaches Q (f a) (f b) <-> reaches P a b).
  Proof.
    intros a b Ha Hb. split.
    - intros [u [v H]]. destruct (rn_bwd _ _ H [a] eq_refl (one a Ha)) as [w [E [HW HD]]].
      destruct (split_map _ _ _ _ E) as [u' [b' [v' [-> [-> [Eb ->]]]]]]. apply mid in HW. apply HInj in Eb; auto. subst b'. exists u', v'. auto.
    - intros [u [v H]]. apply rn_fwd in H. rewrite map_app in H. exists (map f u), (map f v). exact H.
  Qed.

  Lemma rn_reaches1 : forall a b, occurs P a -> occurs P b -> (reaches1 Q (f a) (f b) <-> reaches1 P a b).
  Proof.
    intros a b Ha Hb. split.
    - intros [u [v [x [A [y [r [E [HP HD]]]]]]]]. destruct x as [|? [|]]; try discriminate. injection E as <- <-.
      apply HQ in HP. destruct HP as [B [q [HP [EA ->]]]]. destruct (prod_occurs B q HP) as [HB Hq]. apply HInj in EA; auto. subst B.
      cbn [app] in HD. rewrite app_nil_r in HD. destruct (rn_bwd _ _ HD q eq_refl Hq) as [w [E [HW HD']]].
      destruct (split_map _ _ _ _ E) as [u' [b' [v' [-> [-> [Eb ->]]]]]]. apply mid in HW. apply HInj in Eb; auto. subst b'.
      exists u', v', [], a, [], q. rewrite app_nil_r. auto.
    - intros [u [v [x [A [y [r [E [HP HD]]]]]]]]. destruct x as [|? [|]]; try discriminate. injection E as <- <-.
      exists (map f u), (map f v), [], (f a), [], (map f r). split; auto. split; [apply HQ; exists a, r; auto|].
      apply rn_fwd in HD. cbn [app] in *. rewrite app_nil_r in *. rewrite map_app in HD. exact HD.
  Qed.

  Lemma rn_unit_fwd : forall a b, unit_derives P a b -> unit_derives Q (f a) (f b).
  Proof.
    intros a b H. induction H as [a b [HP HN]|a b c _ IH1 _ IH2]; [|eapply t_trans; eauto]. apply t_step.
    destruct (prod_occurs a [b] HP) as [HA HB]. inversion HB; subst. split; [apply HQ; exists a, [b]; auto|]. intros E. apply HN, HInj; auto.
  Qed.

  Lemma rn_unit_bwd : forall x y, unit_derives Q x y -> exists a b, occurs P a /\ occurs P b /\ x = f a /\ y = f b /\ unit_derives P a b.
  Proof.
    intros x y H. induction H as [x y [HP HN]|x y z _ IH1 _ IH2].
    - apply HQ in HP. destruct HP as [B [q [HP [-> E]]]]. destruct (prod_occurs B q HP) as [HB Hq]. destruct q as [|b [|]]; try discriminate.
      injection E as ->. inversion Hq; subst. exists B, b. do 4 (split; [auto|]). apply t_step. split; [auto|]. congruence.
    - destruct IH1 as [a [b [Ha [Hb [-> [-> H1]]]]]]. destruct IH2 as [b' [c [Hb' [Hc [E [-> H2]]]]]]. apply HInj in E; auto. subst b'.
      exists a, c. do 4 (split; [auto|]). eapply t_trans; eauto.
  Qed.

  Lemma rn_unit : forall a b, occurs P a -> occurs P b -> (unit_derives Q (f a) (f b) <-> unit_derives P a b).
  Proof.
    intros a b Ha Hb. split; [|apply rn_unit_fwd]. intros H. destruct (rn_unit_bwd _ _ H) as [a' [b' [Ha' [Hb' [E1 [E2 H']]]]]].
    apply HInj in E1, E2; auto. subst. auto.
  Qed.

  Lemma rn_begins : forall a y, occurs P a -> (begins Q [f a] y <-> exists t, y = f t /\ occurs P t /\ begins P [a] t).
  Proof.
    intros a y Ha. split.
    - intros [HT [v HD]]. destruct (rn_bwd _ _ HD [a] eq_refl (one a Ha)) as [w [E [HW HD']]].
      destruct (split_map [] _ _ _ E) as [u' [b [v' [-> [E1 [-> ->]]]]]]. pose proof (mid _ _ _ HW). apply map_nil in E1. subst u'.
      exists b. split; auto. split; auto. split; [apply rn_terminal; auto|]. exists v'. exact HD'.
    - intros [t [-> [Ht [HT [v HD]]]]]. split; [apply rn_terminal; auto|]. exists (map f v). apply rn_fwd in HD. exact HD.
  Qed.

  Lemma rn_ends : forall a y, occurs P a -> (ends Q [f a] y <-> exists t, y = f t /\ occurs P t /\ ends P [a] t).
  Proof.
    intros a y Ha. split.
    - intros [HT [v HD]]. destruct (rn_bwd _ _ HD [a] eq_refl (one a Ha)) as [w [E [HW HD']]].
      destruct (split_map _ _ [] _ E) as [u' [b [v' [-> [-> [-> E2]]]]]]. pose proof (mid _ _ _ HW). apply map_nil in E2. subst v'.
      exists b. split; auto. split; auto. split; [apply rn_terminal; auto|]. exists u'. exact HD'.
    - intros [t [-> [Ht [HT [v HD]]]]]. split; [apply rn_terminal; auto|]. exists (map f v). apply rn_fwd in HD. rewrite map_app in HD. exact HD.
  Qed.

  Lemma single_or_occurs : forall (R : productions) C w, derives R [C] w -> w = [C] \/ occurs R C.
  Proof.
    intros R C w H. remember [C] as u eqn:E. destruct H as [u|u A v r w HP HD]; [auto|]. right.
    destruct u as [|? [|]]; try discriminate. injection E as -> ->. exists C, r. auto.
  Qed.

  Lemma rn_follows : forall a y, occurs P a -> (follows Q (f a) y <-> exists t, y = f t /\ occurs P t /\ follows P a t).
  Proof.
    intros a y Ha. split.
    - intros [HT [C [u [v HD]]]]. destruct (single_or_occurs _ _ _ HD) as [X|X]; [destruct u as [|? [|]]; discriminate|].
      apply rn_occurs in X. destruct X as [c [Hc ->]]. destruct (rn_bwd _ _ HD [c] eq_refl (one c Hc)) as [w [E [HW HD']]].
      destruct (split_map _ _ _ _ E) as [u' [b [v' [-> [-> [Eb E2]]]]]]. pose proof (mid _ _ _ HW) as Hb. apply HInj in Eb; auto. subst b.
      symmetry in E2. apply map_eq_cons in E2. destruct E2 as [t [v2 [-> [<- <-]]]].
      assert (Ht : occurs P t) by (apply Forall_app in HW; destruct HW as [_ HW]; inversion HW as [|? ? _ HW2]; inversion HW2; auto).
      exists t. split; auto. split; auto. split; [apply rn_terminal; auto|]. exists c, u', v2. exact HD'.
    - intros [t [-> [Ht [HT [C [u [v HD]]]]]]]. split; [apply rn_terminal; auto|]. exists (f C), (map f u), (map f v). apply rn_fwd in HD.
      rewrite map_app in HD. exact HD.
  Qed.

  Lemma terminals_map : forall w, Forall (occurs P) w -> (Forall (terminal Q) (map f w) <-> Forall (terminal P) w).
  Proof.
    induction 1 as [|a w Ha HW IH]; cbn [map]; [split; constructor|]. split; intros X; inversion X; subst; constructor; try (apply rn_terminal; auto); apply IH; auto.
  Qed.

  Lemma rn_language : forall a n, occurs P a ->
    ((exists y, language Q (f a) y /\ length y = n) <-> exists w, language P a w /\ length w = n).
  Proof.
    intros a n Ha. split.
    - intros [y [[HD HT] HL]]. destruct (rn_bwd _ _ HD [a] eq_refl (one a Ha)) as [w [-> [HW HD']]].
      exists w. rewrite map_length in HL. split; auto. split; auto. apply terminals_map; auto.
    - intros [w [[HD HT] HL]]. assert (HW : Forall (occurs P) w).
      { eapply derives_Forall; [|exact HD|auto]. intros B q HP _. apply (prod_occurs B q HP). }
      exists (map f w). rewrite map_length. split; auto. split; [apply rn_fwd in HD; exact HD|]. apply terminals_map; auto.
  Qed.

  Lemma rn_productive : forall a, occurs P a -> (productive Q (f a) <-> productive P a).
  Proof.
    intros a Ha. split; intros [w HW].
    - destruct (proj1 (rn_language a (length w) Ha)) as [y [Hy _]]; [exists w; auto|]. exists y; auto.
    - destruct (proj2 (rn_language a (length w) Ha)) as [y [Hy _]]; [exists w; auto|]. exists y; auto.
  Qed.

  Lemma rn_cycle_free : cycle_free_grammar Q <-> cycle_free_grammar P.
  Proof.
    split; intros H a HU.
    - apply (H (f a)). apply rn_unit_fwd; auto.
    - destruct (rn_unit_bwd _ _ HU) as [x [b [Hx [Hb [-> [E H']]]]]]. apply HInj in E; auto. subst b. apply (H x); auto.
  Qed.
End Renaming.

(** The original symbol [o] is the symbol [s] now. *)
Definition now (r : remap) (o s : nat) : Prop := internal_of (rm_mapping r) o = Some s.

Record renumbering (g : cfg) (r : remap) (f : nat -> nat) : Prop := {
  rn_closed : closed_rules (rm_grammar r);
  rn_now : forall o, occurs (prods g) o -> now r o (f o) /\ f o < num_syms (rm_grammar r);
  rn_fun : forall o s, occurs (prods g) o -> now r o s -> s = f o;
  rn_rules : Permutation (rules (rm_grammar r)) (map (rename_rule f) (rules g));
  rn_prd : forall A q, prods (rm_grammar r) A q <-> renamed f (prods g) A q;
  rn_inj : forall a b, occurs (prods g) a -> occurs (prods g) b -> f a = f b -> a = b;
  rn_rts : forall o, occurs (prods g) o -> (In (f o) (roots (rm_grammar r)) <-> In o (roots g));
  rn_rmap : Forall (occurs (prods g)) (roots g) -> roots (rm_grammar r) = map f (roots g)
}.

Lemma renumber : forall g ops r, closed g -> fits g -> names_wf g -> remap_run ops g = Ok r -> exists f, renumbering g r f.
Proof.
  intros g ops r HC HF HN E. pose proof (run_inv g ops _ r (new_inv g HC HF HN) E) as I. destruct (ri_map _ _ I) as [f [F1 F2]].
  exists f. split.
  - apply (ri_closed _ _ I).
  - exact F1.
  - intros o s Ho Hs. destruct (F1 o Ho) as [X _]. unfold now in Hs. congruence.
  - exact F2.
  - intros A q. split.
    + intros [x [Hx [<- <-]]]. apply (Permutation_in _ F2) in Hx. apply in_map_iff in Hx.
      destruct Hx as [y [<- Hy]]. exists (lhs y), (rhs y). split; [exists y; auto|]. auto.
    + intros [B [t [[y [Hy [<- <-]]] [-> ->]]]]. exists (rename_rule f y). split; auto.
      apply (Permutation_in _ (Permutation_sym F2)). apply in_map. auto.
  - intros a b Ha Hb Hab. destruct (F1 a Ha) as [A1 _], (F1 b Hb) as [B1 _].
    apply (ri_inverse _ _ I) in A1. apply (ri_inverse _ _ I) in B1. congruence.
  - intros o Ho. pose proof (ri_roots _ _ I) as HR. destruct (F1 o Ho) as [Eo _]. split.
    + intros Hi. revert Hi HR. generalize (roots g) (roots (rm_grammar r)). intros l l' Hi HR. induction HR as [|a b l l' Hab _ IH]; [destruct Hi|].
      destruct Hi as [Hb|Hi]; [left|right; auto]. rewrite Hb in Hab. apply (ri_inverse _ _ I) in Hab. apply (ri_inverse _ _ I) in Eo. congruence.
    + intros Hi. revert Hi HR. generalize (roots g) (roots (rm_grammar r)). intros l l' Hi HR. induction HR as [|a b l l' Hab _ IH]; [destruct Hi|].
      destruct Hi as [<-|Hi]; [left; congruence|right; auto].
  - pose proof (ri_roots _ _ I) as HR. revert HR. generalize (roots g) (roots (rm_grammar r)). intros l l' HR HO.
    induction HR as [|a b l l' Hab _ IH]; [reflexivity|]. inversion HO as [|? ? H1 H2]; subst. cbn [map]. f_equal; auto. destruct (F1 a H1). congruence.
Qed.

(** ** Symbol sets *)
Theorem C108_sets : forall g ops r, closed g -> fits g -> names_wf g -> remap_run ops g = Ok r ->
  let g' := rm_grammar r in
  exists n n' t t' p p', nulling_symbols g = Ok n /\ nulling_symbols g' = Ok n' /\ terminal_symbols g = Ok t /\ terminal_symbols g' = Ok t' /\
  bs_productive g bs_new = Ok p /\ bs_productive g' bs_new = Ok p' /\
  forall o s, occurs (prods g) o -> now r o s ->
    (member n' s <-> member n o) /\ (member t' s <-> member t o) /\ (member p' s <-> member p o).
Proof.
  intros g ops r HC HF HN E g'. destruct (renumber g ops r HC HF HN E) as [f RN]. destruct HC as [HC _].
  pose proof (rn_closed _ _ _ RN) as HC'. fold g' in HC'.
  destruct (C05_nulling g HC) as [n [En [_ [_ Mn]]]]. destruct (C05_nulling g' HC') as [n' [En' [_ [_ Mn']]]].
  destruct (C05_terminal g HC) as [t [Et [_ Mt]]]. destruct (C05_terminal g' HC') as [t' [Et' [_ Mt']]].
  destruct (C05_productive g HC) as [p [Ep [_ Mp]]]. destruct (C05_productive g' HC') as [p' [Ep' [_ Mp']]].
  exists n, n', t, t', p, p'. do 6 (split; [assumption|]). intros o s Ho Hs. assert (Es : s = f o) by (apply (rn_fun _ _ _ RN); auto). subst s.
  destruct (rn_now _ _ _ RN o Ho) as [_ HL]. pose proof (occurs_lt g o HC Ho) as Hlt.
  split; [|split].
  - rewrite Mn, Mn'. apply (rn_empty _ _ f (rn_prd _ _ _ RN) (rn_inj _ _ _ RN)); auto.
  - rewrite Mt, Mt'. pose proof (rn_terminal _ _ f (rn_prd _ _ _ RN) (rn_inj _ _ _ RN) o Ho). unfold g'. tauto.
  - rewrite Mp, Mp'. apply (rn_nonterminal _ _ f (rn_prd _ _ _ RN) (rn_inj _ _ _ RN)); auto.
Qed.
Print Assumptions C108_sets.

Lemma iff_eqb : forall a b : bool, (a = true <-> b = true) -> a = b.
Proof. intros [] [] [H1 H2]; auto. symmetry. auto. Qed.

(** ** Matrices and cycles *)
Theorem C108_matrices : forall g ops r, closed g -> fits g -> names_wf g -> remap_run ops g = Ok r ->
  let g' := rm_grammar r in
  exists m m' u u', reachability_matrix g = Ok m /\ reachability_matrix g' = Ok m' /\
  unit_derivation_matrix g = Ok u /\ unit_derivation_matrix g' = Ok u' /\
  forall a b x y, occurs (prods g) a -> occurs (prods g) b -> now r a x -> now r b y ->
    mx_get m' x y = mx_get m a b /\ mx_get u' x y = mx_get u a b.
Proof.
  intros g ops r HC HF HN E g'. destruct (renumber g ops r HC HF HN E) as [f RN]. destruct HC as [HC _].
  pose proof (rn_closed _ _ _ RN) as HC'. fold g' in HC'.
  destruct (C30_reachability g HC) as [m [E1 [M1 _]]]. destruct (C30_reachability g' HC') as [m' [E2 [M2 _]]].
  destruct (C30_unit g HC) as [u [E3 M3]]. destruct (C30_unit g' HC') as [u' [E4 M4]].
  exists m, m', u, u'. do 4 (split; [assumption|]). intros a b x y Ha Hb Hx Hy.
  rewrite (rn_fun _ _ _ RN a x Ha Hx), (rn_fun _ _ _ RN b y Hb Hy).
  destruct (rn_now _ _ _ RN a Ha) as [_ La]. destruct (rn_now _ _ _ RN b Hb) as [_ Lb].
  pose proof (occurs_lt g a HC Ha) as La'. pose proof (occurs_lt g b HC Hb) as Lb'. split.
  - destruct (M1 a b La' Lb') as [v [-> V]]. destruct (M2 _ _ La Lb) as [v' [-> V']]. f_equal. apply iff_eqb. rewrite V, V'.
    apply (rn_reaches1 _ _ f (rn_prd _ _ _ RN) (rn_inj _ _ _ RN)); auto.
  - destruct (M3 a b La' Lb') as [v [-> V]]. destruct (M4 _ _ La Lb) as [v' [-> V']]. f_equal. apply iff_eqb. rewrite V, V'.
    apply (rn_unit _ _ f (rn_prd _ _ _ RN) (rn_inj _ _ _ RN)); auto.
Qed.
Print Assumptions C108_matrices.

Theorem C108_cycle_free : forall g ops r, closed g -> fits g -> names_wf g -> remap_run ops g = Ok r ->
  exists c d b c' d', cycles_new g = Ok c /\ cycles_new (rm_grammar r) = Ok d /\ cycle_free c = Ok (b, c') /\ cycle_free d = Ok (b, d').
Proof.
  intros g ops r HC HF HN E. destruct (renumber g ops r HC HF HN E) as [f RN]. destruct HC as [HC _].
  destruct (C34_cycle_free g HC) as [c [b [c' [E1 [F [M _]]]]]].
  destruct (C34_cycle_free _ (rn_closed _ _ _ RN)) as [d [b' [d' [E' [F' [M' _]]]]]].
  assert (b' = b) as -> by (apply iff_eqb; rewrite M, M'; apply (rn_cycle_free _ _ f (rn_prd _ _ _ RN) (rn_inj _ _ _ RN))).
  exists c, d, b, c', d'. auto.
Qed.
Print Assumptions C108_cycle_free.

(** ** Usefulness, with the roots of the grammars *)
Theorem C108_usefulness : forall g ops r, closed g -> fits g -> names_wf g -> used_roots g -> remap_run ops g = Ok r ->
  let g' := rm_grammar r in
  exists u u', cfg_usefulness g = Ok u /\ cfg_usefulness g' = Ok u' /\
  (forall o s, occurs (prods g) o -> now r o s -> us_productive u' s = us_productive u o) /\
  us_all_useful u' = us_all_useful u /\
  (forall x x', In x (rules g) -> In x' (rules g') -> now r (lhs x) (lhs x') -> Forall2 (now r) (rhs x) (rhs x') -> us_rule u' x' = us_rule u x).
Proof.
  intros g ops r HC HF HN HU E g'. destruct (renumber g ops r HC HF HN E) as [f RN]. destruct HC as [HC [HRt _]].
  pose proof (rn_closed _ _ _ RN) as HC'. fold g' in HC'. pose proof (rn_prd _ _ _ RN) as HP. pose proof (rn_inj _ _ _ RN) as HI.
  assert (HRo : Forall (occurs (prods g)) (roots g)) by apply HU.
  pose proof (rn_rmap _ _ _ RN HRo) as HRe. fold g' in HP, HRe.
  assert (HRt' : Forall (fun s => s < num_syms g') (roots g')).
  { rewrite HRe. apply Forall_forall. intros s Hs. apply in_map_iff in Hs. destruct Hs as [o [<- Ho]]. rewrite Forall_forall in HRo.
    apply (rn_now _ _ _ RN o (HRo o Ho)). }
  destruct (usefulness_spec g (roots g) HC HRt) as [u [Eu AN]]. destruct (usefulness_spec g' (roots g') HC' HRt') as [u' [Eu' AN']].
  assert (HRc : forall o, occurs (prods g) o -> (reachable_from (prods g') (roots g') (f o) <-> reachable_from (prods g) (roots g) o)).
  { intros o Ho. rewrite HRe. rewrite Forall_forall in HRo. split.
    - intros [R [HR X]]. apply in_map_iff in HR. destruct HR as [q [<- Hq]]. exists q. split; auto. apply (rn_reaches _ _ f HP HI) in X; auto.
    - intros [R [HR X]]. exists (f R). split; [apply in_map; auto|]. apply (rn_reaches _ _ f HP HI); auto. }
  assert (HRl : forall x, In x (rules g) -> In (rename_rule f x) (rules g')).
  { intros x Hx. apply (Permutation_in _ (Permutation_sym (rn_rules _ _ _ RN))). apply in_map. auto. }
  assert (HPr : forall x, In x (rules g) -> (productive_rhs (prods g') (map f (rhs x)) <-> productive_rhs (prods g) (rhs x))).
  { intros x Hx. rewrite <- !productive_list. destruct (prod_occurs (prods g) (lhs x) (rhs x)) as [_ HO]; [exists x; auto|]. clear Hx.
    induction HO as [|a q Ha Hq IH]; cbn [map]; [split; constructor|].
    split; intros X; inversion X; subst; constructor; try (apply IH; auto); apply (rn_productive _ _ f HP HI); auto. }
  assert (HUs : forall x, In x (rules g) -> us_rule u' (rename_rule f x) = us_rule u x).
  { intros x Hx. destruct (us_rule_spec g (roots g) u HC AN x Hx) as [v [-> [V1 [V2 _]]]].
    destruct (us_rule_spec g' (roots g') u' HC' AN' _ (HRl x Hx)) as [v' [-> [V1' [V2' _]]]]. f_equal.
    assert (HO : occurs (prods g) (lhs x)) by (exists (lhs x), (rhs x); split; auto; exists x; auto).
    cbn [lhs rhs rename_rule] in V1', V2'.
    assert (ru_reachable v' = ru_reachable v) by (apply iff_eqb; rewrite V1, V1'; apply HRc; auto).
    assert (ru_productive v' = ru_productive v) by (apply iff_eqb; rewrite V2, V2'; apply HPr; auto).
    destruct v, v'. cbn in *. congruence. }
  exists u, u'. split; [exact Eu|]. split; [exact Eu'|]. split; [|split].
  - intros o s Ho Hs. rewrite (rn_fun _ _ _ RN o s Ho Hs). destruct (rn_now _ _ _ RN o Ho) as [_ L].
    destruct (us_productive_spec g _ u AN o (occurs_lt g o HC Ho)) as [b [-> B]]. destruct (us_productive_spec g' _ u' AN' (f o) L) as [b' [-> B']].
    f_equal. apply iff_eqb. rewrite B, B'. apply (rn_productive _ _ f HP HI); auto.
  - apply iff_eqb. rewrite (all_useful_spec g _ u HC AN), (all_useful_spec g' _ u' HC' AN'). split.
    + intros H x Hx. destruct (H _ (HRl x Hx)) as [A B]. cbn [lhs rhs rename_rule] in A, B. split.
      * apply HRc; auto. exists (lhs x), (rhs x). split; auto. exists x; auto.
      * apply HPr; auto.
    + intros H y Hy. apply (Permutation_in _ (rn_rules _ _ _ RN)) in Hy. apply in_map_iff in Hy. destruct Hy as [x [<- Hx]].
      destruct (H x Hx) as [A B]. cbn [lhs rhs rename_rule]. split.
      * apply HRc; auto. exists (lhs x), (rhs x). split; auto. exists x; auto.
      * apply HPr; auto.
  - intros x x' Hx Hx' HL HR. rewrite <- (HUs x Hx). destruct (prod_occurs (prods g) (lhs x) (rhs x)) as [O1 O2]; [exists x; auto|].
    assert (E1 : lhs x' = f (lhs x)) by (apply (rn_fun _ _ _ RN); auto).
    assert (E2 : rhs x' = map f (rhs x)).
    { clear - HR O2 RN. revert O2. induction HR as [|a b q q' Hab _ IH]; intros O2; [reflexivity|]. inversion O2; subst. cbn [map]. f_equal; auto.
      apply (rn_fun _ _ _ RN); auto. }
    unfold us_rule. cbn [lhs rhs rename_rule]. rewrite E1, E2. reflexivity.
Qed.
Print Assumptions C108_usefulness.

(** ** FIRST, LAST and FOLLOW *)

(** The set [v'] has the present symbols of [v]. *)
Definition renumbered_set (r : remap) (v v' : set_val) : Prop :=
  has_none v' = has_none v /\ forall y, In y (set_list v') <-> exists t, In t (set_list v) /\ now r t y.

Lemma sets_renumbered : forall g r f (m m' : set_map) (T T' : nat -> nat -> Prop) (O O' : nat -> Prop), renumbering g r f ->
  (forall A, map_get m A <> None <-> nonterminal (prods g) A) -> (forall A, map_get m' A <> None <-> nonterminal (prods (rm_grammar r)) A) ->
  (forall A v, map_get m A = Some v -> StronglySorted lt (set_list v) /\ (forall t, In t (set_list v) <-> T A t) /\ (has_none v = true <-> O A)) ->
  (forall A v, map_get m' A = Some v -> StronglySorted lt (set_list v) /\ (forall t, In t (set_list v) <-> T' A t) /\ (has_none v = true <-> O' A)) ->
  (forall a y, occurs (prods g) a -> (T' (f a) y <-> exists t, y = f t /\ occurs (prods g) t /\ T a t)) ->
  (forall a t, occurs (prods g) a -> T a t -> occurs (prods g) t) ->
  (forall a, occurs (prods g) a -> (O' (f a) <-> O a)) ->
  forall o s, occurs (prods g) o -> now r o s ->
    match map_get m o, map_get m' s with
    | Some v, Some v' => renumbered_set r v v'
    | None, None => True
    | _, _ => False
    end.
Proof.
  intros g r f m m' T T' O O' RN K K' V V' HT HTo HO o s Ho Hs. rewrite (rn_fun _ _ _ RN o s Ho Hs). clear Hs s.
  pose proof (rn_nonterminal _ _ f (rn_prd _ _ _ RN) (rn_inj _ _ _ RN) o Ho) as HNT. specialize (K o). specialize (K' (f o)).
  destruct (map_get m o) as [v|] eqn:E; destruct (map_get m' (f o)) as [v'|] eqn:E'; auto.
  - destruct (V _ _ E) as [_ [T1 O1]]. destruct (V' _ _ E') as [_ [T2 O2]]. split; [apply iff_eqb; rewrite O1, O2; apply HO; auto|].
    intros y. rewrite T2, (HT o y Ho). split.
    + intros [t [-> [Ht HTt]]]. exists t. split; [apply T1; auto|]. apply (rn_now _ _ _ RN t Ht).
    + intros [t [Ht Hn]]. apply T1 in Ht. pose proof (HTo o t Ho Ht) as Hto. exists t. split; [apply (rn_fun _ _ _ RN); auto|]. auto.
  - apply (proj2 K'); [apply HNT, K; discriminate|reflexivity].
  - apply (proj2 K); [apply HNT, K'; discriminate|reflexivity].
Qed.

Lemma derived_occurs : forall (P : productions) C u t v, derives P [C] (u ++ t :: v) -> occurs P C -> occurs P t.
Proof.
  intros P C u t v HD HC. assert (HW : Forall (occurs P) (u ++ t :: v)).
  { eapply derives_Forall; [|exact HD|constructor; auto]. intros B q HP _. apply (prod_occurs P B q HP). }
  eapply mid; eauto.
Qed.

Theorem C108_predict : forall g ops r, closed g -> fits g -> names_wf g -> remap_run ops g = Ok r ->
  let g' := rm_grammar r in
  exists fi fi' la la' fo fo', first_sets_new g = Ok fi /\ first_sets_new g' = Ok fi' /\
  last_sets_new g = Ok la /\ last_sets_new g' = Ok la' /\ follow_sets g = Ok fo /\ follow_sets g' = Ok fo' /\
  forall m m', In (m, m') [(fs_map fi, fs_map fi'); (la, la'); (fo, fo')] ->
  forall o s, occurs (prods g) o -> now r o s ->
    match map_get m o, map_get m' s with
    | Some v, Some v' => renumbered_set r v v'
    | None, None => True
    | _, _ => False
    end.
Proof.
  intros g ops r HC HF HN E g'. destruct (renumber g ops r HC HF HN E) as [f RN]. destruct HC as [HC _].
  pose proof (rn_closed _ _ _ RN) as HC'. fold g' in HC'. pose proof (rn_prd _ _ _ RN) as HP. pose proof (rn_inj _ _ _ RN) as HI. fold g' in HP.
  destruct (C40_first_exact g HC) as [fi [E1 [K1 V1]]]. destruct (C40_first_exact g' HC') as [fi' [E1' [K1' V1']]].
  destruct (C41_last_exact g HC) as [la [E2 [K2 V2]]]. destruct (C41_last_exact g' HC') as [la' [E2' [K2' V2']]].
  destruct (follow_sets_spec g HC) as [fo [E3 [K3 V3]]]. destruct (follow_sets_spec g' HC') as [fo' [E3' [K3' V3']]].
  exists fi, fi', la, la', fo, fo'. do 6 (split; [assumption|]). intros m m' Hm. cbn [In] in Hm.
  destruct Hm as [Hm|[Hm|[Hm|[]]]]; injection Hm as <- <-.
  - apply (sets_renumbered g r f _ _ (fun A t => begins (prods g) [A] t) (fun A t => begins (prods g') [A] t) _ _ RN K1 K1' V1 V1').
    + intros a y Ha. apply (rn_begins _ _ f HP HI); auto.
    + intros a t Ha [_ [v HD]]. apply (derived_occurs _ a [] t v HD Ha).
    + intros a Ha. apply (rn_nullable _ _ f HP HI); auto.
  - apply (sets_renumbered g r f _ _ (fun A t => ends (prods g) [A] t) (fun A t => ends (prods g') [A] t) _ _ RN K2 K2' V2 V2').
    + intros a y Ha. apply (rn_ends _ _ f HP HI); auto.
    + intros a t Ha [_ [v HD]]. apply (derived_occurs _ a v t [] HD Ha).
    + intros a Ha. apply (rn_nullable _ _ f HP HI); auto.
  - apply (sets_renumbered g r f _ _ (follows (prods g)) (follows (prods g')) _ _ RN K3 K3' V3 V3').
    + intros a y Ha. apply (rn_follows _ _ f HP HI); auto.
    + intros a t Ha [_ [C [u [v HD]]]]. destruct (single_or_occurs _ _ _ HD) as [X|X]; [destruct u as [|? [|]]; discriminate|].
      apply (derived_occurs _ C (u ++ [a]) t v); auto. rewrite <- app_assoc. exact HD.
    + intros a Ha. apply (rn_rts _ _ _ RN); auto.
Qed.
Print Assumptions C108_predict.

(** ** Minimal lengths, when both are found *)
Theorem C108_lengths : forall g ops r v v', closed g -> fits g -> names_wf g -> remap_run ops g = Ok r ->
  let g' := rm_grammar r in
  minimal_sentence_lengths true g (md_min_length (md_new g)) = Ok v ->
  minimal_sentence_lengths true g' (md_min_length (md_new g')) = Ok v' ->
  forall o s, occurs (prods g) o -> now r o s -> value_of v' s = value_of v o.
Proof.
  intros g ops r v v' HC HF HN E g' Ev Ev' o s Ho Hs. destruct (renumber g ops r HC HF HN E) as [f RN]. destruct HC as [HC _].
  pose proof (rn_closed _ _ _ RN) as HC'. fold g' in HC'. pose proof (rn_prd _ _ _ RN) as HP. pose proof (rn_inj _ _ _ RN) as HI. fold g' in HP.
  rewrite (rn_fun _ _ _ RN o s Ho Hs). destruct (rn_now _ _ _ RN o Ho) as [_ L].
  assert (HV : forall k s c, value_of (md_min_length (md_new k)) s = Some c -> False) by (intros k ? c; cbn; rewrite value_none; discriminate).
  destruct (C45_lengths_exact_partial g _ v HC (repeat_length _ _) (fun s c X => False_ind _ (HV g s c X)) Ev) as [_ H1].
  destruct (C45_lengths_exact_partial g' _ v' HC' (repeat_length _ _) (fun s c X => False_ind _ (HV g' s c X)) Ev') as [_ H2].
  specialize (H1 o (occurs_lt g o HC Ho)). specialize (H2 (f o) L).
  assert (HQ : forall c, (exists x, language (prods g) o x /\ N.of_nat (length x) = c) <-> (exists x, language (prods g') (f o) x /\ N.of_nat (length x) = c)).
  { intros c. split; intros [x [HX Hc]].
    - destruct (proj2 (rn_language _ _ f HP HI o (length x) Ho)) as [y [Hy Ly]]; [exists x; auto|]. exists y. rewrite Ly. auto.
    - destruct (proj1 (rn_language _ _ f HP HI o (length x) Ho)) as [y [Hy Ly]]; [exists x; auto|]. exists y. rewrite Ly. auto. }
  unfold least in H1, H2. destruct (value_of v o) as [a|]; destruct (value_of v' (f o)) as [b|]; auto.
  - destruct H1 as [A1 A2]. destruct H2 as [B1 B2]. f_equal. apply N.le_antisymm; [apply B2, HQ|apply A2, HQ]; auto.
  - destruct H1 as [A1 _]. destruct (H2 a). apply HQ; auto.
  - destruct H2 as [B1 _]. destruct (H1 b). apply HQ; auto.
Qed.
Print Assumptions C108_lengths.

(** Whether an overflow is met on the way can depend on the numbers of symbols. *)
Definition ex_numbered : cfg := mkCfg (mkSrc 36 (repeat None 36)) (rules ex_long) [] [] None.
Theorem C108_overflow_depends : exists g ops r v, closed g /\ fits g /\ names_wf g /\ remap_run ops g = Ok r /\
  minimal_sentence_lengths true g (md_min_length (md_new g)) = Panic /\
  minimal_sentence_lengths true (rm_grammar r) (md_min_length (md_new (rm_grammar r))) = Ok v.
Proof.
  exists ex_numbered, [Reorder (fun a b => Nat.compare b a)]. do 2 eexists. split; [split; [closed_tac|split; constructor]|].
  split; [exact I|]. split; [reflexivity|]. split; [vm_compute; reflexivity|]. split; vm_compute; reflexivity.
Qed.
Print Assumptions C108_overflow_depends.

(** ** LL(1) classes *)
Section LL.
  Context (g : cfg) (r : remap) (f : nat -> nat) (RN : renumbering g r f) (HC : closed_rules g).
  Context (fi fi' : first_sets) (fo fo' : set_map).
  Context (HT : forall o, occurs (prods g) o -> exists b, bs_get (fs_terminal_set fi) o = Ok b /\ bs_get (fs_terminal_set fi') (f o) = Ok b).
  Context (HFi : forall o, occurs (prods g) o -> match map_get (fs_map fi) o, map_get (fs_map fi') (f o) with
    | Some v, Some v' => renumbered_set r v v' | None, None => True | _, _ => False end).
  Context (HFo : forall o, occurs (prods g) o -> match map_get fo o, map_get fo' (f o) with
    | Some v, Some v' => renumbered_set r v v' | None, None => True | _, _ => False end).
  Context (HOi : forall o v t, map_get (fs_map fi) o = Some v -> In t (set_list v) -> occurs (prods g) t).
  Context (HOo : forall o v t, map_get fo o = Some v -> In t (set_list v) -> occurs (prods g) t).

  Definition list_renumbered (l l' : list nat) : Prop :=
    Forall (occurs (prods g)) l /\ forall y, In y l' <-> exists t, In t l /\ y = f t.

  Lemma set_renumbered : forall v v', renumbered_set r v v' -> (forall t, In t (set_list v) -> occurs (prods g) t) -> list_renumbered (set_list v) (set_list v').
  Proof.
    intros v v' [_ H] HO. split; [apply Forall_forall; auto|]. intros y. rewrite H. split; intros [t [Ht Hn]]; exists t; split; auto.
    - apply (rn_fun _ _ _ RN); auto.
    - subst y. apply (rn_now _ _ _ RN t); auto.
  Qed.

  Lemma renumbered_nil : forall l l', list_renumbered l l' -> is_nil l' = is_nil l.
  Proof.
    intros l l' [_ H]. destruct l as [|t l]; destruct l' as [|y l']; auto.
    - exfalso. destruct (proj1 (H y) (or_introl eq_refl)) as [t [[] _]].
    - exfalso. apply (proj2 (H (f t))). exists t. split; auto. left. auto.
  Qed.

  Lemma string_renumbered : forall u, Forall (occurs (prods g)) u ->
    match first_string_loop fi u, first_string_loop fi' (map f u) with
    | Ok l, Ok l' => list_renumbered l l'
    | Panic, Panic => True
    | _, _ => False
    end.
  Proof.
    induction 1 as [|s u Hs Hu IH]; cbn [map first_string_loop]; [split; [constructor|cbn; intros y; split; [intros []|intros [t [[] _]]]]|].
    destruct (HT s Hs) as [b [-> ->]]. cbn [bind]. destruct b.
    - split; [constructor; auto|]. intros y. cbn [In]. split; [intros [<-|[]]; exists s; auto|intros [t [[<-|[]] ->]]; auto].
    - specialize (HFi s Hs). destruct (map_get (fs_map fi) s) as [v|] eqn:EV; destruct (map_get (fs_map fi') (f s)) as [v'|] eqn:EV'; try contradiction; auto.
      pose proof (set_renumbered v v' HFi (fun t Ht => HOi s v t EV Ht)) as HL. rewrite (renumbered_nil _ _ HL).
      destruct (is_nil (set_list v)); auto.
  Qed.

  Lemma puts_renumbered : forall x, In x (rules g) -> forall y, puts fi' fo' (rename_rule f x) y <-> exists t, y = f t /\ puts fi fo x t.
  Proof.
    intros x Hx y. destruct (prod_occurs (prods g) (lhs x) (rhs x)) as [O1 O2]; [exists x; auto|].
    unfold puts, first_set_for_string. cbn [lhs rhs rename_rule]. pose proof (string_renumbered (rhs x) O2) as HS.
    destruct (first_string_loop fi (rhs x)) as [l| |]; destruct (first_string_loop fi' (map f (rhs x))) as [l'| |]; try contradiction; cbn [bind].
    - pose proof (renumbered_nil _ _ HS) as HNil. destruct HS as [HO HS]. split.
      + intros [v [E X]]. injection E as <-. cbn [set_list has_none] in X. rewrite HNil in X. destruct X as [X|[X [w [Ew Hw]]]].
        * apply HS in X. destruct X as [t [Ht ->]]. exists t. split; auto. eexists. split; [reflexivity|]. auto.
        * specialize (HFo (lhs x) O1). rewrite Ew in HFo. destruct (map_get fo (lhs x)) as [v|] eqn:EV; [|contradiction].
          pose proof (set_renumbered v w HFo (fun t Ht => HOo _ v t EV Ht)) as [_ HL]. apply HL in Hw. destruct Hw as [t [Ht ->]].
          exists t. split; auto. eexists. split; [reflexivity|]. right. cbn [has_none]. split; auto. exists v. auto.
      + intros [t [-> [v [E X]]]]. injection E as <-. cbn [set_list has_none] in X. eexists. split; [reflexivity|]. cbn [set_list has_none]. rewrite HNil.
        destruct X as [X|[X [w [Ew Hw]]]]; [left; apply HS; exists t; auto|]. right. split; auto.
        specialize (HFo (lhs x) O1). rewrite Ew in HFo. destruct (map_get fo' (f (lhs x))) as [v'|] eqn:EV; [|contradiction].
        pose proof (set_renumbered w v' HFo (fun t Ht => HOo _ w t Ew Ht)) as [_ HL]. exists v'. split; auto. apply HL. exists t. auto.
    - split; [intros [v [E _]]; discriminate|intros [t [_ [v [E _]]]]; discriminate].
  Qed.

  Lemma puts_occurs : forall x t, In x (rules g) -> puts fi fo x t -> occurs (prods g) t.
  Proof.
    intros x t Hx [v [E X]]. destruct (prod_occurs (prods g) (lhs x) (rhs x)) as [O1 O2]; [exists x; auto|].
    pose proof (string_renumbered (rhs x) O2) as HS. unfold first_set_for_string in E.
    destruct (first_string_loop fi (rhs x)) as [l| |]; [|discriminate..]. cbn [bind] in E. injection E as <-. cbn [set_list has_none] in X.
    destruct X as [X|[_ [w [Ew Hw]]]]; [|eapply HOo; eauto]. destruct (first_string_loop fi' (map f (rhs x))); try contradiction.
    destruct HS as [HS _]. rewrite Forall_forall in HS. auto.
  Qed.
End LL.

Theorem C108_ll1 : forall g ops r, closed g -> fits g -> names_wf g -> remap_run ops g = Ok r ->
  let g' := rm_grammar r in
  exists t t' c c', ll_parse_table g = Ok t /\ ll_parse_table g' = Ok t' /\ ll_classify g t = Ok c /\ ll_classify g' t' = Ok c' /\
  forall o s, occurs (prods g) o -> now r o s -> map_get c' s = map_get c o.
Proof.
  intros g ops r HC HF HN E g'. destruct (C108_predict g ops r HC HF HN E) as [fi [fi' [la [la' [fo [fo' [E1 [E1' [_ [_ [E2 [E2' HX]]]]]]]]]]]].
  fold g' in E1', E2'. destruct (renumber g ops r HC HF HN E) as [f RN]. destruct HC as [HC _].
  pose proof (rn_closed _ _ _ RN) as HC'. fold g' in HC'. pose proof (rn_prd _ _ _ RN) as HP. pose proof (rn_inj _ _ _ RN) as HI. fold g' in HP.
  assert (HFi := fun o Ho => HX _ _ (or_introl eq_refl) o (f o) Ho (proj1 (rn_now _ _ _ RN o Ho))).
  assert (HFo := fun o Ho => HX _ _ (or_intror (or_intror (or_introl eq_refl))) o (f o) Ho (proj1 (rn_now _ _ _ RN o Ho))).
  destruct (first_sets_spec g HC) as [q [Eq [T1 [L1 [K1 V1]]]]]. rewrite E1 in Eq. injection Eq as <-.
  destruct (first_sets_spec g' HC') as [q [Eq [T2 [L2 _]]]]. rewrite E1' in Eq. injection Eq as <-.
  destruct (follow_sets_spec g HC) as [q [Eq [K3 V3]]]. rewrite E2 in Eq. injection Eq as <-.
  assert (HT : forall o, occurs (prods g) o -> exists b, bs_get (fs_terminal_set fi) o = Ok b /\ bs_get (fs_terminal_set fi') (f o) = Ok b).
  { intros o Ho. pose proof (occurs_lt g o HC Ho) as Lo. destruct (rn_now _ _ _ RN o Ho) as [_ Lf].
    destruct (bs_get_ok (fs_terminal_set fi) o) as [b [Eb B]]; [lia|]. destruct (bs_get_ok (fs_terminal_set fi') (f o)) as [b' [Eb' B']]; [rewrite L2; exact Lf|].
    exists b. split; auto. rewrite Eb'. f_equal. apply iff_eqb. rewrite B, B', (T1 o Lo), (T2 _ Lf). apply (rn_terminal _ _ f HP HI); auto. }
  assert (HOi : forall o v t, map_get (fs_map fi) o = Some v -> In t (set_list v) -> occurs (prods g) t).
  { intros o v t Ev Ht. apply (V1 o v Ev) in Ht. destruct Ht as [_ [w HD]]. apply (derived_occurs _ o [] t w HD).
    assert (HNT : nonterminal (prods g) o) by (apply K1; congruence). destruct HNT as [z Hz]. exists o, z. auto. }
  assert (HOo : forall o v t, map_get fo o = Some v -> In t (set_list v) -> occurs (prods g) t).
  { intros o v t Ev Ht. apply (V3 o v Ev) in Ht. destruct Ht as [_ [C [u [w HD]]]]. destruct (single_or_occurs _ _ _ HD) as [X|X]; [destruct u as [|? [|]]; discriminate|].
    apply (derived_occurs _ C (u ++ [o]) t w); auto. rewrite <- app_assoc. exact HD. }
  pose proof (puts_renumbered g r f RN fi fi' fo fo' HT HFi HFo HOi HOo) as PR.
  destruct (ll_spec g HC) as [q [q' [t [c [F1 [F2 [F3 [F4 [K M]]]]]]]]]. rewrite E1 in F1. rewrite E2 in F2. injection F1 as <-. injection F2 as <-.
  destruct (ll_spec g' HC') as [q [q' [t' [c' [F1' [F2' [F3' [F4' [K' M']]]]]]]]]. rewrite E1' in F1'. rewrite E2' in F2'. injection F1' as <-. injection F2' as <-.
  exists t, t', c, c'. do 4 (split; auto). pose proof (rn_rules _ _ _ RN) as HPm. fold g' in HPm.
  assert (HK : forall o, occurs (prods g) o -> (map_get c' (f o) <> None <-> map_get c o <> None)).
  { intros o Ho. rewrite K, K'. split.
    - intros [x' [y [Hx' [HL HPu]]]]. apply (Permutation_in _ HPm) in Hx'. apply in_map_iff in Hx'. destruct Hx' as [x [<- Hx]].
      apply (PR x Hx) in HPu. destruct HPu as [s [-> HPu]]. cbn [lhs rename_rule] in HL. exists x, s. split; auto. split; auto.
      apply HI; auto. exists (lhs x), (rhs x). split; auto. exists x; auto.
    - intros [x [s [Hx [<- HPu]]]]. exists (rename_rule f x), (f s). split; [apply (Permutation_in _ (Permutation_sym HPm)), in_map; auto|]. split; auto.
      apply (PR x Hx). exists s. auto. }
  set (conf := fun B => exists i j ri rj t, i <> j /\ nth_error (rules g) i = Some ri /\ nth_error (rules g) j = Some rj /\ lhs ri = B /\ lhs rj = B /\
       puts fi fo ri t /\ puts fi fo rj t) in *.
  set (conf' := fun B => exists i j ri rj t, i <> j /\ nth_error (rules g') i = Some ri /\ nth_error (rules g') j = Some rj /\ lhs ri = B /\ lhs rj = B /\
       puts fi' fo' ri t /\ puts fi' fo' rj t) in *.
  assert (HCo : forall y, conf' y <-> exists B, occurs (prods g) B /\ y = f B /\ conf B).
  { intros y. split.
    - intros [i [j [ri [rj [z [Hn [Hi [Hj [Li [Lj [Pi Pj]]]]]]]]]]].
      pose proof (Permutation_sym HPm) as HQ. apply Permutation_nth_error in HQ. destruct HQ as [_ [p [HIp HE]]].
      rewrite HE, nth_error_map in Hi, Hj. destruct (nth_error (rules g) (p i)) as [x1|] eqn:X1; [|discriminate]. destruct (nth_error (rules g) (p j)) as [x2|] eqn:X2; [|discriminate].
      cbn in Hi, Hj. injection Hi as <-. injection Hj as <-. pose proof (nth_error_In _ _ X1) as I1. pose proof (nth_error_In _ _ X2) as I2.
      apply (PR x1 I1) in Pi. apply (PR x2 I2) in Pj. destruct Pi as [s1 [-> P1]]. destruct Pj as [s2 [Es P2]].
      assert (O1 : occurs (prods g) (lhs x1)) by (exists (lhs x1), (rhs x1); split; auto; exists x1; auto).
      assert (O2 : occurs (prods g) (lhs x2)) by (exists (lhs x2), (rhs x2); split; auto; exists x2; auto).
      apply HI in Es; [|apply (puts_occurs g r f RN fi fi' fo HT HFi HOi HOo x1); auto|apply (puts_occurs g r f RN fi fi' fo HT HFi HOi HOo x2); auto]. subst s2.
      cbn [lhs rename_rule] in Li, Lj. exists (lhs x1). split; auto. split; auto. exists (p i), (p j), x1, x2, s1.
      split; [intros X; apply Hn, HIp; auto|]. split; auto. split; auto. split; auto. split; auto. apply HI; auto. congruence.
    - intros [B [HB [-> [i [j [ri [rj [z [Hn [Hi [Hj [Li [Lj [Pi Pj]]]]]]]]]]]]]].
      pose proof HPm as HQ. apply Permutation_nth_error in HQ. destruct HQ as [_ [p [HIp HE]]].
      pose proof (nth_error_In _ _ Hi) as I1. pose proof (nth_error_In _ _ Hj) as I2.
      exists (p i), (p j), (rename_rule f ri), (rename_rule f rj), (f z). split; [intros X; apply Hn, HIp; auto|].
      rewrite <- !HE, !nth_error_map, Hi, Hj. split; auto. split; auto. cbn [lhs rename_rule]. split; [congruence|]. split; [congruence|].
      split; apply PR; auto; exists z; auto. }
  assert (HM : forall o, occurs (prods g) o -> (map_get c' (f o) = Some ContextFree <-> map_get c o = Some ContextFree)).
  { intros o Ho. rewrite M, M', (HK o Ho), !closure_any_reaches. split; intros [U [B [HR HB]]]; split; auto.
    - apply HCo in HB. destruct HB as [B' [HB' [-> HB]]]. exists B'. split; auto. apply (rn_reaches _ _ f HP HI) in HR; auto.
    - assert (OB : occurs (prods g) B) by (destruct HR as [u [v HD]]; apply (derived_occurs _ o u B v HD Ho)).
      exists (f B). split; [apply (rn_reaches _ _ f HP HI); auto|]. apply HCo. exists B. auto. }
  intros o s Ho Hs. rewrite (rn_fun _ _ _ RN o s Ho Hs). specialize (HK o Ho). specialize (HM o Ho).
  destruct (map_get c' (f o)) as [[|]|]; destruct (map_get c o) as [[|]|]; auto; exfalso.
  - destruct HM as [_ HM]. specialize (HM eq_refl). discriminate.
  - first [apply (proj1 HK); [discriminate|reflexivity]|apply (proj2 HK); [discriminate|reflexivity]].
  - destruct HM as [HM _]. specialize (HM eq_refl). discriminate.
  - first [apply (proj1 HK); [discriminate|reflexivity]|apply (proj2 HK); [discriminate|reflexivity]].
  - first [apply (proj1 HK); [discriminate|reflexivity]|apply (proj2 HK); [discriminate|reflexivity]].
  - first [apply (proj1 HK); [discriminate|reflexivity]|apply (proj2 HK); [discriminate|reflexivity]].
Qed.
Print Assumptions C108_ll1.

(** The grammar of C39_example, with a symbol removed and the others in the opposite order. *)
Example C108_example : closed ex_remap /\ fits ex_remap /\ names_wf ex_remap /\ used_roots ex_remap /\
  exists r fi fi', remap_run [RemoveUnused; Reorder (fun a b => Nat.compare b a)] ex_remap = Ok r /\
  now r 0 2 /\ now r 1 1 /\ now r 3 0 /\ occurs (prods ex_remap) 3 /\
  first_sets_new ex_remap = Ok fi /\ first_sets_new (rm_grammar r) = Ok fi' /\
  map_get (fs_map fi) 0 <> None /\ map_get (fs_map fi') 2 <> None.
Proof.
  destruct C39_example as [A [B [C [D _]]]]. do 4 (split; [assumption|]). do 3 eexists. split; [vm_compute; reflexivity|].
  do 3 (split; [reflexivity|]). split; [exists 0, [1; 3]; split; [exists (mkRule 0 [1; 3] hd0); simpl; auto|cbn; auto]|].
  split; [vm_compute; reflexivity|]. split; [vm_compute; reflexivity|]. split; discriminate.
Qed.
