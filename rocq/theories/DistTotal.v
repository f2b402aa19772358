(** The distance computation always ends; without overflow it does not panic, and the release build
    computes what the debug build does. *)

From Coq Require Import List Arith NArith Bool Lia.
From Verif Require Import Base Spec SetView SpecDist GrammarFacts ListFacts LoopModel LoopFacts SymbolModel
  CfgModel View BitSetModel ClosureModel SetProof ValueProof DistModel LengthProof DistProof DistSem DistProof2.
Import ListNotations.
Local Notation length := List.length.

(** * Release and debug *)
Lemma loop_refine : forall {S R : Type} (f g : S -> S + res R),
  (forall s, match f s with inl s' => g s = inl s' | inr (Ok r) => g s = inr (Ok r) | inr _ => True end) ->
  forall p s r, run_loop f p s = Ok r -> run_loop g p s = Ok r.
Proof.
  intros S R f g H p s r E.
  assert (HI : forall p s, match iter_pow f p s with
                           | inl s' => iter_pow g p s = inl s' | inr (Ok r) => iter_pow g p s = inr (Ok r) | inr _ => True end).
  { clear p s r E. Transparent iter_pow. induction p as [|p IH]; intros s; [apply H|]. cbn [iter_pow].
    pose proof (IH s) as X. destruct (iter_pow f p s) as [s'|[r| |]]; auto.
    - rewrite X. apply IH.
    - rewrite X. auto. }
  unfold run_loop in *. specialize (HI p s). destruct (iter_pow f p s) as [|x]; [discriminate|]. subst x.
  rewrite HI. auto.
Qed.

Lemma add_release : forall a b c, add_u32 true a b = Ok c -> add_u32 false a b = Ok c.
Proof. intros a b c H. unfold add_u32 in *. destruct (a + b <=? u32_max)%N; [auto|discriminate]. Qed.

Lemma fold_refine : forall {A S : Type} (f g : S -> A -> res S),
  (forall s a s', f s a = Ok s' -> g s a = Ok s') ->
  forall l s s', fold_res f l s = Ok s' -> fold_res g l s = Ok s'.
Proof.
  intros A S f g H. induction l as [|a l IH]; intros s s' E; cbn [fold_res] in *; auto.
  apply bind_ok in E. destruct E as [s1 [E1 E]]. rewrite (H _ _ _ E1). cbn [bind]. auto.
Qed.

Lemma update_dots_release : forall l m cur i rv r, update_dots true m cur l i rv = Ok r ->
  update_dots false m cur l i rv = Ok r.
Proof.
  induction l as [|[d s] l IH]; intros m cur i rv r E; cbn [update_dots] in *; auto.
  apply bind_ok in E. destruct E as [[m1 b1] [E1 E]]. rewrite E1. cbn [bind].
  apply bind_ok in E. destruct E as [[m2 c2] [E2 E]].
  replace (update_sym_distance false m1 cur s rv) with (Ok (m2, c2)); [cbn [bind]; auto|].
  clear - E2. unfold update_sym_distance in *. apply bind_ok in E2. destruct E2 as [[a b] [-> E2]]. cbn [bind].
  apply bind_ok in E2. destruct E2 as [[x|] [-> E2]]; [|discriminate]. cbn [bind].
  apply bind_ok in E2. destruct E2 as [y [EY E2]]. apply add_release in EY. rewrite EY. cbn [bind]. auto.
Qed.

Lemma update_rule_release : forall m cur u i rv r, update_rule_distances true m cur u i rv = Ok r ->
  update_rule_distances false m cur u i rv = Ok r.
Proof.
  intros m cur u i rv r E. unfold update_rule_distances in *. apply bind_ok in E. destruct E as [x [E1 E]].
  apply update_dots_release in E1. rewrite E1. cbn [bind]. auto.
Qed.

Lemma process_dot_release : forall m i r p d m', immediate_process_dot true m i r p d = Ok m' ->
  immediate_process_dot false m i r p d = Ok m'.
Proof.
  intros m i r p d m' H. unfold immediate_process_dot in *. apply bind_ok in H. destruct H as [m1 [E1 H]].
  match goal with |- bind ?x _ = _ => replace x with (Ok m1) end.
  - cbn [bind]. destruct (includes_backward d); auto. destruct (p <=? length (rhs r)); auto.
    apply bind_ok in H. destruct H as [x [E H]]. apply update_rule_release in E. rewrite E. cbn [bind]. auto.
  - destruct (includes_forward d); auto. destruct (p <=? length (rhs r)); auto.
    apply bind_ok in E1. destruct E1 as [x [E E1]]. apply update_rule_release in E. rewrite E. cbn [bind]. auto.
Qed.

Lemma transitive_rule_release : forall s p s', transitive_rule true s p = Ok s' -> transitive_rule false s p = Ok s'.
Proof.
  intros [m ch] [i r] s' H. unfold transitive_rule in *. apply bind_ok in H. destruct H as [x [-> H]]. cbn [bind].
  apply bind_ok in H. destruct H as [[m1 c1] [E1 H]].
  match goal with |- bind ?y _ = _ => replace y with (Ok (m1, c1)) end.
  - cbn [bind]. apply bind_ok in H. destruct H as [y [-> H]]. cbn [bind]. destruct y as [y|]; auto.
    apply bind_ok in H. destruct H as [z [E H]]. apply update_rule_release in E. rewrite E. cbn [bind]. auto.
  - destruct x as [x|]; auto. apply bind_ok in E1. destruct E1 as [z [E E1]]. apply update_rule_release in E.
    rewrite E. cbn [bind]. auto.
Qed.

Lemma lengths_release : forall g v v', minimal_sentence_lengths true g v = Ok v' ->
  minimal_sentence_lengths false g v = Ok v'.
Proof.
  intros g v v' H. unfold minimal_sentence_lengths in *. apply bind_ok in H. destruct H as [t [-> H]]. cbn [bind].
  apply bind_ok in H. destruct H as [v1 [-> H]]. cbn [bind]. apply bind_ok in H. destruct H as [v2 [-> H]]. cbn [bind].
  apply values_release. auto.
Qed.

Lemma immediate_release : forall skip l m dots d m', immediate_minimal_distances true skip l m dots d = Ok m' ->
  immediate_minimal_distances false skip l m dots d = Ok m'.
Proof.
  intros skip l m dots d m'. unfold immediate_minimal_distances. apply fold_refine. intros s p s'.
  apply fold_refine. intros. apply process_dot_release. auto.
Qed.

Lemma transitive_release_loop : forall l p m m', run_loop (transitive_step true l) p m = Ok m' ->
  run_loop (transitive_step false l) p m = Ok m'.
Proof.
  intros l p m m'. apply loop_refine. clear. intros m. unfold transitive_step.
  destruct (fold_res (transitive_rule true) _ _) as [[m' []]| |] eqn:E; auto;
    rewrite (fold_refine _ _ transitive_rule_release _ _ _ E); auto.
Qed.

Lemma transitive_release : forall l m m', transitive_minimal_distances true l m = Ok m' ->
  transitive_minimal_distances false l m = Ok m'.
Proof. intros l m m'. exact (transitive_release_loop l _ m m'). Qed.

Theorem distances_release : forall skip g m dots d m', minimal_distances true skip g m dots d = Ok m' ->
  minimal_distances false skip g m dots d = Ok m'.
Proof.
  intros skip g m dots d m' H. unfold minimal_distances in *. apply bind_ok in H. destruct H as [v [EV H]].
  apply lengths_release in EV. rewrite EV. cbn [bind]. apply bind_ok in H. destruct H as [m2 [E2 H]].
  apply immediate_release in E2. rewrite E2. cbn [bind]. apply transitive_release. exact H.
Qed.

(** * Termination *)
Lemma ends_weight_bound : forall row, (forall d c, value_of row d = Some c -> small c) ->
  (ends_weight row <= 2 ^ 34)%N.
Proof.
  intros row H. assert (HW : forall d, (weight_of (value_of row d) <= 2 ^ 33)%N).
  { intros d. destruct (value_of row d) as [c|] eqn:E; cbn [weight_of].
    - apply H in E. unfold small, u32_max in E. lia.
    - unfold u32_max. lia. }
  unfold ends_weight. pose proof (HW 0). pose proof (HW (length row - 1)). lia.
Qed.

Lemma rows_bound : forall l : list (list (option N)), (forall row, In row l -> (ends_weight row <= 2 ^ 34)%N) ->
  (fold_right (fun row a => ends_weight row + a) 0 l < 2 ^ N.of_nat (36 + length l))%N.
Proof.
  intros l H. assert (HB : (fold_right (fun row a => ends_weight row + a) 0 l <= N.of_nat (length l) * 2 ^ 34)%N).
  { induction l as [|row l IH]; cbn [fold_right length]; [lia|].
    specialize (IH (fun r Hr => H r (or_intror Hr))). specialize (H row (or_introl eq_refl)). lia. }
  rewrite Nat2N.inj_add, N.pow_add_r. change (N.of_nat 36) with 36%N.
  assert (HP : (N.of_nat (length l) < 2 ^ N.of_nat (length l))%N) by (apply N.pow_gt_lin_r; lia).
  set (k := (2 ^ N.of_nat (length l))%N) in *. assert (E : (2 ^ 36 = 4 * 2 ^ 34)%N) by reflexivity. rewrite E. nia.
Qed.

Lemma dmeasure_bound : forall l m, shaped l m -> sinv m -> (dmeasure m < 2 ^ N.of_nat (36 + length l))%N.
Proof.
  intros l m [HL _] HI. unfold dmeasure. rewrite <- HL. apply rows_bound. intros row Hr.
  apply In_nth_error in Hr. destruct Hr as [i Hi]. apply ends_weight_bound. intros d c Hd.
  apply (di_dist _ _ _ _ _ HI i row d c Hi Hd).
Qed.

Lemma transitive_ends_p : forall debug l p m (I : min_dist -> Prop),
  (forall m m' ch, I m -> fold_res (transitive_rule debug) (combine (seq 0 (length l)) l) (m, false) = Ok (m', ch) -> I m') ->
  shaped l m -> sinv m -> I m -> (dmeasure m < 2 ^ N.of_nat p)%N ->
  exists m1, shaped l m1 /\ sinv m1 /\ I m1 /\
    run_loop (transitive_step debug l) p m =
    match fold_res (transitive_rule debug) (combine (seq 0 (length l)) l) (m1, false) with
    | Ok (m', _) => Ok m' | Panic => Panic | OutOfFuel => OutOfFuel end.
Proof.
  intros debug l p m I HS H1 H2 H3 HM.
  destruct (iter_pow_ends (transitive_step debug l) (fun m => shaped l m /\ sinv m /\ I m) dmeasure)
    with (p := p) (s := m) as [m1 [r [[A [B C]] [E1 E2]]]]; auto.
  - intros a a' [A [B C]] E. unfold transitive_step in E.
    destruct (fold_res _ _ _) as [[a2 ch]| |] eqn:EF; try discriminate. destruct ch; [|discriminate]. injection E as <-.
    destruct (transitive_pass _ _ _ _ _ A B EF) as [S1 [I1 [_ D1]]]. split; auto. split; auto. split; auto.
    eapply HS; eauto.
  - exists m1. split; auto. split; auto. split; auto. unfold run_loop. rewrite E2. clear E2.
    unfold transitive_step in E1. destruct (fold_res _ _ _) as [[a2 ch]| |]; try (injection E1 as <-; reflexivity).
    destruct ch; [discriminate|injection E1 as <-; reflexivity].
Qed.

Lemma fold_no_fuel : forall {A S : Type} (f : S -> A -> res S), (forall s a, f s a <> OutOfFuel) ->
  forall l s, fold_res f l s <> OutOfFuel.
Proof.
  intros A S f H. induction l as [|a l IH]; intros s; cbn [fold_res]; [discriminate|].
  specialize (H s a). destruct (f s a); cbn [bind]; auto; discriminate.
Qed.
Lemma bind_no_fuel : forall {A B : Type} (x : res A) (f : A -> res B), x <> OutOfFuel ->
  (forall a, x = Ok a -> f a <> OutOfFuel) -> bind x f <> OutOfFuel.
Proof. intros A B [a| |] f H1 H2; cbn [bind]; auto; discriminate. Qed.
Lemma get_no_fuel : forall {A : Type} (l : list A) i, get_ix l i <> OutOfFuel.
Proof. intros A l i. unfold get_ix. destruct (nth_error l i); discriminate. Qed.
Lemma set_no_fuel : forall {A : Type} (l : list A) i x, set_ix l i x <> OutOfFuel.
Proof. intros A l i x. unfold set_ix. destruct (i <? length l); discriminate. Qed.
Lemma min_no_fuel : forall v i c, set_min_at v i c <> OutOfFuel.
Proof. intros v i c. unfold set_min_at. apply bind_no_fuel; [apply get_no_fuel|discriminate]. Qed.
Lemma dist_no_fuel : forall m i d c, set_distance m i d c <> OutOfFuel.
Proof.
  intros m i d c. unfold set_distance. apply bind_no_fuel; [apply get_no_fuel|]. intros row _.
  apply bind_no_fuel; [apply min_no_fuel|]. intros [? ?] _. discriminate.
Qed.
Lemma sym_no_fuel : forall debug m cur s rv, update_sym_distance debug m cur s rv <> OutOfFuel.
Proof.
  intros debug m cur s rv. unfold update_sym_distance. apply bind_no_fuel; [apply min_no_fuel|]. intros [a b] _.
  apply bind_no_fuel; [apply get_no_fuel|]. intros [x|] _; [|discriminate].
  apply bind_no_fuel.
  - unfold add_u32. destruct (_ <=? _)%N; [discriminate|]. destruct debug; discriminate.
  - intros c _. apply bind_no_fuel; [apply get_no_fuel|discriminate].
Qed.
Lemma dots_no_fuel : forall debug l m cur i rv, update_dots debug m cur l i rv <> OutOfFuel.
Proof.
  intros debug. induction l as [|[d s] l IH]; intros m cur i rv; cbn [update_dots]; [discriminate|].
  apply bind_no_fuel; [apply dist_no_fuel|]. intros [m1 b1] _. apply bind_no_fuel; [apply sym_no_fuel|].
  intros [m2 c2] _. apply IH.
Qed.
Lemma rule_no_fuel : forall debug m cur u i rv, update_rule_distances debug m cur u i rv <> OutOfFuel.
Proof.
  intros debug m cur u i rv. unfold update_rule_distances. apply bind_no_fuel; [apply dots_no_fuel|].
  intros [m1 c1] _. apply bind_no_fuel; [apply dist_no_fuel|]. intros [? ?] _. discriminate.
Qed.
Lemma process_no_fuel : forall debug m i r p d, immediate_process_dot debug m i r p d <> OutOfFuel.
Proof.
  intros debug m i r p d. unfold immediate_process_dot. apply bind_no_fuel.
  - destruct (includes_forward d); [|discriminate]. destruct (p <=? length (rhs r)); [|discriminate].
    apply bind_no_fuel; [apply rule_no_fuel|]. intros [[m1 c1] b1] _. apply bind_no_fuel; [apply min_no_fuel|].
    intros [? ?] _. discriminate.
  - intros m1 _. destruct (includes_backward d); [|discriminate]. destruct (p <=? length (rhs r)); [|discriminate].
    apply bind_no_fuel; [apply rule_no_fuel|]. intros [[m2 c1] b1] _. apply bind_no_fuel; [apply min_no_fuel|].
    intros [? ?] _. discriminate.
Qed.
Lemma transitive_rule_no_fuel : forall debug st p, transitive_rule debug st p <> OutOfFuel.
Proof.
  intros debug [m ch] [i r]. unfold transitive_rule. apply bind_no_fuel; [apply get_no_fuel|]. intros x _.
  apply bind_no_fuel.
  - destruct x as [x|]; [|discriminate]. apply bind_no_fuel; [apply rule_no_fuel|]. intros [? ?] _. discriminate.
  - intros [m1 c1] _. apply bind_no_fuel; [apply get_no_fuel|]. intros [y|] _; [|discriminate].
    apply bind_no_fuel; [apply rule_no_fuel|]. intros [? ?] _. discriminate.
Qed.

Lemma immediate_small : forall debug skip l m dots d m', sinv m ->
  immediate_minimal_distances debug skip l m dots d = Ok m' -> sinv m'.
Proof.
  intros debug skip l m dots d m' HI H. unfold immediate_minimal_distances in H.
  eapply (fold_enum _ sinv l); [|exact HI|exact H]. cbn [fst snd]. clear m m' HI H.
  intros i r a a' Hr Ha H. revert a Ha H.
  induction (binary_search_span skip dots i) as [|t u IH]; intros a Ha H; cbn [fold_res] in H.
  - injection H as <-. auto.
  - apply bind_ok in H. destruct H as [a1 [E H]]. apply (IH a1); auto. eapply process_dot_small; eauto.
Qed.

Lemma update_rule_down : forall debug m cur u idx rv m' cur' b, sinv m -> small cur ->
  update_rule_distances debug m cur u idx rv = Ok (m', cur', b) -> lower m m'.
Proof.
  intros debug m cur u idx rv m' cur' b HI HC E. unfold update_rule_distances in E. apply bind_ok in E.
  destruct E as [[m1 c1] [E1 E]]. pose proof (update_dots_lower _ _ _ _ _ _ _ _ HI HC E1) as L1.
  apply update_dots_small in E1; auto. destruct E1 as [I1 C1].
  apply bind_ok in E. destruct E as [[m2 b2] [E2 E]]. injection E as <- <- <-.
  destruct (set_distance_lower _ _ _ _ _ _ C1 E2) as [L2 S2]. eapply lower_trans; eauto.
Qed.

Lemma process_dot_down : forall debug m i r p d m', sinv m ->
  immediate_process_dot debug m i r p d = Ok m' -> lower m m'.
Proof.
  intros debug m i r p d m' HI H. unfold immediate_process_dot in H. apply bind_ok in H.
  destruct H as [m1 [E1 H]]. assert (H0 : small 0) by (unfold small; lia).
  assert (I1 : sinv m1 /\ lower m m1).
  { destruct (includes_forward d); [|injection E1 as <-; split; auto; apply lower_refl].
    destruct (p <=? length (rhs r)) eqn:EL; [|discriminate].
    apply bind_ok in E1. destruct E1 as [[[m2 c2] b2] [E2 E1]].
    pose proof (update_rule_down _ _ _ _ _ _ _ _ _ HI H0 E2) as L2.
    apply update_rule_small in E2; auto. destruct E2 as [I2 F2].
    apply bind_ok in E1. destruct E1 as [[bf b3] [E3 E1]]. injection E1 as <-. split; auto.
    destruct I2. constructor; cbn; auto. intros s c Hs.
    destruct (set_min_at_In _ _ _ _ _ _ _ E3 Hs) as [X|[-> ->]]; eauto. }
  destruct I1 as [I1 L1].
  destruct (includes_backward d); [|injection H as <-; auto].
  destruct (p <=? length (rhs r)); [|discriminate].
  apply bind_ok in H. destruct H as [[[m2 c2] b2] [E2 H]].
  pose proof (update_rule_down _ _ _ _ _ _ _ _ _ I1 H0 E2) as L2.
  apply bind_ok in H. destruct H as [[bf b3] [E3 H]]. injection H as <-.
  eapply lower_trans; [exact L1|exact L2].
Qed.

Lemma immediate_down : forall debug skip l m dots d m', sinv m ->
  immediate_minimal_distances debug skip l m dots d = Ok m' -> sinv m' /\ lower m m'.
Proof.
  intros debug skip l m dots d m' HI H. unfold immediate_minimal_distances in H.
  eapply (fold_enum _ (fun a => sinv a /\ lower m a) l); [| |exact H]; [|split; auto; apply lower_refl].
  cbn [fst snd]. clear m' H.
  intros i r a a' Hr Ha H. revert a Ha H.
  induction (binary_search_span skip dots i) as [|t u IH]; intros a Ha H; cbn [fold_res] in H.
  - injection H as <-. auto.
  - apply bind_ok in H. destruct H as [a1 [E H]]. apply (IH a1); auto. destruct Ha as [Ha La]. split.
    + eapply process_dot_small; eauto.
    + eapply lower_trans; [exact La|]. eapply process_dot_down; eauto.
Qed.

Lemma lengths_end : forall debug g v, closed_rules g -> length v = num_syms g -> fits v ->
  minimal_sentence_lengths debug g v <> OutOfFuel /\
  forall v', minimal_sentence_lengths debug g v = Ok v' -> fits v' /\ length v' = num_syms g.
Proof.
  intros debug g v HC HL HF. destruct (start_values g v HC HL) as [v0 [L0 [HS HE]]]. rewrite HE.
  cut (fits v0).
  { intros F0. split.
    - destruct (values_terminates debug g v0 F0) as [[x ->]| ->]; discriminate.
    - intros v' H. split; [eapply values_fit; eauto|]. rewrite <- L0. eapply values_len; eauto. }
  intros s c E. destruct (HS s) as [A [B C]].
  destruct (nth_error v0 s) eqn:EN; [|unfold value_of in E; rewrite EN in E; discriminate].
  assert (Hs : s < num_syms g) by (rewrite <- L0; apply nth_error_Some; congruence).
  assert (DN : prods g s [] \/ ~ prods g s []).
  { destruct (existsb (fun x => (lhs x =? s) && is_nil (rhs x)) (rules g)) eqn:EX.
    - left. apply existsb_exists in EX. destruct EX as [x [Hx EX]]. apply andb_true_iff in EX. destruct EX as [E1 E2].
      apply Nat.eqb_eq in E1. exists x. split; auto. split; auto. destruct (rhs x); [auto|discriminate].
    - right. intros [x [Hx [E1 E2]]]. assert (Y : existsb (fun x => (lhs x =? s) && is_nil (rhs x)) (rules g) = true).
      { apply existsb_exists. exists x. split; auto. rewrite E1, Nat.eqb_refl, E2. reflexivity. }
      congruence. }
  assert (DT : terminal (prods g) s \/ ~ terminal (prods g) s).
  { destruct (existsb (fun x => lhs x =? s) (rules g)) eqn:EX.
    - right. apply existsb_exists in EX. destruct EX as [x [Hx EX]]. apply Nat.eqb_eq in EX. intros X.
      apply (X (rhs x)). exists x. auto.
    - left. intros r [x [Hx [E1 E2]]]. assert (Y : existsb (fun x => lhs x =? s) (rules g) = true).
      { apply existsb_exists. exists x. split; auto. apply Nat.eqb_eq. auto. }
      congruence. }
  unfold u32_max. destruct DN as [DN|DN].
  - rewrite (A DN) in E. injection E as <-. lia.
  - destruct DT as [DT|DT].
    + rewrite (B Hs DT) in E. injection E as <-. lia.
    + rewrite C in E; auto. apply (HF s c E).
Qed.

(** What the updates leave alone. *)
Definition frame (m m' : min_dist) : Prop :=
  md_min_length m' = md_min_length m /\
  length (md_fwd_before m') = length (md_fwd_before m) /\ length (md_fwd_after m') = length (md_fwd_after m) /\
  length (md_bwd_before m') = length (md_bwd_before m) /\ length (md_bwd_after m') = length (md_bwd_after m).
Lemma frame_refl : forall m, frame m m.
Proof. intros m. repeat split. Qed.
Lemma frame_trans : forall a b c, frame a b -> frame b c -> frame a c.
Proof. intros a b c (?&?&?&?&?) (?&?&?&?&?). repeat split; congruence. Qed.

Lemma min_frame : forall v i c v' b, set_min_at v i c = Ok (v', b) -> length v' = length v.
Proof. intros v i c v' b H. apply set_min_at_spec in H. apply H. Qed.

Lemma dist_frame : forall m i d c m' b, set_distance m i d c = Ok (m', b) -> frame m m'.
Proof.
  intros m i d c m' b H. unfold set_distance in H. apply bind_ok in H. destruct H as [row [ER H]].
  apply bind_ok in H. destruct H as [[row' b'] [E H]]. injection H as <- <-. repeat split.
Qed.
Lemma sym_frame : forall debug m cur s rv m' cur', update_sym_distance debug m cur s rv = Ok (m', cur') -> frame m m'.
Proof.
  intros debug m cur s rv m' cur' H. unfold update_sym_distance in H. apply bind_ok in H.
  destruct H as [[after' b] [E H]]. apply min_frame in E. apply bind_ok in H. destruct H as [[x|] [EX H]]; [|discriminate].
  apply bind_ok in H. destruct H as [c1 [EC H]]. apply bind_ok in H. destruct H as [bf [EB H]]. injection H as <- <-.
  destruct rv; repeat split; auto.
Qed.
Lemma dots_frame : forall debug l m cur i rv m' cur', update_dots debug m cur l i rv = Ok (m', cur') -> frame m m'.
Proof.
  intros debug. induction l as [|[d s] l IH]; intros m cur i rv m' cur' E; cbn [update_dots] in E.
  - injection E as <- <-. apply frame_refl.
  - apply bind_ok in E. destruct E as [[m1 b1] [E1 E]]. apply bind_ok in E. destruct E as [[m2 c2] [E2 E]].
    eapply frame_trans; [eapply dist_frame; eauto|]. eapply frame_trans; [eapply sym_frame; eauto|]. eauto.
Qed.
Lemma rule_frame : forall debug m cur u i rv m' cur' b,
  update_rule_distances debug m cur u i rv = Ok (m', cur', b) -> frame m m'.
Proof.
  intros debug m cur u i rv m' cur' b E. unfold update_rule_distances in E. apply bind_ok in E.
  destruct E as [[m1 c1] [E1 E]]. apply bind_ok in E. destruct E as [[m2 b2] [E2 E]]. injection E as <- <- <-.
  eapply frame_trans; [eapply dots_frame; eauto|eapply dist_frame; eauto].
Qed.
Lemma process_frame : forall debug m i r p d m', immediate_process_dot debug m i r p d = Ok m' -> frame m m'.
Proof.
  intros debug m i r p d m' H. unfold immediate_process_dot in H. apply bind_ok in H. destruct H as [m1 [E1 H]].
  assert (I1 : frame m m1).
  { destruct (includes_forward d); [|injection E1 as <-; apply frame_refl].
    destruct (p <=? length (rhs r)); [|discriminate].
    apply bind_ok in E1. destruct E1 as [[[m2 c2] b2] [E2 E1]]. apply rule_frame in E2.
    apply bind_ok in E1. destruct E1 as [[bf b3] [E3 E1]]. injection E1 as <-. apply min_frame in E3.
    eapply frame_trans; [exact E2|]. repeat split; auto. }
  destruct (includes_backward d); [|injection H as <-; auto].
  destruct (p <=? length (rhs r)); [|discriminate].
  apply bind_ok in H. destruct H as [[[m2 c2] b2] [E2 H]]. apply rule_frame in E2.
  apply bind_ok in H. destruct H as [[bf b3] [E3 H]]. injection H as <-. apply min_frame in E3.
  eapply frame_trans; [exact I1|]. eapply frame_trans; [exact E2|]. repeat split; auto.
Qed.
Lemma transitive_rule_frame : forall debug st p st', transitive_rule debug st p = Ok st' -> frame (fst st) (fst st').
Proof.
  intros debug [m ch] [i r] [m' ch'] H. cbn [fst]. unfold transitive_rule in H. apply bind_ok in H.
  destruct H as [x [EX H]]. apply bind_ok in H. destruct H as [[m1 c1] [E1 H]].
  assert (I1 : frame m m1).
  { destruct x as [x|]; [|injection E1 as <- <-; apply frame_refl]. apply bind_ok in E1.
    destruct E1 as [[[m2 c2] b2] [E2 E1]]. injection E1 as <- <-. eapply rule_frame; eauto. }
  apply bind_ok in H. destruct H as [y [EY H]].
  destruct y as [y|]; [|injection H as <- <-; auto]. apply bind_ok in H. destruct H as [[[m2 c2] b2] [E2 H]].
  injection H as <- <-. eapply frame_trans; [exact I1|]. eapply rule_frame; eauto.
Qed.
Lemma fold_frame : forall {A : Type} (f : min_dist * bool -> A -> res (min_dist * bool)),
  (forall st p st', f st p = Ok st' -> frame (fst st) (fst st')) ->
  forall l st st', fold_res f l st = Ok st' -> frame (fst st) (fst st').
Proof.
  intros A f H. induction l as [|a l IH]; intros st st' E; cbn [fold_res] in E.
  - injection E as <-. apply frame_refl.
  - apply bind_ok in E. destruct E as [s1 [E1 E]]. eapply frame_trans; eauto.
Qed.
Lemma immediate_frame : forall debug skip l m dots d m',
  immediate_minimal_distances debug skip l m dots d = Ok m' -> frame m m'.
Proof.
  intros debug skip l m dots d m' H. unfold immediate_minimal_distances in H.
  eapply (fold_enum _ (fun a => frame m a) l); [|apply frame_refl|exact H].
  cbn [fst snd]. clear m' H. intros i r a a' Hr Ha H. revert a Ha H.
  induction (binary_search_span skip dots i) as [|t u IH]; intros a Ha H; cbn [fold_res] in H.
  - injection H as <-. auto.
  - apply bind_ok in H. destruct H as [a1 [E H]]. apply (IH a1); auto.
    eapply frame_trans; [exact Ha|]. eapply process_frame; eauto.
Qed.

Lemma transitive_frame_p : forall debug l p m m', run_loop (transitive_step debug l) p m = Ok m' -> frame m m'.
Proof.
  intros debug l p m m' H. apply (run_loop_inv _ (frame m)) in H.
  - destruct H as [a [Ha E]]. unfold transitive_step in E.
    destruct (fold_res _ _ _) as [[a' ch]| |] eqn:EF; try discriminate. destruct ch; [discriminate|]. injection E as <-.
    eapply frame_trans; [exact Ha|]. apply (fold_frame _ (transitive_rule_frame debug) _ _ _ EF).
  - intros a a' Ha E. unfold transitive_step in E.
    destruct (fold_res _ _ _) as [[a2 ch]| |] eqn:EF; try discriminate. destruct ch; [|discriminate]. injection E as <-.
    eapply frame_trans; [exact Ha|]. apply (fold_frame _ (transitive_rule_frame debug) _ _ _ EF).
  - apply frame_refl.
Qed.
Lemma transitive_frame : forall debug l m m', transitive_minimal_distances debug l m = Ok m' -> frame m m'.
Proof. intros debug l m m'. exact (transitive_frame_p debug l _ m m'). Qed.

(** States that a computation can be continued from. *)
Record ready (g : cfg) (m : min_dist) : Prop := {
  rd_shaped : shaped (rules g) m;
  rd_small : sinv m;
  rd_len : length (md_min_length m) = num_syms g;
  rd_fb : length (md_fwd_before m) = num_syms g;
  rd_fa : length (md_fwd_after m) = num_syms g;
  rd_bb : length (md_bwd_before m) = num_syms g;
  rd_ba : length (md_bwd_after m) = num_syms g
}.

Lemma ready_step : forall g m m', ready g m -> frame m m' -> sinv m' -> shaped (rules g) m' -> ready g m'.
Proof.
  intros g m m' [] (?&?&?&?&?) HS HH. constructor; auto; congruence.
Qed.

Lemma value_none : forall k s, value_of (repeat (@None N) k) s = None.
Proof.
  intros k s. unfold value_of. destruct (nth_error (repeat None k) s) as [x|] eqn:E; auto.
  apply nth_error_In, repeat_spec in E. auto.
Qed.

Lemma new_ready : forall g, ready g (md_new g).
Proof.
  intros g. constructor; try apply repeat_length.
  - split; [apply map_length|]. intros i r Hr. unfold md_new. cbn [md_distances]. rewrite nth_error_map, Hr.
    eexists. split; [reflexivity|]. apply repeat_length.
  - constructor; cbn; intros s c; rewrite ?value_none; try discriminate. intros d x Hs.
    rewrite nth_error_map in Hs. destruct (nth_error (rules g) s); [|discriminate]. injection Hs as <-.
    rewrite value_none. discriminate.
Qed.

Lemma transitive_ends : forall debug l m (I : min_dist -> Prop),
  (forall m m' ch, I m -> fold_res (transitive_rule debug) (combine (seq 0 (length l)) l) (m, false) = Ok (m', ch) -> I m') ->
  shaped l m -> sinv m -> I m ->
  exists m1, shaped l m1 /\ sinv m1 /\ I m1 /\
    transitive_minimal_distances debug l m =
    match fold_res (transitive_rule debug) (combine (seq 0 (length l)) l) (m1, false) with
    | Ok (m', _) => Ok m' | Panic => Panic | OutOfFuel => OutOfFuel end.
Proof.
  intros debug l m I HS H1 H2 H3. exact (transitive_ends_p debug l _ m I HS H1 H2 H3 (dmeasure_bound l m H1 H2)).
Qed.

(** The computation ends, in debug and in release builds. *)
Theorem distances_end : forall debug skip g m dots d, closed_rules g -> ready g m ->
  minimal_distances debug skip g m dots d <> OutOfFuel /\
  forall m', minimal_distances debug skip g m dots d = Ok m' -> ready g m'.
Proof.
  intros debug skip g m dots d HC HR. unfold minimal_distances.
  destruct (lengths_end debug g (md_min_length m) HC (rd_len _ _ HR)) as [L1 L2].
  { intros s c Hs. apply (di_len _ _ _ _ _ (rd_small _ _ HR) s c Hs). }
  destruct (minimal_sentence_lengths debug g (md_min_length m)) as [v| |] eqn:EV; cbn [bind];
    [|split; discriminate|congruence].
  destruct (L2 v eq_refl) as [FV LV]. clear L1 L2.
  set (m1 := mkDist _ _ _ _ _ _). assert (R1 : ready g m1).
  { destruct HR. constructor; auto. destruct rd_small0. constructor; auto. }
  clearbody m1. clear HR EV m FV LV v.
  assert (N2 : immediate_minimal_distances debug skip (rules g) m1 (sort_by dot_compare dots) d <> OutOfFuel).
  { unfold immediate_minimal_distances. apply fold_no_fuel. intros s p. apply fold_no_fuel. intros. apply process_no_fuel. }
  destruct (immediate_minimal_distances debug skip (rules g) m1 (sort_by dot_compare dots) d) as [m2| |] eqn:E2;
    cbn [bind]; [|split; discriminate|congruence].
  pose proof (immediate_frame _ _ _ _ _ _ _ E2) as F2. destruct (immediate_down _ _ _ _ _ _ _ (rd_small _ _ R1) E2) as [S2 D2].
  assert (R2 : ready g m2).
  { eapply ready_step; eauto. eapply shaped_lower; [apply (rd_shaped _ _ R1)|exact D2]. }
  destruct (transitive_ends debug (rules g) m2 (fun a => ready g a)) as [m3 [A1 [A2 [A3 ->]]]]; auto.
  - intros a a' ch Ha E. pose proof (fold_frame _ (transitive_rule_frame debug) _ _ _ E) as F.
    destruct (transitive_pass _ _ _ _ _ (rd_shaped _ _ Ha) (rd_small _ _ Ha) E) as [S1 [I1 _]].
    eapply ready_step; eauto.
  - apply (rd_shaped _ _ R2).
  - pose proof (fold_no_fuel _ (transitive_rule_no_fuel debug) (combine (seq 0 (length (rules g))) (rules g)) (m3, false)) as NF.
    destruct (fold_res _ _ _) as [[m' ch]| |] eqn:E; try (split; congruence).
    split; [discriminate|]. intros m4 X. injection X as <-.
    pose proof (fold_frame _ (transitive_rule_frame debug) _ _ _ E) as F.
    destruct (transitive_pass _ _ _ _ _ A1 A2 E) as [S1 [I1 _]]. eapply ready_step; eauto.
Qed.
