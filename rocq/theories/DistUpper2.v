(** Distances: upper bounds one completion or prediction away from a target. *)

From Coq Require Import List Arith NArith Bool Lia Sorted.
From Verif Require Import Base Spec SetView SpecDist GrammarFacts ListFacts LoopModel LoopFacts SymbolModel
  CfgModel View BitSetModel ClosureModel SetProof ValueProof DistModel LengthProof DistProof DistTotal DistNoPanic DistUpper.
Import ListNotations.
Local Notation length := List.length.

Definition after (rv : bool) (m : min_dist) : list (option N) := if rv then md_bwd_after m else md_fwd_after m.
Definition alow (m m' : min_dist) : Prop :=
  forall rv s, (weight_of (value_of (after rv m') s) <= weight_of (value_of (after rv m) s))%N.
Definition afterle (m : min_dist) (rv : bool) (s : nat) (b : N) : Prop :=
  exists c, value_of (after rv m) s = Some c /\ small c /\ (c <= b)%N.

Lemma alow_refl : forall m, alow m m.
Proof. intros m rv s. lia. Qed.
Lemma alow_trans : forall a b c, alow a b -> alow b c -> alow a c.
Proof. intros a b c H1 H2 rv s. specialize (H1 rv s). specialize (H2 rv s). lia. Qed.
Lemma afterle_low : forall m m' rv s b, alow m m' -> afterle m rv s b -> afterle m' rv s b.
Proof.
  intros m m' rv s b H [c [E [S L]]]. specialize (H rv s). rewrite E in H. cbn [weight_of] in H. unfold small in S.
  destruct (value_of (after rv m') s) as [x|] eqn:EX; cbn [weight_of] in H; [|lia]. exists x. unfold small. repeat split; auto; lia.
Qed.
Lemma afterle_weaken : forall m rv s a b, afterle m rv s a -> (a <= b)%N -> afterle m rv s b.
Proof. intros m rv s a b [c [E [S L]]] H. exists c. repeat split; auto. lia. Qed.

Lemma set_min_low : forall v i new v' b, small new -> set_min_at v i new = Ok (v', b) ->
  (forall s, (weight_of (value_of v' s) <= weight_of (value_of v s))%N) /\ exists c, value_of v' i = Some c /\ (c <= new)%N.
Proof.
  intros v i new v' b HN H. destruct (set_min_at_spec _ _ _ _ _ H) as [_ [_ [HO [x [EX [HX1 [HX2 [HX3 _]]]]]]]].
  split; [|eauto]. intros s. destruct (Nat.eq_dec s i) as [->|Hn]; [|rewrite HO by auto; lia].
  rewrite EX. cbn [weight_of]. destruct (value_of v i) as [y|]; cbn [weight_of]; [apply HX3; auto|]. unfold small in HN. lia.
Qed.

Lemma set_distance_after : forall m i d c m' b, set_distance m i d c = Ok (m', b) -> forall rv, after rv m' = after rv m.
Proof.
  intros m i d c m' b H rv. unfold set_distance in H. apply bind_ok in H. destruct H as [row [_ H]].
  apply bind_ok in H. destruct H as [[row' b'] [_ H]]. injection H as <- <-. destruct rv; reflexivity.
Qed.

Lemma update_sym_after : forall debug m cur s rv m' cur', small cur -> update_sym_distance debug m cur s rv = Ok (m', cur') ->
  alow m m' /\ afterle m' rv s cur.
Proof.
  intros debug m cur s rv m' cur' HC H. unfold update_sym_distance in H. apply bind_ok in H.
  destruct H as [[after' b] [E H]]. apply bind_ok in H. destruct H as [x [EX H]]. destruct x as [x|]; [|discriminate].
  apply bind_ok in H. destruct H as [c1 [EC H]]. apply bind_ok in H. destruct H as [bf [_ H]]. injection H as <- _.
  destruct (set_min_low _ _ _ _ _ HC E) as [L [c [V W]]]. split.
  - intros rv' s'. destruct rv, rv'; cbn [after md_bwd_after md_fwd_after]; try lia; apply L.
  - exists c. split; [destruct rv; exact V|]. unfold small in *. split; lia.
Qed.

Lemma update_dots_after : forall debug l m cur idx rv m' cur', sinv m -> small cur ->
  update_dots debug m cur l idx rv = Ok (m', cur') ->
  alow m m' /\ forall k d s, nth_error l k = Some (d, s) ->
    afterle m' rv s (cur + total (md_min_length m) (map snd (firstn k l))).
Proof.
  induction l as [|[d s] l IH]; intros m cur idx rv m' cur' HI HC E; cbn [update_dots] in E.
  - injection E as <- <-. split; [apply alow_refl|]. intros [|k]; discriminate.
  - apply bind_ok in E. destruct E as [[m1 b1] [E1 E]]. apply bind_ok in E. destruct E as [[m2 c2] [E2 E]].
    pose proof (set_distance_after _ _ _ _ _ _ E1) as A1.
    pose proof (dist_frame _ _ _ _ _ _ E1) as [F1 _]. pose proof (sym_frame _ _ _ _ _ _ _ E2) as [F2 _].
    eapply set_distance_inv in E1; [|exact HI|exact HC].
    destruct (update_sym_after _ _ _ _ _ _ _ HC E2) as [L2 A2].
    pose proof (update_sym_le _ _ _ _ _ _ _ E2) as [x [V X]]. rewrite F1 in V.
    eapply update_sym_inv in E2; [|exact E1|exact HC]. destruct E2 as [I2 HX].
    assert (C2 : small c2) by (destruct HX as [[y [_ EA]]|HX]; auto; eapply add_small; eauto).
    apply IH in E; auto. rewrite F2, F1 in E. destruct E as [L3 U2].
    split.
    + intros rv' s'. rewrite <- (A1 rv'). specialize (L2 rv' s'). specialize (L3 rv' s'). lia.
    + intros [|k] d0 s0 Hk; cbn [nth_error firstn map snd total] in *.
      * injection Hk as <- <-. eapply afterle_weaken; [|apply N.le_add_r]. eapply afterle_low; [exact L3|exact A2].
      * rewrite V. eapply afterle_weaken; [apply (U2 k d0 s0 Hk)|]. lia.
Qed.

Lemma nth_rev_enum : forall (u : list nat) k s, nth_error u k = Some s ->
  nth_error (rev (combine (seq 0 (length u)) u)) (length u - S k) = Some (k, s).
Proof.
  intros u k s E. assert (Hk : k < length u) by (apply nth_error_Some; congruence).
  set (L := combine (seq 0 (length u)) u).
  assert (LL : length L = length u) by (unfold L; rewrite combine_length, seq_length; lia).
  rewrite <- (nth_enum u k s E). fold L. rewrite (nth_error_nth' (rev L) (0, 0)) by (rewrite rev_length; lia).
  rewrite rev_nth by lia. rewrite LL. replace (length u - S (length u - S k)) with k by lia.
  symmetry. apply nth_error_nth'. lia.
Qed.

Lemma update_rule_after : forall debug m cur u idx rv m' cur' b, sinv m -> small cur ->
  update_rule_distances debug m cur u idx rv = Ok (m', cur', b) ->
  alow m m' /\ forall k s, nth_error u k = Some s ->
    afterle m' rv s (cur + total (md_min_length m) (if rv then firstn k u else skipn (S k) u)).
Proof.
  intros debug m cur u idx rv m' cur' b HI HC E. unfold update_rule_distances in E. apply bind_ok in E.
  destruct E as [[m1 c1] [E1 E]]. apply update_dots_after in E1; auto. destruct E1 as [L1 U2].
  apply bind_ok in E. destruct E as [[m2 b2] [E2 E]]. injection E as <- <- <-.
  pose proof (set_distance_after _ _ _ _ _ _ E2) as A2.
  assert (L2 : alow m1 m2) by (intros rv' s'; rewrite (A2 rv'); lia).
  assert (SN : map snd (combine (seq 0 (length u)) u) = u) by (apply combine_snd, seq_length).
  split; [eapply alow_trans; eauto|]. intros k s Hk. eapply afterle_low; [exact L2|]. destruct rv.
  - pose proof (U2 k k s (nth_enum u k s Hk)) as X. rewrite <- firstn_map, SN in X. exact X.
  - pose proof (U2 _ k s (nth_rev_enum u k s Hk)) as X. assert (k < length u) by (apply nth_error_Some; congruence).
    rewrite <- firstn_map, map_rev, SN, firstn_rev, total_rev in X.
    replace (length u - (length u - S k)) with (S k) in X by lia. exact X.
Qed.

Lemma process_dot_after : forall debug m i r p d m', sinv m ->
  immediate_process_dot debug m i r p d = Ok m' ->
  alow m m' /\
  (includes_forward d = true -> forall k s, nth_error (firstn p (rhs r)) k = Some s ->
     afterle m' false s (total (md_min_length m) (skipn (S k) (firstn p (rhs r))))) /\
  (includes_backward d = true -> forall k s, nth_error (skipn p (rhs r)) k = Some s ->
     afterle m' true s (total (md_min_length m) (firstn k (skipn p (rhs r))))).
Proof.
  intros debug m i r p d m' HI H. unfold immediate_process_dot in H. apply bind_ok in H.
  destruct H as [m1 [E1 H]]. assert (H0 : small 0) by (unfold small; lia).
  assert (I1 : sinv m1 /\ md_min_length m1 = md_min_length m /\ alow m m1 /\
     (includes_forward d = true -> forall k s, nth_error (firstn p (rhs r)) k = Some s ->
     afterle m1 false s (total (md_min_length m) (skipn (S k) (firstn p (rhs r)))))).
  { destruct (includes_forward d); [|injection E1 as <-; split; auto; split; auto; split; [apply alow_refl|discriminate]].
    destruct (p <=? length (rhs r)) eqn:EL; [|discriminate].
    apply bind_ok in E1. destruct E1 as [[[m2 c2] b2] [E2 E1]].
    pose proof (rule_frame _ _ _ _ _ _ _ _ _ E2) as [F2 _].
    pose proof (update_rule_after _ _ _ _ _ _ _ _ _ HI H0 E2) as [L2 U].
    apply update_rule_small in E2; auto. destruct E2 as [I2 G2].
    apply bind_ok in E1. destruct E1 as [[bf b3] [E3 E1]]. injection E1 as <-. split; [|split; [exact F2|]].
    - destruct I2. constructor; cbn; auto. intros s c Hs.
      destruct (set_min_at_In _ _ _ _ _ _ _ E3 Hs) as [X|[-> ->]]; eauto.
    - split; [intros rv s; specialize (L2 rv s); destruct rv; exact L2|]. intros _ k s Hk.
      destruct (U k s Hk) as [c X]. exists c. exact X. }
  destruct I1 as [I1 [F1 [L1 U1]]].
  destruct (includes_backward d); [|injection H as <-; split; auto; split; auto; discriminate].
  destruct (p <=? length (rhs r)) eqn:EL; [|discriminate].
  apply bind_ok in H. destruct H as [[[m2 c2] b2] [E2 H]].
  pose proof (update_rule_after _ _ _ _ _ _ _ _ _ I1 H0 E2) as [L2 U].
  apply bind_ok in H. destruct H as [[bf b3] [E3 H]]. injection H as <-.
  match goal with |- alow _ ?x /\ _ => assert (L3 : alow m2 x) by (intros rv s; destruct rv; cbn; lia) end.
  split; [eapply alow_trans; [exact L1|]; eapply alow_trans; [exact L2|exact L3]|]. split.
  - intros Hd k s Hk. eapply afterle_low; [exact L3|]. eapply afterle_low; [exact L2|]. apply U1; auto.
  - intros _ k s Hk. eapply afterle_low; [exact L3|]. rewrite <- F1. apply (U k s Hk).
Qed.

Lemma nth_enum_rules : forall (l : list rule) i r, nth_error l i = Some r -> In (i, r) (combine (seq 0 (length l)) l).
Proof.
  intros l i r H. apply nth_error_In with (n := i).
  assert (G : forall a, nth_error (combine (seq a (length l)) l) i = Some (a + i, r)); [|apply G].
  revert i H. induction l as [|x l IH]; intros [|i] H a; cbn in *; try discriminate.
  - injection H as ->. rewrite Nat.add_0_r. reflexivity.
  - rewrite (IH i H (S a)). f_equal. f_equal. lia.
Qed.

Lemma immediate_after : forall debug skip l m dots d m' i r p, sinv m ->
  immediate_minimal_distances debug skip l m (sort_by dot_compare dots) d = Ok m' ->
  nth_error l i = Some r -> In (i, p) dots ->
  (includes_forward d = true -> forall k s, nth_error (firstn p (rhs r)) k = Some s ->
     afterle m' false s (total (md_min_length m) (skipn (S k) (firstn p (rhs r))))) /\
  (includes_backward d = true -> forall k s, nth_error (skipn p (rhs r)) k = Some s ->
     afterle m' true s (total (md_min_length m) (firstn k (skipn p (rhs r))))).
Proof.
  intros debug skip l m dots d m' i r p HI H Hr Hp. unfold immediate_minimal_distances in H.
  set (v := md_min_length m). set (Q := fun m' : min_dist =>
  (includes_forward d = true -> forall k s, nth_error (firstn p (rhs r)) k = Some s ->
     afterle m' false s (total v (skipn (S k) (firstn p (rhs r))))) /\
  (includes_backward d = true -> forall k s, nth_error (skipn p (rhs r)) k = Some s ->
     afterle m' true s (total v (firstn k (skipn p (rhs r)))))). change (Q m').
  assert (HQ : forall a b, alow a b -> Q a -> Q b).
  { intros a b L [A B]. split; intros; eapply afterle_low; eauto. }
  assert (HP : forall x a a' t, sinv a /\ md_min_length a = v ->
     immediate_process_dot debug a (fst x) (snd x) t d = Ok a' -> (sinv a' /\ md_min_length a' = v) /\ alow a a').
  { intros x a a' t [Ha Va] E. split; [split|].
    - eapply process_dot_small; eauto.
    - apply process_frame in E. rewrite <- Va. apply E.
    - eapply process_dot_after; eauto. }
  eapply (fold_hit _ (fun a => sinv a /\ md_min_length a = v) Q _ (i, r)); [| | |split; [exact HI|reflexivity]|exact H].
  - intros a a' x _ Ha E.
    assert (G : forall u a, sinv a /\ md_min_length a = v -> fold_res (fun m (dot : nat * nat) => immediate_process_dot debug m (fst x) (snd x) (snd dot) d) u a = Ok a' ->
       (sinv a' /\ md_min_length a' = v) /\ alow a a').
    { induction u as [|t u IH]; intros b Hb E'; cbn [fold_res] in E'; [injection E' as <-; split; auto; apply alow_refl|].
      apply bind_ok in E'. destruct E' as [b1 [E1 E']]. destruct (HP x b b1 _ Hb E1) as [X Y].
      destruct (IH b1 X E') as [Z W]. split; auto. eapply alow_trans; eauto. }
    destruct (G _ a Ha E) as [X Y]. split; auto. apply HQ. exact Y.
  - intros a a' Ha E. cbn [fst snd] in E.
    eapply (fold_hit _ (fun a => sinv a /\ md_min_length a = v) Q _ (i, p)); [| | |exact Ha|exact E].
    + intros b b' t _ Hb Eb. destruct (HP (i, r) b b' (snd t) Hb Eb) as [X Y]. split; auto. apply HQ. exact Y.
    + intros b b' [Hb Vb] Eb. cbn [snd] in Eb. destruct (process_dot_after _ _ _ _ _ _ _ Hb Eb) as [_ [A B]].
      rewrite Vb in A, B. split; auto.
    + apply (span_all skip dots (i, p)). exact Hp.
  - apply nth_enum_rules. exact Hr.
Qed.

Lemma transitive_rule_after : forall debug m ch i r m' ch', sinv m ->
  transitive_rule debug (m, ch) (i, r) = Ok (m', ch') ->
  sinv m' /\ md_min_length m' = md_min_length m /\ alow m m' /\ lower m m' /\
  forall rv c, afterle m rv (lhs r) c -> forall k, k <= length (rhs r) ->
    atmost m' i k (c + total (md_min_length m) (if rv then firstn k (rhs r) else skipn k (rhs r))).
Proof.
  intros debug m ch i r m' ch' HI H. unfold transitive_rule in H. apply bind_ok in H. destruct H as [x [EX H]].
  apply get_value in EX. apply bind_ok in H. destruct H as [[m1 c1] [E1 H]].
  assert (X1 : sinv m1 /\ md_min_length m1 = md_min_length m /\ alow m m1 /\ lower m m1 /\
    forall c, afterle m false (lhs r) c -> forall k, k <= length (rhs r) ->
    atmost m1 i k (c + total (md_min_length m) (skipn k (rhs r)))).
  { destruct x as [x|].
    - apply bind_ok in E1. destruct E1 as [[[m2 c2] b2] [E2 E1]]. injection E1 as <- <-. cbn [fst].
      assert (HX : small x) by (apply (di_af _ _ _ _ _ HI) in EX; auto).
      destruct (update_rule_after _ _ _ _ _ _ _ _ _ HI HX E2) as [L2 _].
      pose proof (update_rule_down _ _ _ _ _ _ _ _ _ HI HX E2) as D2.
      pose proof (fun k => update_rule_atmost _ _ _ _ _ _ _ _ _ k HI HX E2) as U.
      pose proof (rule_frame _ _ _ _ _ _ _ _ _ E2) as [F2 _]. apply update_rule_small in E2; auto.
      split; [apply E2|]. split; auto. split; auto. split; auto. intros c [y [V [_ W]]] k Hk.
      cbn [after] in V. rewrite EX in V. injection V as <-.
      eapply atmost_weaken; [apply (U k Hk)|]. cbn. lia.
    - injection E1 as <- <-. split; auto. split; auto. split; [apply alow_refl|]. split; [apply lower_refl|].
      intros c [y [V _]]. cbn [after] in V. congruence. }
  destruct X1 as [I1 [F1 [A1 [D1 U1]]]].
  apply bind_ok in H. destruct H as [y [EY H]]. apply get_value in EY. destruct y as [y|].
  - apply bind_ok in H. destruct H as [[[m2 c2] b2] [E2 H]]. injection H as <- <-. cbn [fst].
    assert (HY : small y) by (apply (di_ab _ _ _ _ _ I1) in EY; auto).
    destruct (update_rule_after _ _ _ _ _ _ _ _ _ I1 HY E2) as [L2 _].
    pose proof (update_rule_down _ _ _ _ _ _ _ _ _ I1 HY E2) as D2.
    pose proof (fun k => update_rule_atmost _ _ _ _ _ _ _ _ _ k I1 HY E2) as U.
    pose proof (rule_frame _ _ _ _ _ _ _ _ _ E2) as [F2 _]. apply update_rule_small in E2; auto.
    split; [apply E2|]. split; [congruence|]. split; [eapply alow_trans; eauto|]. split; [eapply lower_trans; eauto|].
    intros [|] c Hc k Hk.
    + apply (afterle_low _ _ _ _ _ A1) in Hc. destruct Hc as [z [V [_ W]]]. cbn [after] in V. rewrite EY in V. injection V as <-.
      rewrite <- F1. eapply atmost_weaken; [apply (U k Hk)|]. cbn. lia.
    + eapply atmost_lower; [exact D2|]. apply U1; auto.
  - injection H as <- <-. split; auto. split; auto. split; auto. split; auto. intros [|] c Hc k Hk.
    + apply (afterle_low _ _ _ _ _ A1) in Hc. destruct Hc as [z [V _]]. cbn [after] in V. congruence.
    + apply U1; auto.
Qed.

Lemma transitive_hit : forall debug l m m' rv i r c k, shaped l m -> sinv m ->
  transitive_minimal_distances debug l m = Ok m' ->
  nth_error l i = Some r -> afterle m rv (lhs r) c -> k <= length (rhs r) ->
  atmost m' i k (c + total (md_min_length m) (if rv then firstn k (rhs r) else skipn k (rhs r))).
Proof.
  intros debug l m m' rv i r c k HS HI H Hr HA Hk.
  set (J := fun a : min_dist => sinv a /\ md_min_length a = md_min_length m /\ alow m a).
  assert (HP : forall x a a', J (fst a) -> transitive_rule debug a x = Ok a' -> J (fst a') /\ lower (fst a) (fst a')).
  { intros [i0 r0] [a ch] [a' ch'] [J1 [J2 J3]] E. cbn [fst] in *.
    destruct (transitive_rule_after _ _ _ _ _ _ _ J1 E) as [X [Y [Z [W _]]]].
    split; auto. split; auto. split; [congruence|]. eapply alow_trans; eauto. }
  destruct (transitive_ends debug l m J) as [m1 [S1 [I1 [J1 E]]]]; auto.
  - intros a a' ch Ja E. assert (G : forall u st st', J (fst st) -> fold_res (transitive_rule debug) u st = Ok st' -> J (fst st')).
    { induction u as [|x u IH]; intros st st' Jst E'; cbn [fold_res] in E'; [injection E' as <-; auto|].
      apply bind_ok in E'. destruct E' as [s1 [E1 E']]. apply (IH s1); auto. eapply HP; eauto. }
    exact (G _ (a, false) (a', ch) Ja E).
  - split; auto. split; auto. apply alow_refl.
  - rewrite E in H. destruct (fold_res _ _ (m1, false)) as [[m2 ch]| |] eqn:F; try discriminate. injection H as <-.
    set (Q := fun st : min_dist * bool => atmost (fst st) i k (c + total (md_min_length m) (if rv then firstn k (rhs r) else skipn k (rhs r)))).
    change (Q (m2, ch)).
    eapply (fold_hit _ (fun st => J (fst st)) Q _ (i, r)); [| | | |exact F].
    + intros a a' x _ Ja Ea. destruct (HP x a a' Ja Ea) as [X Y]. split; auto. intros X1. eapply atmost_lower; [exact Y|exact X1].
    + intros [a cha] [a' cha'] [J2 [J3 J4]] Ea. cbn [fst] in *. unfold Q. cbn [fst].
      destruct (transitive_rule_after _ _ _ _ _ _ _ J2 Ea) as [_ [_ [_ [_ U]]]]. rewrite <- J3. apply U; auto.
      eapply afterle_low; [exact J4|exact HA].
    + apply nth_enum_rules. exact Hr.
    + exact J1.
Qed.

Theorem distances_upper2 : forall g skip m dots d m' i r p j q, closed_rules g -> ready g m -> lengths_ok g (md_min_length m) ->
  minimal_distances true skip g m dots d = Ok m' ->
  nth_error (rules g) i = Some r -> In (i, p) dots -> nth_error (rules g) j = Some q ->
  (includes_forward d = true -> forall k h w, nth_error (firstn p (rhs r)) k = Some (lhs q) -> h <= length (rhs q) ->
     derives (prods g) (skipn h (rhs q) ++ skipn (S k) (firstn p (rhs r))) w -> Forall (terminal (prods g)) w ->
     atmost m' j h (N.of_nat (length w))) /\
  (includes_backward d = true -> forall k h w, nth_error (skipn p (rhs r)) k = Some (lhs q) -> h <= length (rhs q) ->
     derives (prods g) (firstn k (skipn p (rhs r)) ++ firstn h (rhs q)) w -> Forall (terminal (prods g)) w ->
     atmost m' j h (N.of_nat (length w))).
Proof.
  intros g skip m dots d m' i r p j q HC HR HL H Hr Hp Hq.
  unfold minimal_distances in H. apply bind_ok in H. destruct H as [v [EV H]].
  apply bind_ok in H. destruct H as [m2 [E2 H]].
  destruct (lengths_exact g _ v HC HL EV) as [HV HX].
  set (m1 := mkDist (md_distances m) (md_fwd_before m) (md_fwd_after m) (md_bwd_before m) (md_bwd_after m) v) in E2.
  assert (I1 : sinv m1).
  { destruct (rd_small _ _ HR). constructor; auto. intros s c E. apply (proj2 HV s c E). }
  assert (S1 : shaped (rules g) m1) by apply (rd_shaped _ _ HR).
  destruct (immediate_down _ _ _ _ _ _ _ I1 E2) as [I2 L2].
  pose proof (shaped_lower _ _ _ S1 L2) as S2.
  pose proof (immediate_frame _ _ _ _ _ _ _ E2) as [F2 _]. change (md_min_length m1) with v in F2.
  destruct (immediate_after _ _ _ _ _ _ _ _ _ _ I1 E2 Hr Hp) as [A B].
  change (md_min_length m1) with v in A, B.
  assert (HB : forall x, In x (rules g) -> Forall (fun s => s < num_syms g) (rhs x)) by (intros x Hx; apply (HC x Hx)).
  assert (SF : forall k u, Forall (fun s => s < num_syms g) u -> Forall (fun s => s < num_syms g) (skipn k u)).
  { intros k u Hu. rewrite <- (firstn_skipn k u) in Hu. apply Forall_app in Hu. apply Hu. }
  assert (FF : forall k u, Forall (fun s => s < num_syms g) u -> Forall (fun s => s < num_syms g) (firstn k u)).
  { intros k u Hu. rewrite <- (firstn_skipn k u) in Hu. apply Forall_app in Hu. apply Hu. }
  apply nth_error_In in Hr. split.
  - intros Hd k h w Hk Hh D T. pose proof (transitive_hit _ _ _ _ _ _ _ _ h S2 I2 H Hq (A Hd k _ Hk) Hh) as X.
    rewrite F2 in X. cbn [after] in X. eapply atmost_weaken; [exact X|]. rewrite N.add_comm, <- total_app.
    apply nth_error_In in Hq. eapply (words_total g v); eauto. apply Forall_app. split; auto.
  - intros Hd k h w Hk Hh D T. pose proof (transitive_hit _ _ _ _ _ _ _ _ h S2 I2 H Hq (B Hd k _ Hk) Hh) as X.
    rewrite F2 in X. cbn [after] in X. eapply atmost_weaken; [exact X|]. rewrite <- total_app.
    apply nth_error_In in Hq. eapply (words_total g v); eauto. apply Forall_app. split; auto.
Qed.

(** All dots of the rules of a symbol after a backward target have a distance. *)
Lemma distances_known : forall g skip m dots d m' i r p j q, closed_rules g -> ready g m -> lengths_ok g (md_min_length m) ->
  minimal_distances true skip g m dots d = Ok m' ->
  nth_error (rules g) i = Some r -> In (i, p) dots -> nth_error (rules g) j = Some q -> includes_backward d = true ->
  forall k h, nth_error (skipn p (rhs r)) k = Some (lhs q) -> h <= length (rhs q) ->
  exists b, atmost m' j h b.
Proof.
  intros g skip m dots d m' i r p j q HC HR HL H Hr Hp Hq Hd k h Hk Hh.
  unfold minimal_distances in H. apply bind_ok in H. destruct H as [v [EV H]].
  apply bind_ok in H. destruct H as [m2 [E2 H]].
  destruct (lengths_exact g _ v HC HL EV) as [HV HX].
  set (m1 := mkDist (md_distances m) (md_fwd_before m) (md_fwd_after m) (md_bwd_before m) (md_bwd_after m) v) in E2.
  assert (I1 : sinv m1).
  { destruct (rd_small _ _ HR). constructor; auto. intros s c E. apply (proj2 HV s c E). }
  assert (S1 : shaped (rules g) m1) by apply (rd_shaped _ _ HR).
  destruct (immediate_down _ _ _ _ _ _ _ I1 E2) as [I2 L2].
  pose proof (shaped_lower _ _ _ S1 L2) as S2.
  destruct (immediate_after _ _ _ _ _ _ _ _ _ _ I1 E2 Hr Hp) as [_ B].
  eexists. exact (transitive_hit _ _ _ _ _ _ _ _ h S2 I2 H Hq (B Hd k _ Hk) Hh).
Qed.
