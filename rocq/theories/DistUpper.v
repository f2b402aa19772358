(** Distances: upper bounds within the rule of a target. *)

From Coq Require Import List Arith NArith Bool Lia Sorted.
From Verif Require Import Base Spec SetView SpecDist GrammarFacts ListFacts LoopModel LoopFacts SymbolModel
  CfgModel View BitSetModel ClosureModel SetProof ValueProof DistModel LengthProof DistProof DistTotal DistNoPanic.
Import ListNotations.
Local Notation length := List.length.

(** A distance is known and at most [b]. *)
Definition atmost (m : min_dist) (i d : nat) (b : N) : Prop :=
  exists row c, nth_error (md_distances m) i = Some row /\ value_of row d = Some c /\ small c /\ (c <= b)%N.

Lemma atmost_lower : forall m m' i d b, lower m m' -> atmost m i d b -> atmost m' i d b.
Proof.
  intros m m' i d b [_ H] [row [c [E [V [S L]]]]]. destruct (H i row E) as [row' [E' [_ W]]]. specialize (W d).
  rewrite V in W. cbn [weight_of] in W. unfold small in S. destruct (value_of row' d) as [c'|] eqn:V'; cbn [weight_of] in W; [|lia].
  exists row', c'. split; auto. split; auto. split; unfold small; lia.
Qed.
Lemma atmost_weaken : forall m i d a b, atmost m i d a -> (a <= b)%N -> atmost m i d b.
Proof. intros m i d a b [row [c [E [V [S L]]]]] H. exists row, c. repeat split; auto. lia. Qed.

Lemma set_distance_atmost : forall m i d c m' b, small c -> set_distance m i d c = Ok (m', b) -> atmost m' i d c.
Proof.
  intros m i d c m' b HC H. unfold set_distance in H. apply bind_ok in H. destruct H as [row [ER H]].
  apply get_ix_ok in ER. apply bind_ok in H. destruct H as [[row' b'] [E H]]. injection H as <- <-.
  destruct (set_min_at_spec _ _ _ _ _ E) as [_ [_ [_ [x [EX [HX1 _]]]]]]. exists row', x. cbn [md_distances].
  rewrite nth_error_upd, Nat.eqb_refl. assert (HI : i < length (md_distances m)) by (apply nth_error_Some; congruence).
  apply Nat.ltb_lt in HI. rewrite HI. unfold small in *. repeat split; auto; lia.
Qed.

Lemma add_le : forall debug a b c, add_u32 debug a b = Ok c -> (c <= a + b)%N.
Proof.
  intros debug a b c H. unfold add_u32 in H. destruct (a + b <=? u32_max)%N eqn:E.
  - injection H as <-. lia.
  - destruct debug; [discriminate|]. injection H as <-. apply N.mod_le. unfold u32_max. lia.
Qed.

Lemma update_sym_le : forall debug m cur s rv m' cur', update_sym_distance debug m cur s rv = Ok (m', cur') ->
  exists x, value_of (md_min_length m) s = Some x /\ (cur' <= cur + x)%N.
Proof.
  intros debug m cur s rv m' cur' H. unfold update_sym_distance in H. apply bind_ok in H.
  destruct H as [[after' b] [_ H]]. apply bind_ok in H. destruct H as [x [EX H]]. destruct x as [x|]; [|discriminate].
  apply bind_ok in H. destruct H as [c1 [EC H]]. apply bind_ok in H. destruct H as [bf [_ H]]. injection H as _ <-.
  exists x. split; [destruct rv; apply get_value in EX; auto|]. apply add_le in EC. destruct bf; lia.
Qed.

Lemma update_dots_atmost : forall debug l m cur idx rv m' cur', sinv m -> small cur ->
  update_dots debug m cur l idx rv = Ok (m', cur') ->
  (cur' <= cur + total (md_min_length m) (map snd l))%N /\
  forall k d s, nth_error l k = Some (d, s) ->
    atmost m' idx (if rv then d else d + 1) (cur + total (md_min_length m) (map snd (firstn k l))).
Proof.
  induction l as [|[d s] l IH]; intros m cur idx rv m' cur' HI HC E; cbn [update_dots] in E.
  - injection E as <- <-. split; [cbn; lia|]. intros [|k]; discriminate.
  - apply bind_ok in E. destruct E as [[m1 b1] [E1 E]]. apply bind_ok in E. destruct E as [[m2 c2] [E2 E]].
    pose proof (set_distance_atmost _ _ _ _ _ _ HC E1) as A1.
    pose proof (dist_frame _ _ _ _ _ _ E1) as [F1 _]. pose proof (sym_frame _ _ _ _ _ _ _ E2) as [F2 _].
    eapply set_distance_inv in E1; [|exact HI|exact HC].
    assert (L2 : lower m1 m2).
    { assert (X : md_distances m2 = md_distances m1); [|unfold lower; rewrite X; apply lower_refl].
      unfold update_sym_distance in E2. apply bind_ok in E2. destruct E2 as [[a' b'] [_ E2]].
      apply bind_ok in E2. destruct E2 as [[x|] [_ E2]]; [|discriminate]. apply bind_ok in E2. destruct E2 as [y [_ E2]].
      apply bind_ok in E2. destruct E2 as [z [_ E2]]. injection E2 as <- _. destruct rv; auto. }
    pose proof (update_sym_le _ _ _ _ _ _ _ E2) as [x [V X]]. rewrite F1 in V.
    eapply update_sym_inv in E2; [|exact E1|exact HC]. destruct E2 as [I2 HX].
    assert (C2 : small c2) by (destruct HX as [[y [_ EA]]|HX]; auto; eapply add_small; eauto).
    pose proof (update_dots_lower _ _ _ _ _ _ _ _ I2 C2 E) as L3.
    apply IH in E; auto. rewrite F2, F1 in E. destruct E as [U1 U2]. cbn [map snd total]. rewrite V. split; [lia|].
    intros [|k] d0 s0 Hk; cbn [nth_error firstn map snd total] in *.
    + injection Hk as <- <-. eapply atmost_weaken; [|apply N.le_add_r]. eapply atmost_lower; [exact L3|].
      eapply atmost_lower; [exact L2|]. exact A1.
    + rewrite V. eapply atmost_weaken; [apply (U2 k d0 s0 Hk)|]. lia.
Qed.

Lemma combine_snd : forall {A B} (a : list A) (b : list B), length a = length b -> map snd (combine a b) = b.
Proof. intros A B. induction a as [|x a IH]; intros [|y b] H; try discriminate; cbn; auto. f_equal. apply IH. cbn in H. lia. Qed.

Lemma nth_enum : forall (u : list nat) k s, nth_error u k = Some s -> nth_error (combine (seq 0 (length u)) u) k = Some (k, s).
Proof.
  intros u k s H. assert (G : forall a, nth_error (combine (seq a (length u)) u) k = Some (a + k, s)); [|apply G].
  revert k H. induction u as [|x u IH]; intros [|k] H a; cbn in *; try discriminate.
  - injection H as ->. rewrite Nat.add_0_r. reflexivity.
  - rewrite (IH k H (S a)). f_equal. f_equal. lia.
Qed.

Lemma update_rule_atmost : forall debug m cur u idx rv m' cur' b k, sinv m -> small cur ->
  update_rule_distances debug m cur u idx rv = Ok (m', cur', b) -> k <= length u ->
  atmost m' idx k (cur + total (md_min_length m) (if rv then firstn k u else skipn k u)).
Proof.
  intros debug m cur u idx rv m' cur' b k HI HC E Hk. unfold update_rule_distances in E. apply bind_ok in E.
  destruct E as [[m1 c1] [E1 E]]. pose proof (update_dots_small _ _ _ _ _ _ _ _ HI HC E1) as [I1 C1].
  apply update_dots_atmost in E1; auto. destruct E1 as [U1 U2].
  apply bind_ok in E. destruct E as [[m2 b2] [E2 E]]. injection E as <- <- <-.
  pose proof (set_distance_atmost _ _ _ _ _ _ C1 E2) as A2.
  destruct (set_distance_lower _ _ _ _ _ _ C1 E2) as [L2 _].
  assert (SN : map snd (combine (seq 0 (length u)) u) = u) by (apply combine_snd, seq_length).
  destruct rv.
  - rewrite SN in U1. destruct (Nat.eq_dec k (length u)) as [->|Hn].
    + rewrite firstn_all. eapply atmost_weaken; eauto.
    + destruct (nth_error u k) as [s|] eqn:E; [|apply nth_error_None in E; lia].
      eapply atmost_lower; [exact L2|]. pose proof (U2 k k s (nth_enum u k s E)) as X.
      rewrite <- firstn_map, SN in X. exact X.
  - rewrite map_rev, SN, total_rev in U1. destruct k as [|k].
    + cbn [skipn]. eapply atmost_weaken; eauto.
    + destruct (nth_error u k) as [s|] eqn:E; [|apply nth_error_None in E; lia].
      eapply atmost_lower; [exact L2|].
      assert (ER : nth_error (rev (combine (seq 0 (length u)) u)) (length u - S k) = Some (k, s)).
      { set (L := combine (seq 0 (length u)) u).
        assert (LL : length L = length u) by (unfold L; rewrite combine_length, seq_length; lia).
        rewrite <- (nth_enum u k s E). fold L. rewrite (nth_error_nth' (rev L) (0, 0)) by (rewrite rev_length; lia).
        rewrite rev_nth by lia. rewrite LL. replace (length u - S (length u - S k)) with k by lia.
        symmetry. apply nth_error_nth'. lia. }
      pose proof (U2 _ k s ER) as X. replace (k + 1) with (S k) in X by lia.
      rewrite <- firstn_map, map_rev, SN, firstn_rev, total_rev in X.
      replace (length u - (length u - S k)) with (S k) in X by lia. exact X.
Qed.

Lemma process_dot_atmost : forall debug m i r p d m', sinv m ->
  immediate_process_dot debug m i r p d = Ok m' ->
  (includes_forward d = true -> forall k, k <= p ->
     atmost m' i k (total (md_min_length m) (skipn k (firstn p (rhs r))))) /\
  (includes_backward d = true -> forall k, p + k <= length (rhs r) ->
     atmost m' i k (total (md_min_length m) (firstn k (skipn p (rhs r))))).
Proof.
  intros debug m i r p d m' HI H. unfold immediate_process_dot in H. apply bind_ok in H.
  destruct H as [m1 [E1 H]]. assert (H0 : small 0) by (unfold small; lia).
  assert (I1 : sinv m1 /\ md_min_length m1 = md_min_length m /\ (includes_forward d = true -> forall k, k <= p ->
     atmost m1 i k (total (md_min_length m) (skipn k (firstn p (rhs r)))))).
  { destruct (includes_forward d); [|injection E1 as <-; split; auto; split; auto; discriminate].
    destruct (p <=? length (rhs r)) eqn:EL; [|discriminate]. apply Nat.leb_le in EL.
    apply bind_ok in E1. destruct E1 as [[[m2 c2] b2] [E2 E1]].
    pose proof (rule_frame _ _ _ _ _ _ _ _ _ E2) as [F2 _].
    pose proof (fun k => update_rule_atmost _ _ _ _ _ _ _ _ _ k HI H0 E2) as U.
    apply update_rule_small in E2; auto. destruct E2 as [I2 G2].
    apply bind_ok in E1. destruct E1 as [[bf b3] [E3 E1]]. injection E1 as <-. split; [|split; auto].
    - destruct I2. constructor; cbn; auto. intros s c Hs.
      destruct (set_min_at_In _ _ _ _ _ _ _ E3 Hs) as [X|[-> ->]]; eauto.
    - intros _ k Hk. apply (U k). rewrite firstn_length. lia. }
  destruct I1 as [I1 [F1 U1]].
  destruct (includes_backward d); [|injection H as <-; split; auto; discriminate].
  destruct (p <=? length (rhs r)) eqn:EL; [|discriminate]. apply Nat.leb_le in EL.
  apply bind_ok in H. destruct H as [[[m2 c2] b2] [E2 H]].
  pose proof (update_rule_down _ _ _ _ _ _ _ _ _ I1 H0 E2) as L2.
  pose proof (fun k => update_rule_atmost _ _ _ _ _ _ _ _ _ k I1 H0 E2) as U.
  apply bind_ok in H. destruct H as [[bf b3] [E3 H]]. injection H as <-. split.
  - intros Hd k Hk. apply (atmost_lower m1); auto.
  - intros _ k Hk. rewrite <- F1. apply (U k). rewrite skipn_length. lia.
Qed.

(** Every target is found. *)
Definition dot_le (a b : nat * nat) : Prop := fst a < fst b \/ (fst a = fst b /\ snd a <= snd b).
Lemma dot_le_cmp : forall a b, le_cmp dot_compare a b <-> dot_le a b.
Proof.
  intros [a1 a2] [b1 b2]. unfold le_cmp, dot_compare, dot_le. cbn [fst snd].
  destruct (Nat.compare_spec a1 b1); [destruct (Nat.compare_spec a2 b2)| |]; split; intros; try congruence; try lia.
Qed.
Lemma dots_sorted : forall dots, StronglySorted dot_le (sort_by dot_compare dots).
Proof.
  intros dots. assert (X : StronglySorted (le_cmp dot_compare) (sort_by dot_compare dots)).
  { apply sort_sorted.
    - intros [a1 a2] [b1 b2] H. rewrite dot_le_cmp. unfold dot_compare, dot_le in *. cbn [fst snd] in *.
      destruct (Nat.compare_spec a1 b1); [destruct (Nat.compare_spec a2 b2)| |]; try congruence; lia.
    - intros a b c. rewrite !dot_le_cmp. unfold dot_le. lia. }
  induction X as [|a l X IH HF]; constructor; auto. eapply Forall_impl; [|exact HF]. intros b. apply dot_le_cmp.
Qed.

Lemma zeros_first : forall i l, StronglySorted dot_le l -> (forall q, In q l -> fst q = i) ->
  l = filter (fun d => snd d =? 0) l ++ filter (fun d => negb (snd d =? 0)) l.
Proof.
  intros i l H. induction H as [|a l H IH HF]; intros HI; auto. cbn [filter].
  assert (HL : forall q, In q l -> fst q = i) by (intros q Hq; apply HI; right; auto).
  specialize (IH HL). pose proof (HI a (or_introl eq_refl)) as Ha. destruct (Nat.eqb_spec (snd a) 0) as [E|E]; cbn [negb].
  - cbn [app]. f_equal. exact IH.
  - assert (HZ : filter (fun d => snd d =? 0) l = []).
    { clear IH HI. rewrite Forall_forall in HF. destruct (filter (fun d => snd d =? 0) l) as [|q f] eqn:EF; auto. exfalso.
      assert (HQ : In q (filter (fun d => snd d =? 0) l)) by (rewrite EF; left; auto). apply filter_In in HQ.
      destruct HQ as [HQ HZ]. apply Nat.eqb_eq in HZ. specialize (HF q HQ). specialize (HL q HQ). unfold dot_le in HF. lia. }
    rewrite HZ in *. cbn [app] in *. f_equal. exact IH.
Qed.

Lemma sorted_filter : forall (R : nat * nat -> nat * nat -> Prop) (f : nat * nat -> bool) l, StronglySorted R l -> StronglySorted R (filter f l).
Proof.
  intros R f l H. induction H as [|a l H IH HF]; cbn [filter]; [constructor|]. destruct (f a); auto. constructor; auto.
  rewrite Forall_forall in *. intros q Hq. apply filter_In in Hq. apply HF. apply Hq.
Qed.

Lemma span_all : forall skip dots q, In q dots -> In q (binary_search_span skip (sort_by dot_compare dots) (fst q)).
Proof.
  intros skip dots q H. apply (sort_In dot_compare) in H. unfold binary_search_span.
  set (span := filter (fun d => fst d =? fst q) (sort_by dot_compare dots)).
  assert (HS : StronglySorted dot_le span) by (apply sorted_filter, dots_sorted).
  assert (HI : forall x, In x span -> fst x = fst q).
  { intros x Hx. apply filter_In in Hx. apply Nat.eqb_eq. apply Hx. }
  assert (HQ : In q span) by (apply filter_In; split; auto; apply Nat.eqb_refl).
  pose proof (zeros_first (fst q) span HS HI) as HZ. set (z := filter (fun d => snd d =? 0) span) in *.
  set (nz := filter (fun d => negb (snd d =? 0)) span) in *. clearbody span.
  set (k := Nat.min (skip (fst q)) (length z - 1)). assert (Hk : k <= length z) by lia.
  rewrite HZ, skipn_app. replace (k - length z) with 0 by lia. cbn [skipn]. apply in_or_app.
  destruct (Nat.eqb_spec (snd q) 0) as [E|E].
  - left. assert (Hz : In q z) by (apply filter_In; split; auto; apply Nat.eqb_eq; auto).
    assert (HA : forall x, In x z -> x = q).
    { intros [x1 x2] Hx. apply filter_In in Hx. destruct Hx as [Hx X]. apply HI in Hx. apply Nat.eqb_eq in X. cbn in *.
      destruct q. cbn in *. congruence. }
    assert (HL : 0 < length (skipn k z)).
    { rewrite skipn_length. assert (0 < length z) by (destruct z; [destruct Hz|cbn; lia]). lia. }
    destruct (skipn k z) as [|x f] eqn:EF; [cbn in HL; lia|]. left. apply HA.
    rewrite <- (firstn_skipn k z). apply in_or_app. right. rewrite EF. left. auto.
  - right. apply filter_In. split; auto. apply negb_true_iff, Nat.eqb_neq. auto.
Qed.

Lemma fold_hit : forall {St P : Type} (f : St -> P -> res St) (I Q : St -> Prop) (l : list P) q,
  (forall a a' p, In p l -> I a -> f a p = Ok a' -> I a' /\ (Q a -> Q a')) ->
  (forall a a', I a -> f a q = Ok a' -> Q a') -> In q l ->
  forall a a', I a -> fold_res f l a = Ok a' -> Q a'.
Proof.
  intros St P f I Q l q HS HQ Hq.
  assert (HK : forall l', incl l' l -> forall a a', I a -> Q a -> fold_res f l' a = Ok a' -> Q a').
  { induction l' as [|p l' IH]; intros Hi a a' Ha Qa E; cbn [fold_res] in E; [injection E as <-; auto|].
    apply bind_ok in E. destruct E as [b [E1 E]]. destruct (HS a b p) as [X Y]; auto; [apply Hi; left; auto|].
    apply (IH (fun x H => Hi x (or_intror H)) b a'); auto. }
  assert (G : forall l', incl l' l -> In q l' -> forall a a', I a -> fold_res f l' a = Ok a' -> Q a').
  { induction l' as [|p l' IH]; intros Hi Hq' a a' Ha E; [destruct Hq'|]. cbn [fold_res] in E.
    apply bind_ok in E. destruct E as [b [E1 E]]. destruct (HS a b p) as [X Y]; auto; [apply Hi; left; auto|].
    assert (Hi' : incl l' l) by (intros x H; apply Hi; right; auto). destruct Hq' as [->|Hq'].
    - apply (HK l' Hi' b a'); eauto.
    - apply (IH Hi' Hq' b a'); auto. }
  apply (G l); auto. intros x; auto.
Qed.

Lemma immediate_atmost : forall debug skip l m dots d m' i r p, sinv m ->
  immediate_minimal_distances debug skip l m (sort_by dot_compare dots) d = Ok m' ->
  nth_error l i = Some r -> In (i, p) dots ->
  (includes_forward d = true -> forall k, k <= p ->
     atmost m' i k (total (md_min_length m) (skipn k (firstn p (rhs r))))) /\
  (includes_backward d = true -> forall k, p + k <= length (rhs r) ->
     atmost m' i k (total (md_min_length m) (firstn k (skipn p (rhs r))))).
Proof.
  intros debug skip l m dots d m' i r p HI H Hr Hp. unfold immediate_minimal_distances in H.
  set (v := md_min_length m). set (Q := fun m' : min_dist => (includes_forward d = true -> forall k, k <= p ->
     atmost m' i k (total v (skipn k (firstn p (rhs r))))) /\
  (includes_backward d = true -> forall k, p + k <= length (rhs r) ->
     atmost m' i k (total v (firstn k (skipn p (rhs r)))))). change (Q m').
  assert (HQ : forall a b, lower a b -> Q a -> Q b).
  { intros a b L [A B]. split; intros; eapply atmost_lower; eauto. }
  assert (HP : forall x a a' t, sinv a /\ md_min_length a = v ->
     immediate_process_dot debug a (fst x) (snd x) t d = Ok a' -> (sinv a' /\ md_min_length a' = v) /\ lower a a').
  { intros x a a' t [Ha Va] E. split; [split|].
    - eapply process_dot_small; eauto.
    - apply process_frame in E. rewrite <- Va. apply E.
    - eapply process_dot_down; eauto. }
  eapply (fold_hit _ (fun a => sinv a /\ md_min_length a = v) Q _ (i, r)); [| | |split; [exact HI|reflexivity]|exact H].
  - intros a a' x _ Ha E.
    assert (G : forall u a, sinv a /\ md_min_length a = v -> fold_res (fun m (dot : nat * nat) => immediate_process_dot debug m (fst x) (snd x) (snd dot) d) u a = Ok a' ->
       (sinv a' /\ md_min_length a' = v) /\ lower a a').
    { induction u as [|t u IH]; intros b Hb E'; cbn [fold_res] in E'; [injection E' as <-; split; auto; apply lower_refl|].
      apply bind_ok in E'. destruct E' as [b1 [E1 E']]. destruct (HP x b b1 _ Hb E1) as [X Y].
      destruct (IH b1 X E') as [Z W]. split; auto. eapply lower_trans; eauto. }
    destruct (G _ a Ha E) as [X Y]. split; auto. apply HQ. exact Y.
  - intros a a' Ha E. cbn [fst snd] in E.
    eapply (fold_hit _ (fun a => sinv a /\ md_min_length a = v) Q _ (i, p)); [| | |exact Ha|exact E].
    + intros b b' t _ Hb Eb. destruct (HP (i, r) b b' (snd t) Hb Eb) as [X Y]. split; auto. apply HQ. exact Y.
    + intros b b' [Hb Vb] Eb. cbn [snd] in Eb. destruct (process_dot_atmost _ _ _ _ _ _ _ Hb Eb) as [A B].
      rewrite Vb in A, B. split; auto.
    + apply (span_all skip dots (i, p)). exact Hp.
  - apply nth_error_In with (n := i). clear - Hr.
    assert (G : forall a, nth_error (combine (seq a (length l)) l) i = Some (a + i, r)); [|apply G].
    revert i Hr. induction l as [|x l IH]; intros [|i] H a; cbn in *; try discriminate.
    + injection H as ->. rewrite Nat.add_0_r. reflexivity.
    + rewrite (IH i H (S a)). f_equal. f_equal. lia.
Qed.

Lemma transitive_down : forall debug l m m', shaped l m -> sinv m ->
  transitive_minimal_distances debug l m = Ok m' -> lower m m'.
Proof.
  intros debug l m m' HS HI H.
  destruct (transitive_ends debug l m (fun a => lower m a /\ shaped l a /\ sinv a)) as [m1 [S1 [I1 [[L1 _] E]]]]; auto.
  - intros a a' ch [A1 [A2 A3]] E. destruct (transitive_pass _ _ _ _ _ A2 A3 E) as [B1 [B2 [B3 _]]].
    split; auto. eapply lower_trans; eauto.
  - split; [apply lower_refl|auto].
  - rewrite E in H. destruct (fold_res _ _ (m1, false)) as [[m2 ch]| |] eqn:F; try discriminate. injection H as <-.
    destruct (transitive_pass _ _ _ _ _ S1 I1 F) as [_ [_ [X _]]]. eapply lower_trans; eauto.
Qed.

Theorem distances_upper : forall g skip m dots d m' i r p, closed_rules g -> ready g m -> lengths_ok g (md_min_length m) ->
  minimal_distances true skip g m dots d = Ok m' ->
  ready g m' /\ lengths_ok g (md_min_length m') /\ lower m m' /\
  (nth_error (rules g) i = Some r -> In (i, p) dots ->
   (includes_forward d = true -> forall k w, k <= p -> derives (prods g) (skipn k (firstn p (rhs r))) w ->
      Forall (terminal (prods g)) w -> atmost m' i k (N.of_nat (length w))) /\
   (includes_backward d = true -> forall k w, p + k <= length (rhs r) -> derives (prods g) (firstn k (skipn p (rhs r))) w ->
      Forall (terminal (prods g)) w -> atmost m' i k (N.of_nat (length w)))).
Proof.
  intros g skip m dots d m' i r p HC HR HL H.
  destruct (distances_end true skip g m dots d HC HR) as [_ R']. specialize (R' m' H).
  unfold minimal_distances in H. apply bind_ok in H. destruct H as [v [EV H]].
  apply bind_ok in H. destruct H as [m2 [E2 H]].
  destruct (lengths_exact g _ v HC HL EV) as [HV HX].
  set (m1 := mkDist (md_distances m) (md_fwd_before m) (md_fwd_after m) (md_bwd_before m) (md_bwd_after m) v) in E2.
  assert (I1 : sinv m1).
  { destruct (rd_small _ _ HR). constructor; auto. intros s c E. apply (proj2 HV s c E). }
  assert (S1 : shaped (rules g) m1) by apply (rd_shaped _ _ HR).
  destruct (immediate_down _ _ _ _ _ _ _ I1 E2) as [I2 L2].
  pose proof (shaped_lower _ _ _ S1 L2) as S2. pose proof (transitive_down _ _ _ _ S2 I2 H) as L3.
  assert (FV : md_min_length m' = v).
  { pose proof (immediate_frame _ _ _ _ _ _ _ E2) as [F2 _]. apply transitive_frame in H. destruct H as [F3 _].
    rewrite F3, F2. reflexivity. }
  split; auto. split; [rewrite FV; auto|]. split; [exact (lower_trans _ _ _ L2 L3)|].
  intros Hr Hp. destruct (immediate_atmost _ _ _ _ _ _ _ _ _ _ I1 E2 Hr Hp) as [A B].
  change (md_min_length m1) with v in A, B.
  assert (HB : Forall (fun s => s < num_syms g) (rhs r)) by (apply (HC r); eapply nth_error_In; eauto).
  assert (SF : forall k u, Forall (fun s => s < num_syms g) u -> Forall (fun s => s < num_syms g) (skipn k u)).
  { intros k u Hu. rewrite <- (firstn_skipn k u) in Hu. apply Forall_app in Hu. apply Hu. }
  assert (FF : forall k u, Forall (fun s => s < num_syms g) u -> Forall (fun s => s < num_syms g) (firstn k u)).
  { intros k u Hu. rewrite <- (firstn_skipn k u) in Hu. apply Forall_app in Hu. apply Hu. }
  split.
  - intros Hd k w Hk D T. eapply atmost_lower; [exact L3|]. eapply atmost_weaken; [apply (A Hd k Hk)|].
    eapply words_total; eauto.
  - intros Hd k w Hk D T. eapply atmost_lower; [exact L3|]. eapply atmost_weaken; [apply (B Hd k Hk)|].
    eapply words_total; eauto.
Qed.
