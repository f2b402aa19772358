(** The LR(0) closure. *)

From Coq Require Import List Arith NArith Bool Lia Sorted.
From Verif Require Import Base ListFacts Spec LoopModel LoopFacts HistoryModel CfgModel View
  BitSetModel SetView SetProof SetsModel SetsProof LRModel.
Import ListNotations.
Local Notation length := List.length.

(** * Maps in the order of their keys *)
Definition sorted_keys {V} (m : list (nat * V)) : Prop := StronglySorted lt (map fst m).

Lemma map_put_keys : forall {V} (m : list (nat * V)) s v k,
  In k (map fst (map_put m s v)) <-> k = s \/ In k (map fst m).
Proof.
  induction m as [|[a w] m IH]; cbn [map_put map fst In]; intros; [intuition|].
  destruct (Nat.compare_spec s a) as [->|H|H]; cbn [map fst In]; rewrite ?IH; intuition.
Qed.

Lemma map_put_sorted : forall {V} (m : list (nat * V)) s v, sorted_keys m -> sorted_keys (map_put m s v).
Proof.
  unfold sorted_keys. induction m as [|[a w] m IH]; cbn [map_put map fst]; intros s v H.
  - repeat constructor.
  - apply StronglySorted_inv in H. destruct H as [H1 H2].
    destruct (Nat.compare_spec s a) as [->|HL|HL]; cbn [map fst].
    + constructor; auto.
    + constructor; [constructor; auto|]. constructor; auto.
      eapply Forall_impl; [|exact H2]. simpl. intros. lia.
    + constructor; auto. apply Forall_forall. intros k Hk. apply map_put_keys in Hk.
      destruct Hk as [->|Hk]; auto. rewrite Forall_forall in H2. auto.
Qed.

Lemma map_get_In : forall {V} (m : list (nat * V)) k v, map_get m k = Some v -> In (k, v) m.
Proof.
  induction m as [|[a w] m IH]; cbn [map_get]; intros k v H; [discriminate|].
  destruct (Nat.eqb_spec a k); [injection H as ->; subst; left; auto|right; auto].
Qed.

Lemma map_get_sorted : forall {V} (m : list (nat * V)) k v, sorted_keys m -> In (k, v) m -> map_get m k = Some v.
Proof.
  unfold sorted_keys. induction m as [|[a w] m IH]; cbn [map_get map fst]; intros k v HS HIn; [destruct HIn|destruct HIn as [E|H]].
  - injection E as -> ->. rewrite Nat.eqb_refl. auto.
  - apply StronglySorted_inv in HS. destruct HS as [H1 H2]. destruct (Nat.eqb_spec a k); auto.
    exfalso. subst. rewrite Forall_forall in H2. apply (in_map fst) in H. apply H2 in H. simpl in H. lia.
Qed.

Lemma map_get_keys : forall {V} (m : list (nat * V)) k, map_get m k = None <-> ~ In k (map fst m).
Proof.
  induction m as [|[a w] m IH]; cbn [map_get map fst In]; intros; [tauto|].
  destruct (Nat.eqb_spec a k); [intuition discriminate|]. rewrite IH. intuition.
Qed.

Lemma map_get_ext : forall {V} (a b : list (nat * V)), sorted_keys a -> sorted_keys b ->
  (forall k, map_get a k = map_get b k) -> a = b.
Proof.
  unfold sorted_keys. induction a as [|[k v] a IH]; intros [|[k' v'] b] Ha Hb E; auto.
  - specialize (E k'). cbn [map_get] in E. rewrite Nat.eqb_refl in E. discriminate.
  - specialize (E k). cbn [map_get] in E. rewrite Nat.eqb_refl in E. discriminate.
  - cbn [map fst] in Ha, Hb. apply StronglySorted_inv in Ha, Hb. destruct Ha as [A1 A2], Hb as [B1 B2].
    assert (A3 : forall x, In x (map fst a) -> k < x) by (apply Forall_forall; auto).
    assert (B3 : forall x, In x (map fst b) -> k' < x) by (apply Forall_forall; auto).
    assert (Hk : k = k').
    { pose proof (E k) as E1. pose proof (E k') as E2. cbn [map_get] in E1, E2.
      rewrite Nat.eqb_refl in E1, E2.
      destruct (Nat.eqb_spec k' k) as [|Hn]; [auto|]. destruct (Nat.eqb_spec k k') as [|Hn']; [auto|].
      symmetry in E1. apply map_get_In in E1. apply (in_map fst) in E1. apply B3 in E1.
      apply map_get_In in E2. apply (in_map fst) in E2. apply A3 in E2. simpl in *. lia. }
    subst k'. assert (v = v').
    { specialize (E k). cbn [map_get] in E. rewrite Nat.eqb_refl in E. congruence. }
    subst. f_equal. apply IH; auto. intros x. specialize (E x). cbn [map_get] in E.
    destruct (Nat.eqb_spec k x); auto. subst.
    assert (forall c : list (nat * V), (forall y, In y (map fst c) -> x < y) -> map_get c x = None).
    { intros c Hc. apply map_get_keys. intros Hx. apply Hc in Hx. lia. }
    rewrite !H; auto.
Qed.

Lemma filter_length_le' : forall {A} (f : A -> bool) l, length (filter f l) <= length l.
Proof. induction l; simpl; auto. destruct (f a); simpl; lia. Qed.

(** * One nonterminal *)
Definition start_item (x : rule) : lr_item := mkItem (rhs x) 0.
Definition absent (m : lr_items) (j : nat) : bool := match map_get m j with None => true | Some _ => false end.

Lemma enum_rules_In : forall l j x, In (j, x) (enum_rules l) <-> nth_error l j = Some x.
Proof.
  intros l. unfold enum_rules.
  assert (H : forall k j (x : rule), In (j, x) (combine (seq k (length l)) l) <-> k <= j /\ nth_error l (j - k) = Some x).
  { induction l as [|y l IH]; cbn [length seq combine In]; intros.
    - split; [tauto|]. intros [_ H]. destruct (j - k); discriminate.
    - rewrite IH. split.
      + intros [E|[H1 H2]]; [injection E as <- <-; rewrite Nat.sub_diag; auto|].
        split; [lia|]. replace (j - k) with (S (j - S k)) by lia. auto.
      + intros [H1 H2]. destruct (Nat.eq_dec j k) as [->|].
        * rewrite Nat.sub_diag in H2. injection H2 as ->. auto.
        * right. split; [lia|]. replace (j - k) with (S (j - S k)) in H2 by lia. auto. }
  intros. rewrite H, Nat.sub_0_r. intuition lia.
Qed.

Lemma enum_rules_NoDup : forall l, NoDup (map fst (enum_rules l)).
Proof.
  intros l. unfold enum_rules. assert (H : forall (a : list nat) (b : list rule), length a = length b -> map fst (combine a b) = a).
  { induction a; destruct b; simpl; intros; try discriminate; auto. f_equal. auto. }
  rewrite H by apply seq_length. apply seq_NoDup.
Qed.

Lemma enum_rules_length : forall l, length (enum_rules l) = length l.
Proof. intros. unfold enum_rules. rewrite combine_length, seq_length. lia. Qed.

Lemma closure_fold : forall A ps q m, NoDup (map fst ps) ->
  exists added m', fold_left (lr_closure_rule A) ps (q, m) = (q ++ added, m') /\
  (forall it, In it added <-> exists j x, In (j, x) ps /\ lhs x = A /\ map_get m j = None /\ it = start_item x) /\
  length added = length (filter (fun p => (lhs (snd p) =? A) && absent m (fst p)) ps) /\
  (forall j x, In (j, x) ps -> lhs x = A -> map_get m' j = Some (start_item x)) /\
  (forall j, (forall x, In (j, x) ps -> lhs x <> A) -> map_get m' j = map_get m j) /\
  (sorted_keys m -> sorted_keys m').
Proof.
  intros A. induction ps as [|[j x] ps IH]; intros q m HN; cbn [fold_left].
  - exists [], m. rewrite app_nil_r. split; [auto|]. split.
    { intros it. split; [intros []|]. intros [? [? [[] _]]]. }
    split; [auto|]. split; [intros j x []|]. auto.
  - cbn [map fst] in HN. inversion HN as [|? ? HN1 HN2]; subst.
    unfold lr_closure_rule at 2. cbn [fst snd]. cbv zeta. destruct (Nat.eqb_spec (lhs x) A) as [HA|HA].
    + set (it := mkItem (rhs x) 0).
      destruct (IH (match map_get m j with None => q ++ [it] | Some _ => q end) (map_put m j it) HN2)
        as [added [m' [E [H1 [H2 [H3 [H4 H5]]]]]]].
      assert (Hother : forall k y, In (k, y) ps -> k <> j).
      { intros k y Hk ->. apply HN1. apply in_map_iff. exists (j, y). auto. }
      assert (Hj : map_get m' j = Some it).
      { rewrite H4, map_get_put, Nat.eqb_refl; auto. intros y Hy. apply Hother in Hy. tauto. }
      exists (match map_get m j with None => it :: added | Some _ => added end), m'.
      split; [etransitivity; [exact E|]; destruct (map_get m j); [auto|]; rewrite <- app_assoc; auto|].
      split; [|split; [|split; [|split]]].
      * intros i. assert (HI : In i added <-> exists k y, In (k, y) ps /\ lhs y = A /\ map_get m k = None /\ i = start_item y).
        { rewrite H1. split; intros [k [y [Q1 [Q2 [Q3 Q4]]]]]; exists k, y; repeat split; auto;
            rewrite map_get_put in *; destruct (Nat.eqb_spec j k); auto; try congruence; subst;
            apply Hother in Q1; congruence. }
        destruct (map_get m j) eqn:Em.
        -- rewrite HI. split; intros [k [y [Q1 [Q2 [Q3 Q4]]]]]; exists k, y; repeat split; auto; [right; auto|].
           destruct Q1 as [Q1|Q1]; auto. injection Q1 as -> ->. congruence.
        -- cbn [In]. rewrite HI. split.
           ++ intros [<-|[k [y [Q1 [Q2 [Q3 Q4]]]]]]; [exists j, x; repeat split; auto; left; auto|].
              exists k, y; repeat split; auto.
           ++ intros [k [y [[Q1|Q1] [Q2 [Q3 Q4]]]]]; [injection Q1 as -> ->; left; auto|].
              right. exists k, y. auto.
      * cbn [filter fst snd]. rewrite HA, Nat.eqb_refl. cbn [andb].
        assert (HL : filter (fun p => (lhs (snd p) =? A) && absent m (fst p)) ps =
                     filter (fun p => (lhs (snd p) =? A) && absent (map_put m j it) (fst p)) ps).
        { apply filter_ext_in. intros [k y] Hk. cbn [fst snd]. unfold absent. rewrite map_get_put.
          apply Hother in Hk. destruct (Nat.eqb_spec j k); auto. congruence. }
        rewrite HL. unfold absent at 1. destruct (map_get m j); cbn [length]; congruence.
      * intros k y [E'|Hk] Hy; [injection E' as <- <-; auto|auto].
      * intros k Hk. rewrite H4, map_get_put.
        -- destruct (Nat.eqb_spec j k); auto. subst. exfalso. apply (Hk x); auto. left; auto.
        -- intros y Hy. apply Hk. right; auto.
      * intros. apply H5. apply map_put_sorted. auto.
    + destruct (IH q m HN2) as [added [m' [E [H1 [H2 [H3 [H4 H5]]]]]]].
      exists added, m'. split; [auto|]. split; [|split; [|split; [|split]]].
      * intros i. rewrite H1. split; intros [k [y [Q1 [Q2 Q3]]]]; exists k, y; repeat split; auto; try tauto.
        -- right; auto.
        -- destruct Q1 as [Q1|Q1]; auto. injection Q1 as -> ->. congruence.
      * cbn [filter fst snd]. destruct (Nat.eqb_spec (lhs x) A); [congruence|]. cbn [andb]. auto.
      * intros k y [E'|Hk] Hy; [injection E' as -> ->; congruence|auto].
      * intros k Hk. apply H4. intros y Hy. apply Hk. right; auto.
      * auto.
Qed.

(** * The whole closure *)
Section Closure.
  Context (ts : bitset) (l : list rule).
  Hypothesis Hterm : forall s, s < length ts -> (member ts s <-> forall x, In x l -> lhs x <> s).
  Hypothesis Hrhs : forall x s, In x l -> In s (rhs x) -> s < length ts.
  Context (m0 : lr_items).
  Hypothesis Hsorted : sorted_keys m0.
  Hypothesis Hitems : forall i it B, map_get m0 i = Some it -> lr_postdot it = Some B -> B < length ts.

  (** The nonterminals that the loop expands.  A rule with an item among the given ones is not
      queued again. *)
  Inductive asked : nat -> Prop :=
  | ask_given : forall i it B, map_get m0 i = Some it -> lr_postdot it = Some B -> asked B
  | ask_rule : forall A j x B, asked A -> nth_error l j = Some x -> lhs x = A -> map_get m0 j = None ->
      lr_postdot (start_item x) = Some B -> asked B.

  Definition handled (m : lr_items) (B : nat) : Prop :=
    forall j x, nth_error l j = Some x -> lhs x = B -> map_get m j = Some (start_item x).

  Record closure_inv (st : list lr_item * lr_items) : Prop := {
    ci_sorted : sorted_keys (snd st);
    ci_queue : forall it B, In it (fst st) -> lr_postdot it = Some B -> B < length ts /\ asked B;
    ci_map : forall j, map_get (snd st) j = map_get m0 j \/
      exists x, nth_error l j = Some x /\ asked (lhs x) /\ map_get (snd st) j = Some (start_item x);
    ci_given : forall i it B, map_get m0 i = Some it -> lr_postdot it = Some B ->
      In it (fst st) \/ handled (snd st) B;
    ci_rule : forall j x B, nth_error l j = Some x -> map_get m0 j = None ->
      map_get (snd st) j = Some (start_item x) -> lr_postdot (start_item x) = Some B ->
      In (start_item x) (fst st) \/ handled (snd st) B }.

  Definition missing (m : lr_items) : nat := length (filter (fun p => absent m (fst p)) (enum_rules l)).
  Definition closure_measure (st : list lr_item * lr_items) : N := N.of_nat (length (fst st) + missing (snd st)).

  Lemma postdot_In : forall it B, lr_postdot it = Some B -> In B (it_rhs it).
  Proof. unfold lr_postdot. intros. eapply nth_error_In; eauto. Qed.

  Lemma closure_step_inv : forall st, closure_inv st ->
    match lr_closure_step ts l st with
    | inl st' => closure_inv st' /\ (closure_measure st' < closure_measure st)%N
    | inr r => fst st = [] /\ r = Ok (snd st)
    end.
  Proof.
    intros [q m] HI. unfold lr_closure_step. cbn [fst snd]. destruct q as [|it q]; [auto|].
    destruct HI as [I0 I1 I2 I3 I4]. cbn [fst snd] in *.
    unfold lr_nonterminal_postdot. destruct (lr_postdot it) as [A|] eqn:EA.
    - destruct (I1 it A (or_introl eq_refl) EA) as [HA HK]. unfold bs_get, get_ix.
      destruct (nth_error ts A) as [[|]|] eqn:Et.
      + cbn [bind]. assert (HT : forall x, In x l -> lhs x <> A) by (apply Hterm; auto).
        assert (HH : handled m A).
        { intros j x Hj Hx. apply nth_error_In in Hj. exfalso. apply (HT x); auto. }
        split.
        * constructor; cbn [fst snd]; auto.
          -- intros; apply I1 with it0; auto. right; auto.
          -- intros i v B Hi Hv. destruct (I3 i v B Hi Hv) as [[Q|?]|?]; auto.
             right. assert (B = A) by congruence. subst. auto.
          -- intros j x B Hj H0 Hm Hv. destruct (I4 j x B Hj H0 Hm Hv) as [[Q|?]|?]; auto.
             right. assert (B = A) by congruence. subst. auto.
        * unfold closure_measure. cbn [fst snd length]. lia.
      + cbn [bind].
        destruct (closure_fold A (enum_rules l) q m (enum_rules_NoDup l)) as [added [m' [E [H1 [H2 [H3 [H4 H5]]]]]]].
        rewrite E.
        assert (HH : handled m' A).
        { intros j x Hj Hx. apply H3; auto. apply enum_rules_In. auto. }
        assert (Hor : forall j x, nth_error l j = Some x -> lhs x <> A -> map_get m' j = map_get m j).
        { intros j x Hj Hx. apply H4. intros y Hy. apply enum_rules_In in Hy. congruence. }
        assert (HM : forall B, handled m B -> handled m' B).
        { intros B HB j x Hj Hx. destruct (Nat.eq_dec B A) as [->|]; [apply HH; auto|].
          rewrite (Hor j x); auto. congruence. }
        split.
        * constructor; cbn [fst snd]; auto.
          -- intros i B Hi HB. apply in_app_iff in Hi. destruct Hi as [Hi|Hi]; [apply I1 with i; auto; right; auto|].
             apply H1 in Hi. destruct Hi as [j [x [Q1 [Q2 [Q3 ->]]]]]. apply enum_rules_In in Q1.
             split.
             ++ apply postdot_In in HB. apply (Hrhs x); auto. eapply nth_error_In; eauto.
             ++ destruct (map_get m0 j) eqn:Em0.
                ** destruct (I2 j) as [Ej|[y [Y1 [Y2 Y3]]]]; congruence.
                ** apply ask_rule with (A := A) (j := j) (x := x); auto.
          -- intros j. destruct (nth_error l j) as [x|] eqn:Ej.
             ++ destruct (Nat.eq_dec (lhs x) A).
                ** right. exists x. split; [auto|]. split; [congruence|]. apply HH; auto.
                ** rewrite (Hor j x); auto. rewrite <- Ej. apply I2.
             ++ rewrite H4; [rewrite <- Ej; apply I2|]. intros y Hy. apply enum_rules_In in Hy. congruence.
          -- intros i v B Hi Hv. destruct (I3 i v B Hi Hv) as [[Q|?]|?]; auto.
             ++ right. assert (B = A) by congruence. subst. auto.
             ++ left. apply in_app_iff. auto.
          -- intros j x B Hj H0 Hm Hv.
             destruct (Nat.eq_dec (lhs x) A) as [Hl|Hl].
             ++ destruct (map_get m j) as [v|] eqn:Ej.
                ** destruct (I2 j) as [Q|[y [Y1 [Y2 Y3]]]]; [congruence|].
                   assert (y = x) by congruence. subst y.
                   destruct (I4 j x B Hj H0 Y3 Hv) as [[Q|Q]|Q]; auto.
                   --- right. assert (B = A) by congruence. subst. auto.
                   --- left. apply in_app_iff. auto.
                ** left. apply in_app_iff. right. apply H1. exists j, x. repeat split; auto.
                   apply enum_rules_In. auto.
             ++ rewrite (Hor j x) in Hm; auto.
                destruct (I4 j x B Hj H0 Hm Hv) as [[Q|Q]|Q]; auto.
                ** right. assert (B = A) by congruence. subst. auto.
                ** left. apply in_app_iff. auto.
        * unfold closure_measure. cbn [fst snd]. rewrite app_length. cbn [length].
          assert (Hmiss : length added + missing m' = missing m).
          { rewrite H2. unfold missing.
            assert (HF : forall ps, (forall p, In p ps -> In p (enum_rules l)) ->
              length (filter (fun p => (lhs (snd p) =? A) && absent m (fst p)) ps) +
              length (filter (fun p => absent m' (fst p)) ps) = length (filter (fun p => absent m (fst p)) ps)).
            { induction ps as [|[j x] ps IHp]; intros Hin; auto. cbn [filter fst snd].
              assert (Hx : nth_error l j = Some x) by (apply enum_rules_In; apply Hin; left; auto).
              specialize (IHp (fun p H => Hin p (or_intror H))).
              destruct (Nat.eqb_spec (lhs x) A) as [Hl|Hl]; cbn [andb].
              - assert (absent m' j = false) by (unfold absent; rewrite (HH j x); auto).
                rewrite H. destruct (absent m j); cbn [length]; lia.
              - assert (absent m' j = absent m j) by (unfold absent; rewrite (Hor j x); auto).
                rewrite H. destruct (absent m j); cbn [length]; lia. }
            apply HF. auto. }
          lia.
      + apply nth_error_None in Et. lia.
    - split.
      + constructor; cbn [fst snd]; auto.
        * intros; apply I1 with it0; auto. right; auto.
        * intros i v B Hi Hv. destruct (I3 i v B Hi Hv) as [[Q|?]|?]; auto. congruence.
        * intros j x B Hj H0 Hm Hv. destruct (I4 j x B Hj H0 Hm Hv) as [[Q|?]|?]; auto. congruence.
      + unfold closure_measure. cbn [fst snd length]. lia.
  Qed.

  Lemma closure_inv_start : closure_inv (map snd m0, m0).
  Proof.
    constructor; cbn [fst snd]; auto.
    - intros it B Hi HB. apply in_map_iff in Hi. destruct Hi as [[k v] [<- Hi]]. cbn [snd] in *.
      apply map_get_sorted in Hi; auto. split; [eapply Hitems; eauto|eapply ask_given; eauto].
    - intros i it B Hi HB. left. apply map_get_In in Hi. apply (in_map snd) in Hi. auto.
    - intros. congruence.
  Qed.

  Theorem closure_total : exists m, lr_closure ts l m0 = Ok m /\ sorted_keys m /\
    (forall j x, nth_error l j = Some x -> asked (lhs x) -> map_get m j = Some (start_item x)) /\
    (forall j, map_get m j = map_get m0 j \/
      exists x, nth_error l j = Some x /\ asked (lhs x) /\ map_get m j = Some (start_item x)).
  Proof.
    unfold lr_closure, run_loop.
    destruct (iter_pow_ends (lr_closure_step ts l) closure_inv closure_measure) with (p := length m0 + length l)
      (s := (map snd m0, m0)) as [st [r [HI [Hr E]]]].
    - intros s s' HS E. pose proof (closure_step_inv s HS) as H. rewrite E in H. auto.
    - apply closure_inv_start.
    - unfold closure_measure. cbn [fst snd]. rewrite map_length.
      assert (missing m0 <= length l).
      { unfold missing. pose proof (filter_length_le' (fun p => absent m0 (fst p)) (enum_rules l)).
        rewrite enum_rules_length in H. auto. }
      pose proof (N.pow_gt_lin_r 2 (N.of_nat (length m0 + length l))). lia.
    - pose proof (closure_step_inv st HI) as H. rewrite Hr in H. destruct H as [Hq ->].
      rewrite E. exists (snd st). destruct HI as [I0 I1 I2 I3 I4]. rewrite Hq in *.
      split; [auto|]. split; [auto|].
      assert (HK : forall A, asked A -> handled (snd st) A).
      { induction 1 as [i it B Hi Hp|A j x B HA IH Hj Hx H0 HB].
        - destruct (I3 i it B Hi Hp) as [[]|]; auto.
        - destruct (I4 j x B Hj H0 (IH j x Hj Hx) HB) as [[]|]; auto. }
      split; [|auto]. intros j x Hj HA. apply (HK _ HA); auto.
  Qed.
End Closure.
