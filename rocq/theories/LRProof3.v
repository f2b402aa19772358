(** The LR(0) sets against the textbook. *)

From Coq Require Import List Arith NArith Bool Lia Sorted.
From Verif Require Import Base ListFacts Spec SpecLR GrammarFacts LoopModel LoopFacts HistoryModel CfgModel View
  BitSetModel SetView SetProof SetsModel SetsProof LRModel LRProof LRProof2.
Import ListNotations.
Local Notation length := List.length.

(** The rules as pairs *)
Definition pairs_of (l : list rule) : list (nat * list nat) := map (fun r => (lhs r, rhs r)) l.

(** The items in a set, as pairs of a rule's position and a dot *)
Definition contains (m : lr_items) (x : nat * nat) : Prop :=
  exists it, map_get m (fst x) = Some it /\ it_dot it = snd x.

Lemma nth_pairs : forall l i A r, nth_error (pairs_of l) i = Some (A, r) <->
  exists x, nth_error l i = Some x /\ lhs x = A /\ rhs x = r.
Proof.
  intros. unfold pairs_of. rewrite nth_error_map. destruct (nth_error l i) as [x|]; simpl.
  - split; [intros E; injection E as <- <-; eauto|]. intros [y [E [<- <-]]]. congruence.
  - split; [discriminate|]. intros [y [E _]]. discriminate.
Qed.

Section Sets.
  Context (ts : bitset) (l : list rule).
  Hypothesis Hterm : forall s, s < length ts -> (member ts s <-> forall x, In x l -> lhs x <> s).
  Hypothesis Hrhs : forall x s, In x l -> In s (rhs x) -> s < length ts.
  Local Notation P := (pairs_of l).

  Lemma contains_after : forall m i it B, genuine l m -> map_get m i = Some it ->
    (lr_postdot it = Some B <-> after_dot P (i, it_dot it) B).
  Proof.
    intros m i it B [_ HG] Hi. destruct (HG i it Hi) as [x [Hx [E _]]]. unfold lr_postdot, after_dot. cbn [fst snd].
    rewrite E. split.
    - intros H. exists (lhs x), (rhs x). split; auto. apply nth_pairs. exists x. auto.
    - intros [A [r [H1 H2]]]. apply nth_pairs in H1. destruct H1 as [y [Hy [_ <-]]]. congruence.
  Qed.

  Lemma after_start : forall j x B, nth_error l j = Some x ->
    (lr_postdot (start_item x) = Some B <-> after_dot P (j, 0) B).
  Proof.
    intros j x B Hj. unfold after_dot, lr_postdot. cbn [fst snd start_item it_rhs it_dot]. split.
    - intros H. exists (lhs x), (rhs x). split; auto. apply nth_pairs. eauto.
    - intros [A [r [H1 H2]]]. apply nth_pairs in H1. destruct H1 as [y [Hy [_ <-]]]. congruence.
  Qed.

  (** Every nonterminal that is expanded is one after a dot in the closure. *)
  Lemma asked_closure : forall m B, genuine l m -> asked l m B ->
    exists x, item_closure P (contains m) x /\ after_dot P x B.
  Proof.
    intros m B HG. induction 1 as [i it B Hi HB|A j x B HA [y [Y1 Y2]] Hj Hx H0 HB].
    - exists (i, it_dot it). split; [|apply (contains_after m i it B HG Hi); auto].
      constructor. exists it. auto.
    - exists (j, 0). split; [|apply (after_start j x); auto].
      eapply cl_rule; eauto. apply nth_pairs. exists x. auto.
  Qed.

  Lemma closure_asked : forall m, genuine l m ->
    (forall i d, contains m (i, d) -> item_closure P (contains m) (i, 0) -> d = 0) ->
    forall x B, item_closure P (contains m) x -> after_dot P x B -> asked l m B.
  Proof.
    intros m HG HO x B H. revert B. induction H as [[i d] Hx|x C j r Hx IH HC Hj]; intros B HB.
    - destruct Hx as [it [H1 H2]]. cbn [fst snd] in *. subst d. eapply ask_given; eauto.
      apply (contains_after m i it B HG); auto.
    - apply nth_pairs in Hj. destruct Hj as [y [Hj [Hl <-]]].
      destruct (map_get m j) as [it|] eqn:Em.
      + assert (Hd : it_dot it = 0).
        { apply (HO j). exists it; auto. eapply cl_rule; eauto. apply nth_pairs. eauto. }
        eapply ask_given; eauto. apply (contains_after m j it B HG Em). rewrite Hd. auto.
      + apply ask_rule with (A := C) (j := j) (x := y); auto. apply (after_start j y); auto.
  Qed.

  Theorem closure_sound : forall m m' x, genuine l m -> lr_closure ts l m = Ok m' -> contains m' x ->
    item_closure P (contains m) x.
  Proof.
    intros m m' [i d] HG E [it [H1 H2]]. cbn [fst snd] in *.
    destruct (closure_genuine ts l Hterm Hrhs m HG) as [m1 [E1 [G1 [C1 C2]]]].
    assert (m1 = m') by congruence. subst m1. destruct (C2 i) as [Q|[x [X1 [X2 X3]]]].
    - constructor. exists it. cbn [fst snd]. split; auto. congruence.
    - rewrite H1 in X3. injection X3 as ->. cbn [start_item it_dot] in H2. subst d.
      destruct (asked_closure m (lhs x) HG X2) as [y [Y1 Y2]]. eapply cl_rule; eauto.
      apply nth_pairs. eauto.
  Qed.

  Theorem closure_complete : forall m m', genuine l m -> lr_closure ts l m = Ok m' ->
    (forall i d, contains m (i, d) -> item_closure P (contains m) (i, 0) -> d = 0) ->
    forall x, item_closure P (contains m) x -> contains m' x.
  Proof.
    intros m m' HG E HO x Hx.
    destruct (closure_genuine ts l Hterm Hrhs m HG) as [m1 [E1 [G1 [C1 C2]]]].
    assert (m1 = m') by congruence. subst m1. destruct Hx as [[i d] Hx|x B j r Hx HB Hj].
    - destruct (C2 i) as [Q|[y [X1 [X2 X3]]]].
      + destruct Hx as [it [H1 H2]]. exists it. cbn [fst snd] in *. split; congruence.
      + assert (Hd : d = 0).
        { apply (HO i d Hx). destruct (asked_closure m (lhs y) HG X2) as [z [Z1 Z2]]. eapply cl_rule; eauto.
          apply nth_pairs. eauto. }
        subst d. exists (start_item y). auto.
    - apply nth_pairs in Hj. destruct Hj as [y [Hj [Hl _]]]. exists (start_item y). split; auto. cbn [fst].
      apply C1; auto. rewrite Hl. eapply closure_asked; eauto.
  Qed.

  Lemma contains_moved : forall m X x, genuine l m ->
    (contains (lr_moved m X) x <-> moved P (contains m) X x).
  Proof.
    intros m X [i d] HG. destruct (moved_spec m X (proj1 HG)) as [M1 M2]. unfold contains at 1, moved. cbn [fst snd]. split.
    - intros [it' [H1 H2]]. apply M2 in H1. destruct H1 as [it [H1 [H3 ->]]]. cbn [step_item it_dot] in H2.
      exists i, (it_dot it). split; [f_equal; lia|]. split; [exists it; auto|]. apply (contains_after m i it X HG); auto.
    - intros [j [e [E [[it [H1 H2]] H3]]]]. injection E as -> ->. cbn [fst snd] in *. subst e.
      exists (step_item it). split; [|cbn [step_item it_dot]; lia]. apply M2. exists it. repeat split; auto.
      apply (contains_after m j it X HG); auto.
  Qed.

  Lemma expanded_asked : forall m B, genuine l m -> (asked l m B <-> expanded P (contains m) B).
  Proof.
    intros m B HG. split.
    - induction 1 as [i it B Hi HB|A j x B HA IH Hj Hx H0 HB].
      + apply ex_given with (i, it_dot it); [exists it; auto|]. apply (contains_after m i it B HG); auto.
      + apply ex_rule with A j (rhs x); auto.
        * apply nth_pairs. exists x. auto.
        * intros d [it [H _]]. cbn [fst] in H. congruence.
        * apply (after_start j x); auto.
    - induction 1 as [[i d] B [it [Hi Hd]] HB|A j r B HA IH Hj H0 HB].
      + cbn [fst snd] in *. subst d. apply ask_given with i it; auto. apply (contains_after m i it B HG); auto.
      + apply nth_pairs in Hj. destruct Hj as [x [Hj [Hl <-]]]. apply ask_rule with A j x; auto.
        * destruct (map_get m j) as [it|] eqn:Em; auto. exfalso. apply (H0 (it_dot it)). exists it. auto.
        * apply (after_start j x); auto.
  Qed.

  Lemma expanded_ext : forall (I J : nat * nat -> Prop), (forall x, I x <-> J x) ->
    forall B, expanded P I B -> expanded P J B.
  Proof.
    intros I J H B. induction 1 as [x B Hx HB|A j r B HA IH Hj H0 HB].
    - apply ex_given with x; auto. apply H. auto.
    - apply ex_rule with A j r; auto. intros d Hd. apply (H0 d). apply H. auto.
  Qed.
  Lemma stored_ext : forall (I J : nat * nat -> Prop), (forall x, I x <-> J x) ->
    forall x, stored_closure P I x <-> stored_closure P J x.
  Proof.
    assert (HH : forall (I J : nat * nat -> Prop), (forall x, I x <-> J x) -> forall x, stored_closure P I x -> stored_closure P J x).
    { intros I J H x [A [r [H1 [H2 H3]]]]. exists A, r. split; auto. split.
      - intros HE. apply H2. apply (expanded_ext J I); auto. intros; symmetry; auto.
      - intros HE. apply H. apply H3. intros HE'. apply HE. apply (expanded_ext I J); auto. }
    intros I J H x. split; apply HH; auto. intros; symmetry; auto.
  Qed.

  Lemma contains_dec : forall m x, contains m x \/ ~ contains m x.
  Proof.
    intros m [i d]. unfold contains. cbn [fst snd]. destruct (map_get m i) as [it|].
    - destruct (Nat.eq_dec (it_dot it) d); [left; eauto|]. right. intros [it' [E H]]. congruence.
    - right. intros [it' [E H]]. discriminate.
  Qed.

  Theorem closure_stored : forall m m' x, genuine l m -> lr_closure ts l m = Ok m' ->
    (contains m' x <-> stored_closure P (contains m) x).
  Proof.
    intros m m' [i d] HG E. destruct (closure_genuine ts l Hterm Hrhs m HG) as [m1 [E1 [G1 [C1 C2]]]].
    assert (m1 = m') by congruence. subst m1. split.
    - intros [it [H1 H2]]. cbn [fst snd] in *. destruct (proj2 G1 i it H1) as [x [Hx _]].
      exists (lhs x), (rhs x). cbn [fst snd]. split; [apply nth_pairs; eauto|]. split.
      + intros HE. apply expanded_asked in HE; auto. rewrite (C1 i x Hx HE) in H1. injection H1 as <-. auto.
      + intros HE. destruct (C2 i) as [Q|[y [Y1 [Y2 Y3]]]].
        * exists it. cbn [fst snd]. split; congruence.
        * exfalso. apply HE. apply expanded_asked; auto. congruence.
    - intros [A [r [H1 [H2 H3]]]]. cbn [fst snd] in *. apply nth_pairs in H1. destruct H1 as [x [Hx [HA Hr]]].
      destruct (contains_dec m' (i, d)) as [|Hn]; auto. exfalso.
      assert (HE : ~ expanded P (contains m) A).
      { intros HE. apply Hn. exists (start_item x). cbn [fst snd]. split.
        - apply C1; auto. apply expanded_asked; auto. congruence.
        - rewrite (H2 HE). auto. }
      apply Hn. destruct (H3 HE) as [it [I1 I2]]. cbn [fst snd] in *. exists it. cbn [fst snd]. split; auto.
      destruct (C2 i) as [Q|[y [Y1 [Y2 Y3]]]]; [congruence|]. exfalso. apply HE. apply expanded_asked; auto. congruence.
  Qed.

  Lemma contains_empty : forall m, (forall x, ~ contains m x) <-> m = [].
  Proof.
    intros m. split; [|intros -> x [it [H _]]; discriminate]. intros H. destruct m as [|[k v] m]; auto.
    exfalso. apply (H (k, it_dot v)). exists v. cbn [fst snd map_get]. rewrite Nat.eqb_refl. auto.
  Qed.

  Theorem advance_stored : forall m X, genuine l m ->
    match lr_advance ts l m X with
    | Ok None => forall x, ~ moved P (contains m) X x
    | Ok (Some m') => (exists x, moved P (contains m) X x) /\
        forall x, contains m' x <-> stored_closure P (moved P (contains m) X) x
    | _ => False
    end.
  Proof.
    intros m X HG. unfold lr_advance. destruct (lr_moved m X) as [|[k v] mm] eqn:Em.
    - cbn [is_nil]. intros x Hx. apply (contains_moved m X x HG) in Hx. rewrite Em in Hx.
      revert Hx. apply (proj2 (contains_empty [])). auto.
    - cbn [is_nil]. rewrite <- Em.
      destruct (closure_genuine ts l Hterm Hrhs _ (moved_genuine l m X HG)) as [m' [E _]]. rewrite E. cbn [bind]. split.
      + exists (k, it_dot v). apply contains_moved; auto. rewrite Em. exists v. cbn [fst snd map_get]. rewrite Nat.eqb_refl. auto.
      + intros x. rewrite (closure_stored _ m' x (moved_genuine l m X HG) E).
        apply stored_ext. intros y. apply contains_moved; auto.
  Qed.

  (** With one item per rule this is the textbook closure. *)
  Lemma stored_textbook : forall I : nat * nat -> Prop, (forall x, I x \/ ~ I x) ->
    (forall x, I x -> exists A r, nth_error P (fst x) = Some (A, r)) ->
    one_per_rule (item_closure P I) -> forall x, item_closure P I x -> stored_closure P I x.
  Proof.
    intros I Hdec HI HO.
    assert (HE1 : forall B, expanded P I B -> exists y, item_closure P I y /\ after_dot P y B).
    { induction 1 as [x B Hx HB|A j r B HA [y [Y1 Y2]] Hj H0 HB].
      - exists x. split; auto. constructor. auto.
      - exists (j, 0). split; auto. eapply cl_rule; eauto. }
    assert (HE0 : forall x B, item_closure P I x -> after_dot P x B -> ~ ~ expanded P I B).
    { intros x B Hx. revert B. induction Hx as [x Hx|x C j r Hx IH HC Hj]; intros B HB HN.
      - apply HN. apply ex_given with x; auto.
      - apply (IH C HC). intros HEC. destruct (Hdec (j, 0)) as [H0|H0].
        + apply HN. apply ex_given with (j, 0); auto.
        + apply HN. apply ex_rule with C j r; auto. intros d Hd. apply H0.
          assert (d = 0) by (apply (HO j d 0); [constructor; auto|eapply cl_rule; eauto]). subst; auto. }
    intros x Hx. destruct Hx as [[i d] Hx|x B j r Hx HB Hj].
    - destruct (HI _ Hx) as [A [r Hi]]. exists A, r. split; auto. split; auto. cbn [fst snd] in *. intros HE.
      destruct (HE1 A HE) as [y [Y1 Y2]]. apply (HO i d 0); [constructor; auto|]. eapply cl_rule; eauto.
    - exists B, r. cbn [fst snd]. split; auto. split; auto. intros HN. exfalso. apply (HE0 x B Hx HB HN).
  Qed.

  (** * Valid items *)
  Lemma rightmost_trans : forall u v w, rightmost P u v -> rightmost P v w -> rightmost P u w.
  Proof. intros u v w H1 H2. induction H2; auto. econstructor; eauto. Qed.

  Lemma rightmost_yields : forall u w, yields (of_list P) u w -> Forall (terminal (of_list P)) w ->
    forall x y, Forall (terminal (of_list P)) y -> rightmost P (x ++ u ++ y) (x ++ w ++ y).
  Proof.
    intros u w H. induction H as [|s u w H IH|A r u w1 w2 HP H1 IH1 H2 IH2]; intros HT x y Hy.
    - constructor.
    - apply Forall_cons_iff in HT. specialize (IH (proj2 HT) (x ++ [s]) y Hy). rewrite <- !app_assoc in IH. exact IH.
    - apply Forall_app in HT. destruct HT as [T1 T2].
      specialize (IH2 T2 (x ++ [A]) y Hy). rewrite <- !app_assoc in IH2. simpl app in *.
      eapply rightmost_trans; [exact IH2|].
      assert (HT : Forall (terminal (of_list P)) (w2 ++ y)) by (apply Forall_app; auto).
      eapply rightmost_trans; [|rewrite <- app_assoc; apply (IH1 T1 x (w2 ++ y) HT)].
      eapply rm_step; [constructor|exact HP|auto].
  Qed.

  Lemma productive_string : forall u, (forall s, In s u -> productive (of_list P) s) ->
    exists w, derives (of_list P) u w /\ Forall (terminal (of_list P)) w.
  Proof.
    induction u as [|s u IH]; intros H; [exists []; split; constructor|].
    destruct (H s (or_introl eq_refl)) as [w1 [D1 T1]]. destruct IH as [w2 [D2 T2]]; [intros; apply H; right; auto|].
    exists (w1 ++ w2). split; [|apply Forall_app; auto]. change (s :: u) with ([s] ++ u). apply derives_app; auto.
  Qed.

  Hypothesis Hprod : forall s, s < length ts -> productive (of_list P) s.

  Lemma valid_closure : forall S w (I : nat * nat -> Prop), (forall x, I x -> valid_item P S w x) ->
    forall x, item_closure P I x -> valid_item P S w x.
  Proof.
    intros S w I HI x H. induction H as [x Hx|x B j r Hx IH HB Hj]; auto.
    destruct IH as [A [q [p [z [Q1 [Q2 [Q3 [Q4 Q5]]]]]]]]. destruct HB as [A' [q' [HB1 HB2]]].
    rewrite Q1 in HB1. injection HB1 as <- <-.
    pose proof HB2 as Hsplit. apply nth_error_split in Hsplit. destruct Hsplit as [q1 [q2 [Eq Eq1]]].
    assert (Hin : In A (map fst P) /\ of_list P A q).
    { split; [apply in_map_iff; exists (A, q); split; auto|]; eapply nth_error_In; eauto. }
    destruct (productive_string q2) as [v [D T]].
    { intros s Hs. apply Hprod. apply nth_pairs in Q1. destruct Q1 as [y [Y1 [_ Y2]]]. apply (Hrhs y).
      - eapply nth_error_In; eauto.
      - rewrite Y2, Eq. apply in_app_iff. right. right. auto. }
    exists B, r, (p ++ q1), (v ++ z). split; [auto|]. split; [simpl; lia|]. split; [|split].
    - apply derives_yields in D. pose proof (rightmost_yields q2 v D T (p ++ q1 ++ [B]) z Q4) as HR.
      eapply rightmost_trans; [|rewrite <- !app_assoc in *; simpl app in *; exact HR].
      replace (p ++ q1 ++ B :: q2 ++ z) with (p ++ q ++ z) by (rewrite Eq, <- app_assoc; auto).
      apply rm_step with (A := A); auto. apply Hin.
    - apply Forall_app. auto.
    - simpl. rewrite app_nil_r, Q5, Eq. f_equal. rewrite <- Eq1, firstn_app, Nat.sub_diag, firstn_all. simpl. apply app_nil_r.
  Qed.

  Lemma valid_moved : forall S w X (I : nat * nat -> Prop), (forall x, I x -> valid_item P S w x) ->
    forall x, moved P I X x -> valid_item P S (w ++ [X]) x.
  Proof.
    intros S w X I HI x [i [d [-> [Hx [A' [q' [HB1 HB2]]]]]]].
    destruct (HI _ Hx) as [A [q [p [z [Q1 [Q2 [Q3 [Q4 Q5]]]]]]]]. cbn [fst snd] in *.
    rewrite Q1 in HB1. injection HB1 as <- <-.
    exists A, q, p, z. cbn [fst snd]. split; [auto|]. split; [apply nth_error_Some; congruence|]. split; [auto|]. split; auto.
    rewrite Q5, <- app_assoc. f_equal. pose proof HB2 as Hs. apply nth_error_split in Hs. destruct Hs as [q1 [q2 [-> <-]]].
    rewrite firstn_app, Nat.sub_diag, firstn_all. simpl firstn at 1. rewrite app_nil_r.
    rewrite firstn_app. replace (Datatypes.S (length q1) - length q1) with 1 by lia. rewrite firstn_all2 by lia. auto.
  Qed.
End Sets.
