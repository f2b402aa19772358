(** What the values of the distance computation mean, in terms of derivations with marked rules. *)

From Coq Require Import List Arith NArith Bool Lia.
From Verif Require Import Spec SpecDist GrammarFacts ListFacts.
Import ListNotations.
Local Notation length := List.length.

Lemma skipn_nth : forall (r : list nat) d s, nth_error r d = Some s -> skipn d r = s :: skipn (S d) r.
Proof.
  induction r as [|a r IH]; intros [|d] s H; try discriminate.
  - injection H as ->. reflexivity.
  - simpl in H. cbn [skipn]. apply (IH d s H).
Qed.

Lemma skipn_add : forall (r : list nat) a b, skipn a (skipn b r) = skipn (b + a) r.
Proof.
  induction r as [|x r IH]; intros a [|b]; cbn [skipn Nat.add]; auto. destruct a; reflexivity.
Qed.

Lemma mark_nth : forall (r : list nat) k d p s, nth_error r d = Some s -> d < p ->
  mark k p r = firstn d r ++ s :: firstn (p - S d) (skipn (S d) r) ++ k :: skipn p r.
Proof.
  induction r as [|a r IH]; intros k [|d] p s H Hd; try discriminate; destruct p as [|p]; try lia.
  - injection H as ->. unfold mark. cbn [firstn skipn]. simpl. rewrite Nat.sub_0_r. reflexivity.
  - simpl in H. unfold mark. cbn [firstn skipn Nat.sub app]. f_equal. apply (IH k d p s H). lia.
Qed.

Lemma mark_mark : forall (r : list nat) m k d p, d <= p -> p <= length r ->
  mark m d (mark k p r) = firstn d r ++ m :: firstn (p - d) (skipn d r) ++ k :: skipn p r.
Proof.
  induction r as [|a r IH]; intros m k [|d] p Hd Hp.
  - simpl in Hp. replace p with 0 by lia. reflexivity.
  - simpl in Hp. lia.
  - unfold mark. cbn [firstn skipn app]. rewrite Nat.sub_0_r. reflexivity.
  - destruct p as [|p]; [lia|]. simpl in Hp. unfold mark. cbn [firstn skipn app Nat.sub]. f_equal. apply IH; lia.
Qed.

Section Sem.
  Context (l : list (nat * list nat)) (n m k : nat) (T : nat * nat -> Prop).
  Hypothesis Hcl : forall A r, In (A, r) l -> A < n.

  Definition word (w : list nat) (c : N) : Prop :=
    Forall (fun s => s < n /\ terminal (of_list l) s) w /\ N.of_nat (length w) = c.

  (** The rules and the target's rule with a marker at the target. *)
  Definition target (t : nat * nat) : productions := fun A q => exists i r, nth_error l i = Some (A, r) /\
    (q = r \/ (i = fst t /\ snd t <= length r /\ q = mark k (snd t) r)).

  Definition len_sem (s : nat) (c : N) : Prop := exists w, word w c /\ derives (of_list l) [s] w.
  Definition before_sem (s : nat) (c : N) : Prop :=
    exists t w y, T t /\ word w c /\ derives (target t) [s] (w ++ k :: y).
  Definition after_sem (s : nat) (c : N) : Prop :=
    exists t C x w y, T t /\ word w c /\ C < n /\ derives (target t) [C] (x ++ s :: w ++ k :: y).
  Definition dot_sem (imm : bool) (i d : nat) (c : N) : Prop :=
    exists t w y A r, T t /\ word w c /\ nth_error l i = Some (A, r) /\ d <= length r /\
      ((fst t = i /\ d <= snd t /\ snd t <= length r /\
        derives (target t) (firstn (snd t - d) (skipn d r) ++ k :: skipn (snd t) r) (w ++ k :: y)) \/
       exists C x v, (imm = true -> C = A /\ x = [] /\ v = []) /\ C < n /\
         derives (target t) [C] (x ++ A :: v) /\ derives (target t) (skipn d r ++ v) (w ++ k :: y)).

  Lemma target_rule : forall t i A r, nth_error l i = Some (A, r) -> target t A r.
  Proof. intros t i A r H. exists i, r. auto. Qed.

  Lemma target_of_list : forall t u w, derives (of_list l) u w -> derives (target t) u w.
  Proof.
    intros t. apply derives_mono. intros A r H. apply In_nth_error in H. destruct H as [i H].
    eapply target_rule; eauto.
  Qed.

  Lemma word_app : forall w1 w2 c1 c2, word w1 c1 -> word w2 c2 -> word (w1 ++ w2) (c1 + c2)%N.
  Proof.
    intros w1 w2 c1 c2 [H1 <-] [H2 <-]. split; [apply Forall_app; auto|]. rewrite app_length. lia.
  Qed.

  Lemma lhs_small : forall i A r, nth_error l i = Some (A, r) -> A < n.
  Proof. intros i A r H. eapply Hcl. eapply nth_error_In; eauto. Qed.

  Lemma sem_after : forall imm i A r d s c, nth_error l i = Some (A, r) -> nth_error r d = Some s ->
    dot_sem imm i (S d) c -> after_sem s c.
  Proof.
    intros imm i A r d s c Hl Hs [t [w [y [A' [r' [HT [HW [Hl' [Hd H]]]]]]]]].
    rewrite Hl in Hl'. injection Hl' as <- <-. exists t.
    destruct H as [[Ht [Hp [Hp2 H]]]|[C [x [v [_ [HC [H1 H2]]]]]]].
    - exists A, (firstn d r), w, y. split; auto. split; auto. split; [eapply lhs_small; eauto|].
      eapply derives_rule_then.
      + exists i, r. split; [exact Hl|]. right. split; auto.
      + rewrite (mark_nth r k d (snd t) s Hs) by lia. apply derives_app; [constructor|].
        apply derives_cons_same. exact H.
    - exists C, (x ++ firstn d r), w, y. split; auto. split; auto. split; auto.
      eapply derives_trans; [exact H1|]. eapply derives_step; [eapply target_rule; exact Hl|].
      rewrite <- app_assoc. apply derives_app; [constructor|].
      rewrite <- (firstn_skipn d r) at 1. rewrite <- app_assoc. apply derives_app; [constructor|].
      rewrite (skipn_nth r d s Hs). cbn [app]. apply derives_cons_same. exact H2.
  Qed.

  Lemma sem_len : forall imm i A r d s c x, nth_error l i = Some (A, r) -> nth_error r d = Some s ->
    dot_sem imm i (S d) c -> len_sem s x -> dot_sem imm i d (c + x).
  Proof.
    intros imm i A r d s c x Hl Hs [t [w [y [A' [r' [HT [HW [Hl' [Hd H]]]]]]]]] [w1 [HW1 D1]].
    rewrite Hl in Hl'. injection Hl' as <- <-. exists t, (w1 ++ w), y, A, r.
    split; auto. split; [rewrite N.add_comm; apply word_app; auto|]. split; auto. split; [lia|].
    apply (target_of_list t) in D1. rewrite <- app_assoc. rewrite (skipn_nth r d s Hs).
    destruct H as [[Ht [Hp [Hp2 H]]]|[C [z [v [H0 [HC [H1 H2]]]]]]].
    - left. split; auto. split; [lia|]. split; auto. replace (snd t - d) with (S (snd t - S d)) by lia.
      cbn [firstn app]. apply derives_cons; auto.
    - right. exists C, z, v. split; auto. split; auto. split; auto. cbn [app]. apply derives_cons; auto.
  Qed.

  Lemma sem_before : forall imm i A r d s c x, nth_error l i = Some (A, r) -> nth_error r d = Some s ->
    dot_sem imm i (S d) c -> before_sem s x -> dot_sem imm i d x.
  Proof.
    intros imm i A r d s c x Hl Hs [t0 [w0 [y0 [A' [r' [_ [_ [Hl' [Hd H]]]]]]]]] [t [w [y [HT [HW D]]]]].
    rewrite Hl in Hl'. injection Hl' as <- <-.
    exists t, w, (y ++ skipn (S d) r), A, r. split; auto. split; auto. split; auto. split; [lia|].
    right. exists A, [], []. split; auto. split; [eapply lhs_small; eauto|]. split; [constructor|].
    rewrite app_nil_r, (skipn_nth r d s Hs).
    replace (w ++ k :: y ++ skipn (S d) r) with ((w ++ k :: y) ++ skipn (S d) r)
      by (rewrite <- app_assoc; reflexivity).
    apply derives_cons; auto. constructor.
  Qed.

  Lemma sem_lhs : forall i A r c, nth_error l i = Some (A, r) -> dot_sem true i 0 c -> before_sem A c.
  Proof.
    intros i A r c Hl [t [w [y [A' [r' [HT [HW [Hl' [Hd H]]]]]]]]].
    rewrite Hl in Hl'. injection Hl' as <- <-. exists t, w, y. split; auto. split; auto.
    destruct H as [[Ht [Hp [Hp2 H]]]|[C [z [v [H0 [HC [H1 H2]]]]]]].
    - eapply derives_rule_then; [|exact H]. exists i, r. split; auto. right. split; auto. split; auto.
      rewrite Nat.sub_0_r. reflexivity.
    - destruct (H0 eq_refl) as [-> [-> ->]]. cbn [skipn] in H2. rewrite app_nil_r in H2.
      eapply derives_rule_then; [eapply target_rule; exact Hl|exact H2].
  Qed.

  Lemma sem_end : forall i A r c, nth_error l i = Some (A, r) -> after_sem A c -> dot_sem false i (length r) c.
  Proof.
    intros i A r c Hl [t [C [x [w [y [HT [HW [HC D]]]]]]]]. exists t, w, y, A, r.
    split; auto. split; auto. split; auto. split; auto. right. exists C, x, (w ++ k :: y).
    split; [discriminate|]. split; auto. split; auto. rewrite skipn_all. constructor.
  Qed.

  Lemma sem_start : forall i A r p, nth_error l i = Some (A, r) -> T (i, p) -> p <= length r ->
    dot_sem true i p 0.
  Proof.
    intros i A r p Hl HT Hp. exists (i, p), [], (skipn p r), A, r. split; auto. split; [split; [constructor|reflexivity]|].
    split; auto. split; auto. left. cbn [fst snd]. split; auto. split; auto. split; auto.
    rewrite Nat.sub_diag. constructor.
  Qed.

  (** The derivation that a value of a dot stands for. *)
  Lemma sem_dotted : forall imm i d c, dot_sem imm i d c ->
    exists t w, T t /\ word w c /\ (exists A r, nth_error l i = Some (A, r) /\ d <= length r) /\
      exists C x y, C < n /\ derives (dotted l m k (i, d) t) [C] (x ++ m :: w ++ k :: y).
  Proof.
    intros imm i d c [t [w [y [A [r [HT [HW [Hl [Hd H]]]]]]]]]. exists t, w. split; auto. split; auto.
    split; [eauto|].
    assert (HM : forall u v, derives (target t) u v -> derives (dotted l m k (i, d) t) u v).
    { apply derives_mono. intros B q [j [s [Hj [->|[Hj1 [Hj2 ->]]]]]]; exists j, s; split; auto.
      right. right. left. auto. }
    destruct H as [[Ht [Hp [Hp2 H]]]|[C [z [v [H0 [HC [H1 H2]]]]]]].
    - exists A, (firstn d r), y. split; [eapply lhs_small; eauto|]. eapply derives_rule_then.
      + exists i, r. split; [exact Hl|]. right. right. right. cbn [fst snd]. split; auto.
      + cbn [fst snd]. rewrite mark_mark by auto. apply derives_app; [constructor|]. apply derives_cons_same. auto.
    - exists C, (z ++ firstn d r), y. split; auto. eapply derives_trans; [apply HM; exact H1|].
      eapply derives_step.
      + exists i, r. split; [exact Hl|]. right. left. cbn [fst snd]. split; auto.
      + cbn [fst snd]. rewrite <- app_assoc. apply derives_app; [constructor|]. unfold mark. rewrite <- app_assoc.
        apply derives_app; [constructor|]. cbn [app]. apply derives_cons_same. auto.
  Qed.
End Sem.

(** * The mirror image *)
Definition flip (l : list (nat * list nat)) : list (nat * list nat) := map (fun p => (fst p, rev (snd p))) l.

Lemma nth_flip : forall l i A r, nth_error (flip l) i = Some (A, r) <-> nth_error l i = Some (A, rev r).
Proof.
  intros l i A r. unfold flip. rewrite nth_error_map. destruct (nth_error l i) as [[B q]|]; cbn; split; intros H;
    try discriminate; injection H as <- E; subst; rewrite rev_involutive; auto.
Qed.

Lemma terminal_flip : forall l s, terminal (of_list (flip l)) s <-> terminal (of_list l) s.
Proof.
  intros l s. unfold terminal, of_list, flip. split; intros H r Hr.
  - apply (H (rev r)). apply in_map_iff. exists (s, r). auto.
  - apply in_map_iff in Hr. destruct Hr as [[A q] [E Hq]]. injection E as <- <-. apply (H q Hq).
Qed.

Lemma derives_flip : forall l u w, derives (of_list (flip l)) u w -> derives (of_list l) (rev u) (rev w).
Proof.
  intros l u w H. apply derives_rev1 in H. revert H. apply derives_mono. intros A r H.
  unfold reversed, of_list, flip in H. apply in_map_iff in H. destruct H as [[B q] [E Hq]]. injection E as <- E.
  apply (f_equal (@rev nat)) in E. cbn [snd] in E. rewrite !rev_involutive in E. subst q. exact Hq.
Qed.

Lemma rev_mark : forall m d r, d <= length r -> rev (mark m d r) = mark m (length r - d) (rev r).
Proof.
  intros m d r H. unfold mark. rewrite rev_app_distr. cbn [rev]. rewrite <- app_assoc. cbn [app].
  rewrite firstn_rev, skipn_rev. replace (length r - (length r - d)) with d by lia. reflexivity.
Qed.

Lemma mark_length : forall m d r, length (mark m d r) = S (length r).
Proof.
  intros m d r. unfold mark. rewrite app_length. cbn [length]. rewrite <- (firstn_skipn d r) at 3.
  rewrite app_length. lia.
Qed.

Lemma dotted_flip : forall l ma mb i d j p A r B q, 
  nth_error l i = Some (A, r) -> d <= length r -> nth_error l j = Some (B, q) -> p <= length q ->
  forall u w, derives (dotted (flip l) ma mb (i, length r - d) (j, length q - p)) u w ->
    derives (dotted l mb ma (j, p) (i, d)) (rev u) (rev w).
Proof.
  intros l ma mb i d j p A r B q Hi Hd Hj Hp u w H. apply derives_rev1 in H. revert H. apply derives_mono.
  intros X z [e [s [He HX]]]. cbn [fst snd] in HX. apply nth_flip in He. exists e, (rev s). split; auto. cbn [fst snd].
  assert (EZ : forall z', rev z = z' -> z = rev z') by (intros z' <-; rewrite rev_involutive; auto).
  destruct HX as [HX|[[-> [HL HX]]|[[-> [HL HX]]|[-> [-> [HL [HL2 HX]]]]]]]; apply EZ in HX.
  - auto.
  - rewrite Hi in He. injection He as _ He. right. right. left. rewrite <- He. split; auto. split; auto.
    rewrite rev_mark in HX by auto. subst r. rewrite rev_length in *.
    replace (length s - (length s - d)) with d in HX by lia. auto.
  - rewrite Hj in He. injection He as _ He. right. left. rewrite <- He. split; auto. split; auto.
    rewrite rev_mark in HX by auto. subst q. rewrite rev_length in *.
    replace (length s - (length s - p)) with p in HX by lia. auto.
  - rewrite Hi in He. injection He as _ He. rewrite Hi in Hj. injection Hj as _ Hj. subst q.
    right. right. right. rewrite <- He.
    split; auto. split; auto. split; [lia|]. split; auto.
    subst r. rewrite rev_length in *. rewrite rev_mark in HX by (rewrite mark_length; lia).
    rewrite mark_length, rev_mark in HX by lia.
    replace (length s - (length s - p)) with p in HX by lia.
    replace (S (length s) - (length s - d)) with (S d) in HX by lia. subst z.
    rewrite (mark_mark (rev s) mb ma p d) by (rewrite ?rev_length; lia).
    unfold mark.
    assert (E1 : length (firstn p (rev s)) = p) by (rewrite firstn_length, rev_length; lia).
    rewrite firstn_app, skipn_app, E1.
    rewrite (firstn_all2 (firstn p (rev s))), (skipn_all2 (firstn p (rev s))) by lia.
    replace (S d - p) with (S (d - p)) by lia. cbn [firstn skipn app]. rewrite <- app_assoc. cbn [app].
    f_equal. f_equal. rewrite skipn_add. replace (p + (d - p)) with d by lia. reflexivity.
Qed.
