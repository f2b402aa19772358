(** Distances: the meaning of the values is kept by the model, and termination. *)

From Coq Require Import List Arith NArith Bool Lia Permutation.
From Verif Require Import Base Spec SetView SpecDist GrammarFacts ListFacts LoopModel LoopFacts SymbolModel
  CfgModel View BitSetModel ClosureModel SetProof ValueProof DistModel LengthProof DistProof DistSem.
Import ListNotations.
Local Notation length := List.length.

Definition pairs (g : cfg) : list (nat * list nat) := map (fun r => (lhs r, rhs r)) (rules g).

Lemma nth_pairs : forall g i r, nth_error (rules g) i = Some r -> nth_error (pairs g) i = Some (lhs r, rhs r).
Proof. intros g i r H. unfold pairs. rewrite nth_error_map, H. reflexivity. Qed.

Lemma prods_pairs : forall g A r, prods g A r <-> of_list (pairs g) A r.
Proof.
  intros g A r. unfold prods, of_list, pairs. rewrite in_map_iff. split.
  - intros [x [H [<- <-]]]. eauto.
  - intros [x [E H]]. injection E as <- <-. eauto.
Qed.

Lemma derives_flip2 : forall l u w, derives (of_list l) u w -> derives (of_list (flip l)) (rev u) (rev w).
Proof.
  intros l u w H. apply derives_rev1 in H. revert H. apply derives_mono. intros A r H.
  unfold reversed, of_list, flip in *. apply in_map_iff. exists (A, rev r). cbn. rewrite rev_involutive. auto.
Qed.

Lemma word_flip : forall l n w c, word l n w c <-> word (flip l) n (rev w) c.
Proof.
  intros l n w c. unfold word. rewrite rev_length. split; intros [H1 H2]; split; auto.
  - apply Forall_rev. eapply Forall_impl; [|exact H1]. intros a [A1 A2]. split; auto. apply terminal_flip. auto.
  - rewrite <- (rev_involutive w). apply Forall_rev. eapply Forall_impl; [|exact H1]. intros a [A1 A2].
    split; auto. apply terminal_flip. auto.
Qed.

Lemma len_flip : forall l n s c, len_sem l n s c -> len_sem (flip l) n s c.
Proof.
  intros l n s c [w [HW D]]. exists (rev w). split.
  - apply (proj1 (word_flip l n w c)). auto.
  - apply (derives_flip2 l [s] w D).
Qed.

Lemma run_loop_inv : forall {S R : Type} (step : S -> S + res R) (I : S -> Prop),
  (forall s s', I s -> step s = inl s' -> I s') ->
  forall p s r, I s -> run_loop step p s = Ok r -> exists s', I s' /\ step s' = inr (Ok r).
Proof.
  intros S R step I HI p s r Hs H. unfold run_loop in H. destruct (iter_pow step p s) as [|x] eqn:E; [discriminate|].
  subst x. eapply iter_pow_inv; eauto.
Qed.

Section Meaning.
  Context (g : cfg) (Tf Tb : nat * nat -> Prop).
  Hypothesis Hcl : closed_rules g.
  Local Notation l := (pairs g).
  Local Notation n := (num_syms g).

  Definition mirrored (t : nat * nat) : Prop := exists A q p, nth_error l (fst t) = Some (A, q) /\
    p <= length q /\ snd t = length q - p /\ Tb (fst t, p).

  Definition B_sem (rv : bool) (s : nat) (c : N) : Prop :=
    if rv then before_sem (flip l) n n mirrored s c else before_sem l n (S n) Tf s c.
  Definition A_sem (rv : bool) (s : nat) (c : N) : Prop :=
    if rv then after_sem (flip l) n n mirrored s c else after_sem l n (S n) Tf s c.
  Definition F_sem (rv imm : bool) (i d : nat) (c : N) : Prop :=
    if rv then exists A r, nth_error l i = Some (A, r) /\ d <= length r /\
                 dot_sem (flip l) n n mirrored imm i (length r - d) c
    else dot_sem l n (S n) Tf imm i d c.
  Definition D_sem (i d : nat) (c : N) : Prop :=
    (exists t w, Tf t /\ leads l n (i, d) t w /\ N.of_nat (length w) = c) \/
    (exists t w, Tb t /\ leads l n t (i, d) w /\ N.of_nat (length w) = c) \/
    (exists t w p, Tb t /\ Tb (i, p) /\ 0 < p /\ leads l n t (i, d + p) w /\ N.of_nat (length w) = c).

  Lemma pairs_small : forall A r, In (A, r) l -> A < n.
  Proof.
    intros A r H. apply prods_pairs in H. destruct H as [x [H [<- _]]]. apply Hcl in H. apply H.
  Qed.
  Lemma flip_small : forall A r, In (A, r) (flip l) -> A < n.
  Proof.
    intros A r H. unfold flip in H. apply in_map_iff in H. destruct H as [[B q] [E H]]. injection E as <- _.
    eapply pairs_small; eauto.
  Qed.
  Lemma nth_flip_rev : forall i A r, nth_error l i = Some (A, r) -> nth_error (flip l) i = Some (A, rev r).
  Proof. intros i A r H. apply nth_flip. rewrite rev_involutive. auto. Qed.

  Lemma nth_rev : forall (r : list nat) d s, nth_error r d = Some s ->
    nth_error (rev r) (length r - S d) = Some s.
  Proof.
    intros r d s H. assert (Hd : d < length r) by (apply nth_error_Some; congruence).
    rewrite (nth_error_nth' _ 0) by (rewrite rev_length; lia). f_equal.
    rewrite rev_nth by lia. replace (length r - S (length r - S d)) with d by lia.
    apply nth_error_nth. auto.
  Qed.

  Lemma back_leads : forall imm i d c, F_sem true imm i d c ->
    exists t w, Tb t /\ leads l n t (i, d) w /\ N.of_nat (length w) = c.
  Proof.
    intros imm i d c [A [r [Hi [Hd H]]]].
    destruct (sem_dotted (flip l) n (S n) n mirrored flip_small _ _ _ _ H)
      as [[j p'] [w [[B [q [p [Hj [Hp [Ep HT]]]]]] [HW [_ [C [x [y [HC D]]]]]]]]].
    cbn [fst snd] in *. subst p'. exists (j, p), (rev w). split; auto.
    rewrite <- (rev_involutive w) in HW. apply (proj2 (word_flip _ _ _ _)) in HW. destruct HW as [HW HL]. split.
    - split; auto. exists C, (rev y), (rev x). split; auto.
      apply (dotted_flip l (S n) n i d j p A r B q Hi Hd Hj Hp) in D. cbn [rev app] in D.
      rewrite rev_app_distr in D. cbn [rev] in D. rewrite rev_app_distr in D. cbn [rev] in D.
      rewrite <- !app_assoc in D. cbn [app] in D. exact D.
    - rewrite rev_length in *. auto.
  Qed.

  Lemma fwd_leads : forall imm i d c, F_sem false imm i d c ->
    exists t w, Tf t /\ leads l n (i, d) t w /\ N.of_nat (length w) = c.
  Proof.
    intros imm i d c H.
    destruct (sem_dotted l n n (S n) Tf pairs_small _ _ _ _ H) as [t [w [HT [[HW HL] [_ HD]]]]].
    exists t, w. split; auto. split; auto. split; auto.
  Qed.

  Definition dsound : min_dist -> Prop := dinv (len_sem l n) B_sem A_sem D_sem.

  Lemma add_exact : forall a b c, add_u32 true a b = Ok c -> c = (a + b)%N.
  Proof.
    intros a b c H. unfold add_u32 in H. destruct (a + b <=? u32_max)%N; [|discriminate]. injection H as <-. auto.
  Qed.

  Lemma m_FD : forall rv imm i d c, F_sem rv imm i d c -> D_sem i d c.
  Proof.
    intros [] imm i d c H; [right; left; eapply back_leads; eauto|left; eapply fwd_leads; eauto].
  Qed.
  Lemma m_FA : forall imm i r d s c, nth_error (rules g) i = Some r -> nth_error (rhs r) d = Some s ->
    F_sem false imm i (S d) c -> A_sem false s c.
  Proof. intros imm i r d s c Hr Hs H. eapply sem_after; eauto using pairs_small, nth_pairs. Qed.
  Lemma m_FL : forall imm i r d s c x y, nth_error (rules g) i = Some r -> nth_error (rhs r) d = Some s ->
    F_sem false imm i (S d) c -> len_sem l n s x -> add_u32 true c x = Ok y -> F_sem false imm i d y.
  Proof.
    intros imm i r d s c x y Hr Hs H HX E. apply add_exact in E. subst y.
    eapply sem_len; eauto using pairs_small, nth_pairs.
  Qed.
  Lemma m_FB : forall imm i r d s c x, nth_error (rules g) i = Some r -> nth_error (rhs r) d = Some s ->
    F_sem false imm i (S d) c -> B_sem false s x -> F_sem false imm i d x.
  Proof. intros imm i r d s c x Hr Hs H HX. eapply sem_before; eauto using pairs_small, nth_pairs. Qed.

  Lemma back_pos : forall imm i r d s c, nth_error (rules g) i = Some r -> nth_error (rhs r) d = Some s ->
    F_sem true imm i d c -> nth_error (flip l) i = Some (lhs r, rev (rhs r)) /\
      nth_error (rev (rhs r)) (length (rhs r) - S d) = Some s /\
      dot_sem (flip l) n n mirrored imm i (S (length (rhs r) - S d)) c.
  Proof.
    intros imm i r d s c Hr Hs [A [q [Hi [Hd H]]]]. rewrite (nth_pairs _ _ _ Hr) in Hi. injection Hi as <- <-.
    split; [apply nth_flip_rev, nth_pairs; auto|]. split; [apply nth_rev; auto|].
    assert (Hl : d < length (rhs r)) by (apply nth_error_Some; congruence).
    replace (S (length (rhs r) - S d)) with (length (rhs r) - d) by lia. auto.
  Qed.
  Lemma back_intro : forall imm i r d c, nth_error (rules g) i = Some r -> d <= length (rhs r) ->
    dot_sem (flip l) n n mirrored imm i (length (rhs r) - d) c -> F_sem true imm i d c.
  Proof. intros imm i r d c Hr Hd H. exists (lhs r), (rhs r). split; [apply nth_pairs; auto|auto]. Qed.
  Lemma nth_lt : forall (r : list nat) d s, nth_error r d = Some s -> S d <= length r.
  Proof. intros r d s H. assert (d < length r) by (apply nth_error_Some; congruence). lia. Qed.

  Lemma m_BA : forall imm i r d s c, nth_error (rules g) i = Some r -> nth_error (rhs r) d = Some s ->
    F_sem true imm i d c -> A_sem true s c.
  Proof.
    intros imm i r d s c Hr Hs H. destruct (back_pos _ _ _ _ _ _ Hr Hs H) as [H1 [H2 H3]].
    eapply sem_after; eauto using flip_small.
  Qed.
  Lemma m_BL : forall imm i r d s c x y, nth_error (rules g) i = Some r -> nth_error (rhs r) d = Some s ->
    F_sem true imm i d c -> len_sem l n s x -> add_u32 true c x = Ok y -> F_sem true imm i (S d) y.
  Proof.
    intros imm i r d s c x y Hr Hs H HX E. apply add_exact in E. subst y.
    destruct (back_pos _ _ _ _ _ _ Hr Hs H) as [H1 [H2 H3]].
    apply (back_intro imm i r); eauto using nth_lt. eapply sem_len; eauto using len_flip.
  Qed.
  Lemma m_BB : forall imm i r d s c x, nth_error (rules g) i = Some r -> nth_error (rhs r) d = Some s ->
    F_sem true imm i d c -> B_sem true s x -> F_sem true imm i (S d) x.
  Proof.
    intros imm i r d s c x Hr Hs H HX. destruct (back_pos _ _ _ _ _ _ Hr Hs H) as [H1 [H2 H3]].
    apply (back_intro imm i r); eauto using nth_lt. eapply sem_before; eauto using flip_small.
  Qed.
  Lemma m_IF : forall i r c, nth_error (rules g) i = Some r -> F_sem false true i 0 c -> B_sem false (lhs r) c.
  Proof. intros i r c Hr H. eapply sem_lhs; eauto using nth_pairs. Qed.
  Lemma m_IB : forall i r c, nth_error (rules g) i = Some r -> F_sem true true i (length (rhs r)) c -> B_sem true (lhs r) c.
  Proof.
    intros i r c Hr [A [q [Hi [Hd H]]]]. rewrite (nth_pairs _ _ _ Hr) in Hi. injection Hi as <- <-.
    rewrite Nat.sub_diag in H. eapply sem_lhs; [apply nth_flip_rev, nth_pairs; eauto|exact H].
  Qed.
  Lemma m_TF : forall i r c, nth_error (rules g) i = Some r -> A_sem false (lhs r) c -> F_sem false false i (length (rhs r)) c.
  Proof. intros i r c Hr H. eapply sem_end; eauto using nth_pairs. Qed.
  Lemma m_TB : forall i r c, nth_error (rules g) i = Some r -> A_sem true (lhs r) c -> F_sem true false i 0 c.
  Proof.
    intros i r c Hr H. apply (back_intro false i r); auto; [lia|]. rewrite Nat.sub_0_r, <- rev_length.
    eapply sem_end; [apply nth_flip_rev, nth_pairs; eauto|exact H].
  Qed.

  Lemma process_dot_sound : forall i r p d m m', nth_error (rules g) i = Some r -> dsound m ->
    (includes_forward d = true -> Tf (i, p)) -> (includes_backward d = true -> Tb (i, p)) ->
    immediate_process_dot true m i r p d = Ok m' -> dsound m'.
  Proof.
    intros i r p d m m' Hr HI HF HB H.
    eapply (process_dot_inv true g (len_sem l n) B_sem A_sem D_sem F_sem m_FD m_FA m_FL m_FB m_BA m_BL m_BB m_IF m_IB);
      [exact Hr|exact HI| | |exact H].
    - intros E Hp. eapply sem_start; eauto using nth_pairs.
    - intros E Hp. split.
      + apply (back_intro true i r); auto. eapply sem_start; [apply nth_flip_rev, nth_pairs; eauto| |rewrite rev_length; lia].
        exists (lhs r), (rhs r), p. cbn [fst snd]. split; [apply nth_pairs; auto|auto].
      + intros d0 c Hd HS. destruct (back_leads _ _ _ _ HS) as [t [w [T1 [T2 T3]]]].
        destruct (Nat.eq_dec p 0) as [->|Hn].
        * rewrite Nat.sub_0_r. right. left. eauto.
        * right. right. exists t, w, p. split; auto. split; auto. split; [lia|].
          replace (d0 - p + p) with d0 by lia. auto.
  Qed.

  Lemma transitive_rule_sound : forall m ch i r m' ch', nth_error (rules g) i = Some r -> dsound m ->
    transitive_rule true (m, ch) (i, r) = Ok (m', ch') -> dsound m'.
  Proof.
    exact (transitive_rule_inv true g (len_sem l n) B_sem A_sem D_sem F_sem m_FD m_FA m_FL m_FB m_BA m_BL m_BB m_TF m_TB).
  Qed.

  Lemma immediate_sound : forall skip m dots d m', dsound m ->
    (includes_forward d = true -> forall t, In t dots -> Tf t) ->
    (includes_backward d = true -> forall t, In t dots -> Tb t) ->
    immediate_minimal_distances true skip (rules g) m dots d = Ok m' -> dsound m'.
  Proof.
    intros skip m dots d m' HI HF HB H. unfold immediate_minimal_distances in H.
    eapply (fold_enum _ dsound (rules g)); [|exact HI|exact H]. cbn [fst snd]. clear m m' HI H.
    intros i r a a' Hr Ha H. pose proof (span_In skip dots i) as HS. revert a Ha H HS.
    induction (binary_search_span skip dots i) as [|t u IH]; intros a Ha H HS; cbn [fold_res] in H.
    - injection H as <-. auto.
    - apply bind_ok in H. destruct H as [a1 [E H]]. destruct (HS t (or_introl eq_refl)) as [HT Hi].
      apply (IH a1); auto.
      + destruct t as [j p]. cbn [fst snd] in *. subst j. eapply process_dot_sound; eauto.
      + intros q Hq. apply HS. right. auto.
  Qed.

  Lemma transitive_sound_loop : forall p m m', dsound m ->
    run_loop (transitive_step true (rules g)) p m = Ok m' -> dsound m'.
  Proof.
    intros p m m' HI H.
    assert (HP : forall a a' ch, dsound a ->
      fold_res (transitive_rule true) (combine (seq 0 (length (rules g))) (rules g)) (a, false) = Ok (a', ch) -> dsound a').
    { intros a a' ch Ha EF. apply (fold_enum _ (fun st => dsound (fst st)) (rules g)) in EF; auto.
      intros i r [b cb] [b' cb'] Hr Hb Eb. eapply transitive_rule_sound; eauto. }
    apply (run_loop_inv _ dsound) in H; auto.
    - destruct H as [a [Ha E]]. unfold transitive_step in E.
      destruct (fold_res _ _ _) as [[a' ch]| |] eqn:EF; try discriminate.
      destruct ch; [discriminate|]. injection E as <-. eauto.
    - intros a a' Ha E1. unfold transitive_step in E1.
      destruct (fold_res _ _ _) as [[a2 ch]| |] eqn:EF; try discriminate.
      destruct ch; [|discriminate]. injection E1 as <-. eauto.
  Qed.

  Lemma transitive_sound : forall m m', dsound m ->
    transitive_minimal_distances true (rules g) m = Ok m' -> dsound m'.
  Proof. intros m m'. exact (transitive_sound_loop _ m m'). Qed.

  Lemma lengths_sem : forall v, lengths_ok g v -> forall s c, value_of v s = Some c -> len_sem l n s c.
  Proof.
    intros v [HL H] s c E. destruct (H s c E) as [[w [[D T] L]] _]. exists w.
    assert (Hs : s < n).
    { rewrite <- HL. apply nth_error_Some. unfold value_of in E. destruct (nth_error v s); discriminate. }
    split.
    - split; auto. apply (derives_Forall (prods g) (fun s => s < n)) in D; auto.
      + rewrite Forall_forall in *. intros a Ha. split; auto. intros r Hr. apply (T a Ha r). apply prods_pairs. auto.
      + intros A r [x [Hx [_ <-]]] _. apply (Hcl x Hx).
    - eapply derives_mono; [|exact D]. intros A r. apply prods_pairs.
  Qed.

  Lemma distances_sound : forall skip m dots d m', dsound m -> lengths_ok g (md_min_length m) ->
    (includes_forward d = true -> forall t, In t dots -> Tf t) ->
    (includes_backward d = true -> forall t, In t dots -> Tb t) ->
    minimal_distances true skip g m dots d = Ok m' -> dsound m'.
  Proof.
    intros skip m dots d m' HI HL HF HB H. unfold minimal_distances in H. apply bind_ok in H.
    destruct H as [v [EV H]]. apply bind_ok in H. destruct H as [m2 [E2 H]].
    destruct (lengths_exact g _ v Hcl HL EV) as [HV _].
    apply transitive_sound in H; auto. apply immediate_sound in E2; auto.
    - destruct HI. constructor; cbn; auto. apply lengths_sem. auto.
    - intros X t Ht. apply sort_In in Ht. auto.
    - intros X t Ht. apply sort_In in Ht. auto.
  Qed.
End Meaning.
