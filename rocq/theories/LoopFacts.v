(** Reasoning about [iter_pow]. *)

From Coq Require Import List Arith NArith Lia.
From Verif Require Import Base LoopModel.

Section Iter.
  Context {S R : Type} (step : S -> S + R).

  (** [steps s n s']: n iterations lead from [s] to [s']. *)
  Inductive steps : S -> nat -> S -> Prop :=
  | steps_0 : forall s, steps s 0 s
  | steps_S : forall s s1 n s2, step s = inl s1 -> steps s1 n s2 -> steps s (Datatypes.S n) s2.

  Lemma steps_app : forall a n b, steps a n b -> forall m c, steps b m c -> steps a (n + m) c.
  Proof. induction 1; simpl; intros; auto. econstructor; eauto. Qed.

  Lemma iter_pow_inl : forall p s s', iter_pow step p s = inl s' -> steps s (2 ^ p) s'.
  Proof.
    induction p; simpl; intros.
    - econstructor; eauto. constructor.
    - destruct (iter_pow step p s) eqn:E; [|discriminate]. rewrite Nat.add_0_r.
      eapply steps_app; eauto.
  Qed.

  Lemma iter_pow_inr : forall p s r, iter_pow step p s = inr r ->
    exists n s', n < 2 ^ p /\ steps s n s' /\ step s' = inr r.
  Proof.
    induction p; simpl; intros.
    - exists 0, s. repeat split; auto. constructor.
    - destruct (iter_pow step p s) eqn:E.
      + apply iter_pow_inl in E. apply IHp in H. destruct H as [n [s' [? [? ?]]]].
        exists (2 ^ p + n), s'. repeat split; auto; [lia|]. eapply steps_app; eauto.
      + inversion H; subst. apply IHp in E. destruct E as [n [s' [? [? ?]]]].
        exists n, s'. repeat split; auto. lia.
  Qed.

  (** An invariant holds at the exit. *)
  Lemma iter_pow_inv : forall (I : S -> Prop), (forall s s', I s -> step s = inl s' -> I s') ->
    forall p s r, I s -> iter_pow step p s = inr r -> exists s', I s' /\ step s' = inr r.
  Proof.
    intros I HI p s r Hs E. apply iter_pow_inr in E. destruct E as [n [s' [_ [HS E]]]].
    exists s'; split; auto. clear E. induction HS; auto. apply IHHS. eapply HI; eauto.
  Qed.

  (** A measure that decreases with every iteration bounds the loop. *)
  Lemma iter_pow_ends : forall (I : S -> Prop) (m : S -> N),
    (forall s s', I s -> step s = inl s' -> I s' /\ (m s' < m s)%N) ->
    forall p s, I s -> (m s < 2 ^ N.of_nat p)%N ->
    exists s' r, I s' /\ step s' = inr r /\ iter_pow step p s = inr r.
  Proof.
    intros I m HM p s Hs Hlt.
    destruct (iter_pow step p s) eqn:E.
    - exfalso. apply iter_pow_inl in E.
      assert (HX : forall a n b, steps a n b -> I a -> (m b + N.of_nat n <= m a)%N).
      { clear - HM. induction 1; intros; [lia|]. destruct (HM _ _ H1 H). specialize (IHsteps H2). lia. }
      apply HX in E; auto. rewrite Nat2N.inj_pow in E. simpl N.of_nat in E. lia.
    - apply iter_pow_inr in E. destruct E as [n [s' [_ [HS E]]]]. exists s', r. repeat split; auto.
      clear E. induction HS; auto. apply IHHS; [destruct (HM _ _ Hs H); auto|].
      destruct (HM _ _ Hs H). lia.
  Qed.

  Lemma iter_pow_more : forall p q s r, iter_pow step p s = inr r -> p <= q -> iter_pow step q s = inr r.
  Proof. intros. induction H0; auto. simpl. rewrite IHle. auto. Qed.
End Iter.
