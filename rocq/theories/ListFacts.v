(** Facts about lists that the standard library lacks. *)

From Coq Require Import List Arith Bool Lia Permutation Sorted.
From Verif Require Import Base.
Import ListNotations.

Lemma bind_ok : forall {A B} (r : res A) (f : A -> res B) b,
  bind r f = Ok b <-> exists a, r = Ok a /\ f a = Ok b.
Proof.
  intros; destruct r; simpl; split; intros; try discriminate.
  - exists a; auto.
  - destruct H as [a' [E ?]]. inversion E; subst; auto.
  - destruct H as [? [? ?]]; discriminate.
  - destruct H as [? [? ?]]; discriminate.
Qed.

Lemma is_nil_true : forall A (l : list A), is_nil l = true <-> l = [].
Proof. destruct l; simpl; split; intros; auto; discriminate. Qed.
Lemma is_nil_false : forall A (l : list A), is_nil l = false <-> l <> [].
Proof. destruct l; simpl; split; intros; auto; try discriminate; congruence. Qed.

Lemma mem_In : forall x l, mem x l = true <-> In x l.
Proof.
  intros. unfold mem. rewrite existsb_exists. split.
  - intros [y [? E]]. apply Nat.eqb_eq in E. subst; auto.
  - intros. exists x. rewrite Nat.eqb_refl. auto.
Qed.

Lemma mem_not_In : forall x l, mem x l = false <-> ~ In x l.
Proof.
  intros. rewrite <- mem_In. destruct (mem x l); split; intros; auto; try congruence.
Qed.

Lemma NoDup_app : forall {A} (l m : list A),
  NoDup (l ++ m) <-> NoDup l /\ NoDup m /\ (forall x, In x l -> In x m -> False).
Proof.
  induction l; simpl; intros.
  - split; intros; [|tauto]. repeat split; auto. constructor.
  - split; intros.
    + inversion H; subst. apply IHl in H3. destruct H3 as [? [? ?]]. rewrite in_app_iff in H2.
      repeat split; auto.
      * constructor; auto.
      * intros x [<- | ?] ?; eauto.
    + destruct H as [H1 [H2 H3]]. inversion H1; subst. constructor.
      * rewrite in_app_iff. intros [?|?]; eauto.
      * apply IHl. repeat split; auto. intros; eapply H3; eauto.
Qed.

Lemma nth_error_upd_same : forall {A} (l : list A) i x, i < length l -> nth_error (upd l i x) i = Some x.
Proof. induction l; simpl; intros; [lia|]. destruct i; simpl; auto. apply IHl; lia. Qed.

Lemma nth_error_upd_other : forall {A} (l : list A) i j x, i <> j ->
  nth_error (upd l i x) j = nth_error l j.
Proof. induction l; simpl; intros; auto. destruct i, j; simpl; auto. congruence. Qed.

Lemma upd_length : forall {A} (l : list A) i x, length (upd l i x) = length l.
Proof. induction l; simpl; intros; auto. destruct i; simpl; auto. Qed.

Lemma nth_error_upd : forall {A} (l : list A) i j x,
  nth_error (upd l i x) j = if i =? j then (if j <? length l then Some x else None) else nth_error l j.
Proof.
  intros. destruct (i =? j) eqn:E.
  - apply Nat.eqb_eq in E. subst. destruct (j <? length l) eqn:E2.
    + apply Nat.ltb_lt in E2. apply nth_error_upd_same; auto.
    + apply Nat.ltb_ge in E2. apply nth_error_None. rewrite upd_length; auto.
  - apply Nat.eqb_neq in E. apply nth_error_upd_other; auto.
Qed.

Lemma nth_upd : forall {A} (l : list A) i j x d,
  nth j (upd l i x) d = if (i =? j) && (j <? length l) then x else nth j l d.
Proof.
  intros. 
  revert i j. induction l; simpl; intros.
  - destruct j; rewrite andb_false_r; auto.
  - destruct i, j; simpl; auto. rewrite IHl. reflexivity.
Qed.

(** * Sorting *)
Section Sort.
  Context {A : Type} (cmp : A -> A -> comparison).

  Lemma insert_perm : forall x l, Permutation (x :: l) (insert_sorted cmp x l).
  Proof.
    induction l; simpl; auto. destruct (cmp x a); auto.
    eapply perm_trans; [apply perm_swap|]. constructor; auto.
  Qed.

  Lemma sort_perm : forall l, Permutation l (sort_by cmp l).
  Proof.
    induction l; simpl; auto. eapply perm_trans; [| apply insert_perm]. constructor; auto.
  Qed.

  Lemma sort_In : forall x l, In x (sort_by cmp l) <-> In x l.
  Proof. intros; split; apply Permutation_in; [apply Permutation_sym|]; apply sort_perm. Qed.

  Definition le_cmp (a b : A) : Prop := cmp a b <> Gt.

  Hypothesis Htot : forall a b, cmp a b = Gt -> le_cmp b a.
  Hypothesis Htrans : forall a b c, le_cmp a b -> le_cmp b c -> le_cmp a c.

  Lemma insert_sorted_sorted : forall x l,
    StronglySorted le_cmp l -> StronglySorted le_cmp (insert_sorted cmp x l).
  Proof.
    induction l; simpl; intros.
    - constructor; constructor.
    - inversion H; subst. destruct (cmp x a) eqn:E.
      + constructor; auto. constructor; [unfold le_cmp; congruence|].
        eapply Forall_impl; [| exact H3]. intros. eapply Htrans; [|eauto]. unfold le_cmp; congruence.
      + constructor; auto. constructor; [unfold le_cmp; congruence|].
        eapply Forall_impl; [| exact H3]. intros. eapply Htrans; [|eauto]. unfold le_cmp; congruence.
      + constructor; auto.
        apply Forall_forall. intros y Hy.
        apply (Permutation_in y (Permutation_sym (insert_perm x l))) in Hy. destruct Hy as [<- | Hy].
        * apply Htot; auto.
        * rewrite Forall_forall in H3; auto.
  Qed.

  Lemma sort_sorted : forall l, StronglySorted le_cmp (sort_by cmp l).
  Proof. induction l; simpl; [constructor|]. apply insert_sorted_sorted; auto. Qed.

  (** Sorting is stable: elements that compare equal to [x] keep their order. *)
  Definition same_as (x y : A) : bool := match cmp x y with Eq => true | _ => false end.

  Hypothesis Heq_trans : forall a b c, cmp a b = Eq -> cmp a c = Eq -> cmp b c = Eq.
  Lemma insert_stable : forall x z l,
    filter (same_as z) (insert_sorted cmp x l) = filter (same_as z) (x :: l).
  Proof.
    induction l; simpl; auto. destruct (cmp x a) eqn:E; auto. simpl. rewrite IHl. simpl.
    unfold same_as. destruct (cmp z x) eqn:E1; destruct (cmp z a) eqn:E2; auto.
    rewrite (Heq_trans z x a) in E by auto. discriminate.
  Qed.
  Lemma sort_stable : forall z l, filter (same_as z) (sort_by cmp l) = filter (same_as z) l.
  Proof. induction l; simpl; auto. rewrite insert_stable. simpl. rewrite IHl. auto. Qed.
End Sort.

Lemma list_compare_eq : forall a b, list_compare a b = Eq <-> a = b.
Proof.
  induction a; destruct b; simpl; split; intros; auto; try discriminate.
  - destruct (a ?= n) eqn:E; try discriminate. apply Nat.compare_eq in E. apply IHa in H. subst; auto.
  - inversion H; subst. rewrite Nat.compare_refl. apply IHa; auto.
Qed.

Lemma list_compare_antisym : forall a b, list_compare b a = CompOpp (list_compare a b).
Proof.
  induction a; destruct b; simpl; auto.
  rewrite (Nat.compare_antisym a n). destruct (a ?= n); simpl; auto.
Qed.

Lemma list_compare_trans : forall a b c,
  list_compare a b <> Gt -> list_compare b c <> Gt -> list_compare a c <> Gt.
Proof.
  induction a; destruct b, c; simpl; intros; auto; try congruence.
  destruct (a ?= n) eqn:E1; destruct (n ?= n0) eqn:E2; try congruence.
  - apply Nat.compare_eq in E1, E2. subst. rewrite Nat.compare_refl. eapply IHa; eauto.
  - apply Nat.compare_eq in E1. subst. rewrite E2. congruence.
  - apply Nat.compare_eq in E2. subst. rewrite E1. congruence.
  - apply Nat.compare_lt_iff in E1, E2.
    assert (a ?= n0 = Lt) as -> by (apply Nat.compare_lt_iff; lia). congruence.
Qed.

Lemma nat_le_cmp : forall a b, le_cmp Nat.compare a b <-> a <= b.
Proof. intros. unfold le_cmp. rewrite Nat.compare_gt_iff. lia. Qed.

Lemma sort_nat_sorted : forall l, StronglySorted le (sort_nat l).
Proof.
  intros. unfold sort_nat.
  assert (H : StronglySorted (le_cmp Nat.compare) (sort_by Nat.compare l)).
  { apply sort_sorted.
    - intros. apply nat_le_cmp. apply Nat.compare_gt_iff in H. lia.
    - intros a b c. rewrite !nat_le_cmp. lia. }
  induction H; constructor; auto. eapply Forall_impl; [| exact H0]. intros. apply nat_le_cmp; auto.
Qed.

Lemma sort_nat_In : forall x l, In x (sort_nat l) <-> In x l.
Proof. intros. apply sort_In. Qed.

Lemma dedup_from_In : forall l x y, In y (x :: dedup_from x l) <-> In y (x :: l).
Proof.
  induction l; intros; [tauto|]. cbn [dedup_from]. destruct (Nat.eqb x a) eqn:E.
  - apply Nat.eqb_eq in E; subst a. rewrite IHl. simpl. tauto.
  - specialize (IHl a y). simpl in *. tauto.
Qed.

Lemma dedup_In : forall x l, In x (dedup l) <-> In x l.
Proof. destruct l; [tauto|]. apply dedup_from_In. Qed.

Lemma dedup_from_sorted : forall l x, StronglySorted le (x :: l) ->
  StronglySorted lt (x :: dedup_from x l).
Proof.
  induction l; intros x H; [repeat constructor|].
  apply StronglySorted_inv in H. destruct H as [HS HF]. inversion HF as [|? ? Ha Hl]; subst.
  cbn [dedup_from]. destruct (Nat.eqb x a) eqn:E.
  - apply Nat.eqb_eq in E; subst a. apply IHl; auto.
  - apply Nat.eqb_neq in E. pose proof (IHl a HS) as HH. constructor; auto.
    apply StronglySorted_inv in HH. destruct HH as [_ HH]. constructor; [lia|].
    eapply Forall_impl; [| exact HH]. simpl; intros; lia.
Qed.

Lemma dedup_sorted : forall l, StronglySorted le l -> StronglySorted lt (dedup l).
Proof. destruct l; intros; [constructor|]. apply dedup_from_sorted; auto. Qed.

Lemma sorted_lt_NoDup : forall l, StronglySorted lt l -> NoDup l.
Proof.
  induction 1; constructor; auto. intro. rewrite Forall_forall in H0. apply H0 in H1. lia.
Qed.

Lemma nth_error_ext : forall {A} (l m : list A), (forall i, nth_error l i = nth_error m i) -> l = m.
Proof.
  induction l as [|x l IH]; destruct m as [|y m]; intros; auto.
  - specialize (H 0). discriminate.
  - specialize (H 0). discriminate.
  - f_equal.
    + specialize (H 0). simpl in H. congruence.
    + apply IH. intros i. apply (H (S i)).
Qed.
