(** Finitely many parse trees without cycles, infinitely many with them. *)

From Coq Require Import List Arith Lia Relations.
From Verif Require Import Spec SpecClassify SpecTree GrammarFacts TreeProof TreeLang.
Import ListNotations.

Definition maximum (l : list nat) : nat := fold_right Nat.max 0 l.
Fixpoint height (t : tree) : nat := match t with Leaf _ => 0 | Node _ ts => S (maximum (map height ts)) end.

Lemma maximum_le : forall l n, maximum l <= n <-> forall x, In x l -> x <= n.
Proof.
  induction l as [|x l IH]; intros n; simpl; [split; [contradiction|lia]|]. unfold maximum in *. simpl. rewrite Nat.max_lub_iff, IH. split.
  - intros [H1 H2] y [<-|Hy]; auto.
  - intros H. split; auto.
Qed.

(** All ways to take one tree of each list. *)
Fixpoint choices (ls : list (list tree)) : list (list tree) :=
  match ls with
  | [] => [[]]
  | l :: ls => flat_map (fun t => map (cons t) (choices ls)) l
  end.

Lemma in_choices : forall ls ts, Forall2 (fun l t => In t l) ls ts -> In ts (choices ls).
Proof.
  induction 1 as [|l t ls ts H _ IH]; simpl; auto. apply in_flat_map. exists t. split; auto. apply in_map. auto.
Qed.

Fixpoint numbered_from (n : nat) (l : list (nat * list nat)) : list (nat * (nat * list nat)) :=
  match l with [] => [] | x :: l => (n, x) :: numbered_from (S n) l end.

Lemma in_numbered : forall l n i x, nth_error l i = Some x -> In (n + i, x) (numbered_from n l).
Proof.
  induction l as [|y l IH]; intros n [|i] x H; simpl in *; try discriminate.
  - injection H as <-. left. f_equal. lia.
  - right. replace (n + S i) with (S n + i) by lia. apply IH. auto.
Qed.

(** All trees up to a height. *)
Fixpoint low_trees (l : list (nat * list nat)) (d s : nat) : list tree :=
  match d with
  | 0 => [Leaf s]
  | S d => Leaf s :: flat_map (fun p => map (Node (fst p)) (choices (map (low_trees l d) (snd (snd p))))) (numbered_from 0 l)
  end.

Lemma in_low_trees : forall l d A t, parses l A t -> height t <= d -> In t (low_trees l d A).
Proof.
  induction d as [|d IH]; intros A t H HH; destruct t as [s|i ts]; simpl in HH.
  - apply parses_leaf_inv in H. destruct H as [-> _]. left. auto.
  - lia.
  - apply parses_leaf_inv in H. destruct H as [-> _]. left. auto.
  - right. apply parses_node_inv in H. destruct H as [r [Hi HF]]. apply in_flat_map. exists (i, (A, r)). split.
    + apply (in_numbered l 0 i). auto.
    + simpl. apply in_map. apply in_choices.
      assert (HM : forall t, In t ts -> height t <= d).
      { intros t Ht. apply le_S_n in HH. rewrite maximum_le in HH. apply HH. apply in_map. auto. }
      clear -HF HM IH. induction HF as [|B t r ts H _ IHF]; simpl; constructor; auto.
      * apply IH; auto. apply HM. left. auto.
      * apply IHF. intros. apply HM. right. auto.
Qed.

Section Finite.
Context (l : list (nat * list nat)).
Hypothesis no_empty : forall A r, In (A, r) l -> r <> [].
Hypothesis no_cycle : cycle_free_grammar (of_list l).
Hypothesis no_loop : forall A, ~ In (A, [A]) l.
Let N := length l.

Lemma yield_nonempty : forall A t, parses l A t -> 1 <= length (yield t).
Proof.
  intros A t H. revert A H. induction t as [s|i ts IH] using tree_ind2; intros A H; simpl; auto.
  apply parses_node_inv in H. destruct H as [r [Hi HF]]. apply nth_error_In in Hi. apply no_empty in Hi.
  destruct HF as [|B t r ts H HF]; [congruence|]. inversion IH as [|? ? I1 I2]; subst. simpl. rewrite app_length.
  specialize (I1 B H). lia.
Qed.

Lemma yields_length : forall r ts, Forall2 (parses l) r ts -> length ts <= length (flat_map yield ts).
Proof.
  induction 1 as [|B t r ts H _ IH]; simpl; auto. rewrite app_length. pose proof (yield_nonempty B t H). lia.
Qed.

Lemma yield_child : forall r ts t, Forall2 (parses l) r ts -> In t ts -> length (yield t) + length ts <= S (length (flat_map yield ts)).
Proof.
  induction 1 as [|B u r ts H HF IH]; simpl; [contradiction|]. rewrite app_length. intros [->|Ht].
  - pose proof (yields_length r ts HF). lia.
  - specialize (IH Ht). pose proof (yield_nonempty B u H). lia.
Qed.

Lemma low : forall t A visited, parses l A t -> NoDup visited -> incl visited (map fst l) ->
  (forall v, In v visited -> unit_derives (of_list l) v A) ->
  height t <= (N - length visited) + (length (yield t) - 1) * S N.
Proof.
  induction t as [s|i ts IH] using tree_ind2; intros A visited H ND HI HU; [simpl; lia|].
  pose proof H as HY. apply yield_nonempty in HY.
  apply parses_node_inv in H. destruct H as [r [Hi HF]].
  assert (HIn : In (A, r) l) by (eapply nth_error_In; eauto).
  assert (NA : ~ In A visited) by (intros X; exact (no_cycle A (HU A X))).
  assert (HLen : S (length visited) <= N).
  { unfold N. rewrite <- (map_length fst l). change (S (length visited)) with (length (A :: visited)).
    apply NoDup_incl_length; [constructor; auto|]. intros x [<-|Hx]; auto. apply (in_map fst) in HIn. exact HIn. }
  destruct ts as [|t ts]; [inversion HF; subst; exfalso; exact (no_empty _ _ HIn eq_refl)|].
  destruct ts as [|t' ts].
  - inversion HF as [|B ? r0 ? HB HF0]; subst. inversion HF0; subst. simpl. rewrite app_nil_r, Nat.max_0_r.
    inversion IH as [|? ? I1 _]; subst.
    specialize (I1 B (A :: visited) HB). simpl in I1. simpl in HY. rewrite app_nil_r in HY.
    assert (X : height t <= N - S (length visited) + (length (yield t) - 1) * S N).
    { apply I1.
      - constructor; auto.
      - intros x [<-|Hx]; auto. apply (in_map fst) in HIn. exact HIn.
      - assert (K : unit_derives (of_list l) A B) by (apply t_step; split; [exact HIn|intros <-; exact (no_loop A HIn)]).
        intros v [E|Hv]; [rewrite <- E; exact K|]. exact (t_trans _ _ _ _ _ (HU v Hv) K). }
    nia.
  - cbn [height]. assert (X : maximum (map height (t :: t' :: ts)) <= N + (length (yield (Node i (t :: t' :: ts))) - 2) * S N).
    { apply maximum_le. intros x Hx. apply in_map_iff in Hx. destruct Hx as [u [<- Hu]].
      pose proof (yield_child r _ u HF Hu) as HC. cbn [length] in HC.
      assert (exists B, parses l B u) as [B HB].
      { clear -HF Hu. induction HF as [|B v r us H _ IH]; [contradiction|]. destruct Hu as [<-|Hu]; [exists B; auto|auto]. }
      rewrite Forall_forall in IH. specialize (IH u Hu B [] HB). simpl length in IH at 1.
      assert (Y : height u <= N - 0 + (length (yield u) - 1) * S N).
      { apply IH; [constructor|intros ? []|intros ? []]. }
      change (yield (Node i (t :: t' :: ts))) with (flat_map yield (t :: t' :: ts)).
      assert (Z : (length (yield u) - 1) <= length (flat_map yield (t :: t' :: ts)) - 2) by lia.
      apply (Nat.mul_le_mono_r _ _ (S N)) in Z. lia. }
    pose proof (yields_length r _ HF) as HL. cbn [length] in HL. change (flat_map yield (t :: t' :: ts)) with (yield (Node i (t :: t' :: ts))) in HL.
    assert (Z : S ((length (yield (Node i (t :: t' :: ts))) - 2)) = length (yield (Node i (t :: t' :: ts))) - 1) by lia.
    rewrite <- Z. cbn [Nat.mul]. lia.
Qed.

Lemma finite_trees : forall A w, finitely_parsed l A w.
Proof.
  intros A w. exists (low_trees l (N + (length w - 1) * S N) A). intros t H <-. apply in_low_trees; auto.
  pose proof (low t A [] H (NoDup_nil _)) as X. simpl length in X at 1. rewrite Nat.sub_0_r in X. apply X; intros ? [].
Qed.
End Finite.

Section Infinite.
Context (l : list (nat * list nat)).

Lemma unit_tree : forall A B t, In (A, [B]) l -> parses l B t ->
  exists t', parses l A t' /\ yield t' = yield t /\ height t < height t'.
Proof.
  intros A B t H Ht. destruct (In_nth_error _ _ H) as [i Hi]. exists (Node i [t]). split; [econstructor; eauto|].
  simpl. rewrite app_nil_r. split; auto. lia.
Qed.

(** [A] derives [A] by one or more unit rules, which may be the rule [A ::= A]. *)
Definition looping (A : nat) : Prop := In (A, [A]) l \/ unit_derives (of_list l) A A.

Lemma loop_trees : forall A t, looping A -> parses l A t ->
  exists t', parses l A t' /\ yield t' = yield t /\ height t < height t'.
Proof.
  intros A t [H|H] Ht; [eapply unit_tree; eauto|].
  assert (X : forall A B, unit_derives (of_list l) A B -> forall t, parses l B t ->
    exists t', parses l A t' /\ yield t' = yield t /\ height t < height t'); [|eapply X; eauto].
  clear. intros A B H. induction H as [A B [H _]|A C B _ IH1 _ IH2]; intros t Ht; [eapply unit_tree; eauto|].
  destruct (IH2 t Ht) as [u [Hu [Y HH]]]. destruct (IH1 u Hu) as [v [Hv [Y2 HH2]]]. exists v. split; auto. split; [congruence|lia].
Qed.

Lemma tall_infinite : forall A w, (forall n, exists t, parses l A t /\ yield t = w /\ n <= height t) -> infinitely_parsed l A w.
Proof.
  intros A w X L. destruct (X (S (maximum (map height L)))) as [t [H1 [H2 H3]]]. exists t. split; auto. split; auto.
  intros HI. assert (K : height t <= maximum (map height L)); [|lia].
  apply (proj1 (maximum_le (map height L) _)); [lia|]. apply in_map. auto.
Qed.

Lemma looping_tall : forall A w, looping A -> language (of_list l) A w ->
  forall n, exists t, parses l A t /\ yield t = w /\ n <= height t.
Proof.
  intros A w HU HW n. apply parses_language in HW. destruct HW as [t0 [H0 Y0]].
  induction n as [|n [t [H1 [H2 H3]]]]; [exists t0; split; auto; split; auto; lia|].
  destruct (loop_trees A t HU H1) as [u [U1 [U2 U3]]]. exists u. split; auto. split; [congruence|lia].
Qed.

Lemma infinite_trees : forall A w, looping A -> language (of_list l) A w -> infinitely_parsed l A w.
Proof. intros A w H1 H2. apply tall_infinite. apply looping_tall; auto. Qed.
End Infinite.
