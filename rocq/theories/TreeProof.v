(** Facts about parse trees; splitting a rule. *)

From Coq Require Import List Arith Lia.
From Verif Require Import Base ListFacts Spec SpecTree.
Import ListNotations.

Lemma tree_ind2 : forall P : tree -> Prop, (forall s, P (Leaf s)) -> (forall i ts, Forall P ts -> P (Node i ts)) -> forall t, P t.
Proof.
  intros P HL HN. fix IH 1. intros [s|i ts]; [apply HL|]. apply HN. induction ts as [|t ts IHt]; constructor; auto.
Qed.

Lemma F2_length : forall (A B : Type) (R : A -> B -> Prop) l l', Forall2 R l l' -> length l = length l'.
Proof. induction 1; simpl; congruence. Qed.

Lemma parses_ind2 : forall l (P : nat -> tree -> Prop),
  (forall s, (forall r, ~ In (s, r) l) -> P s (Leaf s)) ->
  (forall A r i ts, nth_error l i = Some (A, r) -> Forall2 (parses l) r ts -> Forall2 P r ts -> P A (Node i ts)) ->
  forall A t, parses l A t -> P A t.
Proof.
  intros l P HL HN. fix IH 3. intros A t [s H|A' r i ts E H]; [apply HL; exact H|].
  apply (HN A' r i ts E H). clear E. revert r ts H. fix IHF 3. intros r ts [|x t0 r' ts' Hx HF].
  - constructor.
  - constructor; [exact (IH x t0 Hx)|exact (IHF r' ts' HF)].
Qed.

Lemma parses_leaf_inv : forall l A s, parses l A (Leaf s) -> A = s /\ forall r, ~ In (s, r) l.
Proof. intros l A s H. inversion H; subst; auto. Qed.
Lemma parses_node_inv : forall l A i ts, parses l A (Node i ts) -> exists r, nth_error l i = Some (A, r) /\ Forall2 (parses l) r ts.
Proof. intros l A i ts H. inversion H; subst; eauto. Qed.

Lemma same_trees_refl : forall S l, same_trees S (fun w => w) l l.
Proof. intros S l. exists (fun t => t). split; [auto|]. split; [auto|]. intros A t' _ H. exists t'. auto. Qed.

Lemma same_trees_trans : forall S c c' l1 l2 l3, same_trees S c l1 l2 -> same_trees S c' l2 l3 -> same_trees S (fun w => c' (c w)) l1 l3.
Proof.
  intros S c c' l1 l2 l3 [f [F1 [F2 F3]]] [h [H1 [H2 H3]]]. exists (fun t => h (f t)). split; [|split].
  - intros A t HS HP. destruct (F1 A t HS HP) as [E1 E2]. destruct (H1 A (f t) HS E1) as [E3 E4]. split; auto. rewrite E4, E2. reflexivity.
  - intros A t u HS Ht Hu E. apply (F2 A); auto. apply (H2 A); auto; [apply F1|apply F1]; auto.
  - intros A t' HS HP. destruct (H3 A t' HS HP) as [t1 [E1 E2]]. destruct (F3 A t1 HS E1) as [t [E3 E4]]. exists t. split; auto. congruence.
Qed.

Lemma same_trees_sub : forall (S S' : nat -> Prop) c l l', (forall A, S' A -> S A) -> same_trees S c l l' -> same_trees S' c l l'.
Proof. intros S S' c l l' H [f [F1 [F2 F3]]]. exists f. split; [|split]; eauto. Qed.

Lemma same_trees_unambiguous : forall S c l l' A, same_trees S c l l' -> S A -> (forall u v, c u = c v -> u = v) ->
  (unambiguous l A <-> unambiguous l' A).
Proof.
  intros S c l l' A [f [F1 [F2 F3]]] HA HC. split; intros HU t t' H H' E.
  - destruct (F3 A t HA H) as [u [U1 U2]]. destruct (F3 A t' HA H') as [u' [U3 U4]]. subst. f_equal. apply HU; auto.
    apply HC. rewrite <- (proj2 (F1 A u HA U1)), <- (proj2 (F1 A u' HA U3)). exact E.
  - apply (F2 A); auto. destruct (F1 A t HA H). destruct (F1 A t' HA H'). apply HU; auto. congruence.
Qed.

(** Trees and derivations. *)
Lemma flat_map_map : forall (A B C : Type) (f : B -> list C) (g : A -> B) l, flat_map f (map g l) = flat_map (fun x => f (g x)) l.
Proof. induction l; simpl; congruence. Qed.

Lemma nth_mid : forall (A : Type) (X Y : list A) a, nth_error (X ++ a :: Y) (length X) = Some a.
Proof. intros. rewrite nth_error_app2, Nat.sub_diag; auto. Qed.

Section Split.
  Context (X Y : list (nat * list nat)) (A0 s : nat) (u v : list nat).
  Let L1 := X ++ (A0, u ++ v) :: Y.
  Let L2 := X ++ (s, u) :: (A0, s :: v) :: Y.
  Hypothesis Hs : forall A r, In (A, r) L1 -> A <> s /\ ~ In s r.

  Definition split_ix (i : nat) : nat := if i <=? length X then i else S i.
  Fixpoint split_tree (t : tree) : tree :=
    match t with
    | Leaf x => Leaf x
    | Node i ts =>
        if i =? length X then Node (S i) (Node i (firstn (length u) (map split_tree ts)) :: skipn (length u) (map split_tree ts))
        else Node (split_ix i) (map split_tree ts)
    end.

  Lemma nth_12 : forall i A r, i <> length X -> nth_error L1 i = Some (A, r) -> nth_error L2 (split_ix i) = Some (A, r).
  Proof.
    intros i A r N E. unfold split_ix, L1, L2 in *. destruct (Nat.leb_spec i (length X)).
    - rewrite nth_error_app1 in * by lia. exact E.
    - rewrite nth_error_app2 in * by lia. replace (S i - length X) with (S (S (i - length X - 1))) by lia.
      replace (i - length X) with (S (i - length X - 1)) in E by lia. exact E.
  Qed.
  Lemma nth_21 : forall j A r, j <> length X -> j <> S (length X) -> nth_error L2 j = Some (A, r) ->
    exists i, i <> length X /\ split_ix i = j /\ nth_error L1 i = Some (A, r).
  Proof.
    intros j A r N1 N2 E. unfold split_ix, L1, L2 in *. destruct (Nat.ltb_spec j (length X)).
    - exists j. split; [auto|]. destruct (Nat.leb_spec j (length X)); [|lia]. split; auto. rewrite nth_error_app1 in * by lia. exact E.
    - exists (j - 1). split; [lia|]. destruct (Nat.leb_spec (j - 1) (length X)); [lia|]. split; [lia|].
      rewrite nth_error_app2 in * by lia. replace (j - length X) with (S (S (j - length X - 2))) in E by lia.
      replace (j - 1 - length X) with (S (j - length X - 2)) by lia. exact E.
  Qed.
  Lemma nth_L1 : nth_error L1 (length X) = Some (A0, u ++ v).
  Proof. apply nth_mid. Qed.
  Lemma nth_L2a : nth_error L2 (length X) = Some (s, u).
  Proof. apply nth_mid. Qed.
  Lemma nth_L2b : nth_error L2 (S (length X)) = Some (A0, s :: v).
  Proof. unfold L2. rewrite nth_error_app2 by lia. replace (S (length X) - length X) with 1 by lia. reflexivity. Qed.

  Lemma no_rule : forall x, x <> s -> ((forall r, ~ In (x, r) L1) <-> (forall r, ~ In (x, r) L2)).
  Proof.
    intros x N. unfold L1, L2. split; intros H r Hi; apply in_app_or in Hi.
    - destruct Hi as [Hi|[Hi|[Hi|Hi]]].
      + apply (H r). apply in_or_app. auto.
      + congruence.
      + injection Hi as <- <-. apply (H (u ++ v)). apply in_or_app. simpl. auto.
      + apply (H r). apply in_or_app. simpl. auto.
    - destruct Hi as [Hi|[Hi|Hi]].
      + apply (H r). apply in_or_app. auto.
      + injection Hi as <- <-. apply (H (s :: v)). apply in_or_app. simpl. auto.
      + apply (H r). apply in_or_app. simpl. auto.
  Qed.

  Lemma s_rule : forall i r, nth_error L2 i = Some (s, r) -> i = length X /\ r = u.
  Proof.
    intros i r E. destruct (Nat.eq_dec i (length X)) as [->|N].
    - rewrite nth_L2a in E. injection E as <-. auto.
    - exfalso. destruct (Nat.eq_dec i (S (length X))) as [->|N2].
      + rewrite nth_L2b in E. injection E as E _. destruct (Hs A0 (u ++ v)); [|congruence]. eapply nth_error_In, nth_L1.
      + destruct (nth_21 i s r N N2 E) as [i' [_ [_ E']]]. apply nth_error_In in E'. destruct (Hs s r E'). auto.
  Qed.

  Lemma split_ok : forall A t, parses L1 A t -> A <> s -> parses L2 A (split_tree t) /\ yield (split_tree t) = yield t.
  Proof.
    apply (parses_ind2 L1 (fun A t => A <> s -> parses L2 A (split_tree t) /\ yield (split_tree t) = yield t)).
    - intros x H N. split; [|reflexivity]. constructor. apply no_rule; auto.
    - intros A r i ts E _ H _.
      assert (HF : Forall2 (parses L2) r (map split_tree ts) /\ flat_map yield (map split_tree ts) = flat_map yield ts).
      { assert (HN : Forall (fun x => x <> s) r).
        { apply Forall_forall. intros x Hx ->. apply nth_error_In in E. destruct (Hs A r E). auto. }
        clear E. induction H as [|x t r ts Hx HF IH]; [split; [constructor|reflexivity]|]. inversion HN; subst.
        destruct (Hx H1). destruct (IH H2). split; [constructor; auto|]. simpl. congruence. }
      destruct HF as [HF HY]. cbn [split_tree]. destruct (Nat.eqb_spec i (length X)) as [->|N].
      + rewrite nth_L1 in E. injection E as <- <-. split.
        * econstructor; [apply nth_L2b|]. 
          assert (H2 : Forall2 (parses L2) u (firstn (length u) (map split_tree ts)) /\ Forall2 (parses L2) v (skipn (length u) (map split_tree ts))).
          { apply Forall2_app_inv_l in HF. destruct HF as [a [b [Ha [Hb E]]]]. rewrite E. pose proof (F2_length _ _ _ _ _ Ha) as HL.
            rewrite HL, firstn_app, skipn_app, firstn_all, skipn_all, Nat.sub_diag. simpl. rewrite app_nil_r. auto. }
          destruct H2. constructor; auto. econstructor; [apply nth_L2a|auto].
        * cbn [yield flat_map]. rewrite <- flat_map_app, firstn_skipn. exact HY.
      + split; [|exact HY]. econstructor; [apply nth_12; eauto|exact HF].
  Qed.

  Lemma split_ix_inj : forall i j, i <> length X -> j <> length X -> split_ix i = split_ix j -> i = j.
  Proof. intros i j N1 N2. unfold split_ix. destruct (Nat.leb_spec i (length X)), (Nat.leb_spec j (length X)); lia. Qed.

  Lemma split_inj : forall t t', split_tree t = split_tree t' -> t = t'.
  Proof.
    intros t. induction t as [x|i ts IH] using tree_ind2; intros [y|j ts'] E; cbn [split_tree] in E.
    - exact E.
    - destruct (j =? length X); discriminate.
    - destruct (i =? length X); discriminate.
    - assert (HM : map split_tree ts = map split_tree ts' -> ts = ts').
      { clear E. revert ts'. induction IH as [|t ts Ht _ IH2]; intros [|t' ts'] E; try discriminate; auto.
        cbn [map] in E. injection E as E1 E2. f_equal; auto. }
      destruct (Nat.eqb_spec i (length X)) as [->|N], (Nat.eqb_spec j (length X)) as [->|N2].
      + injection E as E1 E2. f_equal. apply HM. rewrite <- (firstn_skipn (length u) (map split_tree ts)), E1, E2. apply firstn_skipn.
      + exfalso. injection E as E1 _. unfold split_ix in E1. destruct (Nat.leb_spec j (length X)); lia.
      + exfalso. injection E as E1 _. unfold split_ix in E1. destruct (Nat.leb_spec i (length X)); lia.
      + injection E as E1 E2. f_equal; auto. apply split_ix_inj; auto.
  Qed.

  Fixpoint size (t : tree) : nat := match t with Leaf _ => 1 | Node _ ts => S (list_sum (map size ts)) end.

  Lemma split_surj : forall n A t', size t' <= n -> parses L2 A t' -> A <> s -> exists t, parses L1 A t /\ split_tree t = t'.
  Proof.
    induction n as [|n IH]; intros A t' Hn HP HA; [destruct t'; simpl in Hn; lia|].
    assert (HL : forall r ts, list_sum (map size ts) <= n -> Forall2 (parses L2) r ts -> ~ In s r ->
      exists us, Forall2 (parses L1) r us /\ map split_tree us = ts).
    { intros r ts Hz HF. revert Hz. induction HF as [|x t r ts Hx HF IHF]; intros Hz HN; [exists []; auto|].
      cbn [map list_sum fold_right] in Hz. change (fold_right Nat.add 0 (map size ts)) with (list_sum (map size ts)) in Hz.
      destruct (IH x t) as [t1 [P1 E1]]; [lia|exact Hx|intros ->; apply HN; simpl; auto|].
      destruct IHF as [us [P2 E2]]; [lia|intros H; apply HN; simpl; auto|]. exists (t1 :: us). split; [constructor; auto|]. cbn [map]. congruence. }
    destruct t' as [x|j ts]; cbn [size] in Hn.
    - apply parses_leaf_inv in HP. destruct HP as [-> HP]. exists (Leaf x). split; [constructor; apply no_rule; auto|reflexivity].
    - apply parses_node_inv in HP. destruct HP as [r [E HF]].
      destruct (Nat.eq_dec j (length X)) as [->|N1]; [rewrite nth_L2a in E; congruence|].
      destruct (Nat.eq_dec j (S (length X))) as [->|N2].
      + rewrite nth_L2b in E. injection E as <- <-. inversion HF as [|? t0 ? vs H0 HV]; subst.
        assert (HI : In (A0, u ++ v) L1) by (eapply nth_error_In, nth_L1). destruct (Hs _ _ HI) as [_ HNs].
        destruct t0 as [x|k us].
        { apply parses_leaf_inv in H0. destruct H0 as [<- H0]. destruct (H0 u). eapply nth_error_In, nth_L2a. }
        apply parses_node_inv in H0. destruct H0 as [r0 [E0 H0]]. apply s_rule in E0. destruct E0 as [-> ->].
        destruct (HL (u ++ v) (us ++ vs)) as [zs [Z1 Z2]].
        * cbn [map list_sum fold_right size] in Hn. rewrite map_app, list_sum_app. unfold list_sum in *. lia.
        * apply Forall2_app; auto.
        * exact HNs.
        * exists (Node (length X) zs). split; [econstructor; [apply nth_L1|exact Z1]|]. cbn [split_tree]. rewrite Nat.eqb_refl, Z2.
          pose proof (F2_length _ _ _ _ _ H0) as HU. rewrite HU, firstn_app, skipn_app, firstn_all, skipn_all, Nat.sub_diag. simpl.
          rewrite app_nil_r. reflexivity.
      + destruct (nth_21 j A r N1 N2 E) as [i [Ni [<- Ei]]]. destruct (HL r ts) as [us [U1 U2]]; [lia|exact HF| |].
        * apply nth_error_In in Ei. apply (Hs _ _ Ei).
        * exists (Node i us). split; [econstructor; eauto|]. cbn [split_tree]. destruct (Nat.eqb_spec i (length X)); [congruence|]. congruence.
  Qed.

  Lemma split_same : same_trees (fun A => A <> s) (fun w => w) L1 L2.
  Proof.
    exists split_tree. split; [|split].
    - intros A t HA HP. apply split_ok; auto.
    - intros A t t' _ _ _. apply split_inj.
    - intros A t' HA HP. eapply split_surj; eauto.
  Qed.
End Split.
