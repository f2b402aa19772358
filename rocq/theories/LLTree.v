(** Grammars without LL(1) conflicts are unambiguous. *)

From Coq Require Import List Arith Lia.
From Verif Require Import Spec SpecPredict SpecTree GrammarFacts TreeProof TreeLang.
Import ListNotations.

Section LLTree.
Context (l : list (nat * list nat)).
Let P := of_list l.
Context (R : nat -> Prop).
Hypothesis R_rule : forall A r B, R A -> In (A, r) l -> In B r -> R B.
Hypothesis R_ll1 : forall B, R B -> ~ ll1_conflict P l B.
Hypothesis R_end : forall B, R B -> ~ vanish_conflict P l B.

(** What may come after a string of [A]. *)
Definition context (A : nat) (x : list nat) : Prop := match x with [] => True | b :: _ => follows P A b end.

Lemma parses_list_derives : forall r ts, Forall2 (parses l) r ts ->
  derives P r (flat_map yield ts) /\ Forall (terminal P) (flat_map yield ts).
Proof.
  induction 1 as [|B t r ts H _ [D T]]; [split; constructor|].
  destruct (parses_derives l B t H) as [D1 T1]. simpl. split.
  - change (B :: r) with ([B] ++ r). apply derives_app; auto.
  - apply Forall_app. auto.
Qed.

Lemma same_rule : forall A i j r r' w w' x y, R A -> nth_error l i = Some (A, r) -> nth_error l j = Some (A, r') ->
  derives P r w -> derives P r' w' -> Forall (terminal P) w -> Forall (terminal P) w' ->
  context A x -> context A y -> w ++ x = w' ++ y -> i = j.
Proof.
  intros A i j r r' w w' x y HR Hi Hj D D' T T' CX CY E.
  destruct (Nat.eq_dec i j) as [|N]; auto. exfalso.
  assert (C : forall t, selects P A r t -> selects P A r' t -> False).
  { intros t S S'. apply (R_ll1 A HR). exists i, j, r, r', t. auto. }
  destruct w as [|a w], w' as [|b w']; simpl in E.
  - destruct x as [|b x].
    + apply (R_end A HR). exists i, j, r, r'. auto.
    + simpl in CX. apply (C b); right; auto.
  - subst x. simpl in CX. apply (C b).
    + right; auto.
    + left. inversion T'; subst. split; auto. exists w'. auto.
  - subst y. simpl in CY. apply (C a).
    + left. inversion T; subst. split; auto. exists w. auto.
    + right; auto.
  - injection E as <- E. inversion T; inversion T'; subst. apply (C a); left; split; auto; [exists w|exists w']; auto.
Qed.

Lemma context_child : forall A pre B r ts x, In (A, pre ++ B :: r) l -> Forall2 (parses l) r ts -> context A x ->
  context B (flat_map yield ts ++ x).
Proof.
  intros A pre B r ts x HP HF CX. destruct (parses_list_derives r ts HF) as [D T].
  destruct (flat_map yield ts) as [|b w] eqn:E.
  - simpl. destruct x as [|b x]; simpl; auto. destruct CX as [TB [C [u [v HD]]]]. split; auto.
    exists C, (u ++ pre), v. eapply derives_trans; [exact HD|].
    eapply derives_step; [exact HP|]. rewrite <- !app_assoc. simpl. rewrite (app_assoc u pre), (app_assoc u pre (B :: b :: v)).
    change (B :: r ++ b :: v) with ([B] ++ r ++ b :: v). change (B :: b :: v) with ([B] ++ [] ++ b :: v).
    rewrite !(app_assoc _ [B]). apply derives_ctx. auto.
  - simpl. inversion T; subst. split; auto. exists A, pre, w.
    apply (derives_trans _ _ (pre ++ B :: r)).
    + apply derives_rule. auto.
    + apply derives_app; [constructor|]. apply derives_cons_same. auto.
Qed.

Lemma ll_tree : forall t A t' x y, R A -> parses l A t -> parses l A t' -> context A x -> context A y ->
  yield t ++ x = yield t' ++ y -> t = t' /\ x = y.
Proof.
  induction t as [s|i ts IH] using tree_ind2; intros A t' x y HR H H' CX CY E.
  - apply parses_leaf_inv in H. destruct H as [-> N]. destruct t' as [s'|j us].
    + apply parses_leaf_inv in H'. destruct H' as [-> _]. simpl in E. injection E as E. auto.
    + apply parses_node_inv in H'. destruct H' as [r [Hj _]]. exfalso. apply (N r). eapply nth_error_In; eauto.
  - pose proof (parses_node_inv _ _ _ _ H) as [r [Hi HF]]. destruct t' as [s'|j us].
    { apply parses_leaf_inv in H'. destruct H' as [-> N]. exfalso. apply (N r). eapply nth_error_In; eauto. }
    pose proof (parses_node_inv _ _ _ _ H') as [r' [Hj HF']].
    destruct (parses_list_derives r ts HF) as [D T]. destruct (parses_list_derives r' us HF') as [D' T'].
    simpl in E. assert (EQ : i = j) by (exact (same_rule A i j r r' _ _ x y HR Hi Hj D D' T T' CX CY E)). subst j.
    assert (ER : r' = r) by congruence. subst r'.
    assert (HIn : In (A, r) l) by (eapply nth_error_In; eauto).
    assert (G : ts = us /\ x = y); [|destruct G as [-> ->]; auto].
    clear D T D' T' H H' Hi Hj.
    assert (K : exists pre, pre ++ r = r) by (exists []; auto).
    assert (Q : forall r0 ts us, Forall (fun t => forall A t' x y, R A -> parses l A t -> parses l A t' -> context A x ->
        context A y -> yield t ++ x = yield t' ++ y -> t = t' /\ x = y) ts ->
      (exists pre, In (A, pre ++ r0) l) -> Forall2 (parses l) r0 ts -> Forall2 (parses l) r0 us ->
      flat_map yield ts ++ x = flat_map yield us ++ y -> ts = us /\ x = y).
    { clear IH HF HF' E K HIn r i ts us. induction r0 as [|B r IHr]; intros ts us IH [pre HIn] HF HF' E.
      - inversion HF; inversion HF'; subst. auto.
      - inversion HF as [|? t ? ts0 P1 P2]; subst. inversion HF' as [|? u ? us0 Q1 Q2]; subst.
        inversion IH as [|? ? I1 I2]; subst. simpl in E. rewrite <- !app_assoc in E.
        destruct (I1 B u (flat_map yield ts0 ++ x) (flat_map yield us0 ++ y)) as [-> E2]; auto.
        + apply (R_rule A (pre ++ B :: r)); auto. apply in_app_iff. simpl. auto.
        + eapply context_child; eauto.
        + eapply context_child; eauto.
        + destruct (IHr ts0 us0 I2) as [-> EX]; auto. exists (pre ++ [B]). rewrite <- app_assoc. auto. }
    apply (Q r); auto. exists []. auto.
Qed.

Lemma ll_unambiguous : forall A, R A -> unambiguous l A.
Proof.
  intros A HR t t' H H' E. apply (ll_tree t A t' [] []); simpl; auto. rewrite E. auto.
Qed.
End LLTree.
