(** Renaming symbols, renumbering rules and reversing right-hand sides keep parse trees. *)

From Coq Require Import List Arith Lia Permutation FinFun.
From Verif Require Import Base ListFacts Spec SpecTree TreeProof.
Import ListNotations.
Local Notation length := List.length.

Definition arr {A : Type} (b : bool) (l : list A) : list A := if b then rev l else l.

Lemma arr_arr : forall (A : Type) b (l : list A), arr b (arr b l) = l.
Proof. intros A [] l; cbn; auto using rev_involutive. Qed.
Lemma arr_map : forall (A B : Type) b (f : A -> B) l, arr b (map f l) = map f (arr b l).
Proof. intros A B [] f l; cbn; auto using map_rev. Qed.
Lemma arr_inj : forall (A : Type) b (l l' : list A), arr b l = arr b l' -> l = l'.
Proof. intros A b l l' E. rewrite <- (arr_arr A b l), E. apply arr_arr. Qed.
Lemma F2_rev : forall (A B : Type) (R : A -> B -> Prop) l l', Forall2 R l l' -> Forall2 R (rev l) (rev l').
Proof. induction 1; cbn; auto. apply Forall2_app; auto. Qed.
Lemma F2_arr : forall (A B : Type) (R : A -> B -> Prop) b l l', Forall2 R l l' -> Forall2 R (arr b l) (arr b l').
Proof. intros A B R [] l l' H; cbn; auto using F2_rev. Qed.
Lemma arr_flat : forall (A B : Type) b (f : A -> list B) l, flat_map (fun x => arr b (f x)) (arr b l) = arr b (flat_map f l).
Proof.
  intros A B [] f l; cbn [arr]; auto. induction l as [|x l IH]; auto. cbn [rev flat_map]. rewrite flat_map_app, IH, rev_app_distr.
  cbn. rewrite app_nil_r. reflexivity.
Qed.
Lemma in_arr : forall (A : Type) b (l : list A) x, In x (arr b l) <-> In x l.
Proof. intros A [] l x; cbn [arr]; [symmetry; apply in_rev|tauto]. Qed.

Section Map.
  Context (L1 L2 : list (nat * list nat)) (q rho : nat -> nat) (b : bool) (D : nat -> Prop).
  Hypothesis HD : forall A r, In (A, r) L1 -> D A /\ Forall D r.
  Hypothesis Hrho : forall x y, D x -> D y -> rho x = rho y -> x = y.
  Hypothesis H1 : forall i A r, nth_error L1 i = Some (A, r) -> nth_error L2 (q i) = Some (rho A, arr b (map rho r)).
  Hypothesis H2 : forall j B r', nth_error L2 j = Some (B, r') ->
    exists i A r, nth_error L1 i = Some (A, r) /\ q i = j /\ B = rho A /\ r' = arr b (map rho r).
  Hypothesis Hq : forall i j, i < length L1 -> j < length L1 -> q i = q j -> i = j.

  Fixpoint map_tree (t : tree) : tree :=
    match t with
    | Leaf s => Leaf (rho s)
    | Node i ts => Node (q i) (arr b (map map_tree ts))
    end.

  Lemma map_leaf : forall s, D s -> ((forall r, ~ In (s, r) L1) <-> (forall r, ~ In (rho s, r) L2)).
  Proof.
    intros s Hs. split; intros H r Hi; apply In_nth_error in Hi; destruct Hi as [i E].
    - apply H2 in E. destruct E as [i' [A [r1 [E1 [_ [E2 _]]]]]]. apply nth_error_In in E1.
      apply Hrho in E2; [|auto|apply (HD _ _ E1)]. subst A. eapply H; eauto.
    - apply H1 in E. apply nth_error_In in E. eapply H; eauto.
  Qed.

  Lemma map_ok : forall A t, parses L1 A t -> D A -> parses L2 (rho A) (map_tree t) /\ yield (map_tree t) = arr b (map rho (yield t)).
  Proof.
    apply (parses_ind2 L1 (fun A t => D A -> parses L2 (rho A) (map_tree t) /\ yield (map_tree t) = arr b (map rho (yield t)))).
    - intros s H Hs. split; [constructor; apply map_leaf; auto|]. destruct b; reflexivity.
    - intros A r i ts E _ HF _.
      assert (HR : Forall D r) by (apply nth_error_In in E; apply (HD _ _ E)).
      assert (HX : Forall2 (parses L2) (map rho r) (map map_tree ts) /\ Forall (fun t => yield (map_tree t) = arr b (map rho (yield t))) ts).
      { clear E. induction HF as [|x t r ts Hx HF IH]; [split; constructor|]. inversion HR; subst. destruct (Hx H3). destruct (IH H4).
        split; constructor; auto. }
      destruct HX as [X1 X2]. cbn [map_tree]. split.
      + econstructor; [apply H1; exact E|]. apply F2_arr. exact X1.
      + cbn [yield]. rewrite arr_map, flat_map_map.
        assert (EX : forall l, Forall (fun t => yield (map_tree t) = arr b (map rho (yield t))) l ->
          flat_map (fun t => yield (map_tree t)) l = flat_map (fun t => arr b (map rho (yield t))) l).
        { induction 1; cbn [flat_map]; congruence. }
        rewrite EX by (destruct b; cbn [arr]; [apply Forall_rev|]; exact X2).
        rewrite (arr_flat _ _ b (fun t => map rho (yield t))). f_equal. clear. induction ts; cbn [flat_map map]; auto. rewrite map_app. congruence.
  Qed.

  Lemma map_inj : forall A t, parses L1 A t -> D A -> forall t', parses L1 A t' -> map_tree t = map_tree t' -> t = t'.
  Proof.
    apply (parses_ind2 L1 (fun A t => D A -> forall t', parses L1 A t' -> map_tree t = map_tree t' -> t = t')).
    - intros s H Hs [s'|i ts] HP E; [|discriminate]. apply parses_leaf_inv in HP. destruct HP as [-> _]. reflexivity.
    - intros A r i ts E _ HF HA [s'|j ts'] HP EQ; [discriminate|]. cbn [map_tree] in EQ. injection EQ as E1 E2.
      apply parses_node_inv in HP. destruct HP as [r' [E' HF']].
      assert (i = j). { apply Hq; auto; apply nth_error_Some; congruence. }
      subst j. rewrite E in E'. injection E' as <-. f_equal. apply arr_inj in E2.
      assert (HR : Forall D r) by (apply nth_error_In in E; apply (HD _ _ E)). clear E E1. revert ts' HF' E2.
      induction HF as [|x t r ts Hx HF IH]; intros ts' HF' E2; inversion HF'; subst; auto. inversion HR; subst. cbn [map] in E2.
      injection E2 as E3 E4. f_equal; auto.
  Qed.

  Lemma map_surj : forall B t', parses L2 B t' -> forall A, D A -> B = rho A -> exists t, parses L1 A t /\ map_tree t = t'.
  Proof.
    apply (parses_ind2 L2 (fun B t' => forall A, D A -> B = rho A -> exists t, parses L1 A t /\ map_tree t = t')).
    - intros s H A HA ->. exists (Leaf A). split; [constructor; apply map_leaf; auto|reflexivity].
    - intros B r' j ts' E _ HF A HA ->. apply H2 in E. destruct E as [i [A' [r [E [<- [EA ->]]]]]].
      assert (HI := nth_error_In _ _ E). destruct (HD _ _ HI) as [HA' HR]. apply Hrho in EA; auto. subst A'.
      apply (F2_arr _ _ _ b) in HF. rewrite arr_arr in HF.
      assert (HX : exists ts, Forall2 (parses L1) r ts /\ map map_tree ts = arr b ts').
      { remember (arr b ts') as l. clear Heql E HI. remember (map rho r) as m. revert r HR Heqm.
        induction HF as [|x t m l Hx HF IH]; intros [|y r] HR E; try discriminate.
        - exists []. auto.
        - cbn [map] in E. injection E as E1 E2. inversion HR; subst. destruct (Hx y) as [t1 [T1 T2]]; auto.
          destruct (IH r) as [ts [T3 T4]]; auto. exists (t1 :: ts). split; [constructor; auto|]. cbn [map]. congruence. }
      destruct HX as [ts [T1 T2]]. exists (Node i ts). split; [econstructor; eauto|]. cbn [map_tree]. rewrite T2, arr_arr. reflexivity.
  Qed.
End Map.

Lemma permuted_same : forall L1 L2, Permutation L1 L2 -> same_trees (fun _ => True) (fun w => w) L1 L2.
Proof.
  intros L1 L2 HP. apply Permutation_sym, Permutation_nth_error_bis in HP. destruct HP as [f [F1 [F2 F3]]].
  assert (HL : length L1 = length L2).
  { apply Nat.le_antisymm.
    - destruct (Nat.le_gt_cases (length L1) (length L2)); auto. exfalso.
      assert (E : nth_error L1 (length L2) <> None) by (apply nth_error_Some; lia). 
      rewrite F3 in E. apply nth_error_Some in E.
      (* pigeonhole: f maps [0..length L2] into [0..length L2) *)
      assert (HN : NoDup (map f (seq 0 (S (length L2))))) by (apply Injective_map_NoDup; [exact F1|apply seq_NoDup]).
      apply (NoDup_incl_length HN (l' := seq 0 (length L2))) in F2 as HX || idtac.
      assert (HI : incl (map f (seq 0 (S (length L2)))) (seq 0 (length L2))).
      { intros y Hy. apply in_map_iff in Hy. destruct Hy as [x [<- Hx]]. apply in_seq in Hx. apply in_seq. split; [lia|].
        destruct (Nat.eq_dec x (length L2)) as [->|]; [lia|]. specialize (F2 x). lia. }
      pose proof (NoDup_incl_length HN HI) as HX. rewrite map_length, !seq_length in HX. lia.
    - destruct (Nat.le_gt_cases (length L2) (length L1)); auto. exfalso.
      assert (E : nth_error L1 (length L1) = None) by (apply nth_error_None; lia). rewrite F3 in E. apply nth_error_None in E.
      specialize (F2 (length L1)). lia. }
  assert (HS : forall j, j < length L2 -> exists i, i < length L2 /\ f i = j).
  { apply (proj1 (bInjective_bSurjective F2)). intros x y _ _ E. apply F1. exact E. }
  assert (P1 : forall i A r, nth_error L1 i = Some (A, r) -> nth_error L2 (f i) = Some (A, arr false (map (fun x => x) r))).
  { intros i A r E. cbn [arr]. rewrite map_id, <- F3. exact E. }
  assert (P2 : forall j B r', nth_error L2 j = Some (B, r') -> exists i A r, nth_error L1 i = Some (A, r) /\ f i = j /\ B = A /\ r' = arr false (map (fun x => x) r)).
  { intros j B r' E. destruct (HS j) as [i [Hi <-]]; [apply nth_error_Some; congruence|]. exists i, B, r'. cbn [arr]. rewrite map_id, F3. auto. }
  exists (map_tree f (fun x => x) false). split; [|split].
  - intros A t _ Ht. destruct (map_ok L1 L2 f (fun x => x) false (fun _ => True)) with (A := A) (t := t) as [X Y]; auto.
    + intros. split; [exact I|]. apply Forall_forall. auto.
    + split; [exact X|]. rewrite Y. cbn [arr]. apply map_id.
  - intros A t u _ Ht Hu E. eapply (map_inj L1 f (fun x => x) false (fun _ => True)); eauto.
    + intros. split; [exact I|]. apply Forall_forall. auto.
  - intros A t' _ Ht. eapply (map_surj L1 L2 f (fun x => x) false (fun _ => True)); eauto.
    intros. split; [exact I|]. apply Forall_forall. auto.
Qed.
