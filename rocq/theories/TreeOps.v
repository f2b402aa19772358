(** Parse trees under reversing, sorting, renaming, deduplicating and dropping rules. *)

From Coq Require Import List Arith Lia Permutation.
From Verif Require Import Base ListFacts Spec SpecRemap SpecTree GrammarFacts SymbolModel HistoryModel CfgModel View TreeProof TreeLang TreeMap TreeLimit.
Import ListNotations.
Local Notation length := List.length.

Lemma reverse_same : forall l, same_trees (fun _ => True) (@rev nat) l (map (fun p => (fst p, rev (snd p))) l).
Proof.
  intros l.
  assert (H1 : forall i A r, nth_error l i = Some (A, r) -> nth_error (map (fun p : nat * list nat => (fst p, rev (snd p))) l) i = Some (A, arr true (map (fun x => x) r))).
  { intros i A r E. rewrite (map_nth_error _ _ _ E). cbn [arr fst snd]. rewrite map_id. reflexivity. }
  assert (H2 : forall j B r', nth_error (map (fun p : nat * list nat => (fst p, rev (snd p))) l) j = Some (B, r') ->
    exists i A r, nth_error l i = Some (A, r) /\ i = j /\ B = A /\ r' = arr true (map (fun x => x) r)).
  { intros j B r' E. rewrite nth_error_map in E. destruct (nth_error l j) as [[A r]|] eqn:E1; [|discriminate]. injection E as <- <-.
    exists j, A, r. cbn [arr fst snd]. rewrite map_id. auto. }
  exists (map_tree (fun i => i) (fun s => s) true). split; [|split].
  - intros A t _ HP. destruct (map_ok l (map (fun p => (fst p, rev (snd p))) l) (fun i => i) (fun s => s) true (fun _ => True)) with (A := A) (t := t) as [X1 X2]; auto.
    { intros ? ? _. split; auto. apply Forall_forall; auto. }
    split; auto. rewrite X2. cbn [arr]. rewrite map_id. reflexivity.
  - intros A t u _ HP HU E. eapply (map_inj l (fun i => i) (fun s => s) true (fun _ => True)) with (A := A); eauto.
    intros ? ? _. split; auto. apply Forall_forall; auto.
  - intros A t' _ HP. eapply (map_surj l (map (fun p => (fst p, rev (snd p))) l) (fun i => i) (fun s => s) true (fun _ => True)) with (B := A); eauto.
    intros ? ? _. split; auto. apply Forall_forall; auto.
Qed.

Lemma rename_same : forall l h (D : nat -> Prop), (forall A r, In (A, r) l -> D A /\ Forall D r) ->
  (forall x y, D x -> D y -> h x = h y -> x = y) ->
  renamed_trees D h l (map (fun p => (h (fst p), map h (snd p))) l).
Proof.
  intros l h D HD HI.
  assert (H1 : forall i A r, nth_error l i = Some (A, r) -> nth_error (map (fun p : nat * list nat => (h (fst p), map h (snd p))) l) i = Some (h A, arr false (map h r))).
  { intros i A r E. rewrite (map_nth_error _ _ _ E). reflexivity. }
  assert (H2 : forall j B r', nth_error (map (fun p : nat * list nat => (h (fst p), map h (snd p))) l) j = Some (B, r') ->
    exists i A r, nth_error l i = Some (A, r) /\ i = j /\ B = h A /\ r' = arr false (map h r)).
  { intros j B r' E. rewrite nth_error_map in E. destruct (nth_error l j) as [[A r]|] eqn:E1; [|discriminate]. injection E as <- <-.
    exists j, A, r. auto. }
  exists (map_tree (fun i => i) h false). split; [|split].
  - intros A t HA HP. eapply (map_ok l _ (fun i => i) h false D); eauto.
  - intros A t u HA HP HU E. eapply (map_inj l (fun i => i) h false D) with (A := A); eauto.
  - intros A t' HA HP. eapply (map_surj l _ (fun i => i) h false D) with (B := h A); eauto.
Qed.

Lemma renamed_permuted : forall S h l l1 l2, renamed_trees S h l l1 -> Permutation l1 l2 -> renamed_trees S h l l2.
Proof.
  intros S h l l1 l2 [f [F1 [F2 F3]]] HP. destruct (permuted_same _ _ HP) as [k [K1 [K2 K3]]]. exists (fun t => k (f t)). split; [|split].
  - intros A t HA Ht. destruct (F1 A t HA Ht) as [X Y]. destruct (K1 (h A) (f t) I X) as [X' Y']. split; auto. congruence.
  - intros A t u HA Ht Hu E. apply (F2 A); auto. apply (K2 (h A)); auto; [apply (F1 A t)|apply (F1 A u)]; auto.
  - intros A t' HA Ht. destruct (K3 _ _ I Ht) as [t1 [T1 <-]]. destruct (F3 A t1 HA T1) as [t [T2 <-]]. eauto.
Qed.

Lemma renamed_unambiguous : forall (S D : nat -> Prop) h l l' A, renamed_trees S h l l' -> S A ->
  (forall x y, D x -> D y -> h x = h y -> x = y) -> (forall t, parses l A t -> Forall D (yield t)) ->
  (unambiguous l A <-> unambiguous l' (h A)).
Proof.
  intros S D h l l' A [f [F1 [F2 F3]]] HA HI HY. split; intros HU t t' H H' E.
  - destruct (F3 A t HA H) as [u [U1 U2]]. destruct (F3 A t' HA H') as [u' [U3 U4]]. subst. f_equal. apply HU; auto.
    rewrite (proj2 (F1 A u HA U1)), (proj2 (F1 A u' HA U3)) in E. pose proof (HY u U1) as HD. pose proof (HY u' U3) as HD'. revert HD HD' E.
    generalize (yield u) (yield u'). induction l0 as [|x l0 IH]; intros [|y l1] HD HD' E; try discriminate; auto.
    inversion HD; inversion HD'; subst. cbn [map] in E. injection E as E1 E2. f_equal; auto.
  - apply (F2 A); auto. destruct (F1 A t HA H). destruct (F1 A t' HA H'). apply HU; auto. congruence.
Qed.

(** Part of the rules. *)
Lemma filter_index : forall (X : Type) (f : X -> bool) l, exists q : nat -> nat,
  (forall i j, q i = q j -> i = j) /\
  (forall i x, nth_error (filter f l) i = Some x -> nth_error l (q i) = Some x) /\
  (forall j x, nth_error l j = Some x -> f x = true -> exists i, q i = j /\ nth_error (filter f l) i = Some x).
Proof.
  intros X f l. induction l as [|a l [q [Q1 [Q2 Q3]]]].
  - exists (fun i => i). split; auto. split; [intros i x E; destruct i; discriminate|intros j x E; destruct j; discriminate].
  - cbn [filter]. destruct (f a) eqn:Ea.
    + exists (fun i => match i with 0 => 0 | S i => S (q i) end). split; [|split].
      * intros [|i] [|j] E; try discriminate; auto.
      * intros [|i] x E; cbn [nth_error] in *; auto.
      * intros [|j] x E Hx; cbn [nth_error] in E; [exists 0; auto|]. destruct (Q3 j x E Hx) as [i [<- E']]. exists (S i). auto.
    + exists (fun i => S (q i)). split; [|split].
      * intros i j E. injection E as E. auto.
      * intros i x E. cbn [nth_error]. auto.
      * intros [|j] x E Hx; cbn [nth_error] in E; [congruence|]. destruct (Q3 j x E Hx) as [i [<- E']]. exists i. auto.
Qed.

Lemma drops_index : forall l l', drops_repeats l l' -> exists q : nat -> nat, (forall i j, q i = q j -> i = j) /\
  (forall i x, nth_error l' i = Some x -> nth_error l (q i) = Some x).
Proof.
  intros l l' H. induction H as [|x run l l' HR HN H [q [Q1 Q2]]].
  - exists (fun i => i). split; auto.
  - exists (fun i => match i with 0 => 0 | S i => S (length run + q i) end). split.
    + intros [|i] [|j] E; try discriminate; auto. f_equal. apply Q1. lia.
    + intros [|i] y E; cbn [nth_error] in *; auto. rewrite nth_error_app2 by lia.
      replace (length run + q i - length run) with (q i) by lia. auto.
Qed.

Section Part.
  Context (L1 L2 : list (nat * list nat)) (q : nat -> nat) (T : nat -> Prop).
  Hypothesis Q1 : forall i j, q i = q j -> i = j.
  Hypothesis Q2 : forall i p, nth_error L1 i = Some p -> nth_error L2 (q i) = Some p.
  Hypothesis HT : forall s, T s -> (forall r, ~ In (s, r) L1) -> forall r, ~ In (s, r) L2.

  Fixpoint part (t : tree) : tree := match t with Leaf s => Leaf s | Node i ts => Node (q i) (map part ts) end.

  Lemma part_yield : forall t, yield (part t) = yield t.
  Proof.
    apply tree_ind2; [reflexivity|]. intros i ts H. cbn [part yield]. rewrite flat_map_map. induction H; cbn [flat_map]; congruence.
  Qed.

  Lemma part_ok : forall A t, parses L1 A t -> Forall T (yield t) -> parses L2 A (part t).
  Proof.
    apply (parses_ind2 L1 (fun A t => Forall T (yield t) -> parses L2 A (part t))).
    - intros s H HY. cbn [yield] in HY. inversion HY; subst. constructor. auto.
    - intros A r i ts E _ HF HY. cbn [part]. econstructor; [apply Q2; exact E|]. clear E. cbn [yield] in HY.
      induction HF as [|x t r ts Hx HF IH]; cbn [map]; [constructor|]. cbn [flat_map] in HY. apply Forall_app in HY. destruct HY.
      constructor; auto.
  Qed.

  Lemma part_inj : forall t u, part t = part u -> t = u.
  Proof.
    apply (tree_ind2 (fun t => forall u, part t = part u -> t = u)).
    - intros s [s'|] E; cbn [part] in E; congruence.
    - intros i ts H [s|j us] E; cbn [part] in E; [discriminate|]. injection E as E1 E2. apply Q1 in E1. subst j. f_equal.
      revert us E2. induction H as [|t ts Ht H IH]; intros [|u us] E; try discriminate; auto. cbn [map] in E. injection E as E1 E2.
      f_equal; auto.
  Qed.

  Lemma part_embeds : embeds (fun _ => True) T L1 L2.
  Proof.
    exists part. split.
    - intros A t _ HP HY. split; [apply part_ok; auto|apply part_yield].
    - intros A t u _ _ _ _ _ E. apply part_inj. exact E.
  Qed.

  Context (R : nat -> Prop).
  Hypothesis HR : forall j A r ts, nth_error L2 j = Some (A, r) -> R A -> Forall2 (parses L2) r ts ->
    Forall R r /\ exists i, q i = j /\ nth_error L1 i = Some (A, r).

  Lemma part_onto : forall A t, parses L2 A t -> R A -> exists t', parses L1 A t' /\ part t' = t.
  Proof.
    apply (parses_ind2 L2 (fun A t => R A -> exists t', parses L1 A t' /\ part t' = t)).
    - intros s H _. exists (Leaf s). split; auto. constructor. intros r Hr. apply In_nth_error in Hr. destruct Hr as [i E]. apply Q2 in E.
      apply nth_error_In in E. eapply H; eauto.
    - intros A r j ts E HP HF HA. destruct (HR j A r ts E HA HP) as [HRr [i [<- Ei]]].
      assert (HX : exists ts', Forall2 (parses L1) r ts' /\ map part ts' = ts).
      { clear E Ei HP. induction HF as [|x t r ts Hx HF IH]; [exists []; auto|]. inversion HRr; subst.
        destruct Hx as [t' [X1 X2]]; auto. destruct IH as [ts' [X3 X4]]; auto. exists (t' :: ts'). split; [constructor; auto|].
        cbn [map]. congruence. }
      destruct HX as [ts' [X1 X2]]. exists (Node i ts'). split; [econstructor; eauto|]. cbn [part]. congruence.
  Qed.
End Part.

Lemma embeds_unambiguous : forall (S T : nat -> Prop) l l' A, embeds S T l l' -> S A -> (forall t, parses l A t -> Forall T (yield t)) ->
  unambiguous l' A -> unambiguous l A.
Proof.
  intros S T l l' A [f [F1 F2]] HA HT HU t t' H H' E. apply (F2 A); auto. destruct (F1 A t HA H (HT t H)). destruct (F1 A t' HA H' (HT t' H')).
  apply HU; auto. congruence.
Qed.
