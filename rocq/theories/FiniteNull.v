(** Finitely many parse trees of every string, with empty rules allowed: exactly if no symbol derives itself. *)

From Coq Require Import List Arith Lia Relations.
From Verif Require Import Spec SpecClassify SpecTree GrammarFacts TreeProof TreeLang FiniteProof.
Import ListNotations.

Section Null.
Context (l : list (nat * list nat)).
Let N := length l.

(** A child of a node either has a shorter string or the node's symbol derives the child's alone. *)
Lemma child_cases : forall r ts u, Forall2 (parses l) r ts -> In u ts ->
  exists B, parses l B u /\ length (yield u) <= length (flat_map yield ts) /\
    (length (yield u) < length (flat_map yield ts) \/ derives (of_list l) r [B]).
Proof.
  induction 1 as [|B t r ts H HF IH]; intros Hu; [destruct Hu|].
  assert (NUL : forall C t0, parses l C t0 -> yield t0 = [] -> derives (of_list l) [C] []).
  { intros C t0 HT E. destruct (parses_derives l C t0 HT) as [D _]. rewrite E in D. exact D. }
  cbn [flat_map]. rewrite app_length. destruct Hu as [->|Hu].
  - exists B. split; auto. split; [lia|]. destruct (flat_map yield ts) as [|c w] eqn:E; [right|left; simpl; lia].
    apply (derives_app (of_list l) [B] r [B] []); [constructor|].
    clear -HF E NUL. induction HF as [|C t r ts H HF IH]; [constructor|]. simpl in E. apply app_eq_nil in E. destruct E as [E1 E2].
    apply (derives_app (of_list l) [C] r [] []); auto. eapply NUL; eauto.
  - destruct (IH Hu) as [C [HC [L D]]]. exists C. split; auto. split; [lia|].
    destruct (yield t) as [|c w] eqn:E; [|left; simpl; lia]. destruct D as [D|D]; [left; simpl; lia|right].
    apply (derives_app (of_list l) [B] r [] [C]); auto. eapply NUL; eauto.
Qed.

Hypothesis no_loop : forall A, productive (of_list l) A -> ~ derives1 (of_list l) [A] [A].

Lemma low_null : forall t A visited, parses l A t -> NoDup visited -> incl visited (map fst l) ->
  (forall v, In v visited -> derives1 (of_list l) [v] [A]) ->
  height t <= (N - length visited) + length (yield t) * S N.
Proof.
  induction t as [s|i ts IH] using tree_ind2; intros A visited H ND HI HU; [simpl; lia|].
  assert (PA : productive (of_list l) A) by (exists (yield (Node i ts)); apply parses_language; eauto).
  apply parses_node_inv in H. destruct H as [r [Hi HF]].
  assert (HIn : In (A, r) l) by (eapply nth_error_In; eauto).
  assert (NA : ~ In A visited) by (intros X; exact (no_loop A PA (HU A X))).
  assert (HLen : S (length visited) <= N).
  { unfold N. rewrite <- (map_length fst l). change (S (length visited)) with (length (A :: visited)).
    apply NoDup_incl_length; [constructor; auto|]. intros x [<-|Hx]; auto. apply (in_map fst) in HIn. exact HIn. }
  cbn [height yield].
  assert (X : maximum (map height ts) <= N - S (length visited) + length (flat_map yield ts) * S N); [|lia].
  apply maximum_le. intros x Hx. apply in_map_iff in Hx. destruct Hx as [u [<- Hu]].
  destruct (child_cases r ts u HF Hu) as [B [HB [LE D]]]. rewrite Forall_forall in IH.
  destruct D as [D|D].
  - specialize (IH u Hu B [] HB (NoDup_nil _)). cbn [length] in IH.
    assert (Y : height u <= N - 0 + length (yield u) * S N) by (apply IH; intros ? []). nia.
  - specialize (IH u Hu B (A :: visited) HB). cbn [length] in IH.
    assert (Y : height u <= N - S (length visited) + length (yield u) * S N); [|nia].
    assert (K : derives1 (of_list l) [A] [B]) by (apply derives1_single; exists r; split; auto).
    apply IH.
    + constructor; auto.
    + intros y [<-|Hy]; auto. apply (in_map fst) in HIn. exact HIn.
    + intros v [E|Hv]; [rewrite <- E; exact K|]. eapply derives1_trans_l; [exact (HU v Hv)|]. apply derives1_derives. exact K.
Qed.

Lemma finite_null : forall A w, finitely_parsed l A w.
Proof.
  intros A w. exists (low_trees l (N + length w * S N) A). intros t H <-. apply in_low_trees; auto.
  pose proof (low_null t A [] H (NoDup_nil _)) as X. simpl length in X at 1. rewrite Nat.sub_0_r in X. apply X; intros ? [].
Qed.
End Null.

Section Loop.
Context (l : list (nat * list nat)).

Lemma forest_back : forall u v, derives (of_list l) u v -> forall ts, Forall2 (parses l) v ts ->
  exists us, Forall2 (parses l) u us /\ flat_map yield us = flat_map yield ts /\ maximum (map height ts) <= maximum (map height us).
Proof.
  induction 1 as [u|u A v r w HP HD IH]; intros ts HF; [exists ts; auto|].
  destruct (IH ts HF) as [us [F [Y M]]]. apply Forall2_app_inv_l in F. destruct F as [u1 [x [F1 [F2 ->]]]].
  apply Forall2_app_inv_l in F2. destruct F2 as [u2 [u3 [F2 [F3 ->]]]].
  destruct (In_nth_error _ _ HP) as [i Hi]. exists (u1 ++ Node i u2 :: u3). split; [|split].
  - apply Forall2_app; auto. constructor; auto. econstructor; eauto.
  - rewrite <- Y, !flat_map_app. cbn [flat_map yield]. reflexivity.
  - eapply Nat.le_trans; [exact M|]. apply maximum_le. intros x Hx.
    apply in_map_iff in Hx. destruct Hx as [t [<- Ht]]. apply in_app_or in Ht.
    assert (G : forall y, In y (u1 ++ Node i u2 :: u3) -> height y <= maximum (map height (u1 ++ Node i u2 :: u3))).
    { intros y Hy. apply (proj1 (maximum_le _ _) (Nat.le_refl _)). apply in_map. exact Hy. }
    destruct Ht as [Ht|Ht]; [apply G, in_or_app; auto|]. apply in_app_or in Ht. destruct Ht as [Ht|Ht]; [|apply G, in_or_app; right; right; auto].
    eapply Nat.le_trans; [|apply (G (Node i u2)), in_or_app; right; left; reflexivity].
    cbn [height]. apply le_S. apply (proj1 (maximum_le _ _) (Nat.le_refl _)). apply in_map. exact Ht.
Qed.

Lemma infinite_null : forall A w, derives1 (of_list l) [A] [A] -> language (of_list l) A w -> infinitely_parsed l A w.
Proof.
  intros A w HL HW. apply tall_infinite. apply parses_language in HW. destruct HW as [t0 [H0 Y0]].
  induction n as [|n [t [H1 [H2 H3]]]]; [exists t0; split; auto; split; auto; lia|].
  apply derives1_single in HL. destruct HL as [r [HP HD]].
  destruct (forest_back r [A] HD [t]) as [us [F [Y M]]]; [constructor; auto|]. destruct (In_nth_error _ _ HP) as [i Hi].
  exists (Node i us). split; [econstructor; eauto|]. cbn [yield height]. rewrite Y. simpl in *. rewrite app_nil_r. split; auto. lia.
Qed.
End Loop.

Theorem finite_iff : forall l, (forall A w, finitely_parsed l A w) <-> (forall A, productive (of_list l) A -> ~ derives1 (of_list l) [A] [A]).
Proof.
  intros l. split.
  - intros HF A [w HW] HL. destruct (HF A w) as [L HX]. destruct (infinite_null l A w HL HW L) as [t [H1 [H2 H3]]]. exact (H3 (HX t H1 H2)).
  - intros H A w. apply finite_null. exact H.
Qed.
