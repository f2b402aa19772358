(** Parse trees and languages. *)

From Coq Require Import List Arith Lia.
From Verif Require Import Base ListFacts Spec GrammarFacts SpecTree TreeProof.
Import ListNotations.

Lemma parses_derives : forall l A t, parses l A t -> derives (of_list l) [A] (yield t) /\ Forall (terminal (of_list l)) (yield t).
Proof.
  intros l. apply (parses_ind2 l (fun A t => derives (of_list l) [A] (yield t) /\ Forall (terminal (of_list l)) (yield t))).
  - intros s H. split; [constructor|]. repeat constructor. intros r Hr. apply (H r). exact Hr.
  - intros A r i ts E _ HF. cbn [yield].
    assert (HX : derives (of_list l) r (flat_map yield ts) /\ Forall (terminal (of_list l)) (flat_map yield ts)).
    { clear E. induction HF as [|x t r ts [X1 X2] HF [I1 I2]]; cbn [flat_map]; [split; constructor|]. split.
      - apply derives_cons; auto.
      - apply Forall_app. auto. }
    destruct HX. split; auto. eapply derives_rule_then; [|eassumption]. apply nth_error_In in E. exact E.
Qed.

Lemma derives_parses : forall l u w, derives (of_list l) u w -> Forall (terminal (of_list l)) w ->
  exists ts, Forall2 (parses l) u ts /\ flat_map yield ts = w.
Proof.
  intros l u w HD. induction HD as [u|u A v r w HP HD IH]; intros HT.
  - exists (map Leaf u). split.
    + induction HT as [|x u Hx HT IH]; cbn [map]; constructor; auto. constructor. intros r Hr. exact (Hx r Hr).
    + clear. induction u; cbn; congruence.
  - destruct (IH HT) as [ts [H1 H2]]. apply Forall2_app_inv_l in H1. destruct H1 as [t1 [t23 [F1 [F23 ->]]]].
    apply Forall2_app_inv_l in F23. destruct F23 as [t2 [t3 [F2 [F3 ->]]]].
    apply In_nth_error in HP. destruct HP as [i Ei]. exists (t1 ++ Node i t2 :: t3). split.
    + apply Forall2_app; auto. constructor; auto. econstructor; eauto.
    + rewrite !flat_map_app in *. cbn [flat_map yield]. exact H2.
Qed.

Lemma parses_language : forall l A w, language (of_list l) A w <-> exists t, parses l A t /\ yield t = w.
Proof.
  intros l A w. split.
  - intros [HD HT]. destruct (derives_parses l [A] w HD HT) as [ts [H1 H2]]. inversion H1 as [|? t ? ts' Ht Hn]; subst. inversion Hn; subst.
    exists t. split; auto. cbn [flat_map]. rewrite app_nil_r. reflexivity.
  - intros [t [H <-]]. apply parses_derives in H. exact H.
Qed.
