(** General facts about derivations.  No model here. *)

From Coq Require Import List Arith Lia.
From Verif Require Import Spec.
Import ListNotations.

Lemma derives_trans : forall P u v w, derives P u v -> derives P v w -> derives P u w.
Proof.
  intros P u v w H; induction H; intros; auto.
  eapply derives_step; eauto.
Qed.

Lemma derives_rule : forall (P : productions) A r, P A r -> derives P [A] r.
Proof.
  intros. apply (derives_step P [] A [] r r); auto. simpl. rewrite app_nil_r. constructor.
Qed.

Lemma derives_ctx : forall P x y u w, derives P u w -> derives P (x ++ u ++ y) (x ++ w ++ y).
Proof.
  intros P x y u w H; induction H.
  - constructor.
  - replace (x ++ (u ++ A :: v) ++ y) with ((x ++ u) ++ A :: (v ++ y)).
    + eapply derives_step; eauto.
      replace ((x ++ u) ++ r ++ v ++ y) with (x ++ (u ++ r ++ v) ++ y); auto.
      repeat rewrite <- app_assoc; auto.
    + repeat rewrite <- app_assoc; simpl; auto.
Qed.

Lemma derives_app : forall P u1 u2 w1 w2,
  derives P u1 w1 -> derives P u2 w2 -> derives P (u1 ++ u2) (w1 ++ w2).
Proof.
  intros. eapply derives_trans with (w1 ++ u2).
  - pose proof (derives_ctx P [] u2 _ _ H) as E; simpl in E; auto.
  - pose proof (derives_ctx P w1 [] _ _ H0) as E. repeat rewrite app_nil_r in E; auto.
Qed.

Lemma derives_cons : forall P s u w1 w2,
  derives P [s] w1 -> derives P u w2 -> derives P (s :: u) (w1 ++ w2).
Proof. intros. apply (derives_app P [s]); auto. Qed.

Lemma derives_cons_same : forall P s u w,
  derives P u w -> derives P (s :: u) (s :: w).
Proof. intros. apply (derives_app P [s] u [s] w); auto. constructor. Qed.

Lemma derives_step_r : forall P x u A v r,
  derives P x (u ++ A :: v) -> P A r -> derives P x (u ++ r ++ v).
Proof.
  intros. eapply derives_trans; eauto. eapply derives_step; eauto. constructor.
Qed.

Lemma derives_rule_then : forall (P : productions) A r w,
  P A r -> derives P r w -> derives P [A] w.
Proof. intros. eapply derives_trans; eauto using derives_rule. Qed.

Lemma app_cons_split : forall (A : Type) (u v x y : list A) a,
  u ++ v = x ++ a :: y ->
  (exists z, u = x ++ a :: z /\ y = z ++ v) \/ (exists z, x = u ++ z /\ v = z ++ a :: y).
Proof.
  induction u; simpl; intros.
  - right. exists x; auto.
  - destruct x; simpl in *.
    + inversion H; subst. left. exists u; auto.
    + inversion H; subst. destruct (IHu _ _ _ _ H2) as [[z [? ?]] | [z [? ?]]]; subst.
      * left; exists z; auto.
      * right; exists z; auto.
Qed.

Lemma derives_app_inv : forall P u v w,
  derives P (u ++ v) w ->
  exists w1 w2, w = w1 ++ w2 /\ derives P u w1 /\ derives P v w2.
Proof.
  intros P u v w H. remember (u ++ v) as x eqn:E. revert u v E.
  induction H; intros; subst.
  - exists u0, v; repeat split; constructor.
  - symmetry in E. destruct (app_cons_split _ _ _ _ _ _ E) as [[z [? ?]] | [z [? ?]]]; subst.
    + destruct (IHderives (u ++ r ++ z) v0) as [w1 [w2 [? [? ?]]]].
      { repeat rewrite <- app_assoc; auto. }
      subst. exists w1, w2; repeat split; auto. eapply derives_step; eauto.
    + destruct (IHderives u0 (z ++ r ++ v)) as [w1 [w2 [? [? ?]]]].
      { repeat rewrite <- app_assoc; auto. }
      subst. exists w1, w2; repeat split; auto. eapply derives_step; eauto.
Qed.

Lemma derives_cons_inv : forall P s u w,
  derives P (s :: u) w ->
  exists w1 w2, w = w1 ++ w2 /\ derives P [s] w1 /\ derives P u w2.
Proof. intros. apply (derives_app_inv P [s]); auto. Qed.

Lemma derives_nil_inv : forall P w, derives P [] w -> w = [].
Proof.
  intros. remember [] as x eqn:E. revert E. induction H; intros; subst; auto.
  destruct u; discriminate.
Qed.

Lemma derives_nil_l : forall P u w, derives P u w -> u = [] -> w = [].
Proof. intros; subst. eapply derives_nil_inv; eauto. Qed.

(** A single symbol derives itself or goes through one of its productions. *)
Lemma derives_single_inv : forall P A w,
  derives P [A] w -> w = [A] \/ exists r, P A r /\ derives P r w.
Proof.
  intros. inversion H; subst; auto.
  right. destruct u; simpl in *.
  - inversion H0; subst. exists r; split; auto. simpl in *. rewrite app_nil_r in H2. auto.
  - inversion H0. destruct u; discriminate.
Qed.

Lemma derives_terminal_inv : forall P u w,
  derives P u w -> Forall (terminal P) u -> w = u.
Proof.
  intros P u w H; induction H; intros; auto.
  apply Forall_app in H1. destruct H1 as [_ H1]. inversion H1; subst.
  exfalso; eapply H4; eauto.
Qed.

(** Big-step derivations. *)
Inductive yields (P : productions) : list nat -> list nat -> Prop :=
| y_nil : yields P [] []
| y_keep : forall s u w, yields P u w -> yields P (s :: u) (s :: w)
| y_rule : forall A r u w1 w2,
    P A r -> yields P r w1 -> yields P u w2 -> yields P (A :: u) (w1 ++ w2).

Lemma yields_refl : forall P u, yields P u u.
Proof. induction u; constructor; auto. Qed.

Lemma yields_app : forall P u1 w1 u2 w2,
  yields P u1 w1 -> yields P u2 w2 -> yields P (u1 ++ u2) (w1 ++ w2).
Proof.
  intros P u1 w1 u2 w2 H; induction H; intros; simpl; auto.
  - constructor; auto.
  - rewrite <- app_assoc. econstructor; eauto.
Qed.

Lemma yields_app_inv : forall P u v w,
  yields P (u ++ v) w -> exists w1 w2, w = w1 ++ w2 /\ yields P u w1 /\ yields P v w2.
Proof.
  induction u; simpl; intros.
  - exists [], w; repeat split; auto. constructor.
  - inversion H; subst.
    + destruct (IHu v w0) as [w1 [w2 [? [? ?]]]]; auto; subst.
      exists (a :: w1), w2; repeat split; auto. constructor; auto.
    + destruct (IHu v w2) as [x1 [x2 [? [? ?]]]]; auto; subst.
      exists (w1 ++ x1), x2; repeat split; auto. rewrite app_assoc; auto.
      econstructor; eauto.
Qed.

Lemma yields_derives : forall P u w, yields P u w -> derives P u w.
Proof.
  intros P u w H; induction H.
  - constructor.
  - apply derives_cons_same; auto.
  - apply derives_cons; auto. eapply derives_rule_then; eauto.
Qed.

Lemma derives_yields : forall P u w, derives P u w -> yields P u w.
Proof.
  intros P u w H; induction H.
  - apply yields_refl.
  - apply yields_app_inv in IHderives. destruct IHderives as [w1 [w' [? [? Hy]]]].
    apply yields_app_inv in Hy. destruct Hy as [w2 [w3 [? [? ?]]]]. subst.
    apply yields_app; auto. econstructor; eauto.
Qed.

Lemma derives_iff_yields : forall P u w, derives P u w <-> yields P u w.
Proof. split; [apply derives_yields | apply yields_derives]. Qed.

(** Simulation: if each production of [P] is a derivation of [Q]. *)
Lemma derives_sim : forall (P Q : productions),
  (forall A r, P A r -> derives Q [A] r) ->
  forall u w, derives P u w -> derives Q u w.
Proof.
  intros P Q HS u w H; induction H; [constructor|].
  eapply derives_trans; eauto.
  apply (derives_ctx Q u v [A] r); auto.
Qed.

Lemma derives_mono : forall (P Q : productions),
  (forall A r, P A r -> Q A r) -> forall u w, derives P u w -> derives Q u w.
Proof. intros. eapply derives_sim; eauto. intros. apply derives_rule; auto. Qed.

Lemma derives_ext : forall (P Q : productions),
  (forall A r, P A r <-> Q A r) -> forall u w, derives P u w <-> derives Q u w.
Proof. split; apply derives_mono; intros; apply H; auto. Qed.

Lemma terminal_ext : forall (P Q : productions),
  (forall A r, P A r <-> Q A r) -> forall a, terminal P a <-> terminal Q a.
Proof. unfold terminal; split; intros; intro; eapply H0; apply H; eauto. Qed.

Lemma language_ext : forall (P Q : productions),
  (forall A r, P A r <-> Q A r) -> forall s w, language P s w <-> language Q s w.
Proof.
  unfold language; intros. rewrite (derives_ext P Q H).
  split; intros [? HF]; split; auto; eapply Forall_impl; [| exact HF | | exact HF];
    intros a Ha; eapply terminal_ext; [| exact Ha | | exact Ha]; intros; rewrite H; tauto.
Qed.

(** Homomorphisms. *)
Lemma derives_hom : forall (P Q : productions) (f : nat -> list nat),
  (forall A r, P A r -> derives Q (f A) (flat_map f r)) ->
  forall u w, derives P u w -> derives Q (flat_map f u) (flat_map f w).
Proof.
  intros P Q f HS u w H; induction H; [constructor|].
  eapply derives_trans; [| exact IHderives].
  repeat rewrite flat_map_app. simpl. apply derives_ctx; auto.
Qed.

Lemma flat_map_single : forall (f : nat -> list nat) w,
  (forall s, In s w -> f s = [s]) -> flat_map f w = w.
Proof.
  induction w; simpl; intros; auto. rewrite H; auto. simpl. rewrite IHw; auto.
Qed.

(** Set-valued substitutions. *)
Inductive lift (F : nat -> list nat -> Prop) : list nat -> list nat -> Prop :=
| lift_nil : lift F [] []
| lift_cons : forall s u x y, F s x -> lift F u y -> lift F (s :: u) (x ++ y).

Lemma lift_app : forall F u1 x1 u2 x2,
  lift F u1 x1 -> lift F u2 x2 -> lift F (u1 ++ u2) (x1 ++ x2).
Proof.
  intros F u1 x1 u2 x2 H; induction H; simpl; intros; auto.
  rewrite <- app_assoc. constructor; auto.
Qed.

Lemma lift_app_inv : forall F u v x,
  lift F (u ++ v) x -> exists x1 x2, x = x1 ++ x2 /\ lift F u x1 /\ lift F v x2.
Proof.
  induction u; simpl; intros.
  - exists [], x; repeat split; auto. constructor.
  - inversion H; subst. destruct (IHu _ _ H4) as [x1 [x2 [? [? ?]]]]; subst.
    exists (x0 ++ x1), x2; repeat split; auto. rewrite app_assoc; auto. constructor; auto.
Qed.

Lemma lift_single : forall F s x, lift F [s] x <-> F s x.
Proof.
  split; intros.
  - inversion H; subst. inversion H4; subst. rewrite app_nil_r; auto.
  - rewrite <- (app_nil_r x). constructor; auto. constructor.
Qed.

Lemma lift_id : forall (F : nat -> list nat -> Prop) w,
  (forall s, In s w -> F s [s]) -> lift F w w.
Proof.
  induction w; intros; [constructor|].
  change (a :: w) with ([a] ++ w) at 2. constructor.
  - apply H; simpl; auto.
  - apply IHw; intros; apply H; simpl; auto.
Qed.

Lemma lift_id_inv : forall (F : nat -> list nat -> Prop) w v,
  (forall s x, In s w -> F s x -> x = [s]) -> lift F w v -> v = w.
Proof.
  intros F w v H L; induction L; auto.
  rewrite (H s x); simpl; auto. rewrite IHL; auto. intros; apply H; simpl; auto.
Qed.

Lemma derives_subst : forall (P Q : productions) (F : nat -> list nat -> Prop),
  (forall A r v, P A r -> lift F r v -> exists u, F A u /\ derives Q u v) ->
  forall a b, derives P a b -> forall v, lift F b v -> exists u, lift F a u /\ derives Q u v.
Proof.
  intros P Q F HS a b H; induction H; intros.
  - exists v; split; auto. constructor.
  - destruct (IHderives _ H1) as [x [HL HD]].
    apply lift_app_inv in HL. destruct HL as [x1 [x' [? [L1 HL]]]].
    apply lift_app_inv in HL. destruct HL as [x2 [x3 [? [L2 L3]]]]. subst.
    destruct (HS _ _ _ H L2) as [y [Hy Dy]].
    exists (x1 ++ y ++ x3); split.
    + apply lift_app; auto. constructor; auto.
    + eapply derives_trans; [apply derives_ctx; eauto | auto].
Qed.

(** Symbols of derived forms. *)
Lemma derives_Forall : forall (P : productions) (C : nat -> Prop),
  (forall A r, P A r -> C A -> Forall C r) ->
  forall u w, derives P u w -> Forall C u -> Forall C w.
Proof.
  intros P C HC u w H; induction H; intros; auto.
  apply IHderives. apply Forall_app in H1. destruct H1 as [H1 H2]. inversion H2; subst.
  apply Forall_app; split; auto. apply Forall_app; split; auto. eapply HC; eauto.
Qed.

(** Reversal. *)
Lemma derives_rev1 : forall P u w, derives P u w -> derives (reversed P) (rev u) (rev w).
Proof.
  intros P u w H; induction H; [constructor|].
  rewrite rev_app_distr. simpl. rewrite <- app_assoc. simpl.
  eapply derives_step with (r := rev r).
  - unfold reversed. rewrite rev_involutive; auto.
  - repeat rewrite rev_app_distr in IHderives. repeat rewrite <- app_assoc in IHderives. auto.
Qed.

Lemma derives_reversed : forall P u w, derives (reversed P) u w <-> derives P (rev u) (rev w).
Proof.
  split; intros.
  - apply derives_rev1 in H. eapply derives_mono; [| exact H].
    unfold reversed; intros. rewrite rev_involutive in H0; auto.
  - apply derives_rev1 in H. repeat rewrite rev_involutive in H. auto.
Qed.

(** derives1 *)
Lemma derives1_derives : forall P u w, derives1 P u w -> derives P u w.
Proof. intros P u w [x [A [y [r [? [? ?]]]]]]; subst. eapply derives_step; eauto. Qed.

Lemma derives_inv1 : forall P u w, derives P u w -> u = w \/ derives1 P u w.
Proof. intros. inversion H; subst; auto. right. exists u0, A, v, r; auto. Qed.

Lemma derives1_trans_l : forall P u v w, derives1 P u v -> derives P v w -> derives1 P u w.
Proof.
  intros P u v w [x [A [y [r [? [? ?]]]]]] ?; subst.
  exists x, A, y, r; repeat split; auto. eapply derives_trans; eauto.
Qed.

Lemma derives1_trans_r : forall P u v w, derives P u v -> derives1 P v w -> derives1 P u w.
Proof.
  intros P u v w H; induction H; intros; auto.
  specialize (IHderives H1). exists u, A, v, r; repeat split; auto. apply derives1_derives; auto.
Qed.

Lemma derives1_single : forall (P : productions) A w,
  derives1 P [A] w <-> exists r, P A r /\ derives P r w.
Proof.
  split.
  - intros [x [B [y [r [E [? ?]]]]]]. destruct x.
    + simpl in *. inversion E; subst. rewrite app_nil_r in H0. eauto.
    + inversion E. destruct x; discriminate.
  - intros [r [? ?]]. exists [], A, [], r; repeat split; auto. simpl. rewrite app_nil_r; auto.
Qed.

(** Representation of a set of productions [V] by a set of productions [P] with extra
    symbols [C] that stand for parts of right-hand sides. *)
Record represents (P V : productions) (C : nat -> Prop) : Prop := {
  rep_sim : forall A r, V A r -> derives P [A] r;
  rep_hom : exists f : nat -> list nat,
      (forall s, ~ C s -> f s = [s]) /\
      (forall A r, P A r -> derives V (f A) (flat_map f r));
  rep_voc : forall A r, V A r -> ~ C A /\ Forall (fun s => ~ C s) r;
  rep_nt : forall s, ~ C s -> (nonterminal P s <-> nonterminal V s);
  rep_fresh_nt : forall s, C s -> nonterminal P s
}.

Lemma represents_derives : forall P V C, represents P V C ->
  forall u w, Forall (fun s => ~ C s) u -> Forall (fun s => ~ C s) w ->
  (derives P u w <-> derives V u w).
Proof.
  intros P V C HR u w Hu Hw; split; intros.
  - destruct (rep_hom _ _ _ HR) as [f [Hf Hs]].
    pose proof (derives_hom _ _ _ Hs _ _ H) as E.
    rewrite (flat_map_single f u), (flat_map_single f w) in E; auto.
    + intros; apply Hf. rewrite Forall_forall in Hw; auto.
    + intros; apply Hf. rewrite Forall_forall in Hu; auto.
  - eapply derives_sim; [| exact H]. apply (rep_sim _ _ _ HR).
Qed.

Lemma represents_terminal : forall P V C, represents P V C ->
  forall a, terminal P a <-> (~ C a /\ terminal V a).
Proof.
  intros P V C HR a; split.
  - intros H. assert (~ C a).
    { intro HC. destruct (rep_fresh_nt _ _ _ HR _ HC) as [r Hr]. eapply H; eauto. }
    split; auto. intros r Hr. assert (nonterminal P a) as [r' Hr'].
    { apply (rep_nt _ _ _ HR); auto. exists r; auto. }
    eapply H; eauto.
  - intros [HC H] r Hr. assert (nonterminal V a) as [r' Hr'].
    { apply (rep_nt _ _ _ HR); auto. exists r; auto. }
    eapply H; eauto.
Qed.

Lemma represents_language : forall P V C, represents P V C ->
  forall s w, ~ C s -> (language P s w <-> language V s w).
Proof.
  intros P V C HR s w Hs; unfold language; split; intros [HD HF].
  - assert (Forall (fun s => ~ C s) w /\ Forall (terminal V) w) as [H1 H2].
    { split; eapply Forall_impl; try exact HF; intros a Ha;
        apply (represents_terminal _ _ _ HR) in Ha; tauto. }
    split; auto. apply (represents_derives P V C); auto.
  - assert (Forall (fun s => ~ C s) w) as H1.
    { eapply derives_Forall; [| exact HD | auto]. intros. eapply (rep_voc _ _ _ HR); eauto. }
    split.
    + apply (represents_derives P V C); auto.
    + rewrite Forall_forall in *. intros a Ha. apply (represents_terminal _ _ _ HR). auto.
Qed.

Lemma represents_refl : forall P, represents P P (fun _ => False).
Proof.
  intros; constructor; intros; try tauto.
  - apply derives_rule; auto.
  - exists (fun s => [s]); split; auto. intros. rewrite flat_map_single by auto. apply derives_rule; auto.
  - split; auto. apply Forall_forall; auto.
Qed.
