(** Parsing from the top down. *)

From Coq Require Import List Arith Lia Relations.
From Verif Require Import Spec SpecPredict SpecTopDown GrammarFacts.
Import ListNotations.
Local Notation length := List.length.

Section TopDown.
Context (P : productions).

Lemma steps_trans : forall a b c, td_steps P a b -> td_steps P b c -> td_steps P a c.
Proof. intros a b c H K. induction H as [x|x y z HS H IH]; [exact K|]. eapply Relation_Operators.rt1n_trans; [exact HS|exact (IH K)]. Qed.

Lemma steps_cons : forall a b c, td_step P a b -> td_steps P b c -> td_steps P a c.
Proof. intros a b c H K. exact (Relation_Operators.rt1n_trans _ _ _ _ _ H K). Qed.

Lemma steps_sound : forall c d, td_steps P c d -> d = ([], []) -> derives P (fst c) (snd c) /\ Forall (terminal P) (snd c).
Proof.
  intros c d H. induction H as [c|c c' d HS H IH]; intros E.
  - subst c. split; constructor.
  - destruct (IH E) as [D T]. destruct HS as [t s i HT|A r s t i HP HS]; cbn [fst snd] in *.
    + split; [apply derives_cons_same; exact D|constructor; auto].
    + split; [|exact T]. apply (derives_step P [] A s r); auto.
Qed.

(** Leftmost derivations. *)
Inductive lm : list nat -> list nat -> Prop :=
| lm_nil : lm [] []
| lm_word : forall t u w, terminal P t -> lm u w -> lm (t :: u) (t :: w)
| lm_rule : forall A r u w, P A r -> lm (r ++ u) w -> lm (A :: u) w.

Lemma lm_back : forall s w, lm s w -> forall u A r v, P A r -> s = u ++ r ++ v -> lm (u ++ A :: v) w.
Proof.
  intros s w H. induction H as [|t s w HT H IH|B q s w HB H IH]; intros u A r v HP E.
  - destruct u; [|discriminate]. cbn in *. eapply lm_rule; [exact HP|]. rewrite <- E. constructor.
  - destruct u as [|x u]; cbn in *.
    + eapply lm_rule; [exact HP|]. rewrite <- E. constructor; auto.
    + injection E as <- E. constructor; auto. eapply IH; eauto.
  - destruct u as [|x u]; cbn in *.
    + eapply lm_rule; [exact HP|]. rewrite <- E. eapply lm_rule; eauto.
    + injection E as <- ->. eapply lm_rule; [exact HB|]. rewrite app_assoc. eapply IH; [exact HP|]. apply app_assoc.
Qed.

Lemma lm_complete : forall u w, derives P u w -> Forall (terminal P) w -> lm u w.
Proof.
  intros u w D. induction D as [u|u A v r w HP D IH]; intros T.
  - induction T; constructor; auto.
  - eapply lm_back; eauto.
Qed.

Lemma lm_derives : forall u w, lm u w -> derives P u w /\ Forall (terminal P) w.
Proof.
  induction 1 as [|t u w HT H [D T]|A r u w HP H [D T]].
  - split; constructor.
  - split; [apply derives_cons_same; exact D|constructor; auto].
  - split; [apply (derives_step P [] A u r); auto|exact T].
Qed.

(** The form occurs at the end of some sentential form. *)
Definition within (s : list nat) : Prop := exists C x, derives P [C] (x ++ s).

Lemma within_tail : forall a s, within (a :: s) -> within s.
Proof. intros a s [C [x D]]. exists C, (x ++ [a]). rewrite <- app_assoc. exact D. Qed.

Lemma within_rule : forall A r s, within (A :: s) -> P A r -> within (r ++ s).
Proof. intros A r s [C [x D]] HP. exists C, x. eapply derives_step_r; eauto. Qed.

Lemma select_first : forall A r s t i, within (A :: s) -> P A r -> terminal P t -> derives P (r ++ s) (t :: i) -> selects P A r t.
Proof.
  intros A r s t i [C [x D]] HP HT H. apply derives_app_inv in H. destruct H as [w1 [w2 [E [D1 D2]]]]. destruct w1 as [|y w1].
  - right. split; [exact D1|]. cbn in E. subst w2. split; [exact HT|]. exists C, x, i.
    eapply derives_trans; [exact D|]. apply (derives_app P x _ x); [constructor|]. apply derives_cons_same. exact D2.
  - left. injection E as <- E. split; [exact HT|]. exists w1. exact D1.
Qed.

Definition guarded (s : list nat) : Prop := s = [] \/ exists u e, s = u ++ [e] /\ terminal P e.

Lemma lm_accepted : forall s w, lm s w -> within s -> guarded s -> td_steps P (s, w) ([], []).
Proof.
  intros s w H. induction H as [|t u w HT H IH|A r u w HP H IH]; intros HW HG.
  - constructor.
  - eapply steps_cons; [apply td_match; exact HT|]. apply IH; [eapply within_tail; eauto|].
    destruct HG as [HG|[v [e [E HE]]]]; [discriminate|]. destruct v as [|y v]; injection E as E1 E2; subst; [left; reflexivity|right; eauto].
  - destruct HG as [HG|[v [e [E HE]]]]; [discriminate|]. destruct v as [|y v]; injection E as E1 E2; subst; [exfalso; exact (HE r HP)|].
    destruct (lm_derives _ _ H) as [D T]. destruct w as [|t w].
    + exfalso. apply derives_app_inv in D. destruct D as [w1 [w2 [E [_ D]]]]. symmetry in E. apply app_eq_nil in E. destruct E as [_ ->].
      apply derives_app_inv in D. destruct D as [w1' [w2 [E [_ D]]]]. symmetry in E. apply app_eq_nil in E. destruct E as [_ ->].
      apply derives_terminal_inv in D; [discriminate|constructor; auto].
    + eapply steps_cons; [apply td_predict; [exact HP|eapply select_first; eauto; inversion T; auto]|].
      apply IH; [eapply within_rule; eauto|]. right. exists (r ++ v), e. split; [apply app_assoc|exact HE].
Qed.

(** How a symbol of the input is reached. *)
Inductive brings (t : nat) : list nat -> Prop :=
| br_here : forall u, brings t (t :: u)
| br_rule : forall A r u, P A r -> brings t (r ++ u) -> brings t (A :: u).

Lemma brings_back : forall t s, brings t s -> forall u A r v, P A r -> s = u ++ r ++ v -> brings t (u ++ A :: v).
Proof.
  intros t s H. induction H as [s|B q s HB H IH]; intros u A r v HP E.
  - destruct u as [|x u]; cbn in *.
    + eapply br_rule; [exact HP|]. rewrite <- E. constructor.
    + injection E as <- E. constructor.
  - destruct u as [|x u]; cbn in *.
    + eapply br_rule; [exact HP|]. rewrite <- E. eapply br_rule; eauto.
    + injection E as <- ->. eapply br_rule; [exact HB|]. rewrite app_assoc. eapply IH; [exact HP|]. apply app_assoc.
Qed.

Lemma brings_complete : forall u w, derives P u w -> forall t v, w = t :: v -> brings t u.
Proof.
  intros u w D. induction D as [u|u A v r w HP D IH]; intros t x E.
  - subst. constructor.
  - eapply brings_back; eauto.
Qed.

Lemma brings_derives : forall t u, brings t u -> exists v, derives P u (t :: v).
Proof.
  intros t u H. induction H as [u|A r u HP H [v IH]]; [exists u; constructor|]. exists v. apply (derives_step P [] A u r); auto.
Qed.

Lemma brings_steps : forall t u, brings t u -> terminal P t -> within u -> forall s i, exists s', td_steps P (u ++ s, t :: i) (t :: s', t :: i).
Proof.
  intros t u H HT. induction H as [u|A r u HP H IH]; intros HW s i; [exists (u ++ s); constructor|].
  destruct (IH (within_rule _ _ _ HW HP) s i) as [s' HS]. exists s'. cbn. eapply steps_cons; [|rewrite <- app_assoc in HS; exact HS].
  apply td_predict; [exact HP|]. destruct (brings_derives _ _ H) as [v D]. eapply select_first; eauto.
Qed.

Lemma vanish_steps : forall u w, lm u w -> w = [] -> forall t, terminal P t -> (exists v, within (u ++ t :: v)) ->
  forall s i, td_steps P (u ++ s, t :: i) (s, t :: i).
Proof.
  intros u w H. induction H as [|x u w HX H IH|A r u w HP H IH]; intros E t HT [v HW] s i; [constructor|discriminate|]. subst w.
  eapply steps_cons.
  - apply td_predict; [exact HP|]. eapply (select_first A r (u ++ t :: v)); [exact HW|exact HP|exact HT|].
    rewrite app_assoc. apply (derives_app P (r ++ u) (t :: v) [] (t :: v)); [apply (lm_derives _ _ H)|constructor].
  - rewrite app_assoc. apply (IH eq_refl t HT). exists v. rewrite <- app_assoc. eapply within_rule; eauto.
Qed.

(** Deterministic runs end. *)
Lemma acc_back : forall c d, td_steps P c d -> (forall b b1 b2, td_steps P c b -> td_step P b b1 -> td_step P b b2 -> b1 = b2) ->
  Acc (fun c' c => td_step P c c') d -> Acc (fun c' c => td_step P c c') c.
Proof.
  intros c d H. induction H as [c|c c' d HS H IH]; intros HD HA; [exact HA|]. constructor. intros y Hy.
  rewrite (HD c y c' (rt1n_refl _ _ _) Hy HS). apply IH; [|exact HA]. intros b b1 b2 Hb. apply HD. eapply steps_cons; [exact HS|exact Hb].
Qed.

Lemma det_ends : forall n m s i, length i < n -> length s < m ->
  (forall b b1 b2, td_steps P (s, i) b -> td_step P b b1 -> td_step P b b2 -> b1 = b2) ->
  Acc (fun c' c => td_step P c c') (s, i).
Proof.
  induction n as [|n IHn]; [lia|]. induction m as [|m IHm]; [lia|]. intros s i Hi Hs HD. constructor. intros y Hy.
  inversion Hy as [t s' i' HT|A r s' t i' HP HSel]; subst; cbn in Hi, Hs.
  - apply (IHn (S (length s'))); [lia|lia|]. intros b b1 b2 Hb. apply HD. eapply steps_cons; [exact Hy|exact Hb].
  - assert (HD2 : forall b b1 b2, td_steps P (r ++ s', t :: i') b -> td_step P b b1 -> td_step P b b2 -> b1 = b2).
    { intros b b1 b2 Hb. apply HD. eapply steps_cons; [exact Hy|exact Hb]. }
    destruct HSel as [[HT [v D]]|[D [HT [C [u [v F]]]]]].
    + pose proof (brings_complete _ _ D t v eq_refl) as HB.
      assert (HW : within r) by (exists A, []; apply derives_rule; exact HP).
      destruct (brings_steps t r HB HT HW s' i') as [s2 HS].
      apply (acc_back _ (s2, i')); [|exact HD2|].
      * eapply steps_trans; [exact HS|]. eapply steps_cons; [apply td_match; exact HT|constructor].
      * apply (IHn (S (length s2))); [lia|lia|]. intros b b1 b2 Hb. apply HD2.
        eapply steps_trans; [exact HS|]. eapply steps_cons; [apply td_match; exact HT|exact Hb].
    + assert (HS : td_steps P (r ++ s', t :: i') (s', t :: i')).
      { eapply vanish_steps; [apply lm_complete; [exact D|constructor]|reflexivity|exact HT|].
        exists v. exists C, u. eapply derives_step_r; [exact F|exact HP]. }
      apply (acc_back _ (s', t :: i')); [exact HS|exact HD2|]. apply IHm; [cbn; lia|lia|].
      intros b b1 b2 Hb. apply HD2. eapply steps_trans; eauto.
Qed.

(** Stacks are made of symbols that are reached. *)
Lemma steps_reached : forall (Q : nat -> Prop), (forall A r, Q A -> P A r -> Forall Q r) ->
  forall c d, td_steps P c d -> Forall Q (fst c) -> Forall Q (fst d).
Proof.
  intros Q HQ c d H. induction H as [c|c c' d HS H IH]; intros HF; [exact HF|]. apply IH.
  destruct HS as [t s i HT|A r s t i HP HS]; cbn [fst] in *; inversion HF; subst; auto. apply Forall_app. split; eauto.
Qed.
End TopDown.
