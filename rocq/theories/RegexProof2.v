(** Where the classes of a translated expression come from. *)

From Coq Require Import List Arith NArith Bool Lia.
From Verif Require Import Base ListFacts Spec SpecSeq SpecRegex GrammarFacts SymbolModel LoopModel HistoryModel
  CfgModel View CfgProof SeqModel SeqProof SeqProof2 SeqProof3 PropsSeq RegexModel LexProof RegexProof.
Import ListNotations.
Local Notation length := List.length.

Lemma bind_ok : forall (A B : Type) (r : res A) (f : A -> res B) b, bind r f = Ok b -> exists a, r = Ok a /\ f a = Ok b.
Proof. intros A B r f b H. destruct r; simpl in H; try discriminate. eauto. Qed.

Lemma table_put_from : forall t k s k' s', In (k', s') (table_put t k s) -> (k', s') = (k, s) \/ In (k', s') t.
Proof.
  induction t as [|[k0 s0] t]; intros k s k' s' H; simpl in H.
  - destruct H as [H|[]]; auto.
  - destruct (classes_compare k k0); simpl in H.
    + destruct H as [H|H]; [left; auto | right; simpl; auto].
    + destruct H as [H|H]; [left; auto | right; exact H].
    + destruct H as [H|H]; [right; simpl; auto|]. apply IHt in H. destruct H; simpl; auto.
Qed.

Section Keys.
Context (debug : bool) (K : lexer_classes -> Prop).

Definition keys_ok (tr : translator) : Prop := forall k s, In (k, s) (tr_classes tr) -> K k.

Definition tokens_ok (h : hir) : Prop :=
  forall t k, written t h -> token_classes debug t = Ok k -> K k.

Lemma class_sym_keys : forall tr k name, keys_ok tr -> K k -> keys_ok (snd (class_sym tr k name)).
Proof.
  intros tr k name H HK. unfold class_sym. destruct (table_get _ _); auto. simpl. intros k' s' HI. simpl in HI.
  apply table_put_from in HI. destruct HI as [E|HI]; [injection E as -> ->; auto | eauto].
Qed.

Lemma new_symbol_keys : forall tr x s tr', new_symbol_with tr x = Ok (s, tr') -> tr_classes tr' = tr_classes tr.
Proof.
  intros tr x s tr' H. unfold new_symbol_with in H. destruct (next_sym (tr_cfg tr) None) as [s0 g0].
  apply bind_ok in H. destruct H as [g1 [_ H]]. injection H as _ <-. reflexivity.
Qed.

Lemma symbol_for_keys : forall tr x s tr', symbol_for tr x = Ok (s, tr') -> tr_classes tr' = tr_classes tr.
Proof.
  intros tr x s tr' H. destruct x as [|[|a [|? ?]] [|? ?]]; try (eapply new_symbol_keys; exact H).
  injection H as _ <-. reflexivity.
Qed.

Lemma literal_keys : forall bytes acc tr l tr', (forall b k, In b bytes -> classes_of_byte debug b = Ok k -> K k) ->
  keys_ok tr -> fold_res (walk_byte debug) bytes (acc, tr) = Ok (l, tr') -> keys_ok tr'.
Proof.
  induction bytes as [|b bytes IH]; intros acc tr l tr' HB HK H.
  - injection H as _ <-. auto.
  - cbn [fold_res] in H. apply bind_ok in H. destruct H as [[acc1 tr1] [H1 H2]].
    unfold walk_byte in H1. apply bind_ok in H1. destruct H1 as [k [E1 H1]]. cbn [fst snd] in H1.
    destruct (class_sym tr k _) as [s tr2] eqn:EC. injection H1 as <- <-.
    eapply IH; [|idtac|exact H2]; [intros; eapply HB; simpl; eauto|].
    replace tr2 with (snd (s, tr2)) by reflexivity. rewrite <- EC. apply class_sym_keys; auto. eapply HB; simpl; eauto.
Qed.

Lemma walk_keys : forall h tr x tr', tokens_ok h -> keys_ok tr -> walk_hir debug h tr = Ok (x, tr') -> keys_ok tr'.
Proof.
  induction h using hir_ind'; intros tr x tr' HT HK HE.
  - injection HE as _ <-. auto.
  - cbn [walk_hir] in HE. apply bind_ok in HE. destruct HE as [[l tr1] [E1 E2]]. injection E2 as _ <-.
    eapply literal_keys; [|exact HK|exact E1]. intros c k Hc Ek. apply (HT (TByte c)); auto. econstructor; eauto.
  - cbn [walk_hir] in HE. destruct (class_sym tr (classes_of_class r) None) as [s tr1] eqn:EC. injection HE as _ <-.
    replace tr1 with (snd (s, tr1)) by reflexivity. rewrite <- EC. apply class_sym_keys; auto.
    apply (HT (TClass r)); auto. constructor; auto.
  - discriminate.
  - cbn [walk_hir] in HE. destruct (next_sym (tr_cfg tr) None) as [l g0]. apply bind_ok in HE.
    destruct HE as [[x1 tr1] [E1 E2]]. assert (K1 : keys_ok tr1).
    { eapply IHh; [|idtac|exact E1]; auto. intros t k Hw. apply HT. constructor; auto. }
    destruct x1; [discriminate|]. apply bind_ok in E2. destruct E2 as [[s tr2] [E2 E3]].
    apply symbol_for_keys in E2. apply bind_ok in E3. destruct E3 as [g' [_ E4]]. injection E4 as _ <-.
    intros k y H. cbn [tr_classes] in H. rewrite E2 in H. eauto.
  - cbn [walk_hir] in HE. eapply IHh; [|idtac|exact HE]; auto. intros t k Hw. apply HT. constructor; auto.
  - cbn [walk_hir] in HE. apply bind_ok in HE. destruct HE as [[r tr1] [E1 E2]]. injection E2 as _ <-.
    assert (HTl : forall h t k, In h l -> written t h -> token_classes debug t = Ok k -> K k).
    { intros h t k Hh Hw. apply HT. econstructor; eauto. }
    clear HT. revert E1. generalize (@nil nat) as acc. revert tr HK.
    induction H as [|h l Hh HF IH]; intros tr HK acc E1; cbn [walk_concat] in E1.
    + injection E1 as _ <-. auto.
    + apply bind_ok in E1. destruct E1 as [[x1 tr2] [E2 E3]]. apply bind_ok in E3. destruct E3 as [[acc2 tr3] [E3 E4]].
      assert (K2 : keys_ok tr2). { eapply Hh; [|idtac|exact E2]; auto. intros t k. apply HTl. simpl; auto. }
      assert (K3 : keys_ok tr3).
      { destruct x1 as [|r1 [|r2 x1]]; cbn [concat_part] in E3.
        - injection E3 as _ <-. auto.
        - injection E3 as _ <-. auto.
        - apply bind_ok in E3. destruct E3 as [[s tr4] [E5 E6]]. injection E6 as _ <-. apply new_symbol_keys in E5.
          intros k y HI. rewrite E5 in HI. eauto. }
      eapply IH; [|idtac|exact E4]; auto. intros h' t k Hh'. apply HTl. simpl; auto.
  - cbn [walk_hir] in HE.
    assert (HTl : forall h t k, In h l -> written t h -> token_classes debug t = Ok k -> K k).
    { intros h t k Hh Hw. apply HT. econstructor; eauto. }
    clear HT. revert HE. generalize (@nil (list nat)) as acc. revert tr HK.
    induction H as [|h l Hh HF IH]; intros tr HK acc HE; cbn [walk_alt] in HE.
    + injection HE as _ <-. auto.
    + apply bind_ok in HE. destruct HE as [[x1 tr2] [E2 E3]].
      assert (K2 : keys_ok tr2). { eapply Hh; [|idtac|exact E2]; auto. intros t k. apply HTl. simpl; auto. }
      eapply IH; [|idtac|exact E3]; auto. intros h' t k Hh'. apply HTl. simpl; auto.
Qed.

Lemma from_hir_keys : forall h g lm, tokens_ok h -> cfg_from_hir debug h = Ok (g, lm) ->
  forall k s, In (k, s) (lm_classes lm) -> K k.
Proof.
  intros h g lm HT H. unfold cfg_from_hir in H. apply bind_ok in H. destruct H as [[x tr1] [E1 H]].
  apply bind_ok in H. destruct H as [[l tr2] [E2 H]]. injection H as _ <-. cbn [lm_classes].
  assert (K1 : keys_ok tr1). { eapply walk_keys; [|idtac|exact E1]; auto. intros k s []. }
  assert (E3 : tr_classes tr2 = tr_classes tr1).
  { destruct x; [eapply new_symbol_keys; exact E2 | eapply symbol_for_keys; exact E2]. }
  rewrite E3. exact K1.
Qed.
End Keys.

(** Matched tokens are written in the expression. *)
Lemma matches_written : forall h ts, matches h ts -> Forall (fun t => written t h) ts.
Proof.
  induction h using hir_ind'; intros ts HM; inversion HM; subst.
  - constructor.
  - apply Forall_forall. intros t Ht. apply in_map_iff in Ht. destruct Ht as [c [<- Hc]]. econstructor; eauto.
  - repeat constructor.
  - apply Forall_forall. intros t Ht. apply in_concat in Ht. destruct Ht as [p [Hp Ht]].
    constructor. eapply (proj1 (Forall_forall _ _) (IHh p (proj1 (Forall_forall _ _) H5 _ Hp))). auto.
  - eapply Forall_impl; [|apply IHh; eauto]. intros. constructor. auto.
  - match goal with F : Forall2 matches l parts |- _ => rename F into F2 end.
    assert (HX : forall t, In t (concat parts) -> exists h, In h l /\ written t h).
    { clear HM. intros t Ht. revert H. induction F2 as [|h0 p0 l0 ps0 M0 F2 IH]; intros HF; [destruct Ht|].
      simpl in Ht. apply in_app_or in Ht. destruct Ht as [Ht|Ht].
      - exists h0. split; [simpl; auto|]. exact (proj1 (Forall_forall _ _) (Forall_inv HF p0 M0) _ Ht).
      - destruct (IH Ht (Forall_inv_tail HF)) as [h [P1 P2]]. exists h. simpl. auto. }
    apply Forall_forall. intros t Ht. destruct (HX t Ht) as [h [P1 P2]]. econstructor; eauto.
  - match goal with I : In ?x l, M : matches ?x ts |- _ => pose proof (proj1 (Forall_forall _ _) H _ I ts M) as HF end.
    eapply Forall_impl; [|exact HF].
    intros t Ht. econstructor; eauto.
Qed.

(** * Canonical classes *)

Lemma range_insert_last : forall l lo hi a, canonical_from a l -> (forall x y, In (x, y) l -> (y < lo)%N) ->
  range_insert (lo, hi) l = l ++ [(lo, hi)].
Proof.
  induction l as [|[x y] l]; intros lo hi a HC H; [reflexivity|]. destruct HC as [_ [_ [H1 H2]]].
  simpl. unfold range_compare. cbn [fst snd]. specialize (H x y (or_introl eq_refl)) as Hxy.
  assert (N.compare lo x = Gt) as -> by (apply N.compare_gt_iff; lia).
  f_equal. apply (IHl lo hi (y + 1)%N); auto. intros x' y' HI. apply (H x' y'). simpl. auto.
Qed.

Lemma canonical_app : forall l1 l2 a, canonical_from a (l1 ++ l2) -> canonical_from a l1 /\
  (forall x y x' y', In (x, y) l1 -> In (x', y') l2 -> (y < x')%N).
Proof.
  induction l1 as [|[x y] l1]; intros l2 a H.
  - split; [exact I|]. intros x y x' y' [].
  - simpl in H. destruct H as [C1 [C2 [H1 H2]]]. destruct (IHl1 l2 _ H2) as [I1 I2]. split; [simpl; auto|].
    intros x0 y0 x' y' [E|HI] HI2; [|eauto]. injection E as <- <-.
    assert (In (x', y') (l1 ++ l2)) by (apply in_or_app; auto).
    pose proof (canonical_least _ _ _ _ H2 H). lia.
Qed.

Lemma canonical_id : forall l, canonical l -> classes_of_class l = l.
Proof.
  intros l H. unfold classes_of_class.
  assert (G : forall l2 l1, canonical (l1 ++ l2) -> fold_left (fun s r => range_insert r s) l2 l1 = l1 ++ l2).
  { induction l2 as [|[x y] l2]; intros l1 HC; [rewrite app_nil_r; auto|]. simpl.
    destruct (canonical_app _ _ _ HC) as [C1 C2]. rewrite (range_insert_last l1 x y 0%N); auto.
    - rewrite IHl2; rewrite <- app_assoc; auto.
    - intros x0 y0 HI. eapply C2; [exact HI|]. simpl. auto. }
  apply (G l []). exact H.
Qed.

(** * When [compute] returns *)

Lemma all_handled_dec : forall t : class_table,
  Forall (fun p => Forall handled (fst p)) t \/ ~ Forall (fun p => Forall handled (fst p)) t.
Proof.
  assert (D0 : forall r, handled r \/ ~ handled r).
  { intros r. unfold handled, narrow, followed_by_char, is_char. lia. }
  assert (D1 : forall l, Forall handled l \/ ~ Forall handled l).
  { induction l; [left; auto|]. destruct IHl, (D0 a); [left; auto|right..]; intro X; inversion X; auto. }
  induction t as [|[rs s] t]; [left; auto|].
  destruct IHt, (D1 rs); [left; auto|right..]; intro X; inversion X; auto.
Qed.

Lemma compute_handled : forall lm lm', compute lm = Ok lm' ->
  Forall (fun p : lexer_classes * nat => Forall handled (fst p)) (lm_classes lm).
Proof.
  intros lm lm' H. destruct (all_handled_dec (lm_classes lm)) as [D|D]; auto. apply compute_panics in D. congruence.
Qed.

Lemma table_get_in : forall t k s, NoDup (map fst t) -> In (k, s) t -> table_get t k = Some s.
Proof.
  induction t as [|[k' s'] t]; intros k s HN HI; [destruct HI|]. inversion HN as [|? ? N1 N2]; subst. simpl.
  destruct HI as [E|HI].
  - injection E as -> ->. rewrite classes_compare_refl. reflexivity.
  - destruct (classes_compare k' k) eqn:E; auto. apply classes_compare_eq in E. subst k'. exfalso. apply N1.
    apply in_map_iff. exists (k, s). auto.
Qed.
