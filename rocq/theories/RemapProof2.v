(** Sequences of remapping operations. *)

From Coq Require Import List Arith Bool Lia Permutation Sorted.
From Verif Require Import Base ListFacts Spec SetView GrammarFacts SymbolModel HistoryModel CfgModel View
  BitSetModel CfgProof SymbolProof SetProof RemapModel SpecRemap RemapProof.
Import ListNotations.
Local Notation length := List.length.

Lemma nth_error_firstn_lt : forall {A} (l : list A) n i, i < n -> nth_error (firstn n l) i = nth_error l i.
Proof.
  intros A l. induction l as [|a l IH]; intros [|n] i H; try lia; destruct i; simpl; auto. apply IH. lia.
Qed.
Lemma nth_error_seq : forall n k i, i < n -> nth_error (seq k n) i = Some (k + i).
Proof.
  induction n as [|n IH]; intros k i H; [lia|]. destruct i; simpl; [f_equal; lia|]. rewrite IH by lia. f_equal. lia.
Qed.

(** A wrapped root and its image under a mapping. *)
Definition wrapped_related (m : mapping) (a b : wrapped_root) : Prop :=
  internal_of m (wr_start a) = Some (wr_start b) /\ internal_of m (wr_inner a) = Some (wr_inner b) /\
  internal_of m (wr_end a) = Some (wr_end b) /\ internal_of m (wr_root a) = Some (wr_root b).

Record remap_inv (g0 : cfg) (r : remap) : Prop := {
  ri_closed : closed_rules (rm_grammar r);
  ri_fits : fits (rm_grammar r);
  ri_wf : names_wf (rm_grammar r);
  ri_inverse : inverse_pair (rm_mapping r);
  ri_ext : forall s, s < num_syms (rm_grammar r) ->
             exists o, o < num_syms g0 /\ external_of (rm_mapping r) s = Some o /\
                       nth_error (names (src (rm_grammar r))) s = nth_error (names (src g0)) o;
  ri_map : exists f,
     (forall o, occurs (prods g0) o -> internal_of (rm_mapping r) o = Some (f o) /\ f o < num_syms (rm_grammar r)) /\
     Permutation (rules (rm_grammar r)) (map (rename_rule f) (rules g0));
  ri_roots : Forall2 (fun o s => internal_of (rm_mapping r) o = Some s) (roots g0) (roots (rm_grammar r));
  ri_wroots : Forall2 (wrapped_related (rm_mapping r)) (wroots g0) (wroots (rm_grammar r))
}.

Lemma rename_compose : forall f h x, rename_rule h (rename_rule f x) = rename_rule (fun s => h (f s)) x.
Proof. intros f h x. unfold rename_rule. simpl. rewrite map_map. reflexivity. Qed.

Lemma Forall2_map_r : forall {A B C} (R : A -> B -> Prop) (Q : A -> C -> Prop) (h : B -> C) (S : B -> Prop) l l',
  Forall2 R l l' -> Forall S l' -> (forall a b, R a b -> S b -> Q a (h b)) -> Forall2 Q l (map h l').
Proof.
  intros A B C R Q h S l l' H. induction H as [|a b l l' Hab _ IH]; intros HS HQ; simpl; constructor.
  - inversion HS; subst; auto.
  - inversion HS; subst; auto.
Qed.

Lemma prods_occurs_rule : forall g x s, In x (rules g) -> (s = lhs x \/ In s (rhs x)) -> occurs (prods g) s.
Proof. intros g x s Hx H. exists (lhs x), (rhs x). split; auto. exists x; auto. Qed.

(** One step, for both operations: [n'] symbols are kept. *)
Lemma inv_step : forall g0 r h te ti g1 n' m',
  let g := rm_grammar r in
  remap_inv g0 r ->
  positions te h -> length te = num_syms g -> (forall x, In x te <-> x < num_syms g) ->
  length ti = num_syms g -> (forall x i, nth_error ti x = Some (Some i) <-> nth_error te i = Some x) ->
  renamed_by h g g1 -> mapping_translate (rm_mapping r) (mkMapping ti te) = Ok m' ->
  Forall (fun s => s < num_syms g) (roots g) ->
  Forall (fun w => wr_start w < num_syms g /\ wr_inner w < num_syms g /\
                   wr_end w < num_syms g /\ wr_root w < num_syms g) (wroots g) ->
  n' <= num_syms g -> (forall s, occurs (prods g) s -> h s < n') ->
  remap_inv g0 (mkRemap (mkCfg (mkSrc n' (firstn n' (names (src g1)))) (rules g1) (roots g1) (wroots g1) (limit g1)) m').
Proof.
  intros g0 r h te ti g1 n' m' g I HP LT HT LI MT RB HM HR HW Hn HO.
  destruct (positions_facts te h (num_syms g) HP LT) as [Hlt Hinj].
  destruct (translate_spec _ _ _ HM) as [TI TE].
  assert (HNm : length (names (src g)) = num_syms g) by exact (ri_wf _ _ I).
  destruct (remap_names_perm h (names (src g))) as [NL NN].
  { rewrite HNm. auto. } { rewrite HNm. auto. }
  assert (Hint : forall o s, internal_of (rm_mapping r) o = Some s -> s < num_syms g -> internal_of m' o = Some (h s)).
  { intros o s Ho Hs. rewrite TI, Ho. unfold internal_of. cbn [to_internal].
    assert (HX : nth_error te (h s) = Some s) by (apply HP; split; [rewrite LT; auto|auto]).
    apply MT in HX. rewrite HX. auto. }
  constructor; cbn [rm_grammar rm_mapping rules roots wroots limit].
  - intros x Hx. cbn [rules] in Hx. apply (Permutation_in _ (rb_rules _ _ _ RB)) in Hx. apply in_map_iff in Hx.
    destruct Hx as [y [<- Hy]]. unfold num_syms. cbn [src num lhs rhs rename_rule]. split.
    + apply HO. eapply prods_occurs_rule; eauto.
    + apply Forall_forall. intros s Hs. apply in_map_iff in Hs. destruct Hs as [t [<- Ht]].
      apply HO. eapply prods_occurs_rule; eauto.
  - pose proof (ri_fits _ _ I) as HF. unfold fits in *. fold g in HF. cbn [limit rules]. rewrite (rb_limit _ _ _ RB).
    destruct (limit g) as [l|]; auto. destruct HF as [H2 HL]. split; auto. intros x Hx.
    apply (Permutation_in _ (rb_rules _ _ _ RB)) in Hx. apply in_map_iff in Hx. destruct Hx as [y [<- Hy]].
    simpl. rewrite map_length. auto.
  - unfold names_wf, num_syms. cbn [src num names]. rewrite firstn_length, (rb_names _ _ _ RB), NL, HNm. lia.
  - eapply translate_inverse; [exact HM|exact (ri_inverse _ _ I)|].
    intros x y. unfold internal_of, external_of. cbn [to_internal to_external]. rewrite <- MT.
    destruct (nth_error ti x) as [[z|]|]; split; intros X; congruence.
  - intros s Hs. unfold num_syms in Hs. cbn [src num] in Hs.
    assert (Hs' : s < length te) by lia. destruct (nth_error te s) as [t|] eqn:Et; [|apply nth_error_None in Et; lia].
    assert (Ht : t < num_syms g) by (apply HT; eapply nth_error_In; eauto).
    destruct (ri_ext _ _ I t Ht) as [o [Ho [E N]]]. exists o. split; auto. split.
    + rewrite TE. unfold external_of at 1. cbn [to_external]. rewrite Et. auto.
    + cbn [src names]. rewrite <- N. rewrite nth_error_firstn_lt by auto. rewrite (rb_names _ _ _ RB).
      apply HP in Et. destruct Et as [_ <-]. apply NN. rewrite HNm. auto.
  - destruct (ri_map _ _ I) as [f [F1 F2]]. exists (fun o => h (f o)). split.
    + intros o Ho. destruct (F1 o Ho) as [A B]. split; [apply Hint; auto|]. unfold num_syms. cbn [src num].
      apply HO. destruct Ho as [L [q [[x [Hx [<- <-]]] Hi]]].
      assert (Hx' : In (rename_rule f x) (rules g)).
      { apply (Permutation_in _ (Permutation_sym F2)). apply in_map. auto. }
      apply (prods_occurs_rule g _ (f o) Hx'). simpl. destruct Hi as [->|Hi]; auto. right. apply in_map. auto.
    + eapply perm_trans; [apply (rb_rules _ _ _ RB)|].
      eapply perm_trans; [apply Permutation_map; exact F2|]. rewrite map_map.
      erewrite map_ext; [reflexivity|]. intros x. apply rename_compose.
  - rewrite (rb_roots _ _ _ RB). eapply Forall2_map_r; [exact (ri_roots _ _ I)|exact HR|]. auto.
  - rewrite (rb_wroots _ _ _ RB). eapply Forall2_map_r; [exact (ri_wroots _ _ I)|exact HW|].
    intros a b [A1 [A2 [A3 A4]]] [B1 [B2 [B3 B4]]]. unfold wrapped_related. cbn [rename_wrapped wr_start wr_inner wr_end wr_root].
    auto.
Qed.

Lemma inv_len : forall g0 r, remap_inv g0 r -> num_syms (rm_grammar r) <= length (to_external (rm_mapping r)).
Proof.
  intros g0 r I. destruct (num_syms (rm_grammar r)) as [|n] eqn:E; [lia|].
  destruct (ri_ext _ _ I n) as [o [_ [HE _]]]; [lia|]. unfold external_of in HE.
  assert (HX : nth_error (to_external (rm_mapping r)) n <> None) by congruence. apply nth_error_Some in HX. lia.
Qed.

Lemma step_inv : forall g0 r o r', remap_inv g0 r -> remap_step r o = Ok r' -> remap_inv g0 r'.
Proof.
  intros g0 r o r' I E. pose proof (inv_len g0 r I) as HL.
  destruct o as [cmp|]; cbn [remap_step] in E.
  - destruct (reorder_spec cmp r (ri_closed _ _ I) (ri_fits _ _ I) (ri_wf _ _ I) HL) as [h [HP [ti [LI [MT [S1 _]]]]]].
    destruct (S1 r' E) as [RB [HM [HR HW]]]. destruct (te_facts cmp (num_syms (rm_grammar r))) as [_ [T2 T3]].
    destruct r' as [g' m']. cbn [rm_grammar rm_mapping] in *.
    pose proof (inv_step g0 r h _ ti g' (num_syms (rm_grammar r)) m' I HP T3 T2 LI MT RB HM HR HW (le_n _)) as HX.
    destruct (positions_facts _ _ _ HP T3) as [Hlt _].
    assert (HO : forall s, occurs (prods (rm_grammar r)) s -> h s < num_syms (rm_grammar r)).
    { intros s Hs. apply Hlt. eapply occurs_lt; eauto. exact (ri_closed _ _ I). }
    specialize (HX HO).
    assert (HG : mkCfg (mkSrc (num_syms (rm_grammar r)) (firstn (num_syms (rm_grammar r)) (names (src g'))))
                       (rules g') (roots g') (wroots g') (limit g') = g').
    { pose proof (rb_num _ _ _ RB) as HNum. pose proof (rb_names _ _ _ RB) as HNms.
      destruct (remap_names_perm h (names (src (rm_grammar r)))) as [NL _].
      { rewrite (ri_wf _ _ I). apply (positions_facts _ _ _ HP T3). } { rewrite (ri_wf _ _ I). auto. }
      rewrite firstn_all2.
      - destruct g' as [[n nms] rs ro wr li]. unfold num_syms in *. simpl in *. congruence.
      - rewrite HNms, NL, (ri_wf _ _ I). auto. }
    rewrite HG in HX. exact HX.
  - destruct (remove_unused_spec r (ri_closed _ _ I) (ri_fits _ _ I) (ri_wf _ _ I) HL)
      as [U [HS [HU [te [h [HP [LT [HT [HI [_ [ti [LI [MT [S1 _]]]]]]]]]]]]]].
    destruct (S1 r' E) as [_ [g1 [RB [EG [HM [HR HW]]]]]]. destruct r' as [g' m']. cbn [rm_grammar rm_mapping] in *.
    rewrite EG. apply (inv_step g0 r h te ti g1 (length U) m' I HP LT HT LI MT RB HM HR HW).
    + assert (HX : forall l n, StronglySorted lt l -> Forall (fun x => x < n) l -> length l <= n).
      { intros l n H1 H2. assert (HN : NoDup l).
        { clear -H1. induction H1 as [|a l H IH HF]; constructor; auto. intros X.
          pose proof (proj1 (Forall_forall _ _) HF a X). lia. }
        replace n with (length (seq 0 n)) by apply seq_length. apply NoDup_incl_length; auto.
        intros x Hx. apply in_seq. pose proof (proj1 (Forall_forall _ _) H2 x Hx). simpl in *. lia. }
      apply HX; auto. apply Forall_forall. intros x Hx. apply HU in Hx. eapply occurs_lt; eauto. exact (ri_closed _ _ I).
    + intros s Hs. apply HU in Hs. apply In_nth_error in Hs. destruct Hs as [i Hi]. rewrite (HI i s Hi).
      apply nth_error_Some. congruence.
Qed.

Lemma new_inv : forall g, closed g -> fits g -> names_wf g -> remap_inv g (remap_new g).
Proof.
  intros g [HC [HR HW]] HF HN.
  assert (HI : forall s, s < num_syms g -> internal_of (rm_mapping (remap_new g)) s = Some s).
  { intros s Hs. unfold internal_of. cbn [rm_mapping remap_new to_internal]. rewrite nth_error_map.
    rewrite nth_error_seq by auto. reflexivity. }
  assert (HE : forall s, s < num_syms g -> external_of (rm_mapping (remap_new g)) s = Some s).
  { intros s Hs. unfold external_of. cbn [rm_mapping remap_new to_external]. apply nth_error_seq. auto. }
  constructor; auto.
  - intros x y. split.
    + intros H. unfold internal_of in H. cbn [rm_mapping remap_new to_internal] in H. rewrite nth_error_map in H.
      destruct (lt_dec x (num_syms g)) as [Hx|Hx].
      * rewrite nth_error_seq in H by auto. simpl in H. inversion H; subst. auto.
      * destruct (nth_error (seq 0 (num_syms g)) x) eqn:En; [|discriminate].
        assert (HX : nth_error (seq 0 (num_syms g)) x <> None) by congruence. apply nth_error_Some in HX.
        rewrite seq_length in HX. lia.
    + intros H. unfold external_of in H. cbn [rm_mapping remap_new to_external] in H.
      assert (HX : nth_error (seq 0 (num_syms g)) y <> None) by congruence. apply nth_error_Some in HX.
      rewrite seq_length in HX. rewrite nth_error_seq in H by auto. inversion H; subst. auto.
  - intros s Hs. exists s. split; auto.
  - exists (fun s => s). split.
    + intros o Ho. pose proof (occurs_lt g o HC Ho). split; auto.
    + cbn [rm_grammar remap_new]. erewrite map_ext; [rewrite map_id; reflexivity|].
      intros x. unfold rename_rule. rewrite map_id. destruct x; reflexivity.
  - cbn [rm_grammar remap_new]. clear -HI HR. induction HR; constructor; auto.
  - cbn [rm_grammar remap_new]. clear -HI HW. induction HW as [|w l [A [B [C D]]] _ IH]; constructor; auto.
    unfold wrapped_related. auto.
Qed.

Lemma run_inv : forall g0 ops r r', remap_inv g0 r -> fold_res remap_step ops r = Ok r' -> remap_inv g0 r'.
Proof.
  induction ops as [|o ops IH]; intros r r' I E; cbn [fold_res] in E.
  - inversion E; subst; auto.
  - destruct (remap_step r o) as [r1| |] eqn:E1; try discriminate. cbn [bind] in E.
    apply (IH r1 r'); auto. eapply step_inv; eauto.
Qed.

Lemma inv_closed : forall g0 r, remap_inv g0 r -> used_roots g0 -> closed (rm_grammar r).
Proof.
  intros g0 r I [HR HW]. destruct (ri_map _ _ I) as [f [F1 _]].
  assert (HX : forall o s, occurs (prods g0) o -> internal_of (rm_mapping r) o = Some s -> s < num_syms (rm_grammar r)).
  { intros o s Ho Hs. destruct (F1 o Ho) as [A B]. congruence. }
  split; [exact (ri_closed _ _ I)|]. split.
  - pose proof (ri_roots _ _ I) as H. revert HR. induction H as [|a b l l' Hab _ IH]; intros HR; [constructor|].
    inversion HR as [|? ? Ha HR']; subst. constructor; [exact (HX _ _ Ha Hab)|auto].
  - pose proof (ri_wroots _ _ I) as H. revert HW.
    induction H as [|a b l l' [A1 [A2 [A3 A4]]] _ IH]; intros HW; [constructor|].
    inversion HW as [|? ? [B1 [B2 [B3 B4]]] HW']; subst. constructor; [|auto].
    split; [exact (HX _ _ B1 A1)|]. split; [exact (HX _ _ B2 A2)|]. split; [exact (HX _ _ B3 A3)|exact (HX _ _ B4 A4)].
Qed.

Lemma run_total : forall g0 ops r, remap_inv g0 r -> used_roots g0 -> rules g0 <> [] ->
  exists r', fold_res remap_step ops r = Ok r'.
Proof.
  induction ops as [|o ops IH]; intros r I HU HNE; cbn [fold_res]; [eauto|].
  pose proof (inv_closed g0 r I HU) as HC. pose proof (inv_len g0 r I) as HL.
  assert (HS : exists r1, remap_step r o = Ok r1).
  { destruct o as [cmp|]; cbn [remap_step].
    - destruct (reorder_spec cmp r (ri_closed _ _ I) (ri_fits _ _ I) (ri_wf _ _ I) HL) as [h [_ [ti [_ [_ [_ S2]]]]]].
      auto.
    - destruct (remove_unused_spec r (ri_closed _ _ I) (ri_fits _ _ I) (ri_wf _ _ I) HL)
        as [U [_ [HUU [te [h [_ [_ [_ [_ [_ [ti [_ [_ [_ [S2 _]]]]]]]]]]]]]]].
      apply S2; auto. intros ->. destruct (ri_map _ _ I) as [f [_ F2]].
      destruct (rules g0) as [|x l]; [congruence|].
      assert (Hx : In (rename_rule f x) (rules (rm_grammar r))).
      { apply (Permutation_in _ (Permutation_sym F2)). left; auto. }
      apply (proj2 (HUU (lhs (rename_rule f x)))). eapply prods_occurs_rule; eauto. }
  destruct HS as [r1 E1]. rewrite E1. cbn [bind]. apply IH; auto. eapply step_inv; eauto.
Qed.
