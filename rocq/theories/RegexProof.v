(** Proofs about the translation of regular expressions. *)

From Coq Require Import List Arith NArith Bool Lia.
From Verif Require Import Base ListFacts Spec SpecSeq SpecRegex GrammarFacts SymbolModel LoopModel HistoryModel
  CfgModel View CfgProof SeqModel SeqProof SeqProof2 SeqProof3 PropsSeq RegexModel.
Import ListNotations.
Local Notation length := List.length.

Section HirInd.
  Context (P : hir -> Prop).
  Hypothesis H1 : P HEmpty.
  Hypothesis H2 : forall b, P (HLiteral b).
  Hypothesis H3 : forall r, P (HClass r).
  Hypothesis H4 : P HLook.
  Hypothesis H5 : forall mi ma h, P h -> P (HRepetition mi ma h).
  Hypothesis H6 : forall h, P h -> P (HCapture h).
  Hypothesis H7 : forall l, Forall P l -> P (HConcat l).
  Hypothesis H8 : forall l, Forall P l -> P (HAlternation l).
  Fixpoint hir_ind' (h : hir) : P h :=
    match h return P h with
    | HEmpty => H1
    | HLiteral b => H2 b
    | HClass r => H3 r
    | HLook => H4
    | HRepetition mi ma h => H5 mi ma h (hir_ind' h)
    | HCapture h => H6 h (hir_ind' h)
    | HConcat l => H7 l ((fix all (l : list hir) : Forall P l :=
        match l return Forall P l with
        | [] => Forall_nil P
        | h :: l' => Forall_cons h (hir_ind' h) (all l')
        end) l)
    | HAlternation l => H8 l ((fix all (l : list hir) : Forall P l :=
        match l return Forall P l with
        | [] => Forall_nil P
        | h :: l' => Forall_cons h (hir_ind' h) (all l')
        end) l)
    end.
End HirInd.

(** * The table of classes *)

Lemma range_compare_eq : forall a b, range_compare a b = Eq -> a = b.
Proof.
  intros [a1 a2] [b1 b2]. unfold range_compare. cbn [fst snd]. destruct (N.compare a1 b1) eqn:E; intros H; try discriminate.
  apply N.compare_eq in E, H. congruence.
Qed.
Lemma range_compare_refl : forall a, range_compare a a = Eq.
Proof. intros [a b]. unfold range_compare. cbn [fst snd]. rewrite !N.compare_refl. auto. Qed.

Lemma classes_compare_eq : forall a b, classes_compare a b = Eq -> a = b.
Proof.
  induction a; destruct b; simpl; intros; try discriminate; auto.
  destruct (range_compare a p) eqn:E; try discriminate. apply range_compare_eq in E. subst. f_equal. auto.
Qed.
Lemma classes_compare_refl : forall a, classes_compare a a = Eq.
Proof. induction a; simpl; auto. rewrite range_compare_refl. auto. Qed.

Lemma table_get_some : forall t k s, table_get t k = Some s -> In (k, s) t.
Proof.
  induction t as [|[k' s'] t]; simpl; intros; [discriminate|]. destruct (classes_compare k' k) eqn:E; auto.
  apply classes_compare_eq in E. injection H as <-. subst. auto.
Qed.
Lemma table_get_none : forall t k, table_get t k = None -> ~ In k (map fst t).
Proof.
  induction t as [|[k' s'] t]; simpl; intros k H; [tauto|]. destruct (classes_compare k' k) eqn:E; try discriminate;
    (intros [->|HI]; [rewrite classes_compare_refl in E; discriminate | eapply IHt; eauto]).
Qed.
Lemma table_put_in : forall t k s k' s', ~ In k (map fst t) ->
  (In (k', s') (table_put t k s) <-> (k', s') = (k, s) \/ In (k', s') t).
Proof.
  induction t as [|[k0 s0] t]; intros k s k' s' H; simpl; [intuition auto|].
  destruct (classes_compare k k0) eqn:E; simpl.
  - apply classes_compare_eq in E. subst. exfalso. apply H. simpl. auto.
  - intuition auto.
  - rewrite IHt by (intro; apply H; simpl; auto). intuition auto.
Qed.
Lemma table_put_keys : forall t k s x, ~ In k (map fst t) -> (In x (map fst (table_put t k s)) <-> x = k \/ In x (map fst t)).
Proof.
  intros. rewrite !in_map_iff. split.
  - intros [[a b] [<- HI]]. apply table_put_in in HI; auto. destruct HI as [E|HI]; [injection E as -> ->; left; reflexivity | right; exists (a, b); auto].
  - intros [->|[[a b] [<- HI]]]; [exists (k, s) | exists (a, b)]; split; auto; apply table_put_in; auto.
Qed.
Lemma table_put_syms : forall t k s x, ~ In k (map fst t) -> (In x (map snd (table_put t k s)) <-> x = s \/ In x (map snd t)).
Proof.
  intros. rewrite !in_map_iff. split.
  - intros [[a b] [<- HI]]. apply table_put_in in HI; auto. destruct HI as [E|HI]; [injection E as -> ->; left; reflexivity | right; exists (a, b); auto].
  - intros [->|[[a b] [<- HI]]]; [exists (k, s) | exists (a, b)]; split; auto; apply table_put_in; auto.
Qed.
Lemma table_put_nodup_keys : forall t k s, NoDup (map fst t) -> ~ In k (map fst t) -> NoDup (map fst (table_put t k s)).
Proof.
  induction t as [|[k0 s0] t]; intros k s HN H; simpl; [repeat constructor; auto|].
  simpl in HN. inversion HN; subst. simpl in H. destruct (classes_compare k k0) eqn:E; simpl.
  - apply classes_compare_eq in E. subst. exfalso. auto.
  - constructor; auto.
  - constructor; auto. rewrite table_put_keys by auto. intros [->|?]; auto.
Qed.
Lemma table_put_nodup_syms : forall t k s, NoDup (map snd t) -> ~ In k (map fst t) -> ~ In s (map snd t) ->
  NoDup (map snd (table_put t k s)).
Proof.
  induction t as [|[k0 s0] t]; intros k s HN H HS; simpl; [repeat constructor; auto|].
  simpl in HN. inversion HN; subst. simpl in H, HS. destruct (classes_compare k k0) eqn:E; simpl.
  - apply classes_compare_eq in E. subst. exfalso. auto.
  - constructor; auto.
  - constructor; auto. rewrite table_put_syms by auto. intros [->|?]; auto.
Qed.

Lemma Forall2_weaken : forall (A B : Type) (R Q : A -> B -> Prop) l m, (forall a b, R a b -> Q a b) ->
  Forall2 R l m -> Forall2 Q l m.
Proof. intros A B R Q l m H HF. induction HF; constructor; auto. Qed.

(** * States *)

Notation nt tr := (num_syms (tr_cfg tr)).
Notation pr tr := (prods (tr_cfg tr)).

Record wf (tr : translator) : Prop := {
  wf_limit : limit (tr_cfg tr) = None;
  wf_closed : closed_rules (tr_cfg tr);
  wf_range : forall k s, In (k, s) (tr_classes tr) -> s < nt tr;
  wf_term : forall k s, In (k, s) (tr_classes tr) -> terminal (pr tr) s;
  wf_keys : NoDup (map fst (tr_classes tr));
  wf_syms : NoDup (map snd (tr_classes tr))
}.

Definition good (n : nat) (tr : translator) (s : nat) : Prop := n <= s \/ In s (map snd (tr_classes tr)).

Record ext (n : nat) (tr tr' : translator) : Prop := {
  e_num : nt tr <= nt tr';
  e_rules : exists c, rules (tr_cfg tr') = rules (tr_cfg tr) ++ c /\
              Forall (fun q => nt tr <= lhs q /\ Forall (good n tr') (rhs q)) c;
  e_keep : incl (tr_classes tr) (tr_classes tr');
  e_new : forall k s, In (k, s) (tr_classes tr') -> In (k, s) (tr_classes tr) \/ nt tr <= s
}.

Lemma good_mono : forall n n' tr tr' s, n' <= n -> incl (tr_classes tr) (tr_classes tr') -> good n tr s -> good n' tr' s.
Proof.
  intros n n' tr tr' s Hn HI [H|H]; [left; lia|]. right. apply in_map_iff in H. destruct H as [p [<- H]].
  apply in_map. auto.
Qed.

Lemma ext_refl : forall n tr, ext n tr tr.
Proof.
  intros. constructor; auto; [|apply incl_refl]. exists []. rewrite app_nil_r. auto.
Qed.

Lemma ext_trans : forall n n1 tr tr1 tr2, n <= n1 -> ext n tr tr1 -> ext n1 tr1 tr2 -> ext n tr tr2.
Proof.
  intros n n1 tr tr1 tr2 Hn [A1 [c1 [A2 A3]] A4 A5] [B1 [c2 [B2 B3]] B4 B5]. constructor.
  - lia.
  - exists (c1 ++ c2). rewrite B2, A2, app_assoc. split; auto. apply Forall_app. split.
    + eapply Forall_impl; [|exact A3]. intros q [H1 H2]. split; auto. eapply Forall_impl; [|exact H2].
      intros s Hs. eapply good_mono; [| |exact Hs]; auto.
    + eapply Forall_impl; [|exact B3]. intros q [H1 H2]. split; [lia|]. eapply Forall_impl; [|exact H2].
      intros s Hs. eapply good_mono; [| |exact Hs]; auto. apply incl_refl.
  - eapply incl_tran; eauto.
  - intros k s H. apply B5 in H. destruct H as [H|H]; [auto|]. right. lia.
Qed.

Lemma ext_prods : forall n tr tr', ext n tr tr' -> forall A r, pr tr A r -> pr tr' A r.
Proof.
  intros n tr tr' [_ [c [E _]] _ _] A r [q [H1 H2]]. exists q. split; auto. rewrite E. apply in_or_app; auto.
Qed.

Lemma ext_old : forall n tr tr', ext n tr tr' -> forall A r, A < nt tr -> pr tr' A r -> pr tr A r.
Proof.
  intros n tr tr' [_ [c [E F]] _ _] A r HA [q [H1 [H2 H3]]]. exists q. split; auto. rewrite E in H1.
  apply in_app_or in H1. destruct H1 as [H1|H1]; auto. pose proof (proj1 (Forall_forall _ _) F _ H1) as [Hq _].
  subst. lia.
Qed.

Lemma closed_prods : forall g A r, closed_rules g -> prods g A r -> A < num_syms g /\ Forall (fun s => s < num_syms g) r.
Proof. intros g A r H [q [H1 [<- <-]]]. apply H. auto. Qed.

(** Productions that agree on a set of symbols closed under them derive the same from it. *)
Lemma derives_within : forall (P Q : productions) (D : nat -> Prop),
  (forall A r, D A -> P A r -> Q A r /\ Forall D r) ->
  forall u w, derives P u w -> Forall D u -> derives Q u w.
Proof.
  intros P Q D H u w HD. induction HD; intros Hu; [constructor|].
  apply Forall_app in Hu. destruct Hu as [Hu1 Hu2]. inversion Hu2; subst.
  destruct (H A r) as [HQ Hr]; auto. econstructor; [exact HQ|]. apply IHHD.
  apply Forall_app; split; auto. apply Forall_app; split; auto.
Qed.

Lemma ext_derives : forall n tr tr', wf tr -> ext n tr tr' -> forall u w, Forall (fun s => s < nt tr) u ->
  (derives (pr tr') u w <-> derives (pr tr) u w).
Proof.
  intros n tr tr' HW HE u w Hu. split; intros HD.
  - apply (derives_within (pr tr') (pr tr) (fun s => s < nt tr)) in HD; auto.
    intros A r HA Hr. apply (ext_old _ _ _ HE) in Hr; auto. split; auto.
    eapply closed_prods; eauto. apply wf_closed; auto.
  - eapply derives_mono; [|exact HD]. eapply ext_prods; eauto.
Qed.

(** * Meaning *)

Definition token_classes (debug : bool) (t : token) : res lexer_classes :=
  match t with
  | TByte b => classes_of_byte debug b
  | TClass rs => Ok (classes_of_class rs)
  end.

Section Walk.
Context (debug : bool).

Definition tok (tr : translator) (t : token) (s : nat) : Prop :=
  exists k, token_classes debug t = Ok k /\ In (k, s) (tr_classes tr).

Definition covered (tr : translator) (ts : list token) : Prop := Forall (fun t => exists s, tok tr t s) ts.

(** [x] are alternatives for the language [L] of token strings. *)
Record sem (tr : translator) (x : list (list nat)) (L : list token -> Prop) : Prop := {
  sm_sound : forall r w, In r x -> derives (pr tr) r w -> Forall (terminal (pr tr)) w ->
               exists ts, L ts /\ Forall2 (tok tr) ts w;
  sm_complete : forall ts w, L ts -> Forall2 (tok tr) ts w -> exists r, In r x /\ derives (pr tr) r w;
  sm_covered : forall ts, L ts -> covered tr ts
}.

Lemma tok_ext : forall n tr tr' t s, ext n tr tr' -> tok tr t s -> tok tr' t s.
Proof. intros n tr tr' t s HE [k [E H]]. exists k. split; auto. apply (e_keep _ _ _ HE); auto. Qed.

Lemma keys_inj : forall (t : class_table) k s s', NoDup (map fst t) -> In (k, s) t -> In (k, s') t -> s = s'.
Proof.
  induction t as [|[a b] t]; intros k s s' HN H1 H2; [destruct H1|]. simpl in HN. inversion HN; subst.
  destruct H1 as [E|H1], H2 as [E'|H2]; eauto.
  - congruence.
  - injection E as -> ->. exfalso. apply H3. apply in_map_iff. exists (k, s'). auto.
  - injection E' as -> ->. exfalso. apply H3. apply in_map_iff. exists (k, s). auto.
Qed.

Lemma tok_back : forall n tr tr' ts w, wf tr' -> ext n tr tr' -> covered tr ts ->
  Forall2 (tok tr') ts w -> Forall2 (tok tr) ts w.
Proof.
  intros n tr tr' ts w HW HE HC H. induction H; constructor; inversion HC; subst; auto.
  destruct H3 as [s Hs]. pose proof (tok_ext _ _ _ _ _ HE Hs) as Hs'.
  destruct H as [k [E H]], Hs' as [k' [E' H']]. assert (k' = k) by congruence. subst k'.
  rewrite (keys_inj _ _ _ _ (wf_keys _ HW) H H'). auto.
Qed.

Lemma tok_bound : forall tr ts w, wf tr -> Forall2 (tok tr) ts w -> Forall (fun s => s < nt tr) w.
Proof.
  intros tr ts w HW H. induction H; constructor; auto. destruct H as [k [_ H]]. eapply wf_range; eauto.
Qed.
Lemma tok_term : forall tr ts w, wf tr -> Forall2 (tok tr) ts w -> Forall (terminal (pr tr)) w.
Proof.
  intros tr ts w HW H. induction H; constructor; auto. destruct H as [k [_ H]]. eapply wf_term; eauto.
Qed.

Lemma sem_ext : forall n tr tr' x L, wf tr -> wf tr' -> ext n tr tr' ->
  Forall (Forall (fun s => s < nt tr)) x -> sem tr x L -> sem tr' x L.
Proof.
  intros n tr tr' x L HW HW' HE Hx [S1 S2 S3]. constructor.
  - intros r w Hr HD Ht. apply (ext_derives n tr tr' HW HE) in HD.
    2:{ exact (proj1 (Forall_forall _ _) Hx _ Hr). }
    destruct (S1 r w Hr HD) as [ts [H1 H2]].
    + eapply Forall_impl; [|exact Ht]. intros a Ha r' Hr'. apply (Ha r'). eapply ext_prods; eauto.
    + exists ts. split; auto. eapply Forall2_weaken; [|exact H2]. intros. eapply tok_ext; eauto.
  - intros ts w HL HT. apply (tok_back n tr) in HT; auto. destruct (S2 ts w HL HT) as [r [H1 H2]].
    exists r. split; auto. eapply derives_mono; [|exact H2]. eapply ext_prods; eauto.
  - intros ts HL. eapply Forall_impl; [|apply S3; exact HL]. intros t [s Hs]. exists s. eapply tok_ext; eauto.
Qed.

(** * Symbols *)

Lemma class_sym_ok : forall n tr k name s tr', wf tr -> class_sym tr k name = (s, tr') ->
  wf tr' /\ ext n tr tr' /\ In (k, s) (tr_classes tr').
Proof.
  intros n tr k name s tr' HW E. unfold class_sym in E. destruct (table_get (tr_classes tr) k) eqn:EG.
  - injection E as <- <-. split; auto. split; [apply ext_refl|]. apply table_get_some; auto.
  - unfold next_sym, src_next in E. injection E as <- <-. apply table_get_none in EG.
    assert (HI : forall k' s', In (k', s') (table_put (tr_classes tr) k (nt tr)) -> (k', s') = (k, nt tr) \/ In (k', s') (tr_classes tr)).
    { intros k' s' H. apply table_put_in in H; auto. }
    split; [|split].
    + constructor; cbn [tr_cfg tr_classes limit].
      * apply (wf_limit _ HW).
      * intros q Hq. destruct (wf_closed _ HW q Hq) as [H1 H2]. unfold num_syms in *. cbn [src num]. split; [lia|].
        eapply Forall_impl; [|exact H2]. intros; simpl in *; lia.
      * intros k' s' H. apply HI in H. unfold num_syms in *. cbn [src num]. destruct H as [H|H]; [injection H as -> ->; lia|].
        apply (wf_range _ HW) in H. unfold num_syms in H. lia.
      * intros k' s' H. apply HI in H. destruct H as [H|H].
        -- injection H as -> ->. intros r Hr. change (prods (tr_cfg tr) (nt tr) r) in Hr.
           apply closed_prods in Hr; [lia | apply (wf_closed _ HW)].
        -- exact (wf_term _ HW _ _ H).
      * apply table_put_nodup_keys; auto. apply (wf_keys _ HW).
      * apply table_put_nodup_syms; auto; [apply (wf_syms _ HW)|]. intro H. apply in_map_iff in H.
        destruct H as [[k' s'] [E H]]. cbn [snd] in E. apply (wf_range _ HW) in H. unfold num_syms in H. lia.
    + constructor; cbn [tr_cfg tr_classes].
      * unfold num_syms. cbn [src num]. lia.
      * exists []. rewrite app_nil_r. split; auto.
      * intros [k' s'] H. apply table_put_in; auto.
      * intros k' s' H. apply HI in H. destruct H as [H|H]; auto. injection H as -> ->. right. unfold num_syms. auto.
    + cbn [tr_classes]. apply table_put_in; auto.
Qed.

Lemma push_rules : forall s x g, limit g = None ->
  exists g', fold_res (fun g r => rule_rhs g s r) x g = Ok g' /\
    src g' = src g /\ limit g' = None /\ roots g' = roots g /\
    rules g' = rules g ++ map (fun r => mkRule s r (process_root (RRule s))) x.
Proof.
  intros s. induction x as [|r x]; intros g HL.
  - exists g. simpl. rewrite app_nil_r. auto.
  - simpl. unfold rule_rhs at 1, add_rule. rewrite add_rule_none by auto. cbn [bind].
    destruct (IHx (push_rule g (mkRule s r (process_root (RRule s))))) as [g' [E [H1 [H2 [H3 H4]]]]]; auto.
    exists g'. rewrite E. split; auto. split; auto. split; auto. split; auto. rewrite H4. simpl.
    rewrite <- app_assoc. auto.
Qed.

Definition usable (n : nat) (tr : translator) (x : list (list nat)) : Prop :=
  Forall (Forall (fun s => good n tr s /\ s < nt tr)) x.

Lemma usable_bound : forall n tr x, usable n tr x -> Forall (Forall (fun s => s < nt tr)) x.
Proof. intros n tr x H. eapply Forall_impl; [|exact H]. intros r Hr. eapply Forall_impl; [|exact Hr]. cbn beta. tauto. Qed.

Lemma usable_ext : forall n n1 tr tr' x, ext n1 tr tr' -> usable n tr x -> usable n tr' x.
Proof.
  intros n n1 tr tr' x HE H. eapply Forall_impl; [|exact H]. intros r Hr. eapply Forall_impl; [|exact Hr]. cbn beta.
  intros s [H1 H2]. pose proof (e_num _ _ _ HE). split; [|lia].
  eapply good_mono; [| |exact H1]; auto. apply (e_keep _ _ _ HE).
Qed.

Lemma new_symbol_ok : forall n tr x L, wf tr -> n <= nt tr -> usable n tr x -> x <> [] -> sem tr x L ->
  exists s tr', new_symbol_with tr x = Ok (s, tr') /\ wf tr' /\ ext n tr tr' /\ nt tr <= s < nt tr' /\
    roots (tr_cfg tr') = roots (tr_cfg tr) /\ sem tr' [[s]] L.
Proof.
  intros n tr x L HW Hn Hx Hne HS. unfold new_symbol_with, next_sym, src_next.
  set (g0 := mkCfg _ _ _ _ _).
  destruct (push_rules (num (src (tr_cfg tr))) x g0) as [g' [E [H1 [H2 [H3 H4]]]]].
  { apply (wf_limit _ HW). }
  rewrite E. cbn [bind]. set (tr' := mkTr g' (tr_classes tr)). exists (num (src (tr_cfg tr))), tr'.
  split; auto. change (num (src (tr_cfg tr))) with (nt tr) in *.
  assert (HN : nt tr' = S (nt tr)). { unfold num_syms at 1. cbn [tr_cfg tr']. rewrite H1. reflexivity. }
  assert (HX : ext n tr tr').
  { constructor.
    - lia.
    - eexists. cbn [tr_cfg tr']. rewrite H4. split; [reflexivity|]. apply Forall_forall. intros q Hq.
      apply in_map_iff in Hq. destruct Hq as [r [<- Hr]]. cbn [lhs rhs]. split; auto.
      pose proof (proj1 (Forall_forall _ _) Hx _ Hr) as Hr'. eapply Forall_impl; [|exact Hr']. cbn beta. tauto.
    - apply incl_refl.
    - auto. }
  assert (HP : forall r, pr tr' (nt tr) r <-> In r x).
  { intros r. split.
    - intros [q [Hq [E1 E2]]]. cbn [tr_cfg tr'] in Hq. rewrite H4 in Hq. apply in_app_or in Hq. destruct Hq as [Hq|Hq].
      + destruct (wf_closed _ HW q Hq) as [Hlt _]. rewrite E1 in Hlt. lia.
      + apply in_map_iff in Hq. destruct Hq as [r' [<- Hr]]. simpl in E2. subst. auto.
    - intros Hr. exists (mkRule (nt tr) r (process_root (RRule (nt tr)))). split; auto. cbn [tr_cfg tr'].
      rewrite H4. apply in_or_app. right. apply in_map_iff. exists r. auto. }
  assert (HW' : wf tr').
  { constructor; cbn [tr_cfg tr_classes tr'].
    - auto.
    - intros q Hq. rewrite H4 in Hq. change (num_syms g') with (nt tr'). rewrite HN. apply in_app_or in Hq.
      destruct Hq as [Hq|Hq].
      + destruct (wf_closed _ HW q Hq) as [Hl Hr]. split; [lia|]. eapply Forall_impl; [|exact Hr]. cbn beta. intros; lia.
      + apply in_map_iff in Hq. destruct Hq as [r [<- Hr]]. cbn [lhs rhs]. split; [lia|].
        pose proof (proj1 (Forall_forall _ _) Hx _ Hr) as Hr'. eapply Forall_impl; [|exact Hr']. cbn beta. intros; lia.
    - intros k s H. change (num_syms g') with (nt tr'). apply (wf_range _ HW) in H. lia.
    - intros k s H r Hr. change (prods g' s r) with (pr tr' s r) in Hr.
      apply (ext_old _ _ _ HX) in Hr; [|eapply wf_range; eauto]. exact (wf_term _ HW _ _ H _ Hr).
    - apply (wf_keys _ HW).
    - apply (wf_syms _ HW). }
  split; auto. split; auto. split; [lia|]. split; [exact H3|].
  pose proof (sem_ext n tr tr' x L HW HW' HX (usable_bound _ _ _ Hx) HS) as [S1 S2 S3]. constructor; auto.
  - intros r w [<-|[]] HD Ht. apply derives_single_inv in HD. destruct HD as [->|[r [Hr HD]]].
    + exfalso. pose proof (Forall_inv Ht) as HT0. destruct x as [|r x]; [auto|]. apply (HT0 r). apply HP. simpl. auto.
    + apply HP in Hr. eauto.
  - intros ts w HL HT. destruct (S2 ts w HL HT) as [r [Hr HD]]. exists [nt tr]. split; [simpl; auto|].
    eapply derives_rule_then; [|exact HD]. apply HP; auto.
Qed.

Lemma symbol_for_ok : forall n tr x L, wf tr -> n <= nt tr -> usable n tr x -> x <> [] -> sem tr x L ->
  exists s tr', symbol_for tr x = Ok (s, tr') /\ wf tr' /\ ext n tr tr' /\ good n tr' s /\ s < nt tr' /\
    roots (tr_cfg tr') = roots (tr_cfg tr) /\ sem tr' [[s]] L.
Proof.
  intros n tr x L HW Hn Hx Hne HS.
  assert (D : (exists s, x = [[s]]) \/ symbol_for tr x = new_symbol_with tr x).
  { destruct x as [|[|s [|? ?]] [|? ?]]; auto. left. eauto. }
  destruct D as [[s ->]|D].
  - exists s, tr. cbn [symbol_for]. split; auto. split; auto. split; [apply ext_refl|].
    inversion Hx as [|? ? H1 _]; subst. inversion H1 as [|? ? [H2 H3] _]; subst. auto.
  - rewrite D. destruct (new_symbol_ok n tr x L HW Hn Hx Hne HS) as [s [tr' [E [A [B [C [F G]]]]]]].
    exists s, tr'. split; auto. split; auto. split; auto. split; [left; lia|]. split; [lia|]. auto.
Qed.

(** * Repetitions *)

Lemma tok_app_inv : forall tr a b w, Forall2 (tok tr) (a ++ b) w ->
  exists u v, w = u ++ v /\ Forall2 (tok tr) a u /\ Forall2 (tok tr) b v.
Proof. intros tr a b w H. apply Forall2_app_inv_l in H. destruct H as [u [v [H1 [H2 ->]]]]. eauto. Qed.

Lemma repeat_derives_inv : forall (P : productions) s n w, derives P (repeat s n) w ->
  exists ws, length ws = n /\ Forall (derives P [s]) ws /\ w = concat ws.
Proof.
  induction n; intros w H.
  - simpl in H. apply derives_nil_inv in H. exists []. auto.
  - simpl in H. apply derives_cons_inv in H. destruct H as [w1 [w2 [-> [H1 H2]]]].
    apply IHn in H2. destruct H2 as [ws [L [F ->]]]. exists (w1 :: ws). simpl. auto.
Qed.

Lemma sem_repeat : forall tr s L, sem tr [[s]] L -> forall w n,
  derives (pr tr) (repeat s n) w -> Forall (terminal (pr tr)) w ->
  exists parts, length parts = n /\ Forall L parts /\ Forall2 (tok tr) (concat parts) w.
Proof.
  intros tr s L [S1 _ _] w n HD Ht. apply repeat_derives_inv in HD. destruct HD as [ws [<- [HF ->]]].
  induction HF as [|w ws Hw HF IH].
  - exists []. simpl. auto.
  - simpl in Ht. apply Forall_app in Ht. destruct Ht as [Ht1 Ht2]. destruct (IH Ht2) as [parts [P1 [P2 P3]]].
    destruct (S1 [s] w) as [ts [T1 T2]]; simpl; auto. exists (ts :: parts). simpl. split; auto. split; auto.
    apply Forall2_app; auto.
Qed.

Lemma sem_repeat_complete : forall tr s L, sem tr [[s]] L -> forall parts w,
  Forall L parts -> Forall2 (tok tr) (concat parts) w -> derives (pr tr) (repeat s (length parts)) w.
Proof.
  intros tr s L [_ S2 _] parts. induction parts as [|p parts IH]; intros w HF HT.
  - simpl in *. inversion HT; subst. constructor.
  - simpl in HT. apply tok_app_inv in HT. destruct HT as [u [v [-> [H1 H2]]]]. inversion HF; subst.
    simpl. apply derives_cons; auto. destruct (S2 p u) as [r [[<-|[]] HD]]; auto.
Qed.

Lemma add_repetition_eq : forall g l mi ma x,
  add_repetition debug g l mi ma x = seq_rewrite debug g (mkSeq l x mi ma Null None).
Proof.
  intros. unfold add_repetition. simpl. unfold sb_rhs_with_history. simpl. unfold add_to_cfg.
  destruct (seq_rewrite debug g _); reflexivity.
Qed.

Lemma repetition_ok : forall tr l s mi ma L,
  wf tr -> l < nt tr -> s < nt tr -> s <> l -> ~ In l (map snd (tr_classes tr)) ->
  (forall q, In q (rules (tr_cfg tr)) -> lhs q <> l /\ ~ In l (rhs q)) ->
  counts_fit mi ma -> sem tr [[s]] L ->
  exists g', add_repetition debug (tr_cfg tr) l mi ma s = Ok g' /\
    let tr' := mkTr g' (tr_classes tr) in
    wf tr' /\ nt tr <= nt tr' /\ roots g' = roots (tr_cfg tr) /\
    (exists c, rules g' = rules (tr_cfg tr) ++ c /\
       Forall (fun q => (lhs q = l \/ nt tr <= lhs q) /\ Forall (fun y => nt tr <= y \/ y = l \/ y = s) (rhs q)) c) /\
    sem tr' [[l]] (fun ts => exists parts, ts = concat parts /\ Forall L parts /\
                     in_range mi ma (length parts)).
Proof.
  intros tr l s mi ma L HW Hl Hs Hsl Hlc Hno Hma HS. rewrite add_repetition_eq.
  set (sq := mkSeq l s mi ma Null None).
  assert (HG : good_limit (limit (tr_cfg tr))) by (rewrite (wf_limit _ HW); exact I).
  assert (Hin : seq_in (tr_cfg tr) sq) by (split; [auto | split; [auto | exact I]]).
  assert (Hv : valid_range sq) by exact Hma.
  assert (Htm : terminal (pr tr) l). { intros r [q [Hq [E _]]]. apply Hno in Hq. tauto. }
  destruct (rewrite_ok' debug (tr_cfg tr) sq (wf_closed _ HW) HG Hin Hv) as [g' [E [Hg [Hc [HA [HB [_ [_ [HN _]]]]]]]]].
  destruct (HB (fun _ => Htm)) as [_ HL].
  destruct (C28_terminals debug (tr_cfg tr) sq (wf_closed _ HW) HG Hin Hv) as [g2 [E2 [HT _]]].
  rewrite E in E2. injection E2 as <-. exists g'. split; auto. cbn zeta.
  set (tr' := mkTr g' (tr_classes tr)).
  assert (HNum : nt tr <= nt tr') by (apply (grows_num _ _ Hg)).
  assert (HW' : wf tr').
  { constructor; cbn [tr_cfg tr_classes tr']; auto.
    - rewrite (gr_limit _ _ Hg). apply (wf_limit _ HW).
    - intros k y H. change (num_syms g') with (nt tr'). apply (wf_range _ HW) in H. lia.
    - intros k y H. apply HT; [eapply wf_range; eauto|]. split; [eapply wf_term; eauto|].
      intros ->. apply Hlc. apply in_map_iff. exists (k, l). auto.
    - apply (wf_keys _ HW).
    - apply (wf_syms _ HW). }
  split; auto. split; auto. split; [apply (gr_roots _ _ Hg)|]. split.
  { destruct HN as [c [Ec HF]]. exists c. split; auto. eapply Forall_impl; [|exact HF]. intros q [H1 H2].
    split; [exact H1|]. eapply Forall_impl; [|exact H2]. cbn beta. intros y [Hy|[Hy|Hy]]; auto.
    simpl in Hy. destruct Hy as [<-|[]]. auto. }
  set (Q := and_sequences (pr tr) sq) in *.
  assert (HQ : forall u w, derives Q u w -> ~ In l u -> derives (pr tr) u w).
  { intros u w HD Hu. apply (derives_within Q (pr tr) (fun y => y <> l)) in HD; auto.
    - intros A r HA' [Hr|[-> _]]; [|exfalso; auto]. split; auto. destruct Hr as [q [Hq [_ <-]]].
      apply Hno in Hq. apply Forall_forall. intros y Hy ->. tauto.
    - apply Forall_forall. intros y Hy ->. auto. }
  constructor.
  - intros r w [<-|[]] HD Ht. assert (HX : language (prods g') l w) by (split; auto).
    apply HL in HX; auto. destruct HX as [HD' Ht']. apply derives_single_inv in HD'. destruct HD' as [->|[r [Hr HD']]].
    + exfalso. pose proof (Forall_inv Ht) as Hl'. apply HT in Hl'; auto. destruct Hl' as [_ Hl']. apply Hl'. reflexivity.
    + destruct Hr as [Hr|[_ [n [Hn Hr]]]]; [exfalso; exact (Htm _ Hr)|]. cbn in Hr. subst r.
      apply HQ in HD'. 2:{ intro HI. apply repeat_spec in HI. auto. }
      destruct (sem_repeat tr s L HS w n HD') as [parts [P1 [P2 P3]]].
      { eapply Forall_impl; [|exact Ht']. intros a Ha r Hr. apply (Ha r). left. auto. }
      exists (concat parts). split; [|exact P3]. exists parts. split; auto. split; auto. rewrite P1. exact Hn.
  - intros ts w [parts [-> [P1 P2]]] HT'. exists [l]. split; [simpl; auto|].
    change (Forall2 (tok tr) (concat parts) w) in HT'. apply HA; auto.
    + eapply tok_bound; eauto.
    + eapply derives_rule_then with (r := repeat s (length parts)).
      * right. split; auto. exists (length parts). split; auto. reflexivity.
      * eapply derives_mono; [|eapply sem_repeat_complete; eauto]. left. auto.
  - intros ts [parts [-> [P1 _]]]. change (covered tr (concat parts)). unfold covered. apply Forall_forall. intros t Ht.
    apply in_concat in Ht. destruct Ht as [p [Hp Ht]]. pose proof (proj1 (Forall_forall _ _) P1 _ Hp) as HLp.
    exact (proj1 (Forall_forall _ _) (sm_covered _ _ _ HS _ HLp) _ Ht).
Qed.

(** * Literals *)

Lemma literal_ok : forall n bytes tr acc L, wf tr -> n <= nt tr -> Forall (fun b => (b < 255)%N) bytes ->
  Forall (fun s => good n tr s /\ s < nt tr) acc ->
  (forall w, derives (pr tr) acc w -> w = acc) -> Forall2 (tok tr) L acc ->
  exists l tr', fold_res (walk_byte debug) bytes (acc, tr) = Ok (l, tr') /\ wf tr' /\ ext n tr tr' /\
    roots (tr_cfg tr') = roots (tr_cfg tr) /\
    Forall (fun s => good n tr' s /\ s < nt tr') l /\ (forall w, derives (pr tr') l w -> w = l) /\
    Forall2 (tok tr') (L ++ map TByte bytes) l.
Proof.
  intros n. induction bytes as [|b bytes IH]; intros tr acc L HW Hn HB Hacc Hd HT.
  - exists acc, tr. simpl. rewrite app_nil_r. split; auto. split; auto. split; [apply ext_refl|]. auto.
  - inversion HB; subst. cbn [fold_res]. unfold walk_byte at 1. unfold classes_of_byte.
    assert ((b =? 255)%N = false) as -> by (apply N.eqb_neq; lia). cbn [bind fst snd].
    destruct (class_sym tr _ _) as [s tr1] eqn:ES.
    destruct (class_sym_ok n _ _ _ _ _ HW ES) as [W1 [E1 I1]].
    assert (R1 : roots (tr_cfg tr1) = roots (tr_cfg tr)).
    { unfold class_sym in ES. destruct (table_get _ _); injection ES as <- <-; reflexivity. }
    destruct (IH tr1 (acc ++ [s]) (L ++ [TByte b])) as [l [tr' [F1 [F2 [F3 [F4 [F5 [F6 F7]]]]]]]]; auto.
    + pose proof (e_num _ _ _ E1). lia.
    + apply Forall_app. split.
      * eapply Forall_impl; [|exact Hacc]. cbn beta. intros y [Y1 Y2]. pose proof (e_num _ _ _ E1). split; [|lia].
        eapply good_mono; [| |exact Y1]; auto. apply (e_keep _ _ _ E1).
      * constructor; auto. split; [right; apply in_map_iff; exists ([(b, (b + 1)%N)], s); auto | eapply wf_range; eauto].
    + intros w HD. apply derives_terminal_inv in HD; auto. apply (tok_term tr1 (L ++ [TByte b])); auto.
      apply Forall2_app; [eapply Forall2_weaken; [|exact HT]; intros; eapply tok_ext; eauto|].
      constructor; auto. exists [(b, (b + 1)%N)]. split; auto. simpl. unfold classes_of_byte.
      assert ((b =? 255)%N = false) as -> by (apply N.eqb_neq; lia). auto.
    + apply Forall2_app; [eapply Forall2_weaken; [|exact HT]; intros; eapply tok_ext; eauto|].
      constructor; auto. exists [(b, (b + 1)%N)]. split; auto. simpl. unfold classes_of_byte.
      assert ((b =? 255)%N = false) as -> by (apply N.eqb_neq; lia). auto.
    + exists l, tr'. cbn [bind]. rewrite F1. split; auto. split; auto. split; [eapply (ext_trans n n); eauto|].
      split; [congruence|]. split; auto. split; auto. rewrite <- app_assoc in F7. exact F7.
Qed.

(** * The walk *)

Definition walk_concat := fix walk_all (l : list hir) (result : list nat) (tr : translator) {struct l}
    : res (list nat * translator) :=
  match l with
  | [] => Ok (result, tr)
  | e :: l' =>
      do (x, tr1) <- walk_hir debug e tr;
      do (result', tr2) <- concat_part result x tr1;
      walk_all l' result' tr2
  end.

Definition walk_alt := fix walk_all (l : list hir) (result : list (list nat)) (tr : translator) {struct l}
    : res (list (list nat) * translator) :=
  match l with
  | [] => Ok (result, tr)
  | e :: l' =>
      do (x, tr1) <- walk_hir debug e tr;
      walk_all l' (result ++ x) tr1
  end.

Definition walked (h : hir) : Prop := supported h -> forall tr, wf tr ->
  exists x tr', walk_hir debug h tr = Ok (x, tr') /\ wf tr' /\ ext (nt tr) tr tr' /\
    roots (tr_cfg tr') = roots (tr_cfg tr) /\ usable (nt tr) tr' x /\ x <> [] /\ sem tr' x (matches h).

Definition cat (l : list hir) (ts : list token) : Prop := exists parts, Forall2 matches l parts /\ ts = concat parts.

Lemma sem_iff : forall tr x (L L' : list token -> Prop), (forall ts, L ts <-> L' ts) -> sem tr x L -> sem tr x L'.
Proof.
  intros tr x L L' H [S1 S2 S3]. constructor.
  - intros r w Hr HD Ht. destruct (S1 r w Hr HD Ht) as [ts [H1 H2]]. exists ts. split; auto. apply H; auto.
  - intros ts w HL HT. apply S2 with ts; auto. apply H; auto.
  - intros ts HL. apply S3. apply H; auto.
Qed.

Lemma sem_cat : forall tr r r' l h, sem tr [r] (cat l) -> sem tr [r'] (matches h) -> sem tr [r ++ r'] (cat (l ++ [h])).
Proof.
  intros tr r r' l h [A1 A2 A3] [B1 B2 B3]. constructor.
  - intros r0 w [<-|[]] HD Ht. apply derives_app_inv in HD. destruct HD as [w1 [w2 [-> [D1 D2]]]].
    apply Forall_app in Ht. destruct Ht as [T1 T2].
    destruct (A1 r w1) as [ts1 [[parts [P1 ->]] P2]]; simpl; auto.
    destruct (B1 r' w2) as [ts2 [Q1 Q2]]; simpl; auto.
    exists (concat parts ++ ts2). split; [|apply Forall2_app; auto]. exists (parts ++ [ts2]). split.
    + apply Forall2_app; auto.
    + rewrite concat_app. simpl. rewrite app_nil_r. auto.
  - intros ts w [parts [P1 ->]] HT. apply Forall2_app_inv_l in P1. destruct P1 as [p1 [p2 [P1 [P2 ->]]]].
    inversion P2 as [|? q ? ? Q1 Q2]; subst. inversion Q2; subst. rewrite concat_app in HT. simpl in HT. rewrite app_nil_r in HT.
    apply tok_app_inv in HT. destruct HT as [u [v [-> [H1 H2]]]]. exists (r ++ r'). split; [simpl; auto|].
    destruct (A2 (concat p1) u) as [r1 [[<-|[]] D1]]; auto; [exists p1; auto|].
    destruct (B2 q v) as [r2 [[<-|[]] D2]]; auto. apply derives_app; auto.
  - intros ts [parts [P1 ->]]. apply Forall2_app_inv_l in P1. destruct P1 as [p1 [p2 [P1 [P2 ->]]]].
    inversion P2 as [|? q ? ? Q1 Q2]; subst. inversion Q2; subst. rewrite concat_app. simpl. rewrite app_nil_r.
    apply Forall_app. split; [apply A3; exists p1; auto | apply B3; auto].
Qed.

Lemma ext_bound_trans : forall n tr tr1 tr2, n <= nt tr -> ext n tr tr1 -> ext (nt tr1) tr1 tr2 -> ext n tr tr2.
Proof. intros n tr tr1 tr2 Hn H1 H2. eapply (ext_trans n (nt tr1)); eauto. pose proof (e_num _ _ _ H1). lia. Qed.

Lemma usable_low : forall n n' tr x, n' <= n -> usable n tr x -> usable n' tr x.
Proof.
  intros n n' tr x Hn H. eapply Forall_impl; [|exact H]. intros r Hr. eapply Forall_impl; [|exact Hr]. cbn beta.
  intros s [H1 H2]. split; auto. eapply good_mono; [| |exact H1]; auto. apply incl_refl.
Qed.

Lemma concat_ok : forall n l tr acc done, Forall walked l -> Forall supported l -> wf tr -> n <= nt tr ->
  usable n tr [acc] -> sem tr [acc] (cat done) ->
  exists r tr', walk_concat l acc tr = Ok (r, tr') /\ wf tr' /\ ext n tr tr' /\
    roots (tr_cfg tr') = roots (tr_cfg tr) /\ usable n tr' [r] /\ sem tr' [r] (cat (done ++ l)).
Proof.
  intros n. induction l as [|h l IH]; intros tr acc done HWk HSup HW Hn HU HS.
  - exists acc, tr. rewrite app_nil_r. simpl. split; auto. split; auto. split; [apply ext_refl|]. auto.
  - inversion HWk; subst. inversion HSup; subst. cbn [walk_concat].
    destruct (H1 H3 tr HW) as [x [tr1 [E1 [W1 [X1 [R1 [U1 [N1 S1]]]]]]]]. rewrite E1. cbn [bind].
    assert (X1' : ext n tr tr1).
    { eapply (ext_trans n (nt tr)); [lia | apply ext_refl | exact X1]. }
    assert (Hn1 : n <= nt tr1) by (pose proof (e_num _ _ _ X1); lia).
    pose proof (sem_ext _ _ _ _ _ HW W1 X1 (usable_bound _ _ _ HU) HS) as HS1.
    pose proof (usable_ext _ _ _ _ _ X1 HU) as HU1.
    assert (HP : exists r' tr2, concat_part acc x tr1 = Ok (acc ++ r', tr2) /\ wf tr2 /\ ext n tr1 tr2 /\
      roots (tr_cfg tr2) = roots (tr_cfg tr1) /\ usable n tr2 [r'] /\ sem tr2 [r'] (matches h)).
    { pose proof (usable_low _ n _ _ Hn U1) as U1'.
      assert (D : (exists r, x = [r]) \/
                  concat_part acc x tr1 = do (s, tr') <- new_symbol_with tr1 x; Ok (acc ++ [s], tr')).
      { destruct x as [|r [|? ?]]; [exfalso; auto | left; eauto | right; reflexivity]. }
      destruct D as [[r ->]|D].
      - exists r, tr1. split; [reflexivity|]. split; auto. split; [apply ext_refl|]. auto.
      - destruct (new_symbol_ok n tr1 x _ W1 Hn1 U1' N1 S1) as [s [tr2 [E2 [W2 [X2 [B2 [R2 S2]]]]]]].
        exists [s], tr2. rewrite D, E2. cbn [bind]. split; auto. split; auto. split; auto. split; auto. split; auto.
        constructor; auto. constructor; auto. split; [left|]; lia. }
    destruct HP as [r' [tr2 [E2 [W2 [X2 [R2 [U2 S2]]]]]]]. rewrite E2. cbn [bind].
    pose proof (sem_ext _ _ _ _ _ W1 W2 X2 (usable_bound _ _ _ HU1) HS1) as HS2.
    pose proof (usable_ext _ _ _ _ _ X2 HU1) as HU2.
    destruct (IH tr2 (acc ++ r') (done ++ [h])) as [r [tr' [E3 [W3 [X3 [R3 [U3 S3]]]]]]]; auto.
    + pose proof (e_num _ _ _ X2). lia.
    + constructor; auto. apply Forall_app. split; [exact (Forall_inv HU2) | exact (Forall_inv U2)].
    + apply sem_cat; auto.
    + exists r, tr'. rewrite <- app_assoc in S3. split; auto. split; auto. split; [|split; [congruence | auto]].
      eapply (ext_trans n n); eauto. eapply (ext_trans n n); eauto.
Qed.

Definition alt (l : list hir) (ts : list token) : Prop := exists h, In h l /\ matches h ts.

Lemma sem_alt : forall tr x x' l h, sem tr x (alt l) -> sem tr x' (matches h) -> sem tr (x ++ x') (alt (l ++ [h])).
Proof.
  intros tr x x' l h [A1 A2 A3] [B1 B2 B3]. constructor.
  - intros r w Hr HD Ht. apply in_app_or in Hr. destruct Hr as [Hr|Hr].
    + destruct (A1 r w Hr HD Ht) as [ts [[h' [H1 H2]] H3]]. exists ts. split; auto. exists h'. split; auto. apply in_or_app; auto.
    + destruct (B1 r w Hr HD Ht) as [ts [H1 H2]]. exists ts. split; auto. exists h. split; auto. apply in_or_app; simpl; auto.
  - intros ts w [h' [H1 H2]] HT. apply in_app_or in H1. destruct H1 as [H1|[<-|[]]].
    + destruct (A2 ts w) as [r [R1 R2]]; auto; [exists h'; auto|]. exists r. split; auto. apply in_or_app; auto.
    + destruct (B2 ts w) as [r [R1 R2]]; auto. exists r. split; auto. apply in_or_app; auto.
  - intros ts [h' [H1 H2]]. apply in_app_or in H1. destruct H1 as [H1|[<-|[]]]; [apply A3; exists h'; auto | auto].
Qed.

Lemma alt_ok : forall n l tr acc done, Forall walked l -> Forall supported l -> wf tr -> n <= nt tr ->
  usable n tr acc -> sem tr acc (alt done) ->
  exists x tr', walk_alt l acc tr = Ok (x, tr') /\ wf tr' /\ ext n tr tr' /\
    roots (tr_cfg tr') = roots (tr_cfg tr) /\ usable n tr' x /\ (acc <> [] \/ l <> [] -> x <> []) /\
    sem tr' x (alt (done ++ l)).
Proof.
  intros n. induction l as [|h l IH]; intros tr acc done HWk HSup HW Hn HU HS.
  - exists acc, tr. rewrite app_nil_r. simpl. split; auto. split; auto. split; [apply ext_refl|].
    split; auto. split; auto. split; auto. tauto.
  - inversion HWk; subst. inversion HSup; subst. cbn [walk_alt].
    destruct (H1 H3 tr HW) as [x [tr1 [E1 [W1 [X1 [R1 [U1 [N1 S1]]]]]]]]. rewrite E1. cbn [bind].
    assert (X1' : ext n tr tr1).
    { eapply (ext_trans n (nt tr)); [lia | apply ext_refl | exact X1]. }
    pose proof (sem_ext _ _ _ _ _ HW W1 X1 (usable_bound _ _ _ HU) HS) as HS1.
    pose proof (usable_ext _ _ _ _ _ X1 HU) as HU1.
    destruct (IH tr1 (acc ++ x) (done ++ [h])) as [x' [tr' [E3 [W3 [X3 [R3 [U3 [N3 S3]]]]]]]]; auto.
    + pose proof (e_num _ _ _ X1). lia.
    + apply Forall_app. split; auto. eapply usable_low; eauto.
    + apply sem_alt; auto.
    + exists x', tr'. rewrite <- app_assoc in S3. split; auto. split; auto. split; [eapply (ext_trans n n); eauto|].
      split; [congruence|]. split; auto. split; auto. intros _. apply N3. left. destruct acc, x; simpl; congruence.
Qed.

Lemma sem_empty_cat : forall tr, wf tr -> sem tr [[]] (cat []).
Proof.
  intros tr HW. constructor.
  - intros r w [<-|[]] HD _. apply derives_nil_inv in HD. subst. exists []. split; [exists []; auto | constructor].
  - intros ts w [parts [P1 ->]] HT. inversion P1; subst. simpl in HT. inversion HT; subst. exists []. split; [simpl; auto | constructor].
  - intros ts [parts [P1 ->]]. inversion P1; subst. constructor.
Qed.

Theorem walk_ok : forall h, walked h.
Proof.
  induction h using hir_ind'; intros HSup tr HW.
  - (* empty *)
    exists [[]], tr. simpl. split; auto. split; auto. split; [apply ext_refl|]. split; auto.
    split; [repeat constructor|]. split; [discriminate|].
    eapply sem_iff; [|apply sem_empty_cat; auto]. intros ts. split.
    + intros [parts [P1 ->]]. inversion P1; subst. constructor.
    + intros H. inversion H; subst. exists []. auto.
  - (* literal *)
    inversion HSup; subst.
    destruct (literal_ok (nt tr) b tr [] [] HW) as [l [tr' [E [W [X [R [G [D T]]]]]]]]; auto.
    { intros w HD. apply derives_nil_inv in HD. auto. }
    exists [l], tr'. cbn [walk_hir]. rewrite E. cbn [bind]. split; auto. split; auto. split; auto. split; auto.
    split; [constructor; auto|]. split; [discriminate|]. simpl in T. constructor.
    + intros r w [<-|[]] HD _. apply D in HD. subst. exists (map TByte b). split; [constructor | auto].
    + intros ts w HM HT. inversion HM; subst. exists l. split; [simpl; auto|].
      assert (w = l); [|subst; constructor].
      clear - T HT W. revert w HT. induction T; intros w HT; inversion HT; subst; auto. f_equal; auto.
      destruct H as [k [E H]], H2 as [k' [E' H']]. assert (k' = k) by congruence. subst.
      eapply keys_inj; [apply (wf_keys _ W)| |]; eauto.
    + intros ts HM. inversion HM; subst. clear - T. unfold covered. induction T; constructor; eauto.
  - (* class *)
    cbn [walk_hir]. destruct (class_sym tr (classes_of_class r) None) as [s tr'] eqn:ES.
    destruct (class_sym_ok (nt tr) _ _ _ _ _ HW ES) as [W [X I]].
    assert (R : roots (tr_cfg tr') = roots (tr_cfg tr)).
    { unfold class_sym in ES. destruct (table_get _ _); injection ES as <- <-; reflexivity. }
    assert (T : tok tr' (TClass r) s) by (exists (classes_of_class r); auto).
    exists [[s]], tr'. split; auto. split; auto. split; auto. split; auto. split; [|split; [discriminate|]].
    { constructor; auto. constructor; auto. split; [right; apply in_map_iff; exists (classes_of_class r, s); auto | eapply wf_range; eauto]. }
    constructor.
    + intros u w [<-|[]] HD _. apply derives_terminal_inv in HD; [|constructor; auto; eapply wf_term; eauto].
      subst. exists [TClass r]. split; [constructor | auto].
    + intros ts w HM HT. inversion HM; subst. inversion HT as [|? s' ? ? H1 H2]; subst. inversion H2; subst.
      exists [s]. split; [simpl; auto|]. destruct H1 as [k' [E' H']]. injection E' as <-.
      rewrite (keys_inj _ _ _ _ (wf_keys _ W) H' I). constructor.
    + intros ts HM. inversion HM; subst. repeat constructor; eauto.
  - (* look-around *)
    inversion HSup.
  - (* repetition *)
    inversion HSup as [| | |? ? ? HM2 HS'| | |]; subst. cbn [walk_hir]. unfold next_sym, src_next.
    set (tr0 := mkTr _ (tr_classes tr)). change (num (src (tr_cfg tr))) with (nt tr).
    assert (N0 : nt tr0 = S (nt tr)) by reflexivity.
    assert (W0 : wf tr0).
    { constructor.
      - apply (wf_limit _ HW).
      - intros q Hq. destruct (wf_closed _ HW q Hq) as [Q1 Q2]. rewrite N0. split; [lia|].
        eapply Forall_impl; [|exact Q2]. cbn beta. intros; lia.
      - intros k s H. apply (wf_range _ HW) in H. lia.
      - exact (wf_term _ HW).
      - apply (wf_keys _ HW).
      - apply (wf_syms _ HW). }
    destruct (IHh HS' tr0 W0) as [x [tr1 [E1 [W1 [X1 [R1 [U1 [NE1 S1]]]]]]]]. rewrite E1. cbn [bind].
    assert (EX : forall (A : Type) (a b : A), match x with [] => a | _ => b end = b) by (destruct x; [congruence | auto]).
    rewrite EX. clear EX.
    destruct (symbol_for_ok (nt tr0) tr1 x _ W1 (e_num _ _ _ X1) U1 NE1 S1)
      as [s [tr2 [E2 [W2 [X2 [G2 [B2 [R2 S2]]]]]]]]. rewrite E2. cbn [bind].
    assert (X02 : ext (nt tr0) tr0 tr2) by (eapply (ext_trans (nt tr0) (nt tr0)); eauto).
    assert (Hlc : ~ In (nt tr) (map snd (tr_classes tr2))).
    { intro H. apply in_map_iff in H. destruct H as [[k y] [Ey H]]. simpl in Ey. subst y.
      apply (e_new _ _ _ X02) in H. destruct H as [H|H]; [|lia]. apply (wf_range _ HW) in H. lia. }
    assert (Hsl : s <> nt tr).
    { intros ->. destruct G2 as [G2|G2]; [lia | auto]. }
    assert (Hno : forall q, In q (rules (tr_cfg tr2)) -> lhs q <> nt tr /\ ~ In (nt tr) (rhs q)).
    { intros q Hq. destruct (e_rules _ _ _ X02) as [c [Ec HF]]. rewrite Ec in Hq. apply in_app_or in Hq.
      destruct Hq as [Hq|Hq].
      - destruct (wf_closed _ HW q Hq) as [Q1 Q2]. split; [lia|]. intro HI.
        pose proof (proj1 (Forall_forall _ _) Q2 _ HI). cbn beta in H. lia.
      - pose proof (proj1 (Forall_forall _ _) HF _ Hq) as [Q1 Q2]. split; [lia|]. intro HI.
        pose proof (proj1 (Forall_forall _ _) Q2 _ HI) as [H|H]; [lia | auto]. }
    assert (Hl2 : nt tr < nt tr2) by (pose proof (e_num _ _ _ X02); lia).
    destruct (repetition_ok tr2 (nt tr) s mi ma _ W2 Hl2 B2 Hsl Hlc Hno HM2 S2)
      as [g' [E3 [W3 [N3 [R3 [[c [Ec HF]] S3]]]]]]. rewrite E3. cbn [bind].
    set (tr3 := mkTr g' (tr_classes tr2)) in *.
    exists [[nt tr]], tr3. split; auto. split; auto. split; [|split; [|split; [|split]]].
    + constructor.
      * lia.
      * destruct (e_rules _ _ _ X02) as [c0 [Ec0 HF0]]. exists (c0 ++ c). cbn [tr_cfg tr3]. rewrite Ec, Ec0, app_assoc.
        split; auto. apply Forall_app. split.
        -- eapply Forall_impl; [|exact HF0]. intros q [Q1 Q2]. split; [lia|]. eapply Forall_impl; [|exact Q2].
           intros y Hy. eapply good_mono; [| |exact Hy]; [lia | apply incl_refl].
        -- eapply Forall_impl; [|exact HF]. intros q [Q1 Q2]. split; [lia|]. eapply Forall_impl; [|exact Q2].
           cbn beta. intros y [Hy|[-> | ->]]; [left; lia | left; lia|].
           eapply good_mono; [| |exact G2]; [lia | apply incl_refl].
      * exact (e_keep _ _ _ X02).
      * intros k y H. apply (e_new _ _ _ X02) in H. destruct H as [H|H]; auto. right. lia.
    + cbn [tr_cfg tr3]. rewrite R3, R2, R1. reflexivity.
    + constructor; auto. constructor; auto. split; [left; lia | lia].
    + discriminate.
    + eapply sem_iff; [|exact S3]. intros ts. split.
      * intros [parts [-> [P1 [P2 P3]]]]. constructor; auto.
      * intros H. inversion H; subst. exists parts. split; auto. split; auto. split; auto.
  - (* capture *)
    inversion HSup; subst. cbn [walk_hir]. destruct (IHh H0 tr HW) as [x [tr' [E [W [X [R [U [NE S]]]]]]]].
    exists x, tr'. split; auto. split; auto. split; auto. split; auto. split; auto. split; auto.
    eapply sem_iff; [|exact S]. intros ts. split; [constructor; auto | intros HM; inversion HM; auto].
  - (* concatenation *)
    inversion HSup; subst. cbn [walk_hir].
    destruct (concat_ok (nt tr) l tr [] [] H H1 HW) as [r [tr' [E [W [X [R [U S]]]]]]]; auto.
    { constructor; auto. }
    { apply sem_empty_cat; auto. }
    change (fix walk_all (l0 : list hir) (result : list nat) (tr0 : translator) {struct l0} : res (list nat * translator) :=
      match l0 with
      | [] => Ok (result, tr0)
      | e :: l' => do (x, tr1) <- walk_hir debug e tr0; do (result', tr2) <- concat_part result x tr1; walk_all l' result' tr2
      end) with walk_concat.
    rewrite E. cbn [bind]. exists [r], tr'. split; auto. split; auto. split; auto. split; auto. split; auto.
    split; [discriminate|]. eapply sem_iff; [|exact S]. intros ts. simpl. split.
    + intros [parts [P1 ->]]. constructor; auto.
    + intros HM. inversion HM; subst. exists parts. auto.
  - (* alternation *)
    inversion HSup as [| | | | | |? HNE HF]; subst. cbn [walk_hir].
    destruct (alt_ok (nt tr) l tr [] [] H HF HW) as [x [tr' [E [W [X [R [U [NE S]]]]]]]]; auto.
    { constructor. }
    { constructor; [intros r w []|intros ts w [h [[] _]]|intros ts [h [[] _]]]. }
    change (fix walk_all (l0 : list hir) (result : list (list nat)) (tr0 : translator) {struct l0}
        : res (list (list nat) * translator) :=
      match l0 with
      | [] => Ok (result, tr0)
      | e :: l' => do (x, tr1) <- walk_hir debug e tr0; walk_all l' (result ++ x) tr1
      end) with walk_alt.
    exists x, tr'. split; auto. split; auto. split; auto. split; auto. split; auto. split; auto.
    eapply sem_iff; [|exact S]. intros ts. simpl. split.
    + intros [h [H1 H2]]. econstructor; eauto.
    + intros HM. inversion HM; subst. exists h. auto.
Qed.

Theorem from_hir_ok : forall h, supported h -> exists g lm root,
  cfg_from_hir debug h = Ok (g, lm) /\ roots g = [root] /\ closed_rules g /\ root < num_syms g /\
  NoDup (map fst (lm_classes lm)) /\ NoDup (map snd (lm_classes lm)) /\
  (forall k s, In (k, s) (lm_classes lm) -> s < num_syms g /\ terminal (prods g) s) /\
  (forall ts, matches h ts -> Forall (fun t => exists k s, token_classes debug t = Ok k /\ In (k, s) (lm_classes lm)) ts) /\
  forall w, language (prods g) root w <->
    exists ts, matches h ts /\
      Forall2 (fun t s => exists k, token_classes debug t = Ok k /\ In (k, s) (lm_classes lm)) ts w.
Proof.
  intros h HSup. set (tr0 := mkTr cfg_new []).
  assert (W0 : wf tr0).
  { constructor.
    - reflexivity.
    - intros q [].
    - intros k s [].
    - intros k s [].
    - constructor.
    - constructor. }
  destruct (walk_ok h HSup tr0 W0) as [x [tr1 [E1 [W1 [X1 [R1 [U1 [NE1 S1]]]]]]]].
  destruct (symbol_for_ok (nt tr0) tr1 x _ W1 (e_num _ _ _ X1) U1 NE1 S1)
    as [s [tr2 [E2 [W2 [X2 [G2 [B2 [R2 S2]]]]]]]].
  unfold cfg_from_hir. fold tr0. rewrite E1. cbn [bind].
  assert (EX : forall (A : Type) (a b : A), match x with [] => a | _ => b end = b) by (destruct x; [congruence | auto]).
  rewrite EX. rewrite E2. cbn [bind]. eexists _, _, s. split; [reflexivity|]. split; [reflexivity|].
  split; [exact (wf_closed _ W2)|]. split; [exact B2|]. cbn [lm_classes].
  split; [apply (wf_keys _ W2)|]. split; [apply (wf_syms _ W2)|]. split; [|split].
  - intros k y H. split; [exact (wf_range _ W2 _ _ H) | exact (wf_term _ W2 _ _ H)].
  - intros ts H. eapply Forall_impl; [|exact (sm_covered _ _ _ S2 _ H)]. intros t [y [k [K1 K2]]]. exists k, y. auto.
  - intros w. change (prods (set_roots (tr_cfg tr2) [s])) with (pr tr2). split.
    + intros [HD Ht]. exact (sm_sound _ _ _ S2 [s] w (or_introl eq_refl) HD Ht).
    + intros [ts [H1 H2]]. split.
      * destruct (sm_complete _ _ _ S2 ts w H1 H2) as [r [[<-|[]] HD]]. exact HD.
      * apply (tok_term tr2 ts); auto.
Qed.
End Walk.
