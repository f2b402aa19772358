(** The advanced loader: the language of the grammar, and the rest of the result. *)

From Coq Require Import String Ascii List Arith NArith Bool Lia Permutation.
From Verif Require Import Base ListFacts Spec SpecSeq SpecRegex SpecRemap GrammarFacts SymbolModel LoopModel LoopFacts HistoryModel
  CfgModel BitSetModel View SeqModel RegexModel RegexProof RegexProof2 RemapModel PropsSeq SpecLoad SpecAdv LoadModel LoadParseProof LoadProof
  AdvModel AdvParseProof AdvRegexProof AdvEmbedProof AdvLoadProof AdvLoadProof2 AdvLoadProof3.
Import ListNotations.
Local Open Scope list_scope.
Local Notation length := List.length.

(** * Rules *)

Definition erased (xs : list (xrule * bool)) : list (adv_rule * bool) := map (fun p => (erase_rule (fst p), snd p)) xs.

(** No left-hand side belongs to both the parser and the lexer. *)
Definition disjoint_sides (l : list (adv_rule * bool)) : Prop :=
  forall x fs act fs' act', In ((x, fs, act), true) l -> In ((x, fs', act'), false) l -> False.

Lemma rules_step : forall debug rx xs st done, rules_loaded debug rx st done -> Forall (fun p => good_rule rx (fst p)) (erased xs) ->
  disjoint_sides (done ++ erased xs) -> exists st',
  adv_load_rules debug rx xs st = Ok (inl st') /\ rules_loaded debug rx st' (done ++ erased xs).
Proof.
  intros debug rx. induction xs as [|[xr b] xs IH]; intros st done HR HG HD.
  - exists st. unfold erased. cbn. rewrite app_nil_r. auto.
  - inversion HG as [|? ? G1 G2]; subst. cbn [fst snd] in G1.
    destruct (rule_step debug rx st done xr b HR G1) as [st1 [E1 R1]].
    { intros -> fs act Hin. apply (HD (xr_lhs xr) (map xf_frag (xr_rhs xr)) (xr_action xr) fs act).
      - apply in_or_app. right. left. reflexivity.
      - apply in_or_app. left. exact Hin. }
    destruct (IH st1 _ R1 G2) as [st2 [E2 R2]].
    { rewrite <- app_assoc. exact HD. }
    exists st2. cbn [adv_load_rules]. rewrite E1. cbn [bind]. split; [exact E2|]. rewrite <- app_assoc in R2. exact R2.
Qed.

Lemma new_loaded : forall debug rx, rules_loaded debug rx adv_loop_new [].
Proof.
  intros debug rx. constructor; cbn.
  - exists []. split.
    + constructor; cbn.
      * constructor; cbn.
        -- constructor; cbn; try reflexivity; try apply NoDup_nil; try discriminate; intros ? [].
        -- constructor; cbn; [constructor|constructor|intros k s []].
        -- intros s [].
        -- intros r [].
        -- constructor.
      * intros x s H. discriminate.
      * intros [|i] t H; discriminate.
      * constructor.
      * intros s. split; [intros []|intros [[]|[i [H _]]]; lia].
    + intros s. split; [intros []|intros [l [fs [act [[] _]]]]].
  - reflexivity.
  - reflexivity.
  - intros i. split; [intros []|intros [l [fs [act [[] _]]]]].
  - exists [], []. split; [constructor|]. split; constructor.
  - exact I.
  - intros t. split; [intros []|intros [l [fs [act [[] _]]]]].
  - intros x Hx. split; [intros H; exfalso; apply H; reflexivity|intros [l [fs [act [[] _]]]]].
Qed.

(** * The language *)

Lemma visible_dec : forall a L s, inv a L -> visible a s \/ ~ visible a s.
Proof.
  intros a L s HI. destruct (in_dec Nat.eq_dec s (map snd (al_classes a))) as [Hi|Hi]; [left; right; exact Hi|].
  destruct (in_dec Nat.eq_dec s (map snd (ld_map (al_names a)))) as [Hj|Hj].
  - destruct (seen_lookup _ _ (so_good _ (i_sound _ _ HI)) Hj) as [x Hx]. destruct (i_names _ _ HI x s Hx) as [H|[i [_ ->]]].
    + left. left. exists x. auto.
    + right. intros X. apply (visible_named _ _ _ (i_sound _ _ HI) Hx) in X. exact (X i eq_refl).
  - right. intros [[x [_ E]]|Hin]; [|contradiction]. apply Hj. exact (lookup_seen _ _ _ E).
Qed.

Section Language.
Context (debug : bool) (rx : text -> option hir) (st : adv_loop) (done : list (adv_rule * bool)) (sym : string -> nat) (L : list nat).
Let a := lp_loader st.
Let T := al_classes a.
Context (HR : rules_loaded debug rx st done) (HG : Forall (fun p => good_rule rx (fst p)) done) (HI : inv a L)
  (HA : agrees (al_names a) sym).

Definition written_here : productions := described sym (char_symbol T) (token_symbol debug T) rx (map fst done).

Let HN : NoDup (map fst T) := t_keys _ _ (so_table _ (i_sound _ _ HI)).

Definition hidden_prods : productions := fun A r => prods (al_cfg a) A r /\ ~ visible a A.
Definition settled (s : nat) : Prop := visible a s \/ terminal (prods (al_cfg a)) s.
Definition reading (s : nat) (v : list nat) : Prop :=
  (visible a s /\ v = [s]) \/ (~ visible a s /\ derives hidden_prods [s] v /\ Forall settled v).

Lemma reading_hidden : forall r v, lift reading r v -> derives hidden_prods r v /\ Forall settled v.
Proof.
  intros r v H. induction H as [|s u x y Hx _ [IH1 IH2]]; [split; constructor|].
  destruct Hx as [[V ->]|[V [D F]]].
  - split; [exact (derives_cons hidden_prods s u [s] y (derives_refl _ _) IH1)|]. constructor; [left; exact V|exact IH2].
  - split; [exact (derives_cons hidden_prods s u x y D IH1)|]. apply Forall_app. split; assumption.
Qed.

Lemma placed_reads : forall f s v, good_fragment rx f -> placed debug rx a f s -> reading s v ->
  stands_for sym (char_symbol T) (token_symbol debug T) rx f v.
Proof.
  intros f s v [_ HF] [Hs HP] HV.
  assert (G : (exists U, part a U /\ (visible a s \/ ~ visible a s /\ forall r, prods (al_cfg a) s r -> U s r) /\ means debug rx a U f s /\
    (exists w, language U s w) /\ (forall x k, f = FName x k -> lookup (al_names a) x <> None)) ->
    stands_for sym (char_symbol T) (token_symbol debug T) rx f v).
  { intros [U [PU [SU [MU [_ _]]]]]. apply (MU sym T HA (incl_refl _) HN). destruct HV as [[V ->]|[V [D F]]].
    - split; [constructor|]. constructor; [|constructor]. intros r Hr. exact (p_hidden _ _ PU s r Hr V).
    - destruct SU as [SU|[_ SU]]; [contradiction|]. split.
      + apply (derives_within hidden_prods U (fun x => visible a x \/ forall r, prods (al_cfg a) x r -> U x r)) with (u := [s]); [|exact D|].
        * intros A r DA [PA VA]. destruct DA as [DA|DA]; [contradiction|]. split; [exact (DA r PA)|]. apply Forall_forall. intros y Hy.
          destruct (visible_dec a L y HI) as [Vy|Vy]; [left; exact Vy|right]. intros r' Hr'. exact (p_rhs _ _ PU A r y r' (DA r PA) Hy Vy Hr').
        * constructor; [right; exact SU|constructor].
      + eapply Forall_impl; [|exact F]. intros y [Vy|Ty] r Hr.
        * exact (p_hidden _ _ PU y r Hr Vy).
        * exact (Ty r (p_in _ _ PU y r Hr)). }
  destruct f as [x [| |]|t|func t]; try (apply G; exact HP).
  cbn [plain_fragment] in HF. assert (V : visible a s) by (left; exists x; auto).
  destruct HV as [[_ ->]|[V' _]]; [|contradiction]. rewrite <- (HA x s HP). constructor.
Qed.

Lemma placed_derives : forall f s v, placed debug rx a f s -> stands_for sym (char_symbol T) (token_symbol debug T) rx f v ->
  derives (prods (al_cfg a)) [s] v.
Proof.
  intros f s v [Hs HP] HV.
  assert (G : (exists U, part a U /\ (visible a s \/ ~ visible a s /\ forall r, prods (al_cfg a) s r -> U s r) /\ means debug rx a U f s /\
    (exists w, language U s w) /\ (forall x k, f = FName x k -> lookup (al_names a) x <> None)) -> derives (prods (al_cfg a)) [s] v).
  { intros [U [PU [_ [MU _]]]]. apply (MU sym T HA (incl_refl _) HN) in HV. destruct HV as [D _].
    eapply derives_mono; [|exact D]. apply (p_in _ _ PU). }
  destruct f as [x [| |]|t|func t]; try (apply G; exact HP).
  inversion HV; subst. rewrite (HA x s HP). constructor.
Qed.

Lemma placed_inhabited : forall f s, placed debug rx a f s -> exists v, stands_for sym (char_symbol T) (token_symbol debug T) rx f v.
Proof.
  intros f s [Hs HP].
  assert (G : (exists U, part a U /\ (visible a s \/ ~ visible a s /\ forall r, prods (al_cfg a) s r -> U s r) /\ means debug rx a U f s /\
    (exists w, language U s w) /\ (forall x k, f = FName x k -> lookup (al_names a) x <> None)) ->
    exists v, stands_for sym (char_symbol T) (token_symbol debug T) rx f v).
  { intros [U [PU [_ [MU [[w Hw] _]]]]]. exists w. apply (MU sym T HA (incl_refl _) HN). exact Hw. }
  destruct f as [x [| |]|t|func t]; try (apply G; exact HP).
  exists [sym x]. constructor.
Qed.

(** A rule of the grammar was written, or its left-hand side is hidden. *)
Lemma rule_cases : forall A r, prods (al_cfg a) A r ->
  (~ visible a A) \/ exists l fs act b, In ((l, fs, act), b) done /\ lookup (al_names a) l = Some A /\ Forall2 (placed debug rx a) fs r.
Proof.
  intros A r [x [Hx [<- <-]]]. destruct (r_rules _ _ _ _ HR) as [mains [helpers [HP [HM HH]]]]. fold a in HP, HM, HH.
  apply (Permutation_in _ HP) in Hx. apply in_app_or in Hx. destruct Hx as [Hx|Hx].
  - right. assert (G : forall ps ms, Forall2 (main debug rx a) ps ms -> In x ms -> exists p, In p ps /\ main debug rx a p x).
    { clear. intros ps ms H. induction H as [|p m ps ms H1 _ IH]; intros Hx; [contradiction|]. destruct Hx as [->|Hx]; [exists p; split; [left; reflexivity|exact H1]|].
      destruct (IH Hx) as [q [Hq1 Hq2]]. exists q. split; [right; exact Hq1|exact Hq2]. }
    destruct (G _ _ HM Hx) as [[i [[[l fs] act] b]] [Hin [M1 [M2 _]]]]. exists l, fs, act, b. split; [exact (in_numbered _ _ _ Hin)|]. auto.
  - left. rewrite Forall_forall in HH. apply (HH x Hx).
Qed.

Lemma rule_there : forall l fs act b, In ((l, fs, act), b) done -> exists A r, prods (al_cfg a) A r /\ lookup (al_names a) l = Some A /\
  Forall2 (placed debug rx a) fs r.
Proof.
  intros l fs act b Hin. destruct (r_rules _ _ _ _ HR) as [mains [helpers [HP [HM HH]]]]. fold a in HP, HM, HH.
  assert (Hn : exists i, In (i, ((l, fs, act), b)) (numbered done)).
  { apply In_nth_error in Hin. destruct Hin as [n Hn]. exists (1 + n). unfold numbered. clear -Hn. revert n Hn. generalize 1 as k.
    induction done as [|x d IH]; intros k [|n] Hn; try discriminate; cbn in *.
    - injection Hn as ->. left. f_equal. lia.
    - right. replace (k + S n) with (S k + n) by lia. apply IH. exact Hn. }
  destruct Hn as [i Hn].
  assert (G : forall ps ms, Forall2 (main debug rx a) ps ms -> In (i, ((l, fs, act), b)) ps -> exists x, In x ms /\ main debug rx a (i, ((l, fs, act), b)) x).
  { clear. intros ps ms H. induction H as [|p m ps ms H1 _ IH]; intros Hx; [contradiction|]. destruct Hx as [->|Hx]; [exists m; split; [left; reflexivity|exact H1]|].
    destruct (IH Hx) as [q [Hq1 Hq2]]. exists q. split; [right; exact Hq1|exact Hq2]. }
  destruct (G _ _ HM Hn) as [x [Hx [M1 [M2 _]]]]. exists (lhs x), (rhs x). split; [|split; assumption]. exists x.
  split; [eapply Permutation_in; [symmetry; exact HP|apply in_or_app; left; exact Hx]|auto].
Qed.

Lemma good_of : forall l fs act b, In ((l, fs, act), b) done -> ordinary l /\ Forall (good_fragment rx) fs.
Proof. intros l fs act b Hin. rewrite Forall_forall in HG. exact (HG _ Hin). Qed.

Lemma stand_reads : forall fs rs v, Forall (good_fragment rx) fs -> Forall2 (placed debug rx a) fs rs -> lift reading rs v ->
  stand_for sym (char_symbol T) (token_symbol debug T) rx fs v.
Proof.
  intros fs rs v HF H. revert v. induction H as [|f s fs rs H1 H2 IH]; intros v Hv.
  - inversion Hv; subst. constructor.
  - inversion HF; subst. inversion Hv; subst. constructor; [|apply IH; assumption]. eapply placed_reads; eauto.
Qed.
Lemma stand_derives : forall fs rs v, Forall2 (placed debug rx a) fs rs -> stand_for sym (char_symbol T) (token_symbol debug T) rx fs v ->
  derives (prods (al_cfg a)) rs v.
Proof.
  intros fs rs v H. revert v. induction H as [|f s fs rs H1 H2 IH]; intros v Hv; inversion Hv; subst; [constructor|].
  apply derives_cons; [eapply placed_derives; eauto|apply IH; assumption].
Qed.
Lemma stand_inhabited : forall fs rs, Forall2 (placed debug rx a) fs rs -> exists v, stand_for sym (char_symbol T) (token_symbol debug T) rx fs v.
Proof.
  intros fs rs H. induction H as [|f s fs rs H1 _ [v IH]]; [exists []; constructor|].
  destruct (placed_inhabited f s H1) as [u Hu]. exists (u ++ v). constructor; assumption.
Qed.

(** What is written is visible. *)
Lemma written_visible : forall A r, written_here A r -> visible a A /\ Forall (visible a) r.
Proof.
  intros A r [l [fs [act [Hin [-> HS]]]]]. apply in_map_iff in Hin. destruct Hin as [[[[l' fs'] act'] b] [E Hin]]. cbn in E. injection E as -> -> ->.
  assert (NV : forall x, ordinary x -> adv_named (map fst done) x -> visible a (sym x)).
  { intros x Hx Hn. apply (r_names _ _ _ _ HR x Hx) in Hn. fold a in Hn. destruct (lookup (al_names a) x) as [s|] eqn:Es; [|congruence].
    left. exists x. split; [exact Hx|]. rewrite (HA x s Es). exact Es. }
  destruct (good_of _ _ _ _ Hin) as [G1 G2]. split.
  - apply NV; [exact G1|]. exists l, fs, act. split; [apply in_map_iff; exists ((l, fs, act), b); auto|left; reflexivity].
  - assert (SUB : forall f, In f fs -> good_fragment rx f /\ forall x k, f = FName x k -> adv_named (map fst done) x).
    { intros f Hf. rewrite Forall_forall in G2. split; [exact (G2 f Hf)|]. intros x k ->. exists l, fs, act.
      split; [apply in_map_iff; exists ((l, fs, act), b); auto|right; exists k; exact Hf]. }
    clear Hin G2. induction HS as [|f fs u w Hu _ IH]; [constructor|]. apply Forall_app. split; [|apply IH; intros g Hg; apply SUB; right; exact Hg].
    destruct (SUB f (or_introl eq_refl)) as [[_ PF] NF]. apply Forall_forall. intros s Hs.
    inversion Hu as [x Ex|x n Ex|x n Hn Ex|t w' Ht|func t h ts w' H1 H2 H3]; subst.
    + destruct Hs as [<-|[]]. apply NV; [exact PF|]. eapply NF; reflexivity.
    + apply repeat_spec in Hs. subst s. apply NV; [exact PF|]. eapply NF; reflexivity.
    + apply repeat_spec in Hs. subst s. apply NV; [exact PF|]. eapply NF; reflexivity.
    + right. exact (chars_classes _ _ _ _ Ht Hs).
    + right. clear -H3 Hs. induction H3 as [|c y l l' [k [_ H]] _ IH]; [contradiction|]. destruct Hs as [->|Hs]; [|auto].
      apply (in_map snd) in H. exact H.
Qed.

Lemma terminals_same : forall s, visible a s -> (terminal (prods (al_cfg a)) s <-> terminal written_here s).
Proof.
  intros s V. split; intros HT r Hr.
  - destruct Hr as [l [fs [act [Hin [-> _]]]]]. apply in_map_iff in Hin. destruct Hin as [[[[l' fs'] act'] b] [E Hin]]. cbn in E. injection E as -> -> ->.
    destruct (rule_there _ _ _ _ Hin) as [A [r' [HP [EA _]]]]. rewrite (HA l A EA) in HT. exact (HT r' HP).
  - destruct (rule_cases s r Hr) as [NV|[l [fs [act [b [Hin [EA HF]]]]]]]; [contradiction|].
    destruct (stand_inhabited _ _ HF) as [v Hv]. apply (HT v). exists l, fs, act.
    split; [apply in_map_iff; exists ((l, fs, act), b); auto|]. split; [symmetry; apply HA; exact EA|exact Hv].
Qed.

Theorem loaded_language : forall A, visible a A -> forall w, language (prods (al_cfg a)) A w <-> language written_here A w.
Proof.
  intros A VA w. split.
  - intros [HD HW].
    destruct (derives_subst (prods (al_cfg a)) written_here reading) with (a := [A]) (b := w) (v := w) as [u [U1 U2]]; [|exact HD| |].
    + intros B r v HB Hv. destruct (visible_dec a L B HI) as [VB|VB].
      * destruct (rule_cases B r HB) as [NV|[l [fs [act [b [Hin [EB HF]]]]]]]; [contradiction|]. exists [B].
        split; [left; auto|]. apply derives_rule. exists l, fs, act. split; [apply in_map_iff; exists ((l, fs, act), b); auto|].
        split; [symmetry; apply HA; exact EB|]. eapply stand_reads; eauto. apply (good_of _ _ _ _ Hin).
      * exists v. split; [|constructor]. destruct (reading_hidden r v Hv) as [D F]. right. split; [exact VB|]. split; [|exact F].
        eapply derives_rule_then; [split; [exact HB|exact VB]|exact D].
    + apply lift_id. intros s Hs. rewrite Forall_forall in HW. destruct (visible_dec a L s HI) as [V|V]; [left; auto|right].
      split; [exact V|]. split; [constructor|]. constructor; [right; apply HW; exact Hs|constructor].
    + apply lift_single in U1. destruct U1 as [[_ ->]|[V _]]; [|contradiction]. split; [exact U2|].
      assert (VW : Forall (visible a) w).
      { apply (derives_Forall written_here (visible a)) with (u := [A]); [|exact U2|constructor; [exact VA|constructor]].
        intros B r HB _. apply (written_visible B r HB). }
      rewrite Forall_forall in *. intros s Hs. apply (terminals_same s (VW s Hs)). apply HW. exact Hs.
  - intros [HD HW]. split.
    + eapply derives_sim; [|exact HD]. intros B r [l [fs [act [Hin [-> HS]]]]]. apply in_map_iff in Hin.
      destruct Hin as [[[[l' fs'] act'] b] [E Hin]]. cbn in E. injection E as -> -> ->.
      destruct (rule_there _ _ _ _ Hin) as [B [r' [HP [EA HF]]]]. rewrite (HA l B EA). eapply derives_rule_then; [exact HP|].
      eapply stand_derives; eauto.
    + assert (VW : Forall (visible a) w).
      { apply (derives_Forall written_here (visible a)) with (u := [A]); [|exact HD|constructor; [exact VA|constructor]].
        intros B r HB _. apply (written_visible B r HB). }
      rewrite Forall_forall in *. intros s Hs. apply (terminals_same s (VW s Hs)). apply HW. exact Hs.
Qed.
End Language.
