(** The advanced loader: faults of rules, and the absence of panics. *)

From Coq Require Import String Ascii List Arith NArith Bool Lia Permutation.
From Verif Require Import Base ListFacts Spec SpecSeq SpecRegex SpecRemap GrammarFacts SymbolModel LoopModel LoopFacts HistoryModel
  CfgModel BitSetModel SetView SetProof View SeqModel RegexModel RegexProof RegexProof2 RemapModel PropsSeq SpecLoad SpecAdv LoadModel LoadParseProof LoadProof
  AdvModel SpecAdv2 AdvParseProof AdvRegexProof AdvEmbedProof AdvLoadProof AdvLoadProof2 AdvLoadProof3 AdvLoadProof4.
Import ListNotations.
Local Open Scope list_scope.
Local Notation length := List.length.

(** A fragment that does not panic. *)
Definition safe_fragment (rx : text -> option hir) (f : adv_fragment) : Prop :=
  match f with
  | FName _ _ => True
  | FString s => Forall char_ok s
  | FCall func s => func = regexp_name -> forall h, rx s = Some h -> supported h
  end.

Lemma fragment_cases : forall rx f, safe_fragment rx f ->
  (frag_ok rx f /\ forall e, ~ fragment_fault rx f e) \/ exists e, fragment_fault rx f e.
Proof.
  intros rx [x k|s|func s] H.
  - left. split; [exact I|]. intros e X. inversion X.
  - left. split; [exact H|]. intros e X. inversion X.
  - destruct (string_dec func regexp_name) as [->|N]; [|right; exists NotRegexp; constructor; exact N].
    destruct (rx s) as [h|] eqn:E.
    + left. split; [split; [reflexivity|]; exists h; split; [exact E|]; exact (H eq_refl h E)|].
      intros e X. inversion X; subst; [contradiction|congruence].
    + right. exists BadRegexp. constructor. exact E.
Qed.

Lemma fragment_faults : forall debug rx a xf e, fragment_fault rx (xf_frag xf) e -> exists err,
  adv_load_fragment debug rx a xf = Ok (inr err) /\ le_reason err = e.
Proof.
  intros debug rx a xf e H. unfold adv_load_fragment. inversion H as [func s N E|s N E].
  - apply String.eqb_neq in N. unfold regexp_name. rewrite N. cbn [negb]. eexists. split; reflexivity.
  - change (String.eqb "Regexp" regexp_name) with true. cbn [negb]. rewrite N. eexists. split; reflexivity.
Qed.

Lemma fragments_out : forall debug rx xfs a syms, sound a -> Forall (fun xf => safe_fragment rx (xf_frag xf)) xfs ->
  Forall (fun s => s < num_syms (al_cfg a)) syms ->
  (exists rs a' c, adv_load_fragments debug rx xfs syms a = Ok (inl (rs, a')) /\ sound a' /\ extends a a' c /\
     Forall (fun s => s < num_syms (al_cfg a')) rs /\ (exists m, ld_intern (al_names a') = ld_intern (al_names a) ++ m) /\
     forall e, ~ first_fragment_fault rx (map xf_frag xfs) e) \/
  (exists err, adv_load_fragments debug rx xfs syms a = Ok (inr err) /\ first_fragment_fault rx (map xf_frag xfs) (le_reason err)).
Proof.
  intros debug rx. induction xfs as [|xf xfs IH]; intros a syms HS HF HB.
  - left. exists syms, a, []. split; [reflexivity|]. split; [exact HS|]. split; [apply extends_refl|]. split; [exact HB|].
    split; [exists []; rewrite app_nil_r; reflexivity|]. intros e [[|x pre] [f [post [E _]]]]; discriminate.
  - inversion HF as [|? ? F1 F2]; subst. cbn [adv_load_fragments map].
    destruct (fragment_cases rx _ F1) as [[OK NF]|[e Fe]].
    + destruct (fragment_ok debug rx a xf HS OK) as [s [a1 [c1 [E1 [S1 [X1 [B1 _]]]]]]]. rewrite E1. cbn [bind].
      pose proof (fragment_intern _ _ _ _ _ _ E1) as [m1 M1].
      destruct (IH a1 (syms ++ [s]) S1 F2) as [[rs [a2 [c2 [E2 [S2 [X2 [B2 [[m2 M2] N2]]]]]]]]|[err [E2 N2]]].
      { apply Forall_app. split; [|constructor; [exact B1|constructor]]. eapply Forall_impl; [|exact HB]. cbn beta. intros x Hx.
        pose proof (ex_le _ _ _ X1). lia. }
      * left. exists rs, a2, (c1 ++ c2). split; [exact E2|]. split; [exact S2|]. split; [exact (extends_trans _ _ _ _ _ X1 X2)|].
        split; [exact B2|]. split; [exists (m1 ++ m2); rewrite M2, M1, app_assoc; reflexivity|].
        intros e [[|x pre] [f [post [E [HP HE]]]]]; cbn [app] in E; injection E as E E'.
        -- subst f. exact (NF _ HE).
        -- apply (N2 e). exists pre, f, post. split; [exact E'|]. split; [|exact HE]. intros y e' Hy. apply HP. right. exact Hy.
      * right. exists err. split; [exact E2|]. destruct N2 as [pre [f [post [E [HP HE]]]]].
        exists (xf_frag xf :: pre), f, post. split; [rewrite E; reflexivity|]. split; [|exact HE].
        intros x e' [<-|Hx]; [apply NF|apply HP; exact Hx].
    + right. destruct (fragment_faults debug rx a xf e Fe) as [err [E1 Er]]. exists err. rewrite E1. split; [reflexivity|].
      exists [], (xf_frag xf), (map xf_frag xfs). split; [reflexivity|]. split; [intros x e' []|]. rewrite Er. exact Fe.
Qed.

(** What holds of the loop, whatever the names. *)
Record base (st : adv_loop) (done : list (adv_rule * bool)) : Prop := {
  b_sound : sound (lp_loader st);
  b_idx : lp_idx st = length done;
  b_known : forall l fs act b, In ((l, fs, act), b) done -> exists i, string_index (ld_intern (al_names (lp_loader st))) l = Some i;
  b_parser : forall i, In i (lp_parser st) <->
    exists l fs act, In ((l, fs, act), false) done /\ string_index (ld_intern (al_names (lp_loader st))) l = Some i
}.

Lemma sound_roots : forall a ld s, sound (with_names a ld) -> sound (with_names a (set_ld_cfg ld (set_roots (ld_cfg ld) s))).
Proof.
  intros a ld s HS. constructor.
  - constructor; apply (so_good _ HS).
  - constructor; apply (so_table _ HS).
  - apply (so_apart _ HS).
  - apply (so_clean _ HS).
  - apply (so_lexical _ HS).
Qed.

Lemma rule_out : forall debug rx st done xr (b : bool), base st done -> Forall (fun xf => safe_fragment rx (xf_frag xf)) (xr_rhs xr) ->
  (exists st', adv_load_rule debug rx st (xr, b) = Ok (inl st') /\ base st' (done ++ [(erase_rule xr, b)]) /\
     forall e, ~ rule_fault rx done (erase_rule xr, b) e) \/
  (exists err, adv_load_rule debug rx st (xr, b) = Ok (inr err) /\ rule_fault rx done (erase_rule xr, b) (le_reason err)).
Proof.
  intros debug rx st done xr b HR HF. pose proof (b_sound _ _ HR) as HS. set (a := lp_loader st) in *.
  unfold adv_load_rule. fold a. destruct (get_or_intern (ld_intern (al_names a)) (xr_lhs xr)) as [id it] eqn:Eid. cbn [fst].
  pose proof (get_or_intern_index (ld_intern (al_names a)) (xr_lhs xr)) as Hix. rewrite Eid in Hix. cbn [fst snd] in Hix.
  pose proof (get_or_intern_app (ld_intern (al_names a)) (xr_lhs xr)) as [m Hm]. rewrite Eid in Hm. cbn [snd] in Hm.
  assert (PS : existsb (Nat.eqb id) (lp_parser st) = true <-> parser_side done (xr_lhs xr)).
  { rewrite existsb_exists. split.
    - intros [i [Hi Ei]]. apply Nat.eqb_eq in Ei. subst i. apply (b_parser _ _ HR) in Hi. destruct Hi as [l [fs [act [Hl El]]]]. fold a in El.
      apply (string_index_app _ m) in El. rewrite <- Hm in El. apply string_index_some in El, Hix. assert (l = xr_lhs xr) by congruence. subst l.
      exists fs, act. exact Hl.
    - intros [fs [act Hl]]. destruct (b_known _ _ HR _ _ _ _ Hl) as [i Hi]. exists i. split.
      + apply (b_parser _ _ HR). exists (xr_lhs xr), fs, act. auto.
      + fold a in Hi. apply (string_index_app _ m) in Hi. rewrite <- Hm in Hi. apply Nat.eqb_eq. congruence. }
  destruct (b && existsb (Nat.eqb id) (lp_parser st)) eqn:NI.
  { right. apply andb_true_iff in NI. destruct NI as [-> NI]. eexists. split; [reflexivity|]. cbn [le_reason]. constructor. apply PS. exact NI. }
  assert (NP : b = true -> ~ parser_side done (xr_lhs xr)).
  { intros -> X. apply PS in X. rewrite X in NI. discriminate. }
  destruct (name_step a (xr_lhs xr) HS) as [l [ld [E1 [S1 [X1 [L1 _]]]]]]. rewrite E1.
  pose proof (symbol_named_intern _ _ _ _ E1) as EI. rewrite Eid in EI. cbn [snd] in EI.
  set (ld1 := if lp_idx st =? 0 then set_ld_cfg ld (set_roots (ld_cfg ld) [l]) else ld). fold (with_names a ld1).
  assert (SS : sound (with_names a ld1)) by (unfold ld1; destruct (lp_idx st =? 0); [apply sound_roots|]; exact S1).
  assert (EL : lookup ld1 (xr_lhs xr) = Some l) by (unfold ld1; destruct (lp_idx st =? 0); exact L1).
  assert (EI1 : ld_intern ld1 = it) by (unfold ld1; destruct (lp_idx st =? 0); exact EI).
  destruct (fragments_out debug rx (xr_rhs xr) (with_names a ld1) [] SS HF (Forall_nil _)) as
    [[rs [a2 [c2 [E2 [S2 [X2 [B2 [[m2 M2] N2]]]]]]]]|[err [E2 N2]]].
  - left. unfold with_names in E2 at 1. unfold with_names at 1. rewrite E2. cbn [bind].
    unfold rule_history_rhs. rewrite add_rule_ok by (apply (so_good _ S2)). cbn [bind].
    set (r := mkRule l rs (process_root (ROrigin (lp_idx st + 1)))).
    assert (Ll : lookup (al_names a2) (xr_lhs xr) = Some l) by (apply (ex_look _ _ _ X2); exact EL).
    assert (Bl : l < num_syms (al_cfg a2)) by (apply (g_below _ (so_good _ S2)); exact (lookup_seen _ _ _ Ll)).
    pose proof (grows_rule (al_cfg a2) (al_classes a2) r (so_table _ S2)) as GR.
    destruct (grow_step a2 (push_rule (al_cfg a2) r) (al_classes a2) [r] (al_strings a2) (if b then l :: al_lexical a2 else al_lexical a2) S2 GR) as [S3 X3].
    { constructor; [|constructor]. split; [exact Bl|]. split; [exact B2|]. apply (so_apart _ S2). exact (lookup_seen _ _ _ Ll). }
    { destruct b; [constructor; [exact Bl|]|]; apply (so_lexical _ S2). }
    eexists. split; [reflexivity|]. split.
    + assert (EIn : ld_intern (al_names a2) = it ++ m2) by (rewrite M2; cbn [with_names al_names]; rewrite EI1; reflexivity).
      assert (KEEP : forall x i, string_index (ld_intern (al_names a)) x = Some i -> string_index (ld_intern (al_names a2)) x = Some i).
      { intros x i Hx. rewrite EIn, Hm, <- app_assoc. apply string_index_app. exact Hx. }
      apply (string_index_app _ m2) in Hix. rewrite <- EIn in Hix.
      constructor; cbn [lp_loader lp_idx lp_parser al_names]; unfold set_ld_cfg; cbn [ld_intern].
      * exact S3.
      * rewrite app_length, (b_idx _ _ HR). cbn. lia.
      * intros l' fs act b' Hin. apply in_app_or in Hin. destruct Hin as [Hin|[Hin|[]]].
        -- destruct (b_known _ _ HR _ _ _ _ Hin) as [i Hi]. exists i. apply KEEP. exact Hi.
        -- unfold erase_rule in Hin. injection Hin as <- <- <- <-. eauto.
      * intros i. 
        assert (OLD : In i (lp_parser st) <-> exists l' fs act, In ((l', fs, act), false) done /\ string_index (ld_intern (al_names a2)) l' = Some i).
        { rewrite (b_parser _ _ HR). fold a. split; intros [l' [fs [act [Hin El]]]]; exists l', fs, act; (split; [exact Hin|]); [apply KEEP; exact El|].
          destruct (b_known _ _ HR _ _ _ _ Hin) as [j Hj]. fold a in Hj. pose proof (KEEP _ _ Hj). congruence. }
        assert (NEW : (exists l' fs act, In ((l', fs, act), false) (done ++ [(erase_rule xr, b)]) /\ string_index (ld_intern (al_names a2)) l' = Some i) <->
          (In i (lp_parser st) \/ b = false /\ i = id)).
        { rewrite OLD. split.
          - intros [l' [fs [act [Hin El]]]]. apply in_app_or in Hin. destruct Hin as [Hin|[Hin|[]]]; [left; exists l', fs, act; auto|right].
            unfold erase_rule in Hin. injection Hin as <- <- <- ->. split; [reflexivity|congruence].
          - intros [[l' [fs [act [Hin El]]]]|[-> ->]].
            + exists l', fs, act. split; [apply in_or_app; left; exact Hin|exact El].
            + exists (xr_lhs xr), (map xf_frag (xr_rhs xr)), (xr_action xr). split; [apply in_or_app; right; left; reflexivity|exact Hix]. }
        rewrite NEW. destruct b; [split; [auto|intros [H|[H _]]; [exact H|discriminate]]|]. cbn [In].
        split; [intros [->|H]; auto|intros [H|[_ ->]]; auto].
    + intros e X. unfold erase_rule in X. inversion X as [? ? ? H|? ? ? ? ? ? H]; subst.
      * exact (NP eq_refl H).
      * exact (N2 e H).
  - right. exists err. unfold with_names in E2 at 1. unfold with_names at 1. rewrite E2. cbn [bind]. split; [reflexivity|].
    unfold erase_rule. apply rf_fragment; [exact NP|exact N2].
Qed.

Definition faultless (rx : text -> option hir) (l : list (adv_rule * bool)) : Prop :=
  forall b0 q a0 e, l = b0 ++ q :: a0 -> ~ rule_fault rx b0 q e.

Lemma faultless_snoc : forall rx l p, faultless rx l -> (forall e, ~ rule_fault rx l p e) -> faultless rx (l ++ [p]).
Proof.
  intros rx l p HL HP b0 q a0 e E. destruct a0 as [|y a0 _] using rev_ind.
  - apply app_inj_tail in E. destruct E as [<- <-]. apply HP.
  - rewrite app_comm_cons, app_assoc in E. apply app_inj_tail in E. destruct E as [E _]. apply (HL _ _ _ _ E).
Qed.

Lemma rules_out : forall debug rx xs st done, base st done -> faultless rx done ->
  Forall (fun p => Forall (fun xf => safe_fragment rx (xf_frag xf)) (xr_rhs (fst p))) xs ->
  (exists st', adv_load_rules debug rx xs st = Ok (inl st') /\ base st' (done ++ erased xs) /\ faultless rx (done ++ erased xs)) \/
  (exists err, adv_load_rules debug rx xs st = Ok (inr err) /\ first_fault rx (done ++ erased xs) (le_reason err)).
Proof.
  intros debug rx. induction xs as [|[xr b] xs IH]; intros st done HR HD HF.
  - left. exists st. unfold erased. cbn. rewrite app_nil_r. auto.
  - inversion HF as [|? ? F1 F2]; subst. cbn [fst] in F1. cbn [adv_load_rules].
    destruct (rule_out debug rx st done xr b HR F1) as [[st1 [E1 [B1 N1]]]|[err [E1 N1]]]; rewrite E1; cbn [bind].
    + pose proof (faultless_snoc _ _ _ HD N1) as HD1. specialize (IH st1 _ B1 HD1 F2). rewrite <- app_assoc in IH. exact IH.
    + right. exists err. split; [reflexivity|]. exists done, (erase_rule xr, b), (erased xs). split; [reflexivity|]. split; [|exact N1].
      intros b0 q a0 e' E. apply (HD _ _ _ _ E).
Qed.

Lemma new_base : base adv_loop_new [].
Proof.
  destruct (r_inv _ _ _ _ (new_loaded true (fun _ => None))) as [L [HI _]]. constructor; cbn.
  - exact (i_sound _ _ HI).
  - reflexivity.
  - intros l fs act b [].
  - intros i. split; [intros []|intros [l [fs [act [[] _]]]]].
Qed.

(** * The result *)

Lemma map_pairs : forall (it : list string) (m : list (nat * nat)), Forall (fun p => fst p < length it) m -> exists n,
  map_res (fun p => match intern_resolve it (fst p) with Some x => Ok (x, snd p) | None => Panic end) m = Ok n /\
  Forall2 (fun p q => nth_error it (fst p) = Some (fst q) /\ snd q = snd p) m n.
Proof.
  intros it. induction m as [|[i s] m IH]; intros HF; [exists []; split; [reflexivity|constructor]|].
  inversion HF as [|? ? F1 F2]; subst. cbn [fst] in F1. destruct (IH F2) as [n [E HN]]. unfold intern_resolve in *.
  destruct (nth_error it i) as [x|] eqn:Ex; [|apply nth_error_None in Ex; lia].
  exists ((x, s) :: n). cbn [map_res fst snd]. rewrite Ex. cbn [bind]. rewrite E. cbn [bind]. split; [reflexivity|].
  constructor; [split; [exact Ex|reflexivity]|exact HN].
Qed.

(** What the names and the lexical symbols are made into. *)
Lemma result_ok : forall st, sound (lp_loader st) -> exists g, adv_result st = Ok g /\ ag_cfg g = al_cfg (lp_loader st) /\
  ag_lexer_map g = mkLexer (al_classes (lp_loader st)) [] [] /\ ag_actions g = lp_actions st /\
  length (ag_sbs g) = num_syms (ag_cfg g) /\
  (forall s, member (ag_sbs g) s <-> In s (al_lexical (lp_loader st))) /\
  NoDup (map fst (ag_sym_map g)) /\ (forall x s, In (x, s) (ag_sym_map g) <-> lookup (al_names (lp_loader st)) x = Some s).
Proof.
  intros st HS. set (a := lp_loader st) in *. unfold adv_result. fold a. pose proof (so_good _ HS) as HG.
  destruct (mark_all (al_lexical a) (bs_reset (al_cfg a)) true) as [b [E1 [EL EM]]].
  { eapply Forall_impl; [|apply (so_lexical _ HS)]. cbn beta. intros s Hs. unfold bs_reset. rewrite repeat_length. exact Hs. }
  rewrite E1. cbn [bind].
  destruct (map_pairs (ld_intern (al_names a)) (ld_map (al_names a))) as [n [E2 HN]].
  { apply Forall_forall. intros [i s] Hi. cbn [fst].
    assert (In i (map fst (ld_map (al_names a)))) as Hk by (apply in_map_iff; exists (i, s); auto).
    rewrite (g_keys _ HG) in Hk. apply in_rev in Hk. apply in_seq in Hk. lia. }
  rewrite E2. cbn [bind]. eexists. split; [reflexivity|]. cbn [ag_cfg ag_lexer_map ag_actions ag_sbs ag_sym_map].
  split; [reflexivity|]. split; [reflexivity|]. split; [reflexivity|].
  split; [rewrite EL; unfold bs_reset; apply repeat_length|]. split; [|split].
  - intros s. rewrite EM. split; [|auto]. intros [[H _]|[_ H]]; [exact H|]. exfalso. unfold member, bs_reset in H.
    apply nth_error_In in H. apply repeat_spec in H. discriminate.
  - assert (NK : NoDup (map fst (ld_map (al_names a)))) by (rewrite (g_keys _ HG); apply NoDup_rev, seq_NoDup).
    clear - HN NK HG. induction HN as [|[i s] [x t] m n [H1 H2] HN IH]; cbn [map fst] in *; [constructor|].
    inversion NK as [|? ? K1 K2]; subst. constructor; [|auto]. intros Hx. apply K1. clear IH K1 NK H2 s. cbn in H1.
    induction HN as [|[j s'] [y t'] m n [G1 G2] HN IH]; cbn [map fst] in *; [contradiction|]. destruct Hx as [->|Hx].
    + left. eapply NoDup_nth_error; [apply (g_strings _ HG)| |]; [apply nth_error_Some; congruence|congruence].
    + right. inversion K2; subst. auto.
  - intros x s. unfold lookup. split.
    + intros Hin. assert (exists i, In (i, s) (ld_map (al_names a)) /\ nth_error (ld_intern (al_names a)) i = Some x) as [i [Hi Hx]].
      { clear - HN Hin. induction HN as [|[i s'] [y t] m n [H1 H2] HN IH]; [contradiction|]. cbn in *. destruct Hin as [E|Hin].
        - injection E as -> ->. exists i. subst. auto.
        - destruct (IH Hin) as [j [? ?]]. exists j. auto. }
      destruct (string_index (ld_intern (al_names a)) x) as [j|] eqn:Ej.
      * pose proof (string_index_some _ _ _ Ej) as Hj.
        assert (j = i) as ->.
        { eapply NoDup_nth_error; [apply (g_strings _ HG)| |congruence]. apply nth_error_Some. congruence. }
        apply lookup_in_map; [|exact Hi]. rewrite (g_keys _ HG). apply NoDup_rev, seq_NoDup.
      * apply string_index_none in Ej. exfalso. apply Ej. eapply nth_error_In; eauto.
    + destruct (string_index (ld_intern (al_names a)) x) as [j|] eqn:Ej; [|discriminate]. intros Hm.
      apply string_index_some in Ej. apply map_lookup_in in Hm. clear - HN Hm Ej.
      induction HN as [|[i s'] [y t] m n [H1 H2] HN IH]; [contradiction|]. cbn in *. destruct Hm as [E|Hm].
      * injection E as -> ->. left. subst. congruence.
      * right. auto.
Qed.
