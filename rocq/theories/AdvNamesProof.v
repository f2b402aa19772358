(** The advanced loader: names, strings, lexemes and origins, whatever the names are. *)

From Coq Require Import String Ascii List Arith NArith Bool Lia Permutation.
From Verif Require Import Base ListFacts Spec SpecSeq SpecRegex SpecRemap GrammarFacts SymbolModel LoopModel LoopFacts HistoryModel
  CfgModel View SeqModel RegexModel RegexProof RegexProof2 RemapModel PropsSeq SpecLoad SpecAdv LoadModel LoadParseProof LoadProof
  AdvModel AdvParseProof AdvRegexProof AdvEmbedProof AdvLoadProof AdvLoadProof2 AdvLoadProof3 AdvLoadProof4.
Import ListNotations.
Local Open Scope list_scope.
Local Notation length := List.length.

Definition known (a : adv_loader) (x : string) : Prop := lookup (al_names a) x <> None.
(** The name of one of the strings. *)
Definition string_name (a : adv_loader) (x : string) : Prop := exists i, i < length (al_strings a) /\ x = lex_name i.
Definition string_symbol (a : adv_loader) (s : nat) : Prop := exists i, i < length (al_strings a) /\ lookup (al_names a) (lex_name i) = Some s.

Lemma known_later : forall a a' c x, extends a a' c -> known a x -> known a' x.
Proof.
  intros a a' c x HX H. unfold known in *. destruct (lookup (al_names a) x) as [s|] eqn:E; [|congruence]. rewrite (ex_look _ _ _ HX x s E). discriminate.
Qed.
Lemma look_keep : forall a a' c x s, extends a a' c -> known a x -> lookup (al_names a') x = Some s -> lookup (al_names a) x = Some s.
Proof.
  intros a a' c x s HX H E. unfold known in H. destruct (lookup (al_names a) x) as [u|] eqn:E1; [|congruence].
  rewrite (ex_look _ _ _ HX x u E1) in E. exact E.
Qed.

(** What one fragment adds. *)
Record step (a a' : adv_loader) (fs : list adv_fragment) (rs : list nat) (c : list rule) : Prop := {
  st_sound : sound a';
  st_ext : extends a a' c;
  st_helpers : Forall (fun x => helper_hist (hist x)) c;
  st_below : Forall (fun s => s < num_syms (al_cfg a')) rs;
  st_look : Forall2 (fun f s => forall x, f = FName x Once -> lookup (al_names a') x = Some s) fs rs;
  st_names : forall x, known a' x <-> (known a x \/ (exists k, In (FName x k) fs) \/ string_name a' x);
  st_strings : forall t, In t (al_strings a') <-> In t (al_strings a) \/ In (FString t) fs;
  st_distinct : NoDup (al_strings a');
  st_longer : length (al_strings a) <= length (al_strings a');
  st_lexical : forall L, (forall s, In s (al_lexical a) <-> In s L \/ string_symbol a s) -> forall s, In s (al_lexical a') <-> In s L \/ string_symbol a' s
}.

Lemma same_symbols : forall a a' c s, extends a a' c -> (forall x, string_name a x -> known a x) -> al_strings a' = al_strings a ->
  (string_symbol a' s <-> string_symbol a s).
Proof.
  intros a a' c s HX HK A1. unfold string_symbol. rewrite A1. split; intros [i [Hi H]]; exists i; (split; [exact Hi|]).
  - apply (look_keep a a' c); auto. apply HK. exists i. auto.
  - apply (ex_look _ _ _ HX). exact H.
Qed.
Lemma same_lexical : forall a a' c, extends a a' c -> (forall x, string_name a x -> known a x) -> al_strings a' = al_strings a -> al_lexical a' = al_lexical a ->
  forall L, (forall s, In s (al_lexical a) <-> In s L \/ string_symbol a s) -> forall s, In s (al_lexical a') <-> In s L \/ string_symbol a' s.
Proof. intros a a' c HX HK A1 A2 L HL s. rewrite A2, HL, (same_symbols a a' c s HX HK A1). reflexivity. Qed.

Lemma fragment_names : forall debug rx a xf s a', sound a -> NoDup (al_strings a) -> (forall x, string_name a x -> known a x) ->
  frag_ok rx (xf_frag xf) -> adv_load_fragment debug rx a xf = Ok (inl (s, a')) -> exists c, step a a' [xf_frag xf] [s] c.
Proof.
  intros debug rx a xf s a' HS HD HK HF E. destruct (fragment_ok debug rx a xf HS HF) as [s1 [a1 [c [E1 [HS' [HX [Hs [HH [HA HB]]]]]]]]].
  rewrite E in E1. injection E1 as <- <-. exists c. destruct (xf_frag xf) as [x k|t|func t]; cbn [added new_name] in *.
  - destruct HA as [A1 [A2 [p [A3 A4]]]]. constructor; auto.
    + constructor; [|constructor]. intros y Ey. injection Ey as <- ->. destruct A4 as [-> _]. exact A3.
    + intros y. unfold string_name. rewrite A1. fold (string_name a y). split.
      * intros H. unfold known in H. destruct (lookup (al_names a') y) as [u|] eqn:Eu; [|congruence]. destruct (HB y u Eu) as [H1|H1].
        -- left. unfold known. congruence.
        -- injection H1 as ->. right. left. exists k. left. reflexivity.
      * intros [H|[[k' [H|[]]]|H]]; [exact (known_later _ _ _ _ HX H)| |exact (known_later _ _ _ _ HX (HK y H))]. injection H as -> ->. unfold known. congruence.
    + intros t. rewrite A1. split; [auto|]. intros [H|[H|[]]]; [exact H|discriminate].
    + rewrite A1. exact HD.
    + rewrite A1. lia.
    + exact (same_lexical a a' c HX HK A1 A2).
  - destruct HA as [A1 [A2 [A3 [child [A4 EC]]]]]. unfold string_id, intern_text in A1, A3, HB.
    destruct (text_index (al_strings a) t) as [i|] eqn:Ei; cbn [fst snd] in A1, A3, HB.
    + pose proof (text_index_some _ _ _ Ei) as Hi. assert (Li : i < length (al_strings a)) by (apply nth_error_Some; congruence). constructor; auto.
      * constructor; [|constructor]. intros y Ey. discriminate.
      * intros y. unfold string_name. rewrite A1. fold (string_name a y). split.
        -- intros H. unfold known in H. destruct (lookup (al_names a') y) as [u|] eqn:Eu; [|congruence]. destruct (HB y u Eu) as [H1|H1].
           ++ left. unfold known. congruence.
           ++ injection H1 as <-. right. right. exists i. split; [exact Li|reflexivity].
        -- intros [H|[[k' [H|[]]]|H]]; [exact (known_later _ _ _ _ HX H)|discriminate|exact (known_later _ _ _ _ HX (HK y H))].
      * intros u. rewrite A1. split; [auto|]. intros [H|[H|[]]]; [exact H|]. injection H as <-. eapply nth_error_In; eauto.
      * rewrite A1. exact HD.
      * rewrite A1. lia.
      * intros L HL u. rewrite A2. cbn [In]. rewrite HL, (same_symbols a a' c u HX HK A1). split; [|tauto].
        intros [<-|H]; [|exact H]. right. exists i. split; [exact Li|]. apply (look_keep a a' c); auto. apply HK. exists i. auto.
    + pose proof (text_index_none _ _ Ei) as Hn. constructor; auto.
      * constructor; [|constructor]. intros y Ey. discriminate.
      * intros y. split.
        -- intros H. unfold known in H. destruct (lookup (al_names a') y) as [u|] eqn:Eu; [|congruence]. destruct (HB y u Eu) as [H1|H1].
           ++ left. unfold known. congruence.
           ++ injection H1 as <-. right. right. exists (length (al_strings a)). split; [rewrite A1, app_length; cbn; lia|reflexivity].
        -- intros [H|[[k' [H|[]]]|[j [H ->]]]]; [exact (known_later _ _ _ _ HX H)|discriminate|].
           rewrite A1, app_length in H. cbn in H. destruct (Nat.eq_dec j (length (al_strings a))) as [->|Nj]; [unfold known; congruence|].
           apply (known_later _ _ _ _ HX). apply HK. exists j. split; [lia|reflexivity].
      * intros u. rewrite A1, in_app_iff. cbn [In]. split; (intros [H|[H|[]]]; [auto|right; left]).
        -- congruence.
        -- injection H as <-. reflexivity.
      * rewrite A1. apply ListFacts.NoDup_app. split; [exact HD|]. split; [constructor; [intros []|constructor]|]. intros u Hu [<-|[]]. contradiction.
      * rewrite A1, app_length. lia.
      * intros L HL u. rewrite A2. cbn [In]. rewrite HL. split.
        -- intros [<-|[H|[j [H1 H2]]]]; [right; exists (length (al_strings a))|left; exact H|right; exists j]; rewrite A1, app_length; cbn [length].
           ++ split; [lia|exact A3].
           ++ split; [lia|apply (ex_look _ _ _ HX); exact H2].
        -- intros [H|[j [H1 H2]]]; [auto|]. rewrite A1, app_length in H1. cbn [length] in H1. destruct (Nat.eq_dec j (length (al_strings a))) as [->|Nj]; [left; congruence|].
           right. right. exists j. split; [lia|]. apply (look_keep a a' c); auto. apply HK. exists j. split; [lia|reflexivity].
  - destruct HA as [A1 [A2 _]]. constructor; auto.
    + constructor; [|constructor]. intros y Ey. discriminate.
    + intros y. unfold string_name. rewrite A1. fold (string_name a y). split.
      * intros H. unfold known in H. destruct (lookup (al_names a') y) as [u|] eqn:Eu; [|congruence]. destruct (HB y u Eu) as [H1|H1]; [|discriminate].
        left. unfold known. congruence.
      * intros [H|[[k' [H|[]]]|H]]; [exact (known_later _ _ _ _ HX H)|discriminate|exact (known_later _ _ _ _ HX (HK y H))].
    + intros u. rewrite A1. split; [auto|]. intros [H|[H|[]]]; [exact H|discriminate].
    + rewrite A1. exact HD.
    + rewrite A1. lia.
    + exact (same_lexical a a' c HX HK A1 A2).
Qed.

Lemma names_keep : forall a a' fs rs c, step a a' fs rs c -> (forall x, string_name a' x -> known a' x).
Proof. intros a a' fs rs c H x Hx. apply (st_names _ _ _ _ _ H). auto. Qed.

Lemma fragments_names : forall debug rx xfs a syms rs a', sound a -> NoDup (al_strings a) -> (forall x, string_name a x -> known a x) ->
  Forall (fun xf => frag_ok rx (xf_frag xf)) xfs -> adv_load_fragments debug rx xfs syms a = Ok (inl (rs, a')) ->
  exists rs' c, rs = syms ++ rs' /\ step a a' (map xf_frag xfs) rs' c.
Proof.
  intros debug rx. induction xfs as [|xf xfs IH]; intros a syms rs a' HS HD HK HF E; cbn [adv_load_fragments] in E.
  - injection E as <- <-. exists [], []. rewrite app_nil_r. split; [reflexivity|]. constructor; cbn [map In]; auto; try (constructor; fail).
    + apply extends_refl.
    + intros x. split; [auto|]. intros [H|[[k []]|H]]; auto.
    + tauto.
  - inversion HF as [|? ? F1 F2]; subst. destruct (adv_load_fragment debug rx a xf) as [[[s a1]|e]| |] eqn:E1; cbn [bind] in E; try discriminate.
    destruct (fragment_names debug rx a xf s a1 HS HD HK F1 E1) as [c1 S1].
    destruct (IH a1 (syms ++ [s]) rs a' (st_sound _ _ _ _ _ S1) (st_distinct _ _ _ _ _ S1) (names_keep _ _ _ _ _ S1) F2 E) as [rs' [c2 [-> S2]]].
    exists (s :: rs'), (c1 ++ c2). split; [rewrite <- app_assoc; reflexivity|]. pose proof (st_ext _ _ _ _ _ S2) as X2. constructor.
    + apply S2.
    + eapply extends_trans; [apply S1|apply S2].
    + apply Forall_app. split; [apply S1|apply S2].
    + constructor; [|apply S2]. pose proof (st_below _ _ _ _ _ S1) as HB. inversion HB; subst. pose proof (ex_le _ _ _ X2). lia.
    + cbn [map]. constructor; [|apply S2]. pose proof (st_look _ _ _ _ _ S1) as HL. inversion HL as [|? ? ? ? L1 _]; subst. intros x Hx. apply (ex_look _ _ _ X2). auto.
    + intros x. rewrite (st_names _ _ _ _ _ S2 x), (st_names _ _ _ _ _ S1 x). cbn [map In]. split.
      * intros [[H|[[k [H|[]]]|[i [Hi H]]]]|[[k H]|H]]; auto.
        -- right. left. exists k. auto.
        -- right. right. exists i. split; [|exact H]. pose proof (st_longer _ _ _ _ _ S2). lia.
        -- right. left. exists k. auto.
      * intros [H|[[k [H|H]]|H]]; auto.
        -- left. right. left. exists k. auto.
        -- right. left. exists k. exact H.
    + intros t. rewrite (st_strings _ _ _ _ _ S2 t), (st_strings _ _ _ _ _ S1 t). cbn [map In]. tauto.
    + apply S2.
    + pose proof (st_longer _ _ _ _ _ S1). pose proof (st_longer _ _ _ _ _ S2). lia.
    + intros L HL. apply (st_lexical _ _ _ _ _ S2). apply (st_lexical _ _ _ _ _ S1). exact HL.
Qed.

(** * Rules *)

(** The rule that was added for rule [i]. *)
Definition written_as (a : adv_loader) (p : nat * (adv_rule * bool)) (r : rule) : Prop :=
  let '(i, ((l, fs, _), _)) := p in
  lookup (al_names a) l = Some (lhs r) /\ Forall2 (fun f s => forall x, f = FName x Once -> lookup (al_names a) x = Some s) fs (rhs r) /\
  hist r = process_root (ROrigin i).

Record plain_loaded (st : adv_loop) (done : list (adv_rule * bool)) : Prop := {
  pl_sound : sound (lp_loader st);
  pl_idx : lp_idx st = length done;
  pl_actions : lp_actions st = map (fun p => (fst p, snd (fst (snd p)))) (numbered done);
  pl_rules : exists mains helpers, Permutation (rules (al_cfg (lp_loader st))) (mains ++ helpers) /\
    Forall2 (written_as (lp_loader st)) (numbered done) mains /\ Forall (fun x => helper_hist (hist x)) helpers;
  pl_root : match done with
            | [] => True
            | ((l, _, _), _) :: _ => exists s, lookup (al_names (lp_loader st)) l = Some s /\ roots (al_cfg (lp_loader st)) = [s]
            end;
  pl_distinct : NoDup (al_strings (lp_loader st));
  pl_strings : forall t, In t (al_strings (lp_loader st)) <-> has_fragment (map fst done) (FString t);
  pl_names : forall x, known (lp_loader st) x <-> adv_named (map fst done) x \/ string_name (lp_loader st) x;
  pl_lexical : forall s, In s (al_lexical (lp_loader st)) <->
    (exists l fs act, In ((l, fs, act), true) done /\ lookup (al_names (lp_loader st)) l = Some s) \/ string_symbol (lp_loader st) s
}.

Lemma written_later : forall a a' p r, (forall x s, lookup (al_names a) x = Some s -> lookup (al_names a') x = Some s) -> written_as a p r -> written_as a' p r.
Proof.
  intros a a' [i [[[l fs] act] b]] r HL [H1 [H2 H3]]. split; [apply HL; exact H1|]. split; [|exact H3].
  eapply forall2_impl; [|exact H2]. intros f s Hf x E. apply HL. auto.
Qed.

Lemma rule_plain : forall debug rx st done xr (b : bool) st', plain_loaded st done -> Forall (frag_ok rx) (map xf_frag (xr_rhs xr)) ->
  adv_load_rule debug rx st (xr, b) = Ok (inl st') -> plain_loaded st' (done ++ [(erase_rule xr, b)]).
Proof.
  intros debug rx st done xr b st' HR G2 E. pose proof (pl_sound _ _ HR) as HS. set (a := lp_loader st) in *.
  unfold adv_load_rule in E. fold a in E. destruct (b && existsb (Nat.eqb (fst (get_or_intern (ld_intern (al_names a)) (xr_lhs xr)))) (lp_parser st)); [discriminate|].
  destruct (name_step a (xr_lhs xr) HS) as [l [ld [E1 [S1 [X1 [L1 B1]]]]]]. rewrite E1 in E.
  set (ld1 := if lp_idx st =? 0 then set_ld_cfg ld (set_roots (ld_cfg ld) [l]) else ld) in *.
  assert (EC : rules (ld_cfg ld1) = rules (ld_cfg ld) /\ src (ld_cfg ld1) = src (ld_cfg ld) /\ limit (ld_cfg ld1) = limit (ld_cfg ld) /\
    ld_intern ld1 = ld_intern ld /\ ld_map ld1 = ld_map ld).
  { unfold ld1. destruct (lp_idx st =? 0); repeat split. }
  destruct EC as [C1 [C2 [C3 [C4 C5]]]].
  assert (EL : forall x, lookup ld1 x = lookup ld x) by (intros x; unfold lookup; rewrite C4, C5; reflexivity).
  assert (EN : num_syms (ld_cfg ld1) = num_syms (ld_cfg ld)) by (unfold num_syms; rewrite C2; reflexivity).
  change (mkAL ld1 (al_strings a) (al_classes a) (al_lexical a)) with (with_names a ld1) in E. set (a1 := with_names a ld1) in *.
  assert (SS : sound a1).
  { constructor; unfold al_cfg; cbn [a1 with_names al_names al_classes al_lexical].
    - constructor; rewrite ?C5, ?C4, ?C2, ?C3, ?EN; try apply (so_good _ S1).
      + unfold seen. rewrite C5. apply (g_below _ (so_good _ S1)).
      + intros x s. rewrite EL. apply (g_names _ (so_good _ S1)).
      + intros r Hr. rewrite C1 in Hr. rewrite EN. apply (g_closed _ (so_good _ S1) r Hr).
    - constructor; rewrite ?EN; apply (so_table _ S1).
    - unfold seen. rewrite C5. apply (so_apart _ S1).
    - rewrite C1. apply (so_clean _ S1).
    - rewrite EN. apply (so_lexical _ S1). }
  assert (LK1 : forall x s, lookup (al_names a) x = Some s -> lookup (al_names a1) x = Some s).
  { intros x s H. cbn [a1 with_names al_names]. rewrite EL. apply (ex_look _ _ _ X1). exact H. }
  assert (K1 : forall x, known a1 x <-> known a x \/ x = xr_lhs xr).
  { intros x. unfold known. split.
    - intros H. destruct (lookup (al_names a1) x) as [s|] eqn:Es; [|congruence]. cbn [a1 with_names al_names] in Es. rewrite EL in Es.
      destruct (B1 x s Es) as [H1|H1]; [left; congruence|right; exact H1].
    - intros [H| ->]; [|cbn [a1 with_names al_names]; rewrite EL, L1; discriminate].
      destruct (lookup (al_names a) x) as [s|] eqn:Es; [|congruence]. rewrite (LK1 x s Es). discriminate. }
  assert (HK1 : forall x, string_name a1 x -> known a1 x).
  { intros x Hx. apply K1. left. apply (pl_names _ _ HR). right. exact Hx. }
  destruct (adv_load_fragments debug rx (xr_rhs xr) [] a1) as [[[rs a2]|e]| |] eqn:E2; cbn [bind] in E; try discriminate.
  destruct (fragments_names debug rx (xr_rhs xr) a1 [] rs a2 SS (pl_distinct _ _ HR) HK1) as [rs' [c2 [Ers ST]]]; [rewrite Forall_map in G2; exact G2|exact E2|].
  cbn [app] in Ers. subst rs'. pose proof (st_sound _ _ _ _ _ ST) as S2. pose proof (st_ext _ _ _ _ _ ST) as X2.
  unfold rule_history_rhs in E. rewrite add_rule_ok in E by (apply (so_good _ S2)). cbn [bind] in E.
  set (r := mkRule l rs (process_root (ROrigin (lp_idx st + 1)))) in *.
  assert (Ll : lookup (al_names a2) (xr_lhs xr) = Some l).
  { apply (ex_look _ _ _ X2). cbn [a1 with_names al_names]. rewrite EL. exact L1. }
  assert (Bl : l < num_syms (al_cfg a2)) by (apply (g_below _ (so_good _ S2)); exact (lookup_seen _ _ _ Ll)).
  pose proof (grows_rule (al_cfg a2) (al_classes a2) r (so_table _ S2)) as GR.
  set (lexical := if b then l :: al_lexical a2 else al_lexical a2) in *.
  destruct (grow_step a2 (push_rule (al_cfg a2) r) (al_classes a2) [r] (al_strings a2) lexical S2 GR) as [S3 X3].
  { constructor; [|constructor]. split; [exact Bl|]. split; [exact (st_below _ _ _ _ _ ST)|]. apply (so_apart _ S2). exact (lookup_seen _ _ _ Ll). }
  { unfold lexical. destruct b; [constructor; [exact Bl|]|]; apply (so_lexical _ S2). }
  set (a3 := mkAL (set_ld_cfg (al_names a2) (push_rule (al_cfg a2) r)) (al_strings a2) (al_classes a2) lexical) in *.
  assert (LK : forall x s, lookup (al_names a) x = Some s -> lookup (al_names a3) x = Some s).
  { intros x s H. change (lookup (al_names a3) x) with (lookup (al_names a2) x). apply (ex_look _ _ _ X2). apply LK1. exact H. }
  injection E as <-.
  assert (KNOWN : forall l' fs act b' s, In ((l', fs, act), b') done -> (lookup (al_names a3) l' = Some s <-> lookup (al_names a) l' = Some s)).
  { intros l' fs act b' s Hin. assert (HKn : known a l').
    { apply (pl_names _ _ HR). left. exists l', fs, act. split; [|left; reflexivity]. apply in_map_iff. exists ((l', fs, act), b'). auto. }
    split; [|apply LK]. intros H. unfold known in HKn. destruct (lookup (al_names a) l') as [u|] eqn:Eu; [|congruence]. apply LK in Eu. congruence. }
  constructor; cbn [lp_loader lp_idx lp_parser lp_actions]; fold lexical; fold a3.
  - exact S3.
  - rewrite app_length, (pl_idx _ _ HR). cbn. lia.
  - rewrite numbered_snoc, map_app. cbn [map fst snd erase_rule]. rewrite (pl_actions _ _ HR), (pl_idx _ _ HR). repeat f_equal. lia.
  - destruct (pl_rules _ _ HR) as [mains [helpers [HP [HM HH]]]]. fold a in HP, HM. exists (mains ++ [r]), (helpers ++ c2). split; [|split].
    + change (rules (al_cfg a3)) with (rules (al_cfg a2) ++ [r]). rewrite (ex_rules _ _ _ X2).
      assert (EQ : rules (al_cfg a1) = rules (al_cfg a)).
      { change (rules (ld_cfg ld1) = rules (al_cfg a)). rewrite C1. pose proof (ex_rules _ _ _ X1) as X. rewrite app_nil_r in X. exact X. }
      rewrite EQ. rewrite (Permutation_app_comm (rules (al_cfg a) ++ c2) [r]). rewrite HP. rewrite <- !app_assoc. cbn [app]. apply Permutation_middle.
    + rewrite numbered_snoc. apply Forall2_app.
      * eapply forall2_impl; [|exact HM]. intros p x Hp. exact (written_later _ _ _ _ LK Hp).
      * constructor; [|constructor]. cbn [written_as erase_rule]. split; [exact Ll|]. split; [exact (st_look _ _ _ _ _ ST)|].
        cbn [hist r]. rewrite (pl_idx _ _ HR), Nat.add_1_r. reflexivity.
    + apply Forall_app. split; [exact HH|exact (st_helpers _ _ _ _ _ ST)].
  - pose proof (pl_root _ _ HR) as RR. fold a in RR. destruct done as [|[[[l0 fs0] act0] b0] done].
    + cbn [app erase_rule]. exists l. split; [exact Ll|]. change (roots (al_cfg a3)) with (roots (al_cfg a2)). rewrite (ex_roots _ _ _ X2).
      unfold al_cfg. cbn [a1 with_names al_names]. unfold ld1. rewrite (pl_idx _ _ HR). reflexivity.
    + cbn [app]. destruct RR as [s [RR1 RR2]]. exists s. split; [apply LK; exact RR1|].
      change (roots (al_cfg a3)) with (roots (al_cfg a2)). rewrite (ex_roots _ _ _ X2). unfold al_cfg. cbn [a1 with_names al_names]. unfold ld1.
      rewrite (pl_idx _ _ HR). cbn [length Nat.eqb]. rewrite <- RR2. exact (ex_roots _ _ _ X1).
  - exact (st_distinct _ _ _ _ _ ST).
  - intros t. change (al_strings a3) with (al_strings a2). rewrite (st_strings _ _ _ _ _ ST t). cbn [a1 with_names al_strings].
    pose proof (pl_strings _ _ HR t) as RS. fold a in RS. rewrite RS.
    unfold has_fragment. rewrite map_app. cbn [map fst erase_rule]. split.
    + intros [[l' [fs [act [Hin Hf]]]]|Hf].
      * exists l', fs, act. split; [apply in_or_app; left; exact Hin|exact Hf].
      * exists (xr_lhs xr), (map xf_frag (xr_rhs xr)), (xr_action xr). split; [apply in_or_app; right; left; reflexivity|exact Hf].
    + intros [l' [fs [act [Hin Hf]]]]. apply in_app_or in Hin. destruct Hin as [Hin|[Hin|[]]]; [left; exists l', fs, act; auto|].
      injection Hin as <- <- <-. right. exact Hf.
  - intros x. change (known a3 x) with (known a2 x). change (string_name a3 x) with (string_name a2 x). rewrite (st_names _ _ _ _ _ ST x), K1.
    pose proof (pl_names _ _ HR x) as RN. fold a in RN. rewrite RN. unfold adv_named. rewrite map_app. cbn [map fst erase_rule].
    assert (LONG : string_name a x -> string_name a2 x).
    { intros [i [Hi ->]]. exists i. split; [|reflexivity]. pose proof (st_longer _ _ _ _ _ ST) as HG. cbn [a1 with_names al_strings] in HG. lia. }
    split.
    + intros [[[[l' [fs [act [Hin Hf]]]]|H]| ->]|[[k H]|H]]; auto; left.
      * exists l', fs, act. split; [apply in_or_app; left; exact Hin|exact Hf].
      * exists (xr_lhs xr), (map xf_frag (xr_rhs xr)), (xr_action xr). split; [apply in_or_app; right; left; reflexivity|left; reflexivity].
      * exists (xr_lhs xr), (map xf_frag (xr_rhs xr)), (xr_action xr). split; [apply in_or_app; right; left; reflexivity|right; exists k; exact H].
    + intros [[l' [fs [act [Hin Hf]]]]|H]; [|auto]. apply in_app_or in Hin. destruct Hin as [Hin|[Hin|[]]].
      * left. left. left. exists l', fs, act. auto.
      * injection Hin as <- <- <-. destruct Hf as [->|[k Hf]]; [auto|]. right. left. exists k. exact Hf.
  - set (P := fun s => exists l' fs act, In ((l', fs, act), true) done /\ lookup (al_names a) l' = Some s).
    assert (LL : forall s, In s (al_lexical a2) <-> P s \/ string_symbol a2 s).
    { assert (PL : exists L, forall s, In s L <-> P s).
      { exists (flat_map (fun p => if snd p : bool then match lookup (al_names a) (fst (fst (fst p))) with Some s => [s] | None => [] end else []) done).
        intros s. rewrite in_flat_map. split.
        - intros [[[[l' fs] act] b'] [Hin Hs]]. cbn [fst snd] in Hs. destruct b'; [|contradiction]. destruct (lookup (al_names a) l') as [u|] eqn:Eu; [|contradiction].
          destruct Hs as [<-|[]]. exists l', fs, act. auto.
        - intros [l' [fs [act [Hin Es]]]]. exists ((l', fs, act), true). split; [exact Hin|]. cbn [fst snd]. rewrite Es. left. reflexivity. }
      destruct PL as [L PL]. intros s. rewrite <- PL. apply (st_lexical _ _ _ _ _ ST L). intros u. rewrite PL. cbn [a1 with_names al_lexical].
      pose proof (pl_lexical _ _ HR u) as RL. fold a in RL. rewrite RL. fold (P u).
      assert (SY : string_symbol a1 u <-> string_symbol a u).
      { unfold string_symbol. cbn [a1 with_names al_strings]. split; intros [i [Hi H]]; exists i; (split; [exact Hi|]); [|apply LK1; exact H].
        assert (KN : known a (lex_name i)) by (apply (pl_names _ _ HR); right; exists i; auto). unfold known in KN.
        destruct (lookup (al_names a) (lex_name i)) as [v|] eqn:Ev; [|congruence]. apply LK1 in Ev. congruence. }
      rewrite SY. reflexivity. }
    intros s. change (string_symbol a3 s) with (string_symbol a2 s).
    assert (OLD : (exists l' fs act, In ((l', fs, act), true) done /\ lookup (al_names a3) l' = Some s) <-> P s).
    { split; intros [l' [fs [act [Hin El]]]]; exists l', fs, act; (split; [exact Hin|]); apply (KNOWN l' fs act true s Hin); exact El. }
    assert (NEW : (exists l' fs act, In ((l', fs, act), true) (done ++ [(erase_rule xr, b)]) /\ lookup (al_names a3) l' = Some s) <-> P s \/ (b = true /\ s = l)).
    { rewrite <- OLD. split.
      - intros [l' [fs [act [Hin El]]]]. apply in_app_or in Hin. destruct Hin as [Hin|[Hin|[]]]; [left; exists l', fs, act; auto|right].
        unfold erase_rule in Hin. injection Hin as <- <- <- ->. split; [reflexivity|]. change (lookup (al_names a3)) with (lookup (al_names a2)) in El. congruence.
      - intros [[l' [fs [act [Hin El]]]]|[-> ->]].
        + exists l', fs, act. split; [apply in_or_app; left; exact Hin|exact El].
        + exists (xr_lhs xr), (map xf_frag (xr_rhs xr)), (xr_action xr). split; [apply in_or_app; right; left; reflexivity|exact Ll]. }
    rewrite NEW. change (al_lexical a3) with lexical. unfold lexical. destruct b; cbn [In]; rewrite ?LL.
    + split; [intros [<-|[H|H]]; auto|]. intros [[H|[_ ->]]|H]; auto.
    + split; [intros [H|H]; auto|]. intros [[H|[H _]]|H]; auto. discriminate.
Qed.

Lemma new_plain : plain_loaded adv_loop_new [].
Proof.
  pose proof (new_loaded true (fun _ => None)) as HN. destruct (r_inv _ _ _ _ HN) as [L [HI _]]. constructor; cbn.
  - exact (i_sound _ _ HI).
  - reflexivity.
  - reflexivity.
  - exists [], []. repeat constructor.
  - exact I.
  - constructor.
  - intros t. split; [intros []|]. intros [l [fs [act [[] _]]]].
  - intros x. split; [intros H; exfalso; apply H; reflexivity|]. intros [[l [fs [act [[] _]]]]|[i [Hi _]]]. cbn in Hi. lia.
  - intros s. split; [intros []|]. intros [[l [fs [act [[] _]]]]|[i [Hi _]]]. cbn in Hi. lia.
Qed.

Lemma rules_plain : forall debug rx xs st done st', plain_loaded st done ->
  Forall (fun p => Forall (frag_ok rx) (map xf_frag (xr_rhs (fst p)))) xs -> adv_load_rules debug rx xs st = Ok (inl st') ->
  plain_loaded st' (done ++ erased xs).
Proof.
  intros debug rx. induction xs as [|[xr b] xs IH]; intros st done st' HR HF E; cbn [adv_load_rules] in E.
  - injection E as <-. unfold erased. cbn. rewrite app_nil_r. exact HR.
  - inversion HF as [|? ? F1 F2]; subst. destruct (adv_load_rule debug rx st (xr, b)) as [[st1|e]| |] eqn:E1; cbn [bind] in E; try discriminate.
    pose proof (rule_plain debug rx st done xr b st1 HR F1 E1) as R1. specialize (IH st1 _ st' R1 F2 E). rewrite <- app_assoc in IH. exact IH.
Qed.
