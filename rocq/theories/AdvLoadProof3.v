(** The advanced loader: rules. *)

From Coq Require Import String Ascii List Arith NArith Bool Lia Permutation.
From Verif Require Import Base ListFacts Spec SpecSeq SpecRegex SpecRemap GrammarFacts SymbolModel LoopModel LoopFacts HistoryModel
  CfgModel View SeqModel RegexModel RegexProof RegexProof2 RemapModel PropsSeq SpecLoad SpecAdv LoadModel LoadParseProof LoadProof
  AdvModel AdvParseProof AdvRegexProof AdvEmbedProof AdvLoadProof AdvLoadProof2.
Import ListNotations.
Local Open Scope list_scope.
Local Notation length := List.length.

(** * Interned names *)

Lemma symbol_named_intern : forall ld x s ld', symbol_named ld x = (s, ld') -> ld_intern ld' = snd (get_or_intern (ld_intern ld) x).
Proof.
  intros ld x s ld' E. unfold symbol_named in E. destruct (get_or_intern (ld_intern ld) x) as [id it].
  destruct (map_lookup (ld_map ld) id); [injection E as <- <-; reflexivity|].
  destruct (next_sym (ld_cfg ld) (Some x)). injection E as <- <-. reflexivity.
Qed.

Lemma get_or_intern_app : forall l x, exists m, snd (get_or_intern l x) = l ++ m.
Proof.
  intros l x. unfold get_or_intern. destruct (string_index l x); [exists []; rewrite app_nil_r|exists [x]]; reflexivity.
Qed.
Lemma get_or_intern_index : forall l x, string_index (snd (get_or_intern l x)) x = Some (fst (get_or_intern l x)).
Proof.
  intros l x. unfold get_or_intern. destruct (string_index l x) as [i|] eqn:E; cbn [fst snd]; [exact E|]. apply string_index_last. exact E.
Qed.

Lemma named_app : forall ld x s ld', symbol_named ld x = (s, ld') -> exists m, ld_intern ld' = ld_intern ld ++ m.
Proof. intros ld x s ld' E. rewrite (symbol_named_intern _ _ _ _ E). apply get_or_intern_app. Qed.

Lemma fragment_intern : forall debug rx a xf s a', adv_load_fragment debug rx a xf = Ok (inl (s, a')) ->
  exists m, ld_intern (al_names a') = ld_intern (al_names a) ++ m.
Proof.
  intros debug rx a xf s a' E. unfold adv_load_fragment in E. destruct (xf_frag xf) as [x k|t|func t].
  - unfold load_name, load_fragment in E. cbn [fst snd] in E. destruct (symbol_named (al_names a) x) as [p ld] eqn:En.
    apply named_app in En. destruct En as [m En]. exists m. destruct k.
    + cbn [bind] in E. injection E as <- <-. exact En.
    + destruct (next_sym (ld_cfg ld) None) as [z g]. destruct (add_sequence debug g z (SInclusive 0 None) p); try discriminate.
      cbn [bind] in E. injection E as <- <-. exact En.
    + destruct (next_sym (ld_cfg ld) None) as [z g]. destruct (add_sequence debug g z (SRange (Included 1) Unbounded) p); try discriminate.
      cbn [bind] in E. injection E as <- <-. exact En.
  - unfold load_string in E. destruct (intern_text (al_strings a) t) as [id strings].
    destruct (symbol_named (al_names a) (lex_name id)) as [p ld] eqn:En. apply named_app in En. destruct En as [m En]. exists m.
    destruct (fold_res add_char t ([], ld_cfg ld, al_classes a)) as [[[child g] t']| |]; try discriminate. cbn [bind] in E.
    destruct (rule_rhs g p child) as [g'| |]; try discriminate. cbn [bind] in E. injection E as <- <-. exact En.
  - exists []. rewrite app_nil_r. destruct (negb (func =? regexp_name)%string); [discriminate|].
    destruct (rx t) as [h|]; [|discriminate]. destruct (embed_regexp debug h (al_cfg a) (al_classes a)) as [[[r g] t']| |]; try discriminate.
    cbn [bind] in E. injection E as <- <-. reflexivity.
Qed.

(** * Fragments *)

Definition good_fragment (rx : text -> option hir) (f : adv_fragment) : Prop := frag_ok rx f /\ plain_fragment f.

Lemma fragments_step : forall debug rx xfs a L syms, inv a L -> Forall (fun xf => good_fragment rx (xf_frag xf)) xfs -> exists rs a' c,
  adv_load_fragments debug rx xfs syms a = Ok (inl (syms ++ rs, a')) /\ inv a' L /\ later a a' c /\ roots (al_cfg a') = roots (al_cfg a) /\
  Forall2 (placed debug rx a') (map xf_frag xfs) rs /\ Forall (fun x => helper_hist (hist x) /\ ~ visible a' (lhs x)) c /\
  (forall t, In t (al_strings a') <-> In t (al_strings a) \/ In (FString t) (map xf_frag xfs)) /\
  (forall y u, ordinary y -> lookup (al_names a') y = Some u -> lookup (al_names a) y = Some u \/ exists k, In (FName y k) (map xf_frag xfs)) /\
  (exists m, ld_intern (al_names a') = ld_intern (al_names a) ++ m).
Proof.
  intros debug rx. induction xfs as [|xf xfs IH]; intros a L syms HI HF.
  - exists [], a, []. cbn [adv_load_fragments map]. rewrite app_nil_r. split; [reflexivity|]. split; [exact HI|]. split; [apply later_refl|].
    split; [reflexivity|]. split; [constructor|]. split; [constructor|]. split; [cbn; tauto|]. split; [auto|]. exists []. rewrite app_nil_r. reflexivity.
  - inversion HF as [|? ? [F1 F2] F3]; subst. cbn [adv_load_fragments map].
    destruct (fragment_step debug rx a L xf HI F1 F2) as [s [a1 [c1 [E1 [I1 [L1 [R1 [P1 [H1 T1]]]]]]]]].
    pose proof (fragment_intern _ _ _ _ _ _ E1) as [m1 M1].
    assert (B1 : forall y u, ordinary y -> lookup (al_names a1) y = Some u -> lookup (al_names a) y = Some u \/ exists k, xf_frag xf = FName y k).
    { destruct (fragment_ok debug rx a xf (i_sound _ _ HI) F1) as [s' [a1' [c' [E' [_ [_ [_ [_ [_ HB]]]]]]]]]. rewrite E1 in E'.
      injection E' as <- <-. intros y u Hy Hu. destruct (HB y u Hu) as [H|H]; [left; exact H|right].
      destruct (xf_frag xf) as [x k|t|func t]; cbn [new_name] in H.
      - injection H as ->. exists k. reflexivity.
      - exfalso. apply (Hy (string_id a t)). congruence.
      - discriminate. }
    rewrite E1. cbn [bind]. destruct (IH a1 L (syms ++ [s]) I1 F3) as [rs [a2 [c2 [E2 [I2 [L2 [R2 [P2 [H2 [T2 [B2 [m2 M2]]]]]]]]]]]].
    exists (s :: rs), a2, (c1 ++ c2). rewrite E2, <- app_assoc. split; [reflexivity|]. split; [exact I2|].
    split; [exact (later_trans _ _ _ _ _ L1 L2)|]. split; [congruence|]. split; [|split; [|split; [|split]]].
    + constructor; [exact (placed_later _ _ _ _ _ _ _ (i_sound _ _ I1) L2 P1)|exact P2].
    + apply Forall_app. split; [|exact H2]. rewrite Forall_forall in *. intros x Hx. destruct (H1 x Hx) as [X1 X2]. split; [exact X1|].
      intros HV. apply X2. eapply visible_back; [exact L2|exact HV|]. apply (g_closed _ (so_good _ (i_sound _ _ I1)) x).
      change (In x (rules (al_cfg a1))). rewrite (la_rules _ _ _ L1). apply in_or_app. right. exact Hx.
    + intros t. rewrite T2, T1. cbn [In]. tauto.
    + intros y u Hy Hu. destruct (B2 y u Hy Hu) as [H|[k H]]; [|right; exists k; right; exact H].
      destruct (B1 y u Hy H) as [H'|[k H']]; [left; exact H'|right; exists k; left; exact H'].
    + exists (m1 ++ m2). rewrite M2, M1, app_assoc. reflexivity.
Qed.

(** * Rules *)

Lemma forall2_impl : forall {A B : Type} (P Q : A -> B -> Prop) l m, (forall x y, P x y -> Q x y) -> Forall2 P l m -> Forall2 Q l m.
Proof. intros A B P Q l m H HF. induction HF; constructor; auto. Qed.

(** The rule that was added for rule [i]. *)
Definition main (debug : bool) (rx : text -> option hir) (a : adv_loader) (p : nat * (adv_rule * bool)) (r : rule) : Prop :=
  let '(i, ((l, fs, _), _)) := p in
  lookup (al_names a) l = Some (lhs r) /\ Forall2 (placed debug rx a) fs (rhs r) /\ hist r = process_root (ROrigin i).

Definition numbered {A : Type} (l : list A) : list (nat * A) := combine (seq 1 (length l)) l.

Lemma numbered_snoc : forall {A : Type} (l : list A) x, numbered (l ++ [x]) = numbered l ++ [(S (length l), x)].
Proof.
  intros A l x. unfold numbered. rewrite app_length, Nat.add_1_r, seq_S.
  assert (G : forall (l : list A) n, combine (seq n (length l) ++ [n + length l]) (l ++ [x]) = combine (seq n (length l)) l ++ [(n + length l, x)]).
  { clear. induction l as [|y l IH]; intros n; cbn; [reflexivity|]. f_equal. rewrite <- Nat.add_succ_comm. apply IH. }
  specialize (G l 1). cbn [Nat.add] in G. exact G.
Qed.

Lemma in_numbered : forall {A : Type} (l : list A) i x, In (i, x) (numbered l) -> In x l.
Proof. intros A l i x H. apply in_combine_r in H. exact H. Qed.

Record rules_loaded (debug : bool) (rx : text -> option hir) (st : adv_loop) (done : list (adv_rule * bool)) : Prop := {
  r_inv : exists L, inv (lp_loader st) L /\
    (forall s, In s L <-> exists l fs act, In ((l, fs, act), true) done /\ lookup (al_names (lp_loader st)) l = Some s);
  r_idx : lp_idx st = length done;
  r_actions : lp_actions st = map (fun p => (fst p, snd (fst (snd p)))) (numbered done);
  r_parser : forall i, In i (lp_parser st) <->
    exists l fs act, In ((l, fs, act), false) done /\ string_index (ld_intern (al_names (lp_loader st))) l = Some i;
  r_rules : exists mains helpers, Permutation (rules (al_cfg (lp_loader st))) (mains ++ helpers) /\
    Forall2 (main debug rx (lp_loader st)) (numbered done) mains /\
    Forall (fun x => helper_hist (hist x) /\ ~ visible (lp_loader st) (lhs x)) helpers;
  r_root : match done with
           | [] => True
           | ((l, _, _), _) :: _ => exists s, lookup (al_names (lp_loader st)) l = Some s /\ roots (al_cfg (lp_loader st)) = [s]
           end;
  r_strings : forall t, In t (al_strings (lp_loader st)) <-> has_fragment (map fst done) (FString t);
  r_names : forall x, ordinary x -> (lookup (al_names (lp_loader st)) x <> None <-> adv_named (map fst done) x)
}.

Definition good_rule (rx : text -> option hir) (r : adv_rule) : Prop :=
  ordinary (fst (fst r)) /\ Forall (good_fragment rx) (snd (fst r)).

Lemma main_later : forall debug rx a a' c p r, sound a -> later a a' c -> main debug rx a p r -> main debug rx a' p r.
Proof.
  intros debug rx a a' c [i [[[l fs] act] b]] r HS HL [H1 [H2 H3]]. split; [apply (la_look _ _ _ HL); exact H1|]. split; [|exact H3].
  eapply forall2_impl; [|exact H2]. intros f s Hf. eapply placed_later; eauto.
Qed.

Lemma lookup_interned : forall ld x s, lookup ld x = Some s -> exists i, string_index (ld_intern ld) x = Some i.
Proof. intros ld x s H. unfold lookup in H. destruct (string_index (ld_intern ld) x) as [i|]; [eauto|discriminate]. Qed.

Lemma rule_step : forall debug rx st done xr (b : bool), rules_loaded debug rx st done -> good_rule rx (erase_rule xr) ->
  (b = true -> forall fs act, ~ In ((xr_lhs xr, fs, act), false) done) -> exists st',
  adv_load_rule debug rx st (xr, b) = Ok (inl st') /\ rules_loaded debug rx st' (done ++ [(erase_rule xr, b)]).
Proof.
  intros debug rx st done xr b HR [G1 G2] HD. cbn [erase_rule fst snd] in G1, G2.
  destruct (r_inv _ _ _ _ HR) as [L [HI HL]]. set (a := lp_loader st) in *. pose proof (i_sound _ _ HI) as HS.
  unfold adv_load_rule. fold a. destruct (get_or_intern (ld_intern (al_names a)) (xr_lhs xr)) as [id it] eqn:Eid. cbn [fst].
  assert (NI : b && existsb (Nat.eqb id) (lp_parser st) = false).
  { destruct b; [|reflexivity]. cbn [andb]. destruct (existsb (Nat.eqb id) (lp_parser st)) eqn:Ee; [|reflexivity]. exfalso.
    apply existsb_exists in Ee. destruct Ee as [i [Hi Ei]]. apply Nat.eqb_eq in Ei. subst i.
    apply (r_parser _ _ _ _ HR) in Hi. destruct Hi as [l [fs [act [Hl El]]]]. fold a in El.
    pose proof (get_or_intern_index (ld_intern (al_names a)) (xr_lhs xr)) as Hix. rewrite Eid in Hix. cbn [fst snd] in Hix.
    pose proof (get_or_intern_app (ld_intern (al_names a)) (xr_lhs xr)) as [m Hm]. rewrite Eid in Hm. cbn [snd] in Hm.
    apply (string_index_app _ m) in El. rewrite <- Hm in El. apply string_index_some in El, Hix. assert (l = xr_lhs xr) by congruence. subst l.
    exact (HD eq_refl fs act Hl). }
  rewrite NI. destruct (name_step a (xr_lhs xr) HS) as [l [ld [E1 [S1 [X1 [L1 B1]]]]]]. rewrite E1.
  pose proof (symbol_named_intern _ _ _ _ E1) as EI. rewrite Eid in EI. cbn [snd] in EI.
  set (ld1 := if lp_idx st =? 0 then set_ld_cfg ld (set_roots (ld_cfg ld) [l]) else ld).
  assert (EC : rules (ld_cfg ld1) = rules (ld_cfg ld) /\ src (ld_cfg ld1) = src (ld_cfg ld) /\ limit (ld_cfg ld1) = limit (ld_cfg ld) /\
    ld_intern ld1 = ld_intern ld /\ ld_map ld1 = ld_map ld).
  { unfold ld1. destruct (lp_idx st =? 0); repeat split. }
  destruct EC as [C1 [C2 [C3 [C4 C5]]]].
  assert (EL : forall x, lookup ld1 x = lookup ld x) by (intros x; unfold lookup; rewrite C4, C5; reflexivity).
  assert (EN : num_syms (ld_cfg ld1) = num_syms (ld_cfg ld)) by (unfold num_syms; rewrite C2; reflexivity).
  fold (with_names a ld1).
  assert (I1 : inv (with_names a ld1) L /\ later a (with_names a ld1) []).
  { assert (SS : sound (with_names a ld1)).
    { constructor; unfold al_cfg; cbn [with_names al_names al_classes al_lexical].
      - constructor; rewrite ?C5, ?C4, ?C2, ?C3, ?EN; try apply (so_good _ S1).
        + unfold seen. rewrite C5. apply (g_below _ (so_good _ S1)).
        + intros x s. rewrite EL. apply (g_names _ (so_good _ S1)).
        + intros r Hr. rewrite C1 in Hr. rewrite EN. apply (g_closed _ (so_good _ S1) r Hr).
      - constructor; rewrite ?EN; apply (so_table _ S1).
      - unfold seen. rewrite C5. apply (so_apart _ S1).
      - rewrite C1. apply (so_clean _ S1).
      - rewrite EN. apply (so_lexical _ S1). }
    assert (LL : later a (with_names a ld1) []).
    { constructor; unfold al_cfg; cbn [with_names al_names al_classes].
      - rewrite C1. apply (ex_rules _ _ _ X1).
      - rewrite EN. apply (ex_le _ _ _ X1).
      - intros x s. rewrite EL. apply (ex_look _ _ _ X1).
      - intros x s. rewrite EL. apply (ex_back _ _ _ X1).
      - apply incl_refl.
      - intros k s Hs. left. exact Hs.
      - constructor. }
    split; [|exact LL]. apply (inv_later a _ _ L HI SS LL); auto. intros x s. cbn [with_names al_names]. rewrite EL. intros Hx.
    destruct (B1 x s Hx) as [H| ->]; [left; exact H|right; exact G1]. }
  destruct I1 as [I1 LA1].
  destruct (fragments_step debug rx (xr_rhs xr) (with_names a ld1) L [] I1) as [rs [a2 [c2 [E2 [I2 [L2 [R2 [P2 [H2 [T2 [B2 [m2 M2]]]]]]]]]]]].
  { rewrite Forall_map in G2. exact G2. }
  unfold with_names in E2 at 1. unfold with_names at 1. rewrite E2. cbn [bind app].
  unfold rule_history_rhs. pose proof (i_sound _ _ I2) as S2. rewrite add_rule_ok by (apply (so_good _ S2)). cbn [bind].
  set (r := mkRule l rs (process_root (ROrigin (lp_idx st + 1)))).
  assert (Ll : lookup (al_names a2) (xr_lhs xr) = Some l).
  { apply (la_look _ _ _ L2). cbn [with_names al_names]. rewrite EL. exact L1. }
  assert (Vl : visible a2 l) by (left; exists (xr_lhs xr); auto).
  assert (Bl : l < num_syms (al_cfg a2)) by (apply (g_below _ (so_good _ S2)); exact (lookup_seen _ _ _ Ll)).
  assert (Brs : Forall (fun s => s < num_syms (al_cfg a2)) rs).
  { clear -P2. induction P2 as [|f s fs rs [H _] _ IH]; constructor; auto. }
  pose proof (grows_rule (al_cfg a2) (al_classes a2) r (so_table _ S2)) as GR.
  set (lexical := if b then l :: al_lexical a2 else al_lexical a2).
  destruct (grow_step a2 (push_rule (al_cfg a2) r) (al_classes a2) [r] (al_strings a2) lexical S2 GR) as [S3 X3].
  { constructor; [|constructor]. split; [exact Bl|]. split; [exact Brs|]. apply (so_apart _ S2). exact (lookup_seen _ _ _ Ll). }
  { unfold lexical. destruct b; [constructor; [exact Bl|]|]; apply (so_lexical _ S2). }
  set (a3 := mkAL (set_ld_cfg (al_names a2) (push_rule (al_cfg a2) r)) (al_strings a2) (al_classes a2) lexical) in *.
  assert (V3 : forall s, visible a3 s <-> visible a2 s) by (intros s; reflexivity).
  assert (L3 : later a2 a3 [r]).
  { apply later_of; [exact X3|]. constructor; [|constructor]. right. left. apply V3. exact Vl. }
  assert (LT : later a a3 (c2 ++ [r])).
  { pose proof (later_trans _ _ _ _ _ (later_trans _ _ _ _ _ LA1 L2) L3) as X. exact X. }
  assert (I3 : inv a3 (if b then l :: L else L)).
  { constructor; [exact S3|exact (i_names _ _ I2)| |exact (i_distinct _ _ I2)|].
    - intros i t H. destruct (i_strings _ _ I2 i t H) as [z [child [X1' [X2 X4]]]]. exists z, child. split; [exact X1'|].
      split; [exact (part_later _ _ _ _ S2 L3 X2)|exact X4].
    - intros s. pose proof (i_lexical _ _ I2 s) as X. change (lookup (al_names a3)) with (lookup (al_names a2)).
      change (al_strings a3) with (al_strings a2). change (al_lexical a3) with lexical. unfold lexical. destruct b; cbn [In]; tauto. }
  eexists. split; [reflexivity|]. 
  assert (EIn : exists m, ld_intern (al_names a3) = it ++ m).
  { exists m2. change (ld_intern (al_names a3)) with (ld_intern (al_names a2)). rewrite M2. cbn [with_names al_names]. rewrite C4, EI. reflexivity. }
  destruct EIn as [m3 EIn].
  pose proof (get_or_intern_index (ld_intern (al_names a)) (xr_lhs xr)) as Hix. rewrite Eid in Hix. cbn [fst snd] in Hix.
  apply (string_index_app _ m3) in Hix. rewrite <- EIn in Hix.
  pose proof (get_or_intern_app (ld_intern (al_names a)) (xr_lhs xr)) as [m0 Hm0]. rewrite Eid in Hm0. cbn [snd] in Hm0.
  assert (KEEP : forall x i, string_index (ld_intern (al_names a)) x = Some i -> string_index (ld_intern (al_names a3)) x = Some i).
  { intros x i Hx. rewrite EIn, Hm0, <- app_assoc. apply string_index_app. exact Hx. }
  assert (KNOWN : forall l' fs act b', In ((l', fs, act), b') done -> lookup (al_names a) l' <> None).
  { intros l' fs act b' Hin. destruct (r_rules _ _ _ _ HR) as [mains [helpers [_ [HM _]]]]. fold a in HM.
    assert (Hn : exists i, In (i, ((l', fs, act), b')) (numbered done)).
    { apply In_nth_error in Hin. destruct Hin as [n Hn]. exists (1 + n). unfold numbered. 
      clear -Hn. revert n Hn. generalize 1 as k. induction done as [|x done IH]; intros k [|n] Hn; try discriminate; cbn in *.
      - injection Hn as ->. left. f_equal. lia.
      - right. replace (k + S n) with (S k + n) by lia. apply IH. exact Hn. }
    destruct Hn as [i Hn]. clear -HM Hn. induction HM as [|p r ps rs H _ IH]; [contradiction|]. destruct Hn as [->|Hn]; [|auto].
    destruct H as [H _]. congruence. }
  constructor; cbn [lp_loader lp_idx lp_parser lp_actions]; fold lexical; fold a3.
  - exists (if b then l :: L else L). split; [exact I3|]. intros s.
    assert (LK : forall l' fs act b', In ((l', fs, act), b') done -> lookup (al_names a3) l' = lookup (al_names a) l').
    { intros l' fs act b' Hin. specialize (KNOWN _ _ _ _ Hin). destruct (lookup (al_names a) l') as [s'|] eqn:El; [|congruence].
      apply (la_look _ _ _ LT). exact El. }
    assert (OLD : (exists l' fs act, In ((l', fs, act), true) done /\ lookup (al_names a3) l' = Some s) <-> In s L).
    { rewrite HL. split; intros [l' [fs [act [Hin El]]]]; exists l', fs, act; (split; [exact Hin|]); rewrite <- El; [symmetry|];
      eapply LK; exact Hin. }
    split.
    + intros Hin. destruct b.
      * destruct Hin as [<-|Hin].
        -- exists (xr_lhs xr), (map xf_frag (xr_rhs xr)), (xr_action xr). split; [apply in_or_app; right; left; reflexivity|exact Ll].
        -- apply OLD in Hin. destruct Hin as [l' [fs [act [Hin El]]]]. exists l', fs, act. split; [apply in_or_app; left; exact Hin|exact El].
      * apply OLD in Hin. destruct Hin as [l' [fs [act [Hin El]]]]. exists l', fs, act. split; [apply in_or_app; left; exact Hin|exact El].
    + intros [l' [fs [act [Hin El]]]]. apply in_app_or in Hin. destruct Hin as [Hin|[Hin|[]]].
      * assert (In s L) by (apply OLD; exists l', fs, act; auto). destruct b; [right|]; assumption.
      * unfold erase_rule in Hin. injection Hin as <- <- <- ->. left. change (lookup (al_names a3)) with (lookup (al_names a2)) in El. congruence.
  - rewrite app_length, (r_idx _ _ _ _ HR). cbn. lia.
  - rewrite numbered_snoc, map_app. cbn [map fst snd erase_rule]. rewrite (r_actions _ _ _ _ HR), (r_idx _ _ _ _ HR). repeat f_equal. lia.
  - intros i. assert (OLD : In i (lp_parser st) <-> exists l' fs act, In ((l', fs, act), false) done /\ string_index (ld_intern (al_names a3)) l' = Some i).
    { rewrite (r_parser _ _ _ _ HR). fold a. split; intros [l' [fs [act [Hin El]]]]; exists l', fs, act; (split; [exact Hin|]); [apply KEEP; exact El|].
      specialize (KNOWN _ _ _ _ Hin). destruct (lookup (al_names a) l') as [s|] eqn:Es; [|congruence].
      destruct (lookup_interned _ _ _ Es) as [j Hj]. rewrite (KEEP _ _ Hj) in El. congruence. }
    assert (NEW : (exists l' fs act, In ((l', fs, act), false) (done ++ [(erase_rule xr, b)]) /\ string_index (ld_intern (al_names a3)) l' = Some i) <->
      (In i (lp_parser st) \/ b = false /\ i = id)).
    { rewrite OLD. split.
      - intros [l' [fs [act [Hin El]]]]. apply in_app_or in Hin. destruct Hin as [Hin|[Hin|[]]]; [left; exists l', fs, act; auto|right].
        unfold erase_rule in Hin. injection Hin as <- <- <- ->. split; [reflexivity|congruence].
      - intros [[l' [fs [act [Hin El]]]]|[-> ->]].
        + exists l', fs, act. split; [apply in_or_app; left; exact Hin|exact El].
        + exists (xr_lhs xr), (map xf_frag (xr_rhs xr)), (xr_action xr). split; [apply in_or_app; right; left; reflexivity|exact Hix]. }
    rewrite NEW. destruct b; [split; [auto|intros [H|[H _]]; [exact H|discriminate]]|]. cbn [In].
    split; [intros [->|H]; auto|intros [H|[_ ->]]; auto].
  - destruct (r_rules _ _ _ _ HR) as [mains [helpers [HP [HM HH]]]]. fold a in HP, HM, HH. exists (mains ++ [r]), (helpers ++ c2). split; [|split].
    + change (rules (al_cfg a3)) with (rules (al_cfg a2) ++ [r]). rewrite (la_rules _ _ _ L2), (la_rules _ _ _ LA1), app_nil_r.
      rewrite (Permutation_app_comm (rules (al_cfg a) ++ c2) [r]). rewrite HP. rewrite <- !app_assoc. cbn [app].
      apply Permutation_middle.
    + rewrite numbered_snoc. apply Forall2_app.
      * eapply forall2_impl; [|exact HM]. intros p x Hp. exact (main_later _ _ _ _ _ _ _ HS LT Hp).
      * constructor; [|constructor]. cbn [main erase_rule]. split; [exact Ll|]. split.
        -- cbn [rhs r]. eapply forall2_impl; [|exact P2]. intros f s Hf. exact (placed_later _ _ _ _ _ _ _ S2 L3 Hf).
        -- cbn [hist r]. rewrite (r_idx _ _ _ _ HR), Nat.add_1_r. reflexivity.
    + apply Forall_app. split; [|eapply Forall_impl; [|exact H2]; cbn beta; intros x [X1' X2]; split; [exact X1'|intros X; apply X2, V3; exact X]].
      rewrite Forall_forall in *. intros x Hx. destruct (HH x Hx) as [Y1 Y2]. split; [exact Y1|]. intros X. apply Y2.
      eapply visible_back; [exact LT|exact X|]. apply (g_closed _ (so_good _ HS) x).
      change (In x (rules (al_cfg a))). eapply Permutation_in; [symmetry; exact HP|]. apply in_or_app. right. exact Hx.
  - pose proof (r_root _ _ _ _ HR) as RR. fold a in RR. destruct done as [|[[[l0 fs0] act0] b0] done].
    + cbn [app erase_rule]. exists l. split; [exact Ll|]. change (roots (al_cfg a3)) with (roots (al_cfg a2)). rewrite R2.
      unfold al_cfg. cbn [with_names al_names]. unfold ld1. rewrite (r_idx _ _ _ _ HR). reflexivity.
    + cbn [app]. destruct RR as [s [RR1 RR2]]. exists s. split; [apply (la_look _ _ _ LT); exact RR1|].
      change (roots (al_cfg a3)) with (roots (al_cfg a2)). rewrite R2. unfold al_cfg. cbn [with_names al_names]. unfold ld1.
      rewrite (r_idx _ _ _ _ HR). cbn [length Nat.eqb]. rewrite <- RR2. exact (ex_roots _ _ _ X1).
  - intros t. change (al_strings a3) with (al_strings a2). rewrite T2. cbn [with_names al_strings].
    pose proof (r_strings _ _ _ _ HR t) as RS. fold a in RS. rewrite RS.
    unfold has_fragment. rewrite map_app. cbn [map fst erase_rule]. split.
    + intros [[l' [fs [act [Hin Hf]]]]|Hf].
      * exists l', fs, act. split; [apply in_or_app; left; exact Hin|exact Hf].
      * exists (xr_lhs xr), (map xf_frag (xr_rhs xr)), (xr_action xr). split; [apply in_or_app; right; left; reflexivity|exact Hf].
    + intros [l' [fs [act [Hin Hf]]]]. apply in_app_or in Hin. destruct Hin as [Hin|[Hin|[]]]; [left; exists l', fs, act; auto|].
      injection Hin as <- <- <-. right. exact Hf.
  - intros x Hx. pose proof (r_names _ _ _ _ HR x Hx) as RN. fold a in RN. change (lookup (al_names a3)) with (lookup (al_names a2)).
    unfold adv_named in *. rewrite map_app. cbn [map fst erase_rule]. split.
    + intros Hn. destruct (lookup (al_names a2) x) as [s|] eqn:Es; [|congruence].
      destruct (B2 x s Hx Es) as [H|[k H]].
      * cbn [with_names al_names] in H. rewrite EL in H. destruct (B1 x s H) as [H'| ->].
        -- destruct RN as [RN _]. destruct RN as [l' [fs [act [Hin Hf]]]]; [congruence|]. exists l', fs, act.
           split; [apply in_or_app; left; exact Hin|exact Hf].
        -- exists (xr_lhs xr), (map xf_frag (xr_rhs xr)), (xr_action xr). split; [apply in_or_app; right; left; reflexivity|left; reflexivity].
      * exists (xr_lhs xr), (map xf_frag (xr_rhs xr)), (xr_action xr). split; [apply in_or_app; right; left; reflexivity|right; exists k; exact H].
    + intros [l' [fs [act [Hin Hf]]]]. apply in_app_or in Hin. destruct Hin as [Hin|[Hin|[]]].
      * destruct RN as [_ RN]. assert (Hn : lookup (al_names a) x <> None) by (apply RN; exists l', fs, act; auto).
        destruct (lookup (al_names a) x) as [s|] eqn:Es; [|congruence]. apply (la_look _ _ _ LT) in Es.
        change (lookup (al_names a3)) with (lookup (al_names a2)) in Es. congruence.
      * injection Hin as <- <- <-. destruct Hf as [->|[k Hf]]; [congruence|].
        clear -P2 Hf. induction P2 as [|f s fs rs [_ H] _ IH]; [contradiction|]. destruct Hf as [->|Hf]; [|auto].
        destruct k; [congruence| |]; destruct H as [U [_ [_ [_ [_ H]]]]]; eapply H; reflexivity.
Qed.
