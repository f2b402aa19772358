(** The advanced loader: what one fragment adds to the grammar. *)

From Coq Require Import String Ascii List Arith NArith Bool Lia Permutation.
From Verif Require Import Base ListFacts Spec SpecSeq SpecRegex SpecRemap GrammarFacts SymbolModel LoopModel LoopFacts HistoryModel
  CfgModel View SeqModel RegexModel RegexProof RegexProof2 RemapModel PropsSeq SpecLoad SpecAdv LoadModel LoadParseProof LoadProof AdvModel
  AdvRegexProof AdvEmbedProof.
Import ListNotations.
Local Open Scope list_scope.
Local Notation length := List.length.

(** * Rules *)

Lemma add_rule_ok : forall g x, limit g = None -> add_rule g x = Ok (push_rule g x).
Proof. intros g x H. unfold add_rule, add_rule_parts, add_rule_fuel. rewrite H. destruct x; reflexivity. Qed.

(** A left-hand side and a right-hand side. *)
Definition pair_of (x : rule) : nat * list nat := (lhs x, rhs x).

Lemma star_ok : forall debug g z x, limit g = None -> exists g' h1 h2, 
  seq_rewrite debug g (mkSeq z x 0 None Null None) = Ok g' /\ helper_hist h1 /\ helper_hist h2 /\
  g' = push_rule (push_rule (push_rule (snd (next_sym (push_rule g (mkRule z [] h1)) None)) (mkRule z [num_syms g] h1))
    (mkRule (num_syms g) [x] h2)) (mkRule (num_syms g) [num_syms g; x] h2).
Proof.
  intros debug g z x HL. unfold seq_rewrite. cbn [sq_hist sq_lhs sq_rhs sq_sep process_linked bind].
  cbn [seq_reduce sq_sep sq_start sq_end sq_lhs sq_rhs N.eqb]. unfold seq_rhs at 1. cbn [List.length Nat.leb negb process_linked bind].
  unfold rule_history_rhs at 1. rewrite add_rule_ok by exact HL. cbn [bind ss_cfg ss_stack ss_map].
  unfold seq_recurse. cbn [ss_map key_lookup].
  match goal with |- context [next_sym ?g None] => destruct (next_sym g None) as [l g2] eqn:En end.
  unfold next_sym, src_next in En. injection En as <- <-.
  unfold seq_rhs. cbn [List.length Nat.leb negb process_linked bind]. unfold rule_history_rhs. cbn [ss_cfg ss_stack ss_map].
  rewrite add_rule_ok by (cbn; exact HL). cbn [bind].
  match goal with |- context [run_loop ?st 80 ?a] => set (step := st); set (a0 := a) end.
  assert (E : exists h m, helper_hist h /\ step a0 = inl (mkSS (push_rule (push_rule (ss_cfg a0) (mkRule (num_syms g) [x] h))
    (mkRule (num_syms g) [num_syms g; x] h)) [] m)).
  { unfold step, seq_step, a0. cbn [ss_stack ss_cfg ss_map sq_start sq_end seq_inclusive N.leb N.compare u32_max].
    replace (1 <=? u32_max)%N with true by reflexivity.
    cbn [seq_reduce sq_sep sq_start sq_end sq_lhs sq_rhs N.eqb Pos.eqb seq_inclusive]. unfold seq_rhs.
    cbn [List.length Nat.leb negb process_linked bind]. unfold rule_history_rhs. cbn [ss_cfg ss_stack ss_map].
    rewrite add_rule_ok by exact HL. cbn [bind ss_cfg ss_stack ss_map]. rewrite add_rule_ok by exact HL. cbn [bind].
    eexists _, _. split; [|reflexivity]. right. reflexivity. }
  destruct E as [h2 [m [H2 E]]]. rewrite (run_loop_second step 79 a0 _ _ E eq_refl). cbn [bind ss_cfg]. unfold a0. cbn [ss_cfg].
  eexists _, (mkHistory dot_default dot_default dot_default 0 None None (Some (mkSeqDetails true x None))), h2.
  split; [reflexivity|]. split; [left; reflexivity|]. split; [exact H2|]. reflexivity.
Qed.

Lemma plus_ok : forall debug g z x, limit g = None -> exists h, 
  seq_rewrite debug g (mkSeq z x 1 None Null None) = Ok (push_rule (push_rule g (mkRule z [x] h)) (mkRule z [z; x] h)) /\ helper_hist h.
Proof.
  intros debug g z x HL. unfold seq_rewrite. cbn [sq_hist sq_lhs sq_rhs sq_sep process_linked bind].
  cbn [seq_reduce sq_sep sq_start sq_end sq_lhs sq_rhs N.eqb Pos.eqb]. unfold seq_rhs. cbn [List.length Nat.leb negb process_linked bind].
  unfold rule_history_rhs. rewrite add_rule_ok by exact HL. cbn [bind ss_cfg ss_stack ss_map].
  rewrite add_rule_ok by exact HL. cbn [bind ss_cfg ss_stack ss_map].
  match goal with |- context [run_loop ?st 80 ?a] => rewrite (run_loop_first st 80 a (Ok a) eq_refl) end. cbn [bind ss_cfg].
  eexists. split; [reflexivity|]. left. reflexivity.
Qed.

(** * The state of the loader *)

Lemma seen_lookup : forall ld s, good ld -> seen ld s -> exists x, lookup ld x = Some s.
Proof.
  intros ld s HG HS. apply in_map_iff in HS. destruct HS as [[k s'] [E HS]]. cbn in E. subst s'.
  pose proof (in_map fst _ _ HS) as HK. rewrite (g_keys _ HG) in HK. rewrite <- in_rev in HK. apply in_seq in HK. cbn in HK.
  destruct (nth_error (ld_intern ld) k) as [x|] eqn:Ex; [|apply nth_error_None in Ex; lia].
  exists x. unfold lookup. destruct (string_index (ld_intern ld) x) as [j|] eqn:Ej.
  - apply string_index_some in Ej. assert (j = k).
    { eapply NoDup_nth_error; [apply (g_strings _ HG)| |congruence]. apply nth_error_Some. congruence. }
    subst j. apply lookup_in_map; [|exact HS]. rewrite (g_keys _ HG). apply NoDup_rev. apply seq_NoDup.
  - apply string_index_none in Ej. exfalso. apply Ej. eapply nth_error_In; eauto.
Qed.

Record sound (a : adv_loader) : Prop := {
  so_good : good (al_names a);
  so_table : table_ok (al_cfg a) (al_classes a);
  so_apart : forall s, seen (al_names a) s -> ~ In s (map snd (al_classes a));
  so_clean : forall r, In r (rules (al_cfg a)) -> ~ In (lhs r) (map snd (al_classes a));
  so_lexical : Forall (fun s => s < num_syms (al_cfg a)) (al_lexical a)
}.

(** More rules, names and classes. *)
Record extends (a a' : adv_loader) (c : list rule) : Prop := {
  ex_rules : rules (al_cfg a') = rules (al_cfg a) ++ c;
  ex_roots : roots (al_cfg a') = roots (al_cfg a);
  ex_le : num_syms (al_cfg a) <= num_syms (al_cfg a');
  ex_look : forall x s, lookup (al_names a) x = Some s -> lookup (al_names a') x = Some s;
  ex_back : forall x s, lookup (al_names a') x = Some s -> lookup (al_names a) x = Some s \/ num_syms (al_cfg a) <= s;
  ex_keep : incl (al_classes a) (al_classes a');
  ex_new : forall k s, In (k, s) (al_classes a') -> In (k, s) (al_classes a) \/ num_syms (al_cfg a) <= s
}.

Lemma extends_refl : forall a, extends a a [].
Proof. intros a. constructor; auto; [rewrite app_nil_r; reflexivity|apply incl_refl]. Qed.

Lemma extends_trans : forall a b d c1 c2, extends a b c1 -> extends b d c2 -> extends a d (c1 ++ c2).
Proof.
  intros a b d c1 c2 A B. pose proof (ex_le _ _ _ A) as L1. pose proof (ex_le _ _ _ B) as L2. constructor.
  - rewrite (ex_rules _ _ _ B), (ex_rules _ _ _ A), app_assoc. reflexivity.
  - rewrite (ex_roots _ _ _ B). apply A.
  - lia.
  - intros x s H. apply (ex_look _ _ _ B). apply (ex_look _ _ _ A). exact H.
  - intros x s H. destruct (ex_back _ _ _ B x s H) as [H1|H1]; [apply (ex_back _ _ _ A); exact H1|right; lia].
  - intros p H. apply (ex_keep _ _ _ B). apply (ex_keep _ _ _ A). exact H.
  - intros k s H. destruct (ex_new _ _ _ B k s H) as [H1|H1]; [apply (ex_new _ _ _ A); exact H1|right; lia].
Qed.

Definition with_names (a : adv_loader) (ld : loader) : adv_loader := mkAL ld (al_strings a) (al_classes a) (al_lexical a).

(** The symbol of a name. *)
Lemma name_step : forall a x, sound a -> exists s ld, symbol_named (al_names a) x = (s, ld) /\
  sound (with_names a ld) /\ extends a (with_names a ld) [] /\ lookup ld x = Some s /\
  (forall y t, lookup ld y = Some t -> lookup (al_names a) y = Some t \/ y = x).
Proof.
  intros a x HS. pose proof (so_good _ HS) as HG.
  destruct (symbol_named_ok (al_names a) x HG) as [s [ld [E [G [L [K [R [O C]]]]]]]].
  assert (LE : num_syms (ld_cfg (al_names a)) <= num_syms (ld_cfg ld)) by (destruct C as [[C _]|[C1 [C2 _]]]; lia).
  assert (SB : forall y, seen ld y -> seen (al_names a) y \/ (y = s /\ num_syms (ld_cfg (al_names a)) <= y)).
  { intros y Hy. destruct C as [[_ C]|[C1 [_ C]]]; apply C in Hy; [left; exact Hy|]. destruct Hy as [Hy| ->]; [left; exact Hy|].
    right. split; [reflexivity|lia]. }
  assert (BK : forall y t, lookup ld y = Some t -> lookup (al_names a) y = Some t \/ (y = x /\ num_syms (ld_cfg (al_names a)) <= t)).
  { intros y t H. destruct (SB t (lookup_seen _ _ _ H)) as [H1|[-> H1]].
    - destruct (seen_lookup _ _ HG H1) as [y' Hy']. left. rewrite (lookup_inj ld y y' t G H (K _ _ Hy')). exact Hy'.
    - right. split; [exact (lookup_inj ld y x s G H L)|exact H1]. }
  exists s, ld. split; [exact E|]. split; [|split; [|split; [exact L|]]].
  - constructor; unfold al_cfg; cbn [with_names al_names al_classes al_lexical].
    + exact G.
    + constructor; [apply (so_table _ HS)|apply (so_table _ HS)|]. intros k y H. apply (t_below _ _ (so_table _ HS)) in H.
      unfold al_cfg in H. lia.
    + intros y Hy Hin. destruct (SB y Hy) as [H1|[_ H1]]; [exact (so_apart _ HS y H1 Hin)|].
      apply in_map_iff in Hin. destruct Hin as [[k y'] [<- Hin]]. apply (t_below _ _ (so_table _ HS)) in Hin. unfold al_cfg in Hin. cbn in H1. lia.
    + rewrite R. apply (so_clean _ HS).
    + eapply Forall_impl; [|apply (so_lexical _ HS)]. cbn. unfold al_cfg. intros; lia.
  - constructor; unfold al_cfg; cbn [with_names al_names al_classes]; auto.
    + rewrite app_nil_r. exact R.
    + intros y t H. destruct (BK y t H) as [H1|[_ H1]]; auto.
    + apply incl_refl.
  - intros y t H. destruct (BK y t H) as [H1|[H1 _]]; auto.
Qed.

Lemma lookup_cfg : forall ld g x, lookup (set_ld_cfg ld g) x = lookup ld x.
Proof. reflexivity. Qed.

(** Rules, classes and symbols without names. *)
Lemma grow_step : forall a g t c strings lexical, sound a -> grows (al_cfg a) (al_classes a) g t c ->
  Forall (fun x => lhs x < num_syms g /\ Forall (fun s => s < num_syms g) (rhs x) /\ ~ In (lhs x) (map snd t)) c ->
  Forall (fun s => s < num_syms g) lexical ->
  let a' := mkAL (set_ld_cfg (al_names a) g) strings t lexical in sound a' /\ extends a a' c.
Proof.
  intros a g t c strings lexical HS HG HC HL. cbn zeta. pose proof (grows_le _ _ _ _ _ HG) as LE.
  destruct (gr_names _ _ _ _ _ HG) as [k [N1 N2]]. pose proof (so_good _ HS) as G. rewrite Forall_forall in HC. split.
  - constructor; unfold al_cfg; cbn [al_names al_classes al_lexical set_ld_cfg ld_cfg].
    + constructor; cbn [set_ld_cfg ld_map ld_intern ld_cfg]; try apply G.
      * intros s Hs. apply (g_below _ G) in Hs. unfold al_cfg in LE. lia.
      * intros x s H. rewrite N1. pose proof (g_names _ G x s H) as HN. unfold al_cfg. rewrite nth_error_app1; [exact HN|].
        apply nth_error_Some. congruence.
      * rewrite N1, N2, app_length, repeat_length. unfold al_cfg. rewrite (g_source _ G). reflexivity.
      * intros r Hr. rewrite (gr_rules _ _ _ _ _ HG) in Hr. apply in_app_or in Hr. destruct Hr as [Hr|Hr].
        -- destruct (g_closed _ G r Hr) as [H1 H2]. unfold al_cfg in LE. split; [lia|]. eapply Forall_impl; [|exact H2]. cbn. intros; lia.
        -- destruct (HC r Hr) as [H1 [H2 _]]. split; assumption.
      * rewrite (gr_limit _ _ _ _ _ HG). apply G.
    + apply HG.
    + intros s Hs Hin. apply in_map_iff in Hin. destruct Hin as [[k' s'] [<- Hin]]. cbn in Hs.
      destruct (gr_new _ _ _ _ _ HG k' s' Hin) as [H1|H1].
      * apply (so_apart _ HS s'); [exact Hs|]. apply in_map_iff. exists (k', s'). auto.
      * apply (g_below _ G) in Hs. unfold al_cfg in H1. lia.
    + intros r Hr. rewrite (gr_rules _ _ _ _ _ HG) in Hr. apply in_app_or in Hr. destruct Hr as [Hr|Hr].
      * intros Hin. apply in_map_iff in Hin. destruct Hin as [[k' s'] [E Hin]]. cbn in E. subst s'.
        destruct (gr_new _ _ _ _ _ HG k' _ Hin) as [H1|H1].
        -- apply (so_clean _ HS r Hr). apply in_map_iff. exists (k', lhs r). auto.
        -- destruct (g_closed _ G r Hr) as [H2 _]. unfold al_cfg in H1. lia.
      * apply (HC r Hr).
    + exact HL.
  - constructor; unfold al_cfg; cbn [al_names al_classes set_ld_cfg ld_cfg]; auto; apply HG.
Qed.

(** * Characters *)

Definition char_ok (c : N) : Prop := is_char (c + 1).
Definition char_symbol (t : class_table) (c : N) (s : nat) : Prop := In ([(c, (c + 1)%N)], s) t.

Lemma classes_of_char_ok : forall c, char_ok c -> classes_of_char c = Ok [(c, (c + 1)%N)].
Proof.
  intros c H. unfold classes_of_char, from_u32_unwrap. unfold char_ok, is_char in H.
  destruct H as [H|[H1 H2]].
  - apply N.ltb_lt in H. rewrite H. reflexivity.
  - apply N.leb_le in H1, H2. rewrite H1, H2, orb_true_r. reflexivity.
Qed.

Lemma chars_ok : forall s child0 g t, table_ok g t -> Forall char_ok s -> exists child g' t',
  fold_res add_char s (child0, g, t) = Ok (child0 ++ child, g', t') /\ grows g t g' t' [] /\ Forall2 (char_symbol t') s child.
Proof.
  induction s as [|c s IH]; intros child0 g t HT HS.
  - exists [], g, t. rewrite app_nil_r. split; [reflexivity|]. split; [apply grows_refl; exact HT|constructor].
  - inversion HS as [|c' s' H1 H2]; subst. cbn [fold_res]. unfold add_char at 1. rewrite (classes_of_char_ok c H1). cbn [bind].
    destruct (class_entry_ok g t [(c, (c + 1)%N)] HT) as [x [g1 [t1 [E1 [G1 I1]]]]]. rewrite E1. cbn [bind].
    destruct (IH (child0 ++ [x]) g1 t1 (gr_table _ _ _ _ _ G1) H2) as [child [g2 [t2 [E2 [G2 F2]]]]].
    exists (x :: child), g2, t2. rewrite E2, <- app_assoc. split; [reflexivity|].
    split; [exact (grows_trans _ _ _ _ _ _ _ _ G1 G2)|]. constructor; [|exact F2]. apply (gr_keep _ _ _ _ _ G2). exact I1.
Qed.

(** * Fragments *)

Definition frag_ok (rx : text -> option hir) (f : adv_fragment) : Prop :=
  match f with
  | FName _ _ => True
  | FString s => Forall char_ok s
  | FCall func s => func = regexp_name /\ exists h, rx s = Some h /\ supported h
  end.

(** A new symbol that has no name and is of no class. *)
Definition fresh (a a' : adv_loader) (s : nat) : Prop :=
  num_syms (al_cfg a) <= s /\ ~ seen (al_names a') s /\ ~ In s (map snd (al_classes a')).

Definition string_id (a : adv_loader) (t : text) : nat := fst (intern_text (al_strings a) t).

Definition new_name (a : adv_loader) (f : adv_fragment) : option string :=
  match f with
  | FName x _ => Some x
  | FString t => Some (lex_name (string_id a t))
  | FCall _ _ => None
  end.

(** The rules [c] that are added for a fragment, and the symbol [s] that stands for it. *)
Definition added (debug : bool) (rx : text -> option hir) (a a' : adv_loader) (f : adv_fragment) (s : nat) (c : list rule) : Prop :=
  match f with
  | FName x k =>
      al_strings a' = al_strings a /\ al_lexical a' = al_lexical a /\
      exists p, lookup (al_names a') x = Some p /\
      match k with
      | Once => s = p /\ c = []
      | ZeroOrMore => exists y, fresh a a' s /\ fresh a a' y /\ s <> y /\ y < num_syms (al_cfg a') /\
          map pair_of c = [(s, []); (s, [y]); (y, [p]); (y, [y; p])]
      | OneOrMore => fresh a a' s /\ map pair_of c = [(s, [p]); (s, [s; p])]
      end
  | FString t =>
      al_strings a' = snd (intern_text (al_strings a) t) /\ al_lexical a' = s :: al_lexical a /\
      lookup (al_names a') (lex_name (string_id a t)) = Some s /\
      exists child, Forall2 (char_symbol (al_classes a')) t child /\ map pair_of c = [(s, child)]
  | FCall _ t =>
      al_strings a' = al_strings a /\ al_lexical a' = al_lexical a /\
      exists h, rx t = Some h /\ supported h /\
      Forall (fun x => fresh a a' (lhs x) /\ Forall (fun y => num_syms (al_cfg a) <= y \/ In y (map snd (al_classes a'))) (rhs x)) c /\
      (fresh a a' s \/ In s (map snd (al_classes a'))) /\
      (forall ts, matches h ts -> Forall (fun x => exists y, token_symbol debug (al_classes a') x y) ts) /\
      (forall w, language (rule_prods c) s w <-> exists ts, matches h ts /\ Forall2 (token_symbol debug (al_classes a')) ts w)
  end.

Lemma class_below : forall a s, sound a -> In s (map snd (al_classes a)) -> s < num_syms (al_cfg a).
Proof.
  intros a s HS H. apply in_map_iff in H. destruct H as [[k s'] [<- H]]. exact (t_below _ _ (so_table _ HS) k s' H).
Qed.

Lemma fragment_ok : forall debug rx a xf, sound a -> frag_ok rx (xf_frag xf) -> exists s a' c,
  adv_load_fragment debug rx a xf = Ok (inl (s, a')) /\ sound a' /\ extends a a' c /\ s < num_syms (al_cfg a') /\
  Forall (fun x => helper_hist (hist x)) c /\
  added debug rx a a' (xf_frag xf) s c /\
  (forall y t, lookup (al_names a') y = Some t -> lookup (al_names a) y = Some t \/ new_name a (xf_frag xf) = Some y).
Proof.
  intros debug rx a xf HS HF. unfold adv_load_fragment. destruct (xf_frag xf) as [x k|t|func t].
  - unfold load_name, load_fragment. cbn [fst snd].
    destruct (name_step a x HS) as [p [ld [E [S1 [X1 [L1 B1]]]]]]. rewrite E. clear E.
    assert (P1 : seen ld p) by exact (lookup_seen _ _ _ L1).
    assert (P2 : p < num_syms (ld_cfg ld)) by (apply (g_below _ (so_good _ S1)); exact P1).
    assert (LM : limit (ld_cfg ld) = None) by (apply (so_good _ S1)).
    assert (FR : forall z g t c, grows (ld_cfg ld) (al_classes a) g t c -> num_syms (ld_cfg ld) <= z -> ~ In z (map snd t) ->
      forall st lx, fresh a (mkAL (mkLoader g (ld_intern ld) (ld_map ld)) st t lx) z).
    { intros z g t c HG Hz Ht st lx. pose proof (ex_le _ _ _ X1) as LE. unfold al_cfg in LE at 2. cbn in LE. split; [lia|].
      split; [|exact Ht]. intros X. change (seen ld z) in X. apply (g_below _ (so_good _ S1)) in X. cbn in X. lia. }
    destruct k.
    + cbn [bind app hd]. exists p, (with_names a ld), []. split; [reflexivity|]. split; [exact S1|]. split; [exact X1|].
      split; [exact P2|]. split; [constructor|]. split.
      * cbn [added]. split; [reflexivity|]. split; [reflexivity|]. exists p. split; [exact L1|]. split; reflexivity.
      * intros y t H. destruct (B1 y t H) as [H1| ->]; [left; exact H1|right; reflexivity].
    + destruct (next_sym (ld_cfg ld) None) as [z g1] eqn:En.
      destruct (grows_next _ (al_classes a) _ _ (so_table _ S1) En) as [G1 [Ez En1]]. change (al_cfg (with_names a ld)) with (ld_cfg ld) in *.
      change (SInclusive 0 None) with (kind_call ZeroOrMore). rewrite add_sequence_eq. cbn [kind_start].
      assert (LM1 : limit g1 = None) by (rewrite (gr_limit _ _ _ _ _ G1); exact LM).
      destruct (star_ok debug g1 z p LM1) as [g' [h1 [h2 [E [H1 [H2 Eg]]]]]]. rewrite E. cbn [bind app hd]. clear E.
      pose proof (grows_trans _ _ _ _ _ _ _ _ G1 (grows_rule g1 (al_classes a) (mkRule z [] h1) (gr_table _ _ _ _ _ G1))) as G2.
      destruct (next_sym (push_rule g1 (mkRule z [] h1)) None) as [y g2] eqn:En2. cbn [snd] in Eg.
      destruct (grows_next _ (al_classes a) _ _ (gr_table _ _ _ _ _ G2) En2) as [G3 [Ey En3]]. change (num_syms (push_rule g1 (mkRule z [] h1))) with (num_syms g1) in Ey.
      rewrite <- Ey in Eg.
      pose proof (grows_trans _ _ _ _ _ _ _ _ G2 G3) as G4. 
      pose proof (grows_trans _ _ _ _ _ _ _ _ G4 (grows_rule _ _ (mkRule z [y] h1) (gr_table _ _ _ _ _ G4))) as G5.
      pose proof (grows_trans _ _ _ _ _ _ _ _ G5 (grows_rule _ _ (mkRule y [p] h2) (gr_table _ _ _ _ _ G5))) as G6.
      pose proof (grows_trans _ _ _ _ _ _ _ _ G6 (grows_rule _ _ (mkRule y [y; p] h2) (gr_table _ _ _ _ _ G6))) as G7.
      rewrite <- Eg in G7. cbn [app] in G7.
      assert (NY : num_syms g' = S y) by (rewrite Eg; exact En3).
      assert (CB : forall s, In s (map snd (al_classes a)) -> s < num_syms (ld_cfg ld)) by (intros s Hs; exact (class_below _ s S1 Hs)).
      assert (NZ : ~ In z (map snd (al_classes a))) by (intros X; apply CB in X; lia).
      assert (NYc : ~ In y (map snd (al_classes a))) by (intros X; apply CB in X; lia).
      destruct (grow_step (with_names a ld) g' (al_classes a) _ (al_strings a) (al_lexical a) S1 G7) as [S2 X2].
      { repeat (constructor; [cbn [lhs rhs]; split; [lia|]; split; [repeat (constructor; [lia|]); constructor|assumption]|]). constructor. }
      { eapply Forall_impl; [|apply (so_lexical _ S1)]. intros s Hs. change (al_cfg (with_names a ld)) with (ld_cfg ld) in Hs. cbn in Hs. lia. }
      eexists z, _, _. split; [reflexivity|]. split; [exact S2|]. split; [exact (extends_trans _ _ _ _ _ X1 X2)|].
      split; [unfold al_cfg; cbn; lia|]. split; [cbn [app]; repeat (constructor; [assumption|]); constructor|]. split.
      * cbn [added]. split; [reflexivity|]. split; [reflexivity|]. exists p. split; [exact L1|]. exists y.
        split; [apply (FR _ _ _ _ G7); [lia|assumption]|]. split; [apply (FR _ _ _ _ G7); [lia|assumption]|].
        split; [lia|]. split; [unfold al_cfg; cbn; lia|]. reflexivity.
      * intros q t H. destruct (B1 q t H) as [H3| ->]; [left; exact H3|right; reflexivity].
    + destruct (next_sym (ld_cfg ld) None) as [z g1] eqn:En.
      destruct (grows_next _ (al_classes a) _ _ (so_table _ S1) En) as [G1 [Ez En1]]. change (al_cfg (with_names a ld)) with (ld_cfg ld) in *.
      change (SRange (Included 1) Unbounded) with (kind_call OneOrMore). rewrite add_sequence_eq. cbn [kind_start].
      assert (LM1 : limit g1 = None) by (rewrite (gr_limit _ _ _ _ _ G1); exact LM).
      destruct (plus_ok debug g1 z p LM1) as [h [E H1]]. rewrite E. cbn [bind app hd]. clear E.
      pose proof (grows_trans _ _ _ _ _ _ _ _ G1 (grows_rule g1 (al_classes a) (mkRule z [p] h) (gr_table _ _ _ _ _ G1))) as G2.
      pose proof (grows_trans _ _ _ _ _ _ _ _ G2 (grows_rule _ _ (mkRule z [z; p] h) (gr_table _ _ _ _ _ G2))) as G7. cbn [app] in G7.
      set (g' := push_rule (push_rule g1 (mkRule z [p] h)) (mkRule z [z; p] h)) in *.
      assert (NY : num_syms g' = S z) by exact En1.
      assert (CB : forall s, In s (map snd (al_classes a)) -> s < num_syms (ld_cfg ld)) by (intros s Hs; exact (class_below _ s S1 Hs)).
      assert (NZ : ~ In z (map snd (al_classes a))) by (intros X; apply CB in X; lia).
      destruct (grow_step (with_names a ld) g' (al_classes a) _ (al_strings a) (al_lexical a) S1 G7) as [S2 X2].
      { repeat (constructor; [cbn [lhs rhs]; split; [lia|]; split; [repeat (constructor; [lia|]); constructor|assumption]|]). constructor. }
      { eapply Forall_impl; [|apply (so_lexical _ S1)]. intros s Hs. change (al_cfg (with_names a ld)) with (ld_cfg ld) in Hs. cbn beta in Hs. lia. }
      eexists z, _, _. split; [reflexivity|]. split; [exact S2|]. split; [exact (extends_trans _ _ _ _ _ X1 X2)|].
      split; [unfold al_cfg; cbn [al_names set_ld_cfg ld_cfg]; lia|]. split; [cbn [app]; repeat (constructor; [assumption|]); constructor|]. split.
      * cbn [added]. split; [reflexivity|]. split; [reflexivity|]. exists p. split; [exact L1|].
        split; [apply (FR _ _ _ _ G7); [lia|assumption]|]. reflexivity.
      * intros q t H. destruct (B1 q t H) as [H3| ->]; [left; exact H3|right; reflexivity].
  - unfold load_string. cbn [frag_ok] in HF. destruct (intern_text (al_strings a) t) as [id strings] eqn:Ei.
    destruct (name_step a (lex_name id) HS) as [p [ld [E [S1 [X1 [L1 B1]]]]]]. rewrite E. clear E.
    assert (P1 : seen ld p) by exact (lookup_seen _ _ _ L1).
    assert (P2 : p < num_syms (ld_cfg ld)) by (apply (g_below _ (so_good _ S1)); exact P1).
    destruct (chars_ok t [] (ld_cfg ld) (al_classes a) (so_table _ S1) HF) as [child [g1 [t1 [E1 [G1 F1]]]]].
    rewrite E1. cbn [bind app]. unfold rule_rhs.
    assert (LM1 : limit g1 = None) by (rewrite (gr_limit _ _ _ _ _ G1); apply (so_good _ S1)).
    rewrite add_rule_ok by exact LM1. cbn [bind].
    set (r := mkRule p child (process_root (RRule p))).
    pose proof (grows_trans _ _ _ _ _ _ _ _ G1 (grows_rule g1 t1 r (gr_table _ _ _ _ _ G1))) as G2. cbn [app] in G2.
    pose proof (grows_le _ _ _ _ _ G1) as LE1.
    assert (NP : ~ In p (map snd t1)).
    { intros X. apply in_map_iff in X. destruct X as [[k' p'] [E2 X]]. cbn in E2. subst p'.
      destruct (gr_new _ _ _ _ _ G1 k' p X) as [X1'|X1']; [|lia]. apply (so_apart _ S1 p P1). apply in_map_iff. exists (k', p). auto. }
    destruct (grow_step (with_names a ld) (push_rule g1 r) t1 _ strings (p :: al_lexical a) S1 G2) as [S2 X2].
    { constructor; [|constructor]. cbn [lhs rhs r]. split; [change (p < num_syms g1); lia|]. split; [|exact NP].
      apply Forall_forall. intros s Hs. change (s < num_syms g1).
      assert (exists c, In c t /\ char_symbol t1 c s) as [c [_ Hc]].
      { clear -F1 Hs. induction F1 as [|c s' l1 l2 H HF IH]; [contradiction|]. destruct Hs as [->|Hs]; [exists c; split; [left; reflexivity|exact H]|].
        destruct (IH Hs) as [c' [H1 H2]]. exists c'. split; [right; exact H1|exact H2]. }
      exact (t_below _ _ (gr_table _ _ _ _ _ G1) _ _ Hc). }
    { constructor; [change (p < num_syms g1); lia|]. eapply Forall_impl; [|apply (so_lexical _ S1)]. intros s Hs.
      change (s < num_syms (ld_cfg ld)) in Hs. change (s < num_syms g1). lia. }
    eexists p, _, _. split; [reflexivity|]. split; [exact S2|]. split; [exact (extends_trans _ _ _ _ _ X1 X2)|].
    split; [change (p < num_syms g1); lia|]. split; [constructor; [left; reflexivity|constructor]|]. unfold added, new_name, string_id. rewrite Ei. cbn [fst snd]. split.
    + split; [reflexivity|]. split; [reflexivity|]. split; [exact L1|]. exists child. split; [exact F1|reflexivity].
    + intros q u H. destruct (B1 q u H) as [H3| ->]; [left; exact H3|right; reflexivity].
  - destruct HF as [-> [h [Eh Hh]]]. rewrite String.eqb_refl. cbn [negb]. rewrite Eh.
    destruct (embed_ok debug h (al_cfg a) (al_classes a) Hh (so_table _ HS)) as [r [g' [t' [c [E [G [HC [Hr [Hr2 [Cov HL]]]]]]]]]].
    rewrite E. cbn [bind].
    assert (FR : forall z, num_syms (al_cfg a) <= z -> ~ seen (al_names a) z).
    { intros z Hz X. apply (g_below _ (so_good _ HS)) in X. unfold al_cfg in Hz. lia. }
    destruct (grow_step a g' t' c (al_strings a) (al_lexical a) HS G) as [S2 X2].
    { eapply Forall_impl; [|exact HC]. cbn. intros x [_ [_ [H3 [H4 H5]]]]. split; [exact H4|]. split; [|exact H3].
      eapply Forall_impl; [|exact H5]. cbn. tauto. }
    { eapply Forall_impl; [|apply (so_lexical _ HS)]. cbn beta. intros s Hs. pose proof (grows_le _ _ _ _ _ G). lia. }
    eexists r, _, c. split; [reflexivity|]. split; [exact S2|]. split; [exact X2|]. split; [exact Hr2|].
    split; [eapply Forall_impl; [|exact HC]; cbn; tauto|]. split.
    + cbn [added]. split; [reflexivity|]. split; [reflexivity|]. exists h. split; [exact Eh|]. split; [exact Hh|].
      cbn [al_classes al_names]. split; [|split; [|split; [exact Cov|exact HL]]].
      * eapply Forall_impl; [|exact HC]. cbn beta. intros x [_ [H2 [H3 [H4 H5]]]]. split; [split; [exact H2|]; split; [apply (FR _ H2)|exact H3]|].
        eapply Forall_impl; [|exact H5]. cbn. tauto.
      * destruct (in_dec Nat.eq_dec r (map snd t')) as [Hi|Hi]; [right; exact Hi|]. destruct Hr as [Hr|Hr]; [|contradiction].
        left. split; [exact Hr|]. split; [apply (FR _ Hr)|exact Hi].
    + intros q u H. left. exact H.
Qed.
