(** Proofs about the procedural macro: lines of the text and spans of tokens. *)

From Coq Require Import String List Arith NArith Bool Lia.
From Verif Require Import Base ListFacts SpecLoad SpecAdv SpecRegex SpecAdv2 SymbolModel HistoryModel CfgModel LoadModel LoadParseProof AdvModel AdvLexProof AdvParseProof AdvTokensProof AdvLoadProof3 AdvTextProof SpecMacro MacroModel.
Import ListNotations.
Local Open Scope list_scope.
Local Notation length := List.length.

(** A newline ends each word. *)
Lemma word_longest : forall w t rest, adv_word w (Some t) -> forall w' o', adv_word w' o' -> starts w' (w ++ 10%N :: rest) -> length w' <= length w.
Proof.
  intros w t rest H w' o' H' [u E].
  assert (K34 : forall c, starts_name c = true -> c <> 34%N) by (intros c Hc; apply (kinds_differ c Hc)).
  assert (K58 : forall c, starts_name c = true -> c <> 58%N) by (intros c Hc; apply (kinds_differ c Hc)).
  destruct (word_shape w _ H) as [c [v [Ew [[Hc [Hv _]]|[[Ec [b [x [Hq [-> _]]]]]|[[E1 _]|[Hs ->]]]]]]];
  destruct (word_shape w' _ H') as [c' [v' [Ew' [[Hc' [Hv' _]]|[[Ec' [b' [x' [Hq' [-> _]]]]]|[[E1' _]|[Hs' ->]]]]]]];
  rewrite Ew, Ew' in *; cbn [app] in E; injection E as E0 E; try (cbn [length]; lia).
  - subst c'. apply (prefix_of_names (c :: v) (c :: v') (10%N :: rest)); [|reflexivity|exists u; cbn [app]; rewrite E; reflexivity].
    cbn. rewrite (starts_continues _ Hc), Hv'. reflexivity.
  - exfalso. apply (K34 c Hc). congruence.
  - exfalso. apply (K58 c Hc). congruence.
  - exfalso. apply (K34 c' Hc'). congruence.
  - rewrite <- !app_assoc in E. cbn [app] in E. destruct (quoted_unique _ _ Hq _ _ _ _ Hq' E) as [-> _]. apply le_n.
  - exfalso. assert (X : 34%N = 58%N) by congruence. lia.
  - exfalso. apply (K58 c' Hc'). congruence.
  - exfalso. assert (X : 34%N = 58%N) by congruence. lia.
  - rewrite E1, E1'. apply le_n.
  - destruct (kinds_differ _ Hc') as [K _]. rewrite <- E0 in K. congruence.
  - rewrite E0, Ec' in Hs. discriminate Hs.
  - assert (X : c = 58%N) by congruence. rewrite X in Hs. discriminate Hs.
Qed.

(** Each word is on a line of its own. *)
Lemma one_line : forall w p, ~ In 10%N w -> place (w ++ [10%N]) p = (fst p + 1, 1).
Proof.
  intros w. induction w as [|c w IH]; intros p H; cbn [app place].
  - reflexivity.
  - destruct (N.eqb_spec c 10) as [->|N]; [exfalso; apply H; left; reflexivity|].
    rewrite IH; [reflexivity|]. intros X. apply H. right. exact X.
Qed.

(** The leaves, with the flags of the macro. *)
Definition flat (l : leaf) : text * span * bool :=
  (leaf_text l, leaf_span l, match l with LPunct c _ => negb (c =? 58)%N | LText _ _ => true end).

Lemma flatten_leaves : forall stream, flatten stream = map flat (flat_map leaves stream).
Proof.
  assert (T : forall t, flatten_tree t = map flat (leaves t)).
  { fix IH 1. intros [d o c l|t s|c s|t s]; [|reflexivity|reflexivity|reflexivity].
    assert (X : flat_map flatten_tree l = map flat (flat_map leaves l)).
    { induction l as [|t l IHl]; [reflexivity|]. cbn [flat_map]. rewrite map_app, IH, IHl. reflexivity. }
    cbn [flatten_tree leaves]. rewrite X. destruct d; cbn [explicit_delimiters delimited map]; rewrite ?map_app; reflexivity. }
  induction stream as [|t l IHl]; [reflexivity|]. unfold flatten in *. cbn [flat_map]. rewrite map_app, T, IHl. reflexivity.
Qed.

(** Tokens on the lines from [n] on. *)
Fixpoint on_lines (n : nat) (ws : list (adv_token * span)) : list (adv_token * (nat * nat)) :=
  match ws with
  | [] => []
  | (t, _) :: ws' => (t, (n, 1)) :: on_lines (n + 1) ws'
  end.

Lemma on_lines_fst : forall ws n, map fst (on_lines n ws) = map fst ws.
Proof. induction ws as [|[t s] ws IH]; intros n; [reflexivity|]. cbn. rewrite IH. reflexivity. Qed.

Lemma on_lines_nth : forall ws n i, nth_error (on_lines n ws) i = match nth_error ws i with Some (t, _) => Some (t, (n + i, 1)) | None => None end.
Proof.
  induction ws as [|[t s] ws IH]; intros n [|i]; cbn; try reflexivity.
  - rewrite Nat.add_0_r. reflexivity.
  - rewrite IH. destruct (nth_error ws i) as [[t' s']|]; [|reflexivity]. do 3 f_equal. lia.
Qed.

Lemma newline_reads : forall n t rest tokens end_, adv_word t (Some tokens) -> ~ In 10%N t -> forall more,
  adv_reads (n + 1, 1) rest more end_ -> adv_reads (n, 1) (t ++ 10%N :: rest) ((tokens, (n, 1)) :: more) end_.
Proof.
  intros n t rest x end_ Hw HN more H. 
  change ((x, (n, 1)) :: more) with (match Some x with Some y => (y, (n, 1)) :: more | None => more end).
  apply ar_word; [exact Hw|intros w' o' H1 H2; exact (word_longest _ _ _ Hw _ _ H1 H2)|].
  change (10%N :: rest) with ([10%N] ++ rest).
  change more with (match @None adv_token with Some y => (y, place t (n, 1)) :: more | None => more end).
  apply ar_word; [apply aw_newline| |].
  - intros w' o' H' [u E]. destruct (word_shape w' _ H') as [c [v [Ew [[Hc [Hv _]]|[[Ec _]|[[E1 _]|[Hs ->]]]]]]];
      rewrite Ew in E; cbn [app] in E; injection E as E0 E.
    + rewrite <- E0 in Hc. discriminate Hc.
    + rewrite Ec in E0. discriminate E0.
    + rewrite Ew in E1. injection E1 as E1 _. rewrite E1 in E0. discriminate E0.
    + rewrite Ew. apply le_n.
  - rewrite <- place_app, one_line by exact HN. exact H.
Qed.

(** What the macro makes of words, before other tokens. *)
Lemma words_joined : forall l ws, words l ws -> forall more n, exists code,
  fst (join_tokens (map flat l ++ more)) = code ++ fst (join_tokens more) /\
  snd (join_tokens (map flat l ++ more)) = map snd ws ++ snd (join_tokens more) /\
  place code (n, 1) = (n + length ws, 1) /\
  forall rest tokens end_, adv_reads (n + length ws, 1) rest tokens end_ ->
    adv_reads (n, 1) (code ++ rest) (on_lines n ws ++ tokens) end_.
Proof.
  intros l ws H. induction H as [|x t l r Hw HN H IH|a b c l r E1 E2 H IH]; intros more n.
  - exists []. split; [reflexivity|]. split; [reflexivity|]. cbn. rewrite Nat.add_0_r. split; [reflexivity|]. auto.
  - destruct (IH more (n + 1)) as [code [C1 [C2 [C3 C4]]]].
    exists (leaf_text x ++ 10%N :: code). cbn [map app flat join_tokens].
    assert (F : match x with LPunct c _ => negb (c =? 58)%N | LText _ _ => true end = true).
    { destruct x as [t0 s0|c s0]; [reflexivity|]. destruct (N.eqb_spec c 58) as [->|]; [|reflexivity].
      destruct (word_shape _ _ Hw) as [c [v [E [[Hc _]|[[-> _]|[[E' _]|[Hs _]]]]]]]; cbn [leaf_text] in *;
        injection E as E E''; subst; try discriminate. }
    rewrite F. cbn [orb]. destruct (join_tokens (map flat l ++ more)) as [co sps] eqn:EJ. cbn [fst snd] in *. subst co sps.
    split; [rewrite <- app_assoc; reflexivity|]. split; [reflexivity|].
    split.
    + change (10%N :: code) with ([10%N] ++ code). rewrite app_assoc, place_app, one_line by exact HN. cbn [fst length].
      rewrite C3. f_equal. lia.
    + intros rest tokens end_ HR. rewrite <- app_assoc. cbn [app on_lines]. apply newline_reads; [exact Hw|exact HN|].
      apply C4. cbn [length] in HR. replace (n + 1 + length r) with (n + S (length r)) by lia. exact HR.
  - destruct (IH more (n + 1)) as [code [C1 [C2 [C3 C4]]]].
    exists (of_string "::=" ++ 10%N :: code). cbn [map app flat join_tokens leaf_text leaf_span].
    destruct (join_tokens (map flat l ++ more)) as [co sps] eqn:EJ. cbn [fst snd] in *. subst co sps.
    rewrite E1, E2, !Nat.eqb_refl. cbn.
    split; [reflexivity|]. split; [reflexivity|].
    split.
    + rewrite C3. f_equal. lia.
    + intros rest tokens end_ HR. apply (newline_reads n (of_string "::=") (code ++ rest) AOp end_ aw_op).
      * cbn. intros [X|[X|[X|[]]]]; discriminate.
      * apply C4. cbn [length] in HR. replace (n + 1 + length r) with (n + S (length r)) by lia. exact HR.
Qed.

(** * Where the rules and their fragments were read *)

Definition within (ts l : list ntok) : Prop := exists p q, ts = p ++ l ++ q.

Lemma within_more : forall a ts b l, within ts l -> within (a ++ ts ++ b) l.
Proof. intros a ts b l [p [q ->]]. exists (a ++ p), (q ++ b). rewrite <- !app_assoc. reflexivity. Qed.
Lemma within_left : forall a ts l, within ts l -> within (a ++ ts) l.
Proof. intros a ts l H. rewrite <- (app_nil_r ts). apply within_more. exact H. Qed.
Lemma within_right : forall ts b l, within ts l -> within (ts ++ b) l.
Proof. intros ts b l H. exact (within_more [] ts b l H). Qed.

Definition fragment_at (ts : list ntok) (xf : xfragment) : Prop := forall g s, xf_frag xf = FCall g s ->
  exists i j k m, xf_span xf = i + 1 /\ xf_arg xf = k + 1 /\ within ts [(AIdent g, i); (ALParen, j); (AString s, k); (ARParen, m)].
Definition rule_at (ts : list ntok) (r : xrule) : Prop :=
  (exists i j, xr_span r = i + 1 /\ within ts [(AIdent (xr_lhs r), i); (AOp, j)]) /\ Forall (fragment_at ts) (xr_rhs r).

Lemma fragment_more : forall a ts b f, fragment_at ts f -> fragment_at (a ++ ts ++ b) f.
Proof.
  intros a ts b f H g s E. destruct (H g s E) as [i [j [k [m [E1 [E2 E3]]]]]]. exists i, j, k, m. split; [exact E1|]. split; [exact E2|].
  apply within_more. exact E3.
Qed.
Lemma fragments_more : forall a ts b l, Forall (fragment_at ts) l -> Forall (fragment_at (a ++ ts ++ b)) l.
Proof. intros a ts b l H. eapply Forall_impl; [|exact H]. intros f Hf. apply fragment_more. exact Hf. Qed.
Lemma fragments_left : forall a ts l, Forall (fragment_at ts) l -> Forall (fragment_at (a ++ ts)) l.
Proof. intros a ts l H. rewrite <- (app_nil_r ts). apply fragments_more. exact H. Qed.
Lemma fragments_right : forall ts b l, Forall (fragment_at ts) l -> Forall (fragment_at (ts ++ b)) l.
Proof. intros ts b l H. exact (fragments_more [] ts b l H). Qed.
Lemma rules_more : forall a ts b l, Forall (rule_at ts) l -> Forall (rule_at (a ++ ts ++ b)) l.
Proof.
  intros a ts b l H. eapply Forall_impl; [|exact H]. intros r [[i [j [E W]]] F]. split; [|apply fragments_more; exact F].
  exists i, j. split; [exact E|]. apply within_more. exact W.
Qed.

Lemma frag_shape_at : forall ts f, frag_shape ts f -> fragment_at ts f.
Proof.
  intros ts f H g s E. destruct H as [x i j|x i j|x i|t i|x i j t k m]; try discriminate. injection E as -> ->.
  exists i, j, k, m. repeat split. exists [], []. reflexivity.
Qed.
Lemma alt_shape_at : forall ts l, alt_shape ts l -> Forall (fragment_at ts) l.
Proof.
  intros ts l H. induction H as [ts f H|ts fs i ts' f H IH H'].
  - constructor; [apply frag_shape_at; exact H|constructor].
  - apply Forall_app. split; [apply fragments_right; exact IH|]. constructor; [|constructor].
    apply frag_shape_at in H'. change (ts ++ (ATilde, i) :: ts') with (ts ++ [(ATilde, i)] ++ ts'). rewrite app_assoc.
    rewrite <- (app_nil_r ts'). apply fragment_more. exact H'.
Qed.
Lemma alt2_shape_at : forall ts a, alt2_shape ts a -> Forall (fragment_at ts) (fst a).
Proof. intros ts a [ts0 fs H|ts0 fs i x j H]; cbn [fst]; [|apply fragments_right]; apply alt_shape_at; exact H. Qed.
Lemma rhs_shape_at : forall ts l, rhs_shape ts l -> Forall (fun a => Forall (fragment_at ts) (fst a)) l.
Proof.
  intros ts l H. induction H as [ts a H|ts l i ts' a H IH H'].
  - constructor; [apply alt2_shape_at; exact H|constructor].
  - apply Forall_app. split.
    + eapply Forall_impl; [|exact IH]. intros x Hx. apply fragments_right. exact Hx.
    + constructor; [|constructor]. apply alt2_shape_at in H'. change (ts ++ (APipe, i) :: ts') with (ts ++ [(APipe, i)] ++ ts').
      rewrite app_assoc. apply fragments_left. exact H'.
Qed.
Lemma rule_shape_at : forall ts l, rule_shape ts l -> Forall (rule_at ts) l.
Proof.
  intros ts l H. destruct H as [l i j k|l i j k a m n|l i j ts alts k H].
  - constructor; [|constructor]. split; [|constructor]. exists i, j. split; [reflexivity|]. exists [], [(ASemicolon, k)]. reflexivity.
  - constructor; [|constructor]. split; [|constructor]. exists i, j. split; [reflexivity|]. exists [], [(AGt, k); (AIdent a, m); (ASemicolon, n)]. reflexivity.
  - apply rhs_shape_at in H. apply Forall_forall. intros r Hr. unfold to_rules in Hr. apply in_map_iff in Hr. destruct Hr as [p [<- Hp]].
    rewrite Forall_forall in H. specialize (H p Hp). split; cbn [xr_lhs xr_span xr_rhs].
    + exists i, j. split; [reflexivity|]. exists [], (ts ++ [(ASemicolon, k)]). reflexivity.
    + exact (fragments_more [(AIdent l, i); (AOp, j)] ts [(ASemicolon, k)] _ H).
Qed.
Lemma rules_shape_at : forall ts l, rules_shape ts l -> Forall (rule_at ts) l.
Proof.
  intros ts l H. induction H as [ts l H|ts l ts' l' H IH H'].
  - apply rule_shape_at. exact H.
  - apply Forall_app. split.
    + exact (rules_more [] ts ts' l IH).
    + rewrite <- (app_nil_r ts'). apply rules_more. apply rule_shape_at. exact H'.
Qed.

Definition value_rules (v : adv_value) : list xrule :=
  match v with
  | XVStart rs lex => rs ++ match lex with Some l => l | None => [] end
  | XVRules l => l
  | XVLex l => l
  | _ => []
  end.

Lemma decl_shape_at : forall ts v, decl_shape ts v -> Forall (rule_at ts) (value_rules v).
Proof.
  intros ts v [ts0 l H|i j ts0 l k H]; cbn [value_rules].
  - apply rule_shape_at. exact H.
  - exact (rules_more [(ALexer, i); (ALBrace, j)] ts0 [(ARBrace, k)] l (rules_shape_at _ _ H)).
Qed.

Lemma start_shape_at : forall ts r, start_shape ts r -> forall v, r = Ok v -> Forall (rule_at ts) (value_rules v).
Proof.
  intros ts r H. induction H as [ts v H|ts r ts' v H IH H']; intros x E.
  - apply decl_shape_at in H. destruct v; cbn in E; try discriminate; injection E as <-; cbn [value_rules] in *.
    rewrite app_nil_r. exact H.
  - destruct r as [y| |]; cbn [bind] in E; try discriminate. specialize (IH y eq_refl). apply decl_shape_at in H'.
    assert (IH' : Forall (rule_at (ts ++ ts')) (value_rules y)) by exact (rules_more [] ts ts' _ IH).
    assert (H2 : Forall (rule_at (ts ++ ts')) (value_rules v)) by (rewrite <- (app_nil_r ts'); apply rules_more; exact H').
    clear IH H'. destruct y as [| |rs lex| | | | | | |]; try (destruct v; discriminate).
    destruct v as [| | |l|l| | | | |]; try (destruct lex; discriminate).
    + replace (adv_product 2 [XVStart rs lex; XVRules l]) with (Ok (XVStart (rs ++ l) lex)) in E by (destruct lex; reflexivity).
      injection E as <-. cbn [value_rules] in *. apply Forall_app in IH'. destruct IH' as [I1 I2].
      apply Forall_app. split; [apply Forall_app; split; assumption|exact I2].
    + destruct lex as [l0|]; cbn in E; [discriminate|]. injection E as <-. cbn [value_rules] in *. rewrite app_nil_r in IH'.
      apply Forall_app. split; assumption.
Qed.

(** Rules of the lexer were read inside of a block. *)
Definition inner_rule_at (ts : list ntok) (r : xrule) : Prop :=
  exists p q i j, ts = p ++ (AIdent (xr_lhs r), i) :: (AOp, j) :: q /\ xr_span r = i + 1 /\ in_block (map fst p).

Lemma in_block_left : forall a l, in_block l -> in_block (a ++ l).
Proof. intros a l [b [c [-> H]]]. exists (a ++ b), c. split; [rewrite <- app_assoc; reflexivity|exact H]. Qed.

Lemma inner_more : forall a ts b l, Forall (inner_rule_at ts) l -> Forall (inner_rule_at (a ++ ts ++ b)) l.
Proof.
  intros a ts b l H. eapply Forall_impl; [|exact H]. intros r [p [q [i [j [-> [E B]]]]]]. exists (a ++ p), (q ++ b), i, j.
  split; [rewrite <- !app_assoc; reflexivity|]. split; [exact E|]. rewrite map_app. apply in_block_left. exact B.
Qed.

Lemma shape_no_brace :
  (forall ts f, frag_shape ts f -> ~ In ARBrace (map fst ts)) /\ (forall ts f, alt_shape ts f -> ~ In ARBrace (map fst ts)) /\
  (forall ts f, alt2_shape ts f -> ~ In ARBrace (map fst ts)) /\ (forall ts f, rhs_shape ts f -> ~ In ARBrace (map fst ts)) /\
  (forall ts f, rule_shape ts f -> ~ In ARBrace (map fst ts)) /\ (forall ts f, rules_shape ts f -> ~ In ARBrace (map fst ts)).
Proof.
  assert (F : forall ts f, frag_shape ts f -> ~ In ARBrace (map fst ts)).
  { intros ts f []; cbn; intros H; repeat destruct H as [H|H]; try discriminate; exact H. }
  assert (A : forall ts f, alt_shape ts f -> ~ In ARBrace (map fst ts)).
  { intros ts f H. induction H as [ts f H|ts fs i ts' f H IH H']; [exact (F _ _ H)|]. rewrite map_app. cbn [map fst].
    intros X. apply in_app_or in X. destruct X as [X|[X|X]]; [exact (IH X)|discriminate|exact (F _ _ H' X)]. }
  assert (A2 : forall ts f, alt2_shape ts f -> ~ In ARBrace (map fst ts)).
  { intros ts f [ts0 fs H|ts0 fs i x j H]; [exact (A _ _ H)|]. rewrite map_app. cbn [map fst]. intros X. apply in_app_or in X.
    destruct X as [X|[X|[X|[]]]]; [exact (A _ _ H X)|discriminate|discriminate]. }
  assert (R : forall ts f, rhs_shape ts f -> ~ In ARBrace (map fst ts)).
  { intros ts f H. induction H as [ts a H|ts l i ts' a H IH H']; [exact (A2 _ _ H)|]. rewrite map_app. cbn [map fst].
    intros X. apply in_app_or in X. destruct X as [X|[X|X]]; [exact (IH X)|discriminate|exact (A2 _ _ H' X)]. }
  assert (U : forall ts f, rule_shape ts f -> ~ In ARBrace (map fst ts)).
  { intros ts f [l i j k|l i j k a m n|l i j ts0 alts k H]; cbn [map fst].
    - intros X. repeat destruct X as [X|X]; try discriminate; exact X.
    - intros X. repeat destruct X as [X|X]; try discriminate; exact X.
    - rewrite map_app. intros [X|[X|X]]; try discriminate. apply in_app_or in X. destruct X as [X|[X|[]]]; [exact (R _ _ H X)|discriminate]. }
  repeat (split; [assumption|]). intros ts f H. induction H as [ts l H|ts l ts' l' H IH H']; [exact (U _ _ H)|].
  rewrite map_app. intros X. apply in_app_or in X. destruct X as [X|X]; [exact (IH X)|exact (U _ _ H' X)].
Qed.

Lemma block_shape_at : forall i j ts l k, rules_shape ts l -> Forall (inner_rule_at ((ALexer, i) :: (ALBrace, j) :: ts ++ [(ARBrace, k)])) l.
Proof.
  intros i j ts l k H. pose proof (proj2 (proj2 (proj2 (proj2 (proj2 shape_no_brace)))) _ _ H) as NB.
  apply rules_shape_at in H. eapply Forall_impl; [|exact H]. intros r [[i' [j' [E [p [q W]]]]] _].
  exists ((ALexer, i) :: (ALBrace, j) :: p), (q ++ [(ARBrace, k)]), i', j'. split; [rewrite W; cbn [app]; rewrite <- app_assoc; reflexivity|].
  split; [exact E|]. exists [], (map fst p). split; [reflexivity|]. intros X. apply NB. rewrite W, map_app. apply in_or_app. left. exact X.
Qed.

Lemma start_inner_at : forall ts r, start_shape ts r -> forall rs l, r = Ok (XVStart rs (Some l)) -> Forall (inner_rule_at ts) l.
Proof.
  intros ts r H. induction H as [ts v H|ts r ts' v H IH H']; intros rs0 l0 E.
  - destruct v; cbn in E; discriminate.
  - destruct r as [y| |]; cbn [bind] in E; try discriminate.
    destruct y as [| |rs lex| | | | | | |]; try (destruct v; discriminate).
    destruct v as [| | |l|l| | | | |]; try (destruct lex; discriminate).
    + replace (adv_product 2 [XVStart rs lex; XVRules l]) with (Ok (XVStart (rs ++ l) lex)) in E by (destruct lex; reflexivity).
      injection E as <- ->. exact (inner_more [] ts ts' l0 (IH _ _ eq_refl)).
    + destruct lex as [l1|]; cbn in E; [discriminate|]. injection E as <- <-. inversion H' as [|i j ts0 l1 k HR E1 E2]; subst.
      rewrite <- (app_nil_r (_ :: _)). apply inner_more. apply block_shape_at. exact HR.
Qed.

(** * Where errors of rules are *)

Inductive rule_error (rx : text -> option hir) (xs : list (xrule * bool)) : load_error -> Prop :=
| re_shared : forall r r', In (r, true) xs -> In (r', false) xs -> xr_lhs r' = xr_lhs r -> rule_error rx xs (mkErr Shared (xr_span r) 1 None)
| re_func : forall r b f g s, In (r, b) xs -> In f (xr_rhs r) -> xf_frag f = FCall g s -> g <> "Regexp"%string ->
    rule_error rx xs (mkErr NotRegexp (xf_span f) 1 None)
| re_arg : forall r b f s, In (r, b) xs -> In f (xr_rhs r) -> xf_frag f = FCall "Regexp" s -> rx s = None ->
    rule_error rx xs (mkErr BadRegexp (xf_arg f) 1 None).

Lemma fragments_error : forall debug rx fs syms a e, adv_load_fragments debug rx fs syms a = Ok (inr e) ->
  exists f, In f fs /\ ((exists g s, xf_frag f = FCall g s /\ g <> "Regexp"%string /\ e = mkErr NotRegexp (xf_span f) 1 None) \/
    (exists s, xf_frag f = FCall "Regexp" s /\ rx s = None /\ e = mkErr BadRegexp (xf_arg f) 1 None)).
Proof.
  intros debug rx fs. induction fs as [|f fs IH]; intros syms a e E; cbn [adv_load_fragments] in E; [discriminate|].
  destruct (adv_load_fragment debug rx a f) as [[[s a']|e']| |] eqn:Ef; cbn [bind] in E; try discriminate.
  - destruct (IH _ _ _ E) as [f' [Hf' H]]. exists f'. split; [right; exact Hf'|exact H].
  - injection E as ->. exists f. split; [left; reflexivity|]. unfold adv_load_fragment in Ef. destruct (xf_frag f) as [x k|s|g s].
    + destruct (load_name debug a x k); discriminate.
    + destruct (load_string a s); discriminate.
    + destruct (String.eqb g regexp_name) eqn:Eg; cbn [negb] in Ef.
      * apply String.eqb_eq in Eg. subst g. right. exists s. split; [reflexivity|]. destruct (rx s) as [h|]; [|injection Ef as <-; split; reflexivity].
        destruct (embed_regexp debug h (al_cfg a) (al_classes a)) as [[[r g] t]| |]; discriminate.
      * apply String.eqb_neq in Eg. left. exists g, s. split; [reflexivity|]. split; [exact Eg|]. injection Ef as <-. reflexivity.
Qed.

Lemma fragments_intern : forall debug rx fs syms a rs a', adv_load_fragments debug rx fs syms a = Ok (inl (rs, a')) ->
  exists m, ld_intern (al_names a') = ld_intern (al_names a) ++ m.
Proof.
  intros debug rx fs. induction fs as [|f fs IH]; intros syms a rs a' E; cbn [adv_load_fragments] in E.
  - injection E as _ <-. exists []. rewrite app_nil_r. reflexivity.
  - destruct (adv_load_fragment debug rx a f) as [[[s a1]|e]| |] eqn:Ef; cbn [bind] in E; try discriminate.
    destruct (fragment_intern _ _ _ _ _ _ Ef) as [m1 M1]. destruct (IH _ _ _ _ E) as [m2 M2].
    exists (m1 ++ m2). rewrite M2, M1, app_assoc. reflexivity.
Qed.

Definition parser_known (all : list (xrule * bool)) (st : adv_loop) : Prop := forall id, In id (lp_parser st) ->
  exists r, In (r, false) all /\ nth_error (ld_intern (al_names (lp_loader st))) id = Some (xr_lhs r).

Lemma intern_known : forall it x id y, fst (get_or_intern it x) = id -> nth_error it id = Some y -> y = x.
Proof.
  intros it x id y E H. pose proof (get_or_intern_index it x) as Hx. rewrite E in Hx. apply string_index_some in Hx.
  destruct (get_or_intern_app it x) as [m Em]. rewrite Em, nth_error_app1 in Hx; [congruence|]. apply nth_error_Some. congruence.
Qed.

Lemma rules_error : forall debug rx all xs st e, (forall x, In x xs -> In x all) -> parser_known all st ->
  adv_load_rules debug rx xs st = Ok (inr e) -> rule_error rx all e.
Proof.
  intros debug rx all xs. induction xs as [|[r b] xs IH]; intros st e HI HK E; cbn [adv_load_rules] in E; [discriminate|].
  assert (HR : In (r, b) all) by (apply HI; left; reflexivity).
  destruct (adv_load_rule debug rx st (r, b)) as [o| |] eqn:Er; cbn [bind] in E; try discriminate. unfold adv_load_rule in Er.
  set (it := ld_intern (al_names (lp_loader st))) in *.
  destruct (b && existsb (Nat.eqb (fst (get_or_intern it (xr_lhs r)))) (lp_parser st)) eqn:Eb.
  - injection Er as <-. injection E as <-. apply andb_true_iff in Eb. destruct Eb as [-> Eb]. apply existsb_exists in Eb.
    destruct Eb as [id [Hid Ei]]. apply Nat.eqb_eq in Ei. destruct (HK id Hid) as [r' [Hr' En]]. fold it in En.
    apply (re_shared rx all r r'); auto. apply (intern_known _ _ _ _ Ei En).
  - destruct (symbol_named (al_names (lp_loader st)) (xr_lhs r)) as [l ld] eqn:ES.
    pose proof (symbol_named_intern _ _ _ _ ES) as EI. fold it in EI.
    match type of Er with bind ?x _ = _ => destruct x as [[[rs a2]|e']| |] eqn:EF end; cbn [bind] in Er; try discriminate.
    + destruct (rule_history_rhs (al_cfg a2) l (process_root (ROrigin (lp_idx st + 1))) rs) as [g3| |]; cbn [bind] in Er; try discriminate.
      injection Er as <-. cbn beta iota in E.
      match type of E with adv_load_rules _ _ _ ?s = _ => apply (IH s e) end; [intros x Hx; apply HI; right; exact Hx| |exact E].
      destruct (fragments_intern _ _ _ _ _ _ _ EF) as [m2 M2]. destruct (get_or_intern_app it (xr_lhs r)) as [m1 M1].
      assert (EA : ld_intern (al_names a2) = it ++ m1 ++ m2).
      { rewrite M2. cbn [al_names]. rewrite app_assoc, <- M1, <- EI. destruct (lp_idx st =? 0); reflexivity. }
      assert (OLD : forall id, In id (lp_parser st) -> exists r', In (r', false) all /\ nth_error (ld_intern (al_names a2)) id = Some (xr_lhs r')).
      { intros id Hid. destruct (HK id Hid) as [r' [Hr' En]]. exists r'. split; [exact Hr'|]. fold it in En. rewrite EA, nth_error_app1; [exact En|].
        apply nth_error_Some. congruence. }
      intros id Hid. cbn [lp_parser lp_loader al_names set_ld_cfg ld_intern] in *. destruct b; [exact (OLD id Hid)|].
      destruct Hid as [<-|Hid]; [|exact (OLD id Hid)]. exists r. split; [exact HR|].
      pose proof (get_or_intern_index it (xr_lhs r)) as Hx. apply string_index_some in Hx. rewrite EA, app_assoc, <- M1, nth_error_app1; [exact Hx|].
      apply nth_error_Some. congruence.
    + injection Er as <-. injection E as ->. destruct (fragments_error _ _ _ _ _ _ EF) as [f [Hf [[g [s [E1 [E2 ->]]]]|[s [E1 [E2 ->]]]]]].
      * apply (re_func rx _ r b f g s); auto.
      * apply (re_arg rx _ r b f s); auto.
Qed.

(** * The macro *)

(** A position in numbered tokens. *)
Lemma number_within : forall (ts : list adv_token) n p x q, number n ts = p ++ x :: q -> snd x = n + length p /\ ts = map fst p ++ fst x :: map fst q.
Proof.
  intros ts n p x q E. assert (E' : ts = map fst p ++ fst x :: map fst q).
  { rewrite <- (number_fst ts n), E, map_app. reflexivity. }
  split; [|exact E']. clear -E. revert n ts E. induction p as [|y p IH]; intros n [|t ts] E; try discriminate.
  - rewrite number_cons in E. injection E as <- _. cbn. lia.
  - rewrite number_cons in E. cbn [app] in E. injection E as _ E. rewrite (IH _ _ E). cbn. lia.
Qed.

Definition of_rule (e : error_reason) : bool := match e with Shared | NotRegexp | BadRegexp => true | _ => false end.

(** An error of a rule, at the number of the token that it is about. *)
Lemma load_rule_error : forall debug rx t tokens e, reads t tokens [] -> load_advanced debug rx t = Ok (inr e) -> of_rule (le_reason e) = true ->
  exists f rs lex, adv_file f /\ adv_file_tokens f = map fst tokens /\ file_value f (Ok (XVStart rs lex)) /\
    start_shape (number 0 (map fst tokens)) (Ok (XVStart rs lex)) /\
    rule_error rx (map (fun x => (x, false)) rs ++ map (fun x => (x, true)) (match lex with Some l => l | None => [] end)) e.
Proof.
  intros debug rx t tokens e [HR HN] E HE. destruct (tokenize_ok t) as [tokens' [rest' [consumed [_ [HR' [HN' Ex]]]]]].
  destruct (reads_unique _ _ _ _ HR HN _ _ HR' HN') as [<- <-]. unfold load_advanced in E. rewrite Ex in E. cbn [bind error_place] in E.
  pose proof (parse_loop_ok (map fst tokens)) as P. change (CFile, QStart, None) with parser_new in E.
  destruct (adv_parse_loop parser_new 0 (map fst tokens)) as [p|k].
  - destruct P as [_ P]. destruct (finished p) as [r|].
    + destruct P as [[f [Hf Ef]] [HV Hev]]. specialize (HV f Hf Ef).
      assert (HS : start_shape (number 0 (map fst tokens)) r) by (apply start_iff, Hev; reflexivity).
      destruct r as [v| |]; cbn [file_value] in HV; cbn [bind] in E; try discriminate.
      destruct v as [| |rs lex| | | | | | |]; try contradiction. exists f, rs, lex. split; [exact Hf|]. split; [exact Ef|]. split; [exact HV|].
      split; [exact HS|]. unfold load_value in E.
      match type of E with bind ?x _ = _ => destruct x as [[st|e']| |] eqn:EL end; cbn [bind] in E; try discriminate.
      * destruct (adv_result st); discriminate.
      * injection E as ->. apply (rules_error _ _ _ _ _ _ (fun x Hx => Hx)) in EL; [exact EL|]. intros id [].
    + injection E as <-. discriminate.
  - destruct (nth_error tokens k) as [[x [line col]]|]; [|discriminate]. injection E as <-. discriminate.
Qed.
