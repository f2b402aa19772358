(** The loader of the rich notation: tokens and files. *)

From Coq Require Import String Ascii List Arith NArith Bool Lia.
From Verif Require Import Base Spec SpecLoad SpecRegex SpecAdv SymbolModel HistoryModel CfgModel LoadModel RegexModel AdvModel AdvLexProof AdvTokensProof AdvParseProof.
Import ListNotations.

(** * C73 *)

Lemma reads_ok : forall t, exists tokens rest consumed, reads t tokens rest /\ t = consumed ++ rest /\
  x_tokenize t = Ok (tokens, error_place rest (place consumed (1, 1))).
Proof.
  intros t. destruct (tokenize_ok t) as [tokens [rest [consumed [E [H [Hn Ex]]]]]].
  exists tokens, rest, consumed. split; [split; assumption|]. split; assumption.
Qed.

(** A text is read in exactly one way. *)
Theorem C73_tokens : forall t, exists tokens rest, reads t tokens rest /\
  (forall tokens' rest', reads t tokens' rest' -> tokens' = tokens /\ rest' = rest) /\
  exists consumed, t = consumed ++ rest.
Proof.
  intros t. destruct (reads_ok t) as [tokens [rest [consumed [[H Hn] [E _]]]]].
  exists tokens, rest. split; [split; assumption|]. split; [|exists consumed; exact E].
  intros tokens' rest' [H' Hn']. destruct (reads_unique _ _ _ _ H Hn _ _ H' Hn') as [-> ->]. split; reflexivity.
Qed.
Print Assumptions C73_tokens.

(** Errors of rules are not errors of notation. *)
Definition of_rules (e : load_error) : Prop := match le_reason e with Shared | NotRegexp | BadRegexp | NotStart => True | _ => False end.

Lemma fragments_errors : forall debug rx l syms a e, adv_load_fragments debug rx l syms a = Ok (inr e) -> of_rules e.
Proof.
  intros debug rx l. induction l as [|f l IH]; intros syms a e E; cbn [adv_load_fragments] in E; [discriminate|].
  destruct (adv_load_fragment debug rx a f) as [[[s a']|e']| |] eqn:Ef; cbn in E; try discriminate.
  - apply (IH _ _ _ E).
  - injection E as ->. unfold adv_load_fragment in Ef. destruct (xf_frag f) as [x k|s|g s].
    + destruct (load_name debug a x k); discriminate.
    + destruct (load_string a s); discriminate.
    + destruct (negb (String.eqb g regexp_name)); [injection Ef as <-; exact I|].
      destruct (rx s) as [h|]; [|injection Ef as <-; exact I].
      destruct (embed_regexp debug h (al_cfg a) (al_classes a)) as [[[r g'] t]| |]; discriminate.
Qed.

Lemma rules_errors : forall debug rx l st e, adv_load_rules debug rx l st = Ok (inr e) -> of_rules e.
Proof.
  intros debug rx l. induction l as [|[r b] l IH]; intros st e E; cbn [adv_load_rules] in E; [discriminate|].
  destruct (adv_load_rule debug rx st (r, b)) as [[st'|e']| |] eqn:Er; cbn [bind] in E; try discriminate.
  - apply (IH _ _ E).
  - injection E as ->. unfold adv_load_rule in Er. destruct (_ && _); [injection Er as <-; exact I|].
    destruct (symbol_named (al_names (lp_loader st)) (xr_lhs r)) as [x ld].
    match type of Er with (do q <- ?e0; _) = _ => destruct e0 as [[[rs a2]|e']| |] eqn:Ef end; cbn [bind] in Er; try discriminate.
    + destruct (rule_history_rhs _ _ _ _); discriminate.
    + injection Er as ->. apply (fragments_errors _ _ _ _ _ _ Ef).
Qed.

Lemma value_errors : forall debug rx v e, load_value debug rx v = Ok (inr e) -> of_rules e.
Proof.
  intros debug rx v e E. destruct v; try (injection E as <-; exact I). cbn [load_value] in E.
  match type of E with (do q <- ?e0; _) = _ => destruct e0 as [[st|e']| |] eqn:Er end; cbn [bind] in E; try discriminate.
  - destruct (adv_result st); discriminate.
  - injection E as ->. apply (rules_errors _ _ _ _ _ Er).
Qed.

(** What loading comes to, by cases. *)
Inductive outcome debug rx (tokens : list (adv_token * (nat * nat))) (rest : text) (error : option (nat * nat)) : res adv_outcome -> Prop :=
| oc_parse : forall pre x line col post, tokens = pre ++ (x, (line, col)) :: post -> viable (map fst pre) ->
    ~ viable (map fst pre ++ [x]) -> outcome debug rx tokens rest error (Ok (inr (mkErr ParseFailed line col (Some x))))
| oc_tokenize : forall line col, viable (map fst tokens) -> error = Some (line, col) ->
    outcome debug rx tokens rest error (Ok (inr (mkErr Tokenize line col None)))
| oc_none : viable (map fst tokens) -> error = None -> (~ exists f, adv_file f /\ adv_file_tokens f = map fst tokens) ->
    outcome debug rx tokens rest error (Ok (inr (mkErr NoResult 0 0 None)))
| oc_file : forall f v, viable (map fst tokens) -> error = None -> adv_file f -> adv_file_tokens f = map fst tokens ->
    file_value f v -> outcome debug rx tokens rest error (do x <- v; load_value debug rx x).

Lemma map_split_at : forall (tokens : list (adv_token * (nat * nat))) pre x post, map fst tokens = pre ++ x :: post ->
  exists tokens1 p tokens2, tokens = tokens1 ++ (x, p) :: tokens2 /\ map fst tokens1 = pre /\
    nth_error tokens (length pre) = Some (x, p).
Proof.
  intros tokens pre. revert tokens. induction pre as [|y pre IH]; intros [|[z q] tokens] x post E; try discriminate.
  - cbn in E. injection E as -> E. exists [], q, tokens. repeat split.
  - cbn in E. injection E as -> E. destruct (IH _ _ _ E) as [t1 [p [t2 [-> [<- Hn]]]]].
    exists ((y, q) :: t1), p, t2. repeat split. exact Hn.
Qed.

Lemma load_outcome : forall debug rx t, exists tokens rest consumed, reads t tokens rest /\ t = consumed ++ rest /\
  outcome debug rx tokens rest (error_place rest (place consumed (1, 1))) (load_advanced debug rx t).
Proof.
  intros debug rx t. destruct (reads_ok t) as [tokens [rest [consumed [H [E Ex]]]]].
  exists tokens, rest, consumed. split; [exact H|]. split; [exact E|].
  unfold load_advanced. rewrite Ex. cbn [bind]. change (CFile, QStart, None) with parser_new.
  pose proof (parse_loop_ok (map fst tokens)) as P.
  destruct (adv_parse_loop parser_new 0 (map fst tokens)) as [p|k].
  - destruct P as [Hv P]. destruct (error_place rest (place consumed (1, 1))) as [[line col]|] eqn:Ee.
    + apply oc_tokenize; [exact Hv|reflexivity].
    + destruct (finished p) as [r|].
      * destruct P as [[f [Hf Ef]] [P _]]. apply oc_file with f; try assumption; [reflexivity|]. apply P; assumption.
      * apply oc_none; [exact Hv|reflexivity|exact P].
  - destruct P as [pre [x [post [Ep [-> [H1 H2]]]]]]. destruct (map_split_at _ _ _ _ Ep) as [t1 [[line col] [t2 [E1 [E2 E3]]]]].
    rewrite E3. apply oc_parse with t1 t2; [exact E1|rewrite E2; exact H1|rewrite E2; exact H2].
Qed.

Lemma viable_prefix : forall a b, viable (a ++ b) -> viable a.
Proof. intros a b [f [rest [Hf E]]]. exists f, (b ++ rest). split; [exact Hf|]. rewrite E, app_assoc. reflexivity. Qed.

Lemma file_viable : forall f, adv_file f -> viable (adv_file_tokens f).
Proof. intros f H. exists f, []. split; [exact H|rewrite app_nil_r; reflexivity]. Qed.

(** A parse error is at the first token that cannot follow those before it. *)
Theorem C73_parse_error : forall debug rx t tokens rest line col x, reads t tokens rest ->
  load_advanced debug rx t = Ok (inr (mkErr ParseFailed line col (Some x))) <->
  exists pre post, tokens = pre ++ (x, (line, col)) :: post /\ viable (map fst pre) /\ ~ viable (map fst pre ++ [x]).
Proof.
  intros debug rx t tokens rest line col x [H Hn].
  destruct (load_outcome debug rx t) as [tokens' [rest' [consumed [[H' Hn'] [_ O]]]]].
  destruct (reads_unique _ _ _ _ H Hn _ _ H' Hn') as [<- <-]. clear H' Hn'.
  split.
  - intros E. rewrite E in O. remember (Ok (inr (mkErr ParseFailed line col (Some x)))) as o eqn:Eo.
    destruct O as [pre y line' col' post Et H1 H2|line' col' H1 H2|H1 H2 H3|f v H1 H2 H3 H4 H5].
    + injection Eo as -> -> ->. exists pre, post. repeat split; assumption.
    + discriminate.
    + discriminate.
    + destruct v as [v| |]; cbn [bind] in Eo; try discriminate. apply value_errors in Eo. destruct Eo.
  - intros [pre [post [Et [H1 H2]]]].
    assert (X : ~ viable (map fst tokens)).
    { intros V. apply H2. rewrite Et, map_app in V. cbn [map fst] in V. apply (viable_prefix _ (map fst post)).
      rewrite <- app_assoc. exact V. }
    destruct O as [pre' y line' col' post' Et' H1' H2'|line' col' V _|V _ _|f v V _ _ _ _]; try contradiction.
    assert (Q : pre' = pre /\ (y, (line', col')) = (x, (line, col))).
    { rewrite Et' in Et. destruct (Nat.lt_trichotomy (length pre') (length pre)) as [L|[L|L]].
      - exfalso. apply H2'. 
        assert (Ep : exists q, pre = pre' ++ (y, (line', col')) :: q).
        { clear - Et L. revert pre Et L. induction pre' as [|a pre' IH]; intros [|b pre] Et L; cbn in *; try lia.
          - injection Et as E1 E2. exists pre. subst. reflexivity.
          - injection Et as E1 E2. destruct (IH pre E2 ltac:(lia)) as [q Eq]. exists q. subst. reflexivity. }
        destruct Ep as [q Ep]. rewrite Ep, map_app in H1. cbn [map fst] in H1. apply (viable_prefix _ (map fst q)).
        rewrite <- app_assoc. exact H1.
      - clear - Et L. revert pre Et L. induction pre' as [|a pre' IH]; intros [|b pre] Et L; cbn in *; try lia.
        + injection Et as E1 E2 E3 E4. subst. split; reflexivity.
        + injection Et as E1 E2. destruct (IH pre E2 ltac:(lia)) as [-> Eq]. subst. split; [reflexivity|exact Eq].
      - exfalso. apply H2. symmetry in Et.
        assert (Ep : exists q, pre' = pre ++ (x, (line, col)) :: q).
        { clear - Et L. revert pre' Et L. induction pre as [|a pre IH]; intros [|b pre'] Et L; cbn in *; try lia.
          - injection Et as E1 E2. exists pre'. subst. reflexivity.
          - injection Et as E1 E2. destruct (IH pre' E2 ltac:(lia)) as [q Eq]. exists q. subst. reflexivity. }
        destruct Ep as [q Ep]. rewrite Ep, map_app in H1'. cbn [map fst] in H1'. apply (viable_prefix _ (map fst q)).
        rewrite <- app_assoc. exact H1'. }
    destruct Q as [-> Q]. injection Q as -> -> ->. reflexivity.
Qed.
Print Assumptions C73_parse_error.

(** Else, there is an error if the text cannot be read to its end. *)
Theorem C73_tokenize_error : forall debug rx t tokens rest consumed line col, reads t tokens rest -> t = consumed ++ rest ->
  load_advanced debug rx t = Ok (inr (mkErr Tokenize line col None)) <->
  viable (map fst tokens) /\ error_place rest (place consumed (1, 1)) = Some (line, col).
Proof.
  intros debug rx t tokens rest consumed line col [H Hn] Et.
  destruct (load_outcome debug rx t) as [tokens' [rest' [consumed' [[H' Hn'] [Et' O]]]]].
  destruct (reads_unique _ _ _ _ H Hn _ _ H' Hn') as [<- <-]. clear H' Hn'.
  assert (consumed' = consumed) as -> by (rewrite Et in Et'; apply app_inv_tail in Et'; symmetry; exact Et').
  split.
  - intros E. rewrite E in O. remember (Ok (inr (mkErr Tokenize line col None))) as o eqn:Eo.
    destruct O as [pre y line' col' post Ey H1 H2|line' col' H1 H2|H1 H2 H3|f v H1 H2 H3 H4 H5]; try discriminate.
    + injection Eo as -> ->. split; assumption.
    + destruct v as [v| |]; cbn [bind] in Eo; try discriminate. apply value_errors in Eo. destruct Eo.
  - intros [V E]. destruct O as [pre y line' col' post Ey H1 H2|line' col' H1 H2|H1 H2 H3|f v H1 H2 H3 H4 H5].
    + exfalso. apply H2. rewrite Ey, map_app in V. cbn [map fst] in V. apply (viable_prefix _ (map fst post)).
      rewrite <- app_assoc. exact V.
    + rewrite E in H2. injection H2 as -> ->. reflexivity.
    + congruence.
    + congruence.
Qed.
Print Assumptions C73_tokenize_error.

(** Else, there is an error if the tokens are only the beginning of a file. *)
Theorem C73_no_result_partial : forall debug rx t tokens rest, reads t tokens rest ->
  load_advanced debug rx t = Ok (inr (mkErr NoResult 0 0 None)) <->
  rest = [] /\ viable (map fst tokens) /\ ~ exists f, adv_file f /\ adv_file_tokens f = map fst tokens.
Proof.
  intros debug rx t tokens rest [H Hn].
  destruct (load_outcome debug rx t) as [tokens' [rest' [consumed' [[H' Hn'] [Et' O]]]]].
  destruct (reads_unique _ _ _ _ H Hn _ _ H' Hn') as [<- <-]. clear H' Hn'.
  assert (X : error_place rest (place consumed' (1, 1)) = None <-> rest = [])
    by (destruct rest; split; intros; try reflexivity; discriminate).
  split.
  - intros E. rewrite E in O. remember (Ok (inr (mkErr NoResult 0 0 None))) as o eqn:Eo.
    destruct O as [pre y line' col' post Ey H1 H2|line' col' H1 H2|H1 H2 H3|f v H1 H2 H3 H4 H5]; try discriminate.
    + split; [apply X; exact H2|split; assumption].
    + destruct v as [v| |]; cbn [bind] in Eo; try discriminate. apply value_errors in Eo. destruct Eo.
  - intros [E [V F]]. destruct O as [pre y line' col' post Ey H1 H2|line' col' H1 H2|H1 H2 H3|f v H1 H2 H3 H4 H5].
    + exfalso. apply H2. rewrite Ey, map_app in V. cbn [map fst] in V. apply (viable_prefix _ (map fst post)).
      rewrite <- app_assoc. exact V.
    + apply X in E. congruence.
    + reflexivity.
    + contradiction F. exists f. split; assumption.
Qed.
Print Assumptions C73_no_result_partial.

(** Its line and column are not in the text. *)
Theorem C73_line_zero_refuted : exists t e, (forall debug rx, load_advanced debug rx t = Ok (inr e)) /\
  t = of_string "a ::= a" /\ le_reason e = NoResult /\ le_line e = 0 /\ le_col e = 0.
Proof.
  exists (of_string "a ::= a"), (mkErr NoResult 0 0 None).
  split; [intros debug rx; vm_compute; reflexivity|]. repeat split.
Qed.
Print Assumptions C73_line_zero_refuted.

Example C73_parse_example : forall debug rx, load_advanced debug rx (of_string "a ::=
  b a;") = Ok (inr (mkErr ParseFailed 2 5 (Some (AIdent "a")))).
Proof. intros. vm_compute. reflexivity. Qed.
Example C73_tokenize_example : forall debug rx, load_advanced debug rx (of_string "a ::= b; c ::") =
  Ok (inr (mkErr Tokenize 1 12 None)).
Proof. intros. vm_compute. reflexivity. Qed.

(** * C74 *)

(** A text is accepted by the parser exactly if its tokens are those of a file. *)
Theorem C74_accepts : forall debug rx t tokens rest, reads t tokens rest ->
  (exists f, adv_file f /\ adv_file_tokens f = map fst tokens /\ rest = []) <->
  (forall e, load_advanced debug rx t = Ok (inr e) -> of_rules e).
Proof.
  intros debug rx t tokens rest [H Hn].
  destruct (load_outcome debug rx t) as [tokens' [rest' [consumed' [[H' Hn'] [Et' O]]]]].
  destruct (reads_unique _ _ _ _ H Hn _ _ H' Hn') as [<- <-]. clear H' Hn'.
  destruct O as [pre y line' col' post Ey H1 H2|line' col' H1 H2|H1 H2 H3|f v H1 H2 H3 H4 H5].
  - split.
    + intros [f [Hf [Ef _]]]. exfalso. apply H2. apply (viable_prefix _ (map fst post)). rewrite <- app_assoc. cbn [app].
      pose proof (file_viable f Hf) as V. rewrite Ef, Ey, map_app in V. exact V.
    + intros X. destruct (X _ eq_refl).
  - split.
    + intros [f [Hf [Ef ->]]]. discriminate H2.
    + intros X. destruct (X _ eq_refl).
  - split.
    + intros [f [Hf [Ef _]]]. contradiction H3. exists f. split; assumption.
    + intros X. destruct (X _ eq_refl).
  - split.
    + intros _ e E. destruct v as [v| |]; try discriminate. apply (value_errors _ _ _ _ E).
    + intros _. exists f. split; [assumption|]. split; [assumption|]. destruct rest; [reflexivity|discriminate].
Qed.
Print Assumptions C74_accepts.

(** There is only one such file. *)
Theorem C74_one_file : forall f f', adv_file f -> adv_file f' -> adv_file_tokens f = adv_file_tokens f' -> f = f'.
Proof. intros f f' [_ F] [_ F'] E. apply files_cancel; assumption. Qed.
Print Assumptions C74_one_file.

(** Every parse of its tokens has the same value, which is its rules, in order. *)
Theorem C74_one_parse_partial : forall f, adv_file f -> one_lexer f -> exists rs lex,
  (forall v, adv_evaluates ZStart (combine (adv_file_tokens f) (seq 0 (length (adv_file_tokens f)))) v <-> v = Ok (XVStart rs lex)) /\
  map (fun r => (xr_lhs r, map xf_frag (xr_rhs r), xr_action r)) rs = parser_rules f /\
  map (fun r => (xr_lhs r, map xf_frag (xr_rhs r), xr_action r)) (match lex with Some l => l | None => [] end) = lexer_rules f.
Proof.
  intros f Hf Ho. pose proof (parse_loop_ok (adv_file_tokens f)) as P.
  destruct (adv_parse_loop parser_new 0 (adv_file_tokens f)) as [p|k].
  - destruct P as [_ P]. destruct (finished p) as [r|].
    + destruct P as [_ [P Q]]. specialize (P f Hf eq_refl).
      destruct r as [[]| |]; cbn in P; try contradiction. destruct P as [_ [P1 P2]].
      exists l, lex. split; [|split; [exact P1|destruct lex; destruct P2 as [P2 _]; [exact P2|rewrite P2; reflexivity]]].
      intros v. rewrite <- Q. unfold number. reflexivity.
    + contradiction P. exists f. split; [exact Hf|reflexivity].
  - destruct P as [pre [x [post [E [_ [_ P]]]]]]. exfalso. apply P. apply (viable_prefix _ post). rewrite <- app_assoc. cbn [app].
    rewrite <- E. apply file_viable. exact Hf.
Qed.
Print Assumptions C74_one_parse_partial.

(** All parses have one value, but of a file with a lexer block in first position, or with two lexer blocks, it is a panic. *)
Theorem C74_same_value : forall f, adv_file f -> exists r,
  forall v, adv_evaluates ZStart (combine (adv_file_tokens f) (seq 0 (length (adv_file_tokens f)))) v <-> v = r.
Proof.
  intros f Hf. pose proof (parse_loop_ok (adv_file_tokens f)) as P.
  destruct (adv_parse_loop parser_new 0 (adv_file_tokens f)) as [p|k].
  - destruct P as [_ P]. destruct (finished p) as [r|].
    + destruct P as [_ [_ Q]]. exists r. intros v. rewrite <- Q. unfold number. reflexivity.
    + contradiction P. exists f. split; [exact Hf|reflexivity].
  - destruct P as [pre [x [post [E [_ [_ P]]]]]]. exfalso. apply P. apply (viable_prefix _ post). rewrite <- app_assoc. cbn [app].
    rewrite <- E. apply file_viable. exact Hf.
Qed.
Print Assumptions C74_same_value.

Theorem C74_lexer_refuted : forall f, adv_file f -> ~ one_lexer f ->
  forall v, adv_evaluates ZStart (combine (adv_file_tokens f) (seq 0 (length (adv_file_tokens f)))) v <-> v = Panic.
Proof.
  intros f Hf Ho. pose proof (parse_loop_ok (adv_file_tokens f)) as P.
  destruct (adv_parse_loop parser_new 0 (adv_file_tokens f)) as [p|k].
  - destruct P as [_ P]. destruct (finished p) as [r|].
    + destruct P as [_ [P Q]]. specialize (P f Hf eq_refl). assert (r = Panic) as ->.
      { destruct r as [[]| |]; cbn in P; try contradiction; try tauto. }
      intros v. rewrite <- Q. unfold number. reflexivity.
    + contradiction P. exists f. split; [exact Hf|reflexivity].
  - destruct P as [pre [x [post [E [_ [_ P]]]]]]. exfalso. apply P. apply (viable_prefix _ post). rewrite <- app_assoc. cbn [app].
    rewrite <- E. apply file_viable. exact Hf.
Qed.
Print Assumptions C74_lexer_refuted.

(** lexer { a ::= b; } c ::= a; *)
Example C74_lexer_example : exists f, adv_file f /\ ~ one_lexer f.
Proof.
  exists [DLexer [SAlts "a" [([FName "b" Once], None)]]; DStatement (SAlts "c" [([FName "a" Once], None)])].
  split; [|cbn; tauto]. split; [discriminate|]. repeat constructor; try discriminate.
Qed.
