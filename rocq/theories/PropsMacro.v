(** The procedural macro: where it reports errors, and what it makes of a grammar. *)

From Coq Require Import String Ascii List Arith NArith Bool Lia.
From Verif Require Import Base Spec SpecLoad SpecRegex SpecAdv SpecAdv2 SymbolModel HistoryModel CfgModel BitSetModel SetView SetProof LoadModel RegexModel SerialModel
  AdvModel AdvLexProof AdvTokensProof AdvParseProof AdvLoadProof AdvTextProof PropsAdv PropsAdv2 SpecMacro MacroModel MacroProof.
Import ListNotations.
Local Open Scope list_scope.
Local Notation length := List.length.

(** The text of a stream of words. *)
Lemma words_text : forall stream ws, words (flat_map leaves stream) ws ->
  exists code, join_tokens (flatten stream) = (code, map snd ws) /\ reads code (on_lines 1 ws) [].
Proof.
  intros stream ws H. destruct (words_joined _ _ H [] 1) as [code [E1 [E2 [_ HR]]]].
  rewrite <- flatten_leaves, app_nil_r in E1, E2. cbn [join_tokens fst snd] in E1, E2. rewrite !app_nil_r in E1. rewrite app_nil_r in E2.
  exists code. split; [destruct (join_tokens (flatten stream)); cbn in *; congruence|]. split; [|apply no_word_nil].
  specialize (HR [] [] [] (ar_none _ _)). rewrite !app_nil_r in HR. exact HR.
Qed.

Lemma line_span : forall (ws : list (adv_token * span)) pre x s post, ws = pre ++ (x, s) :: post -> nth_error (map snd ws) (length pre) = Some s.
Proof. intros ws pre x s post ->. rewrite map_app, nth_error_app2; rewrite map_length; [|apply le_n]. rewrite Nat.sub_diag. reflexivity. Qed.

Lemma on_lines_split : forall ws n pre x line col post, on_lines n ws = pre ++ (x, (line, col)) :: post ->
  exists pre' s post', ws = pre' ++ (x, s) :: post' /\ map fst pre' = map fst pre /\ line = n + length pre'.
Proof.
  induction ws as [|[t s] ws IH]; intros n pre x line col post E; [destruct pre; discriminate|]. cbn [on_lines] in E.
  destruct pre as [|y pre]; cbn [app] in E.
  - injection E as -> <- _ _. exists [], s, ws. repeat split. cbn. lia.
  - injection E as E0 E. destruct (IH _ _ _ _ _ _ E) as [pre' [s' [post' [-> [E1 ->]]]]].
    exists ((t, s) :: pre'), s', post'. split; [reflexivity|]. cbn [map fst length]. rewrite E1, <- E0. split; [reflexivity|]. cbn. lia.
Qed.

(** What comes of words that do not make a file. *)
Inductive rejected debug rx (ws : list (adv_token * span)) : res expansion -> Prop :=
| rj_parse : forall pre x s post, ws = pre ++ (x, s) :: post -> viable (map fst pre) -> ~ viable (map fst pre ++ [x]) ->
    rejected debug rx ws (Ok (CompileError ParseFailed (Some s)))
| rj_none : viable (map fst ws) -> (~ exists f, adv_file f /\ adv_file_tokens f = map fst ws) ->
    rejected debug rx ws (Ok (CompileError NoResult None))
| rj_file : forall f code, adv_file f -> adv_file_tokens f = map fst ws -> reads code (on_lines 1 ws) [] ->
    (forall e, load_advanced debug rx code = Ok (inr e) -> of_rule (le_reason e) = true) ->
    rejected debug rx ws (do r <- load_advanced debug rx code;
      match r with
      | inl g => if bs_is_empty (ag_sbs g) then Ok (Parser (process_json g)) else Panic
      | inr e => if le_line e =? 0 then Ok (CompileError (le_reason e) None)
                 else do sp <- get_ix (map snd ws) (le_line e - 1); Ok (CompileError (le_reason e) (Some sp))
      end).

Lemma file_errors : forall debug rx t f e, text_of t f -> load_advanced debug rx t = Ok (inr e) -> of_rule (le_reason e) = true.
Proof.
  intros debug rx t f e HT E. destruct (text_loads debug rx t f HT) as [H1 H2].
  assert (HO : one_lexer f \/ ~ one_lexer f).
  { destruct f as [|[s|l] f]; cbn [one_lexer]; [right; auto| |right; auto]. destruct (le_gt_dec (length (filter is_block f)) 1); [left|right]; lia. }
  destruct HO as [HO|HO]; [|rewrite (H2 HO) in E; discriminate]. destruct (H1 HO) as [xs [_ EL]]. rewrite EL in E.
  destruct (adv_load_rules debug rx xs adv_loop_new) as [[st|e']| |] eqn:Er; cbn [bind finish] in E; try discriminate.
  - destruct (adv_result st); discriminate.
  - injection E as ->. apply (rules_error _ _ _ _ _ _ (fun x Hx => Hx)) in Er; [|intros id []]. destruct Er; reflexivity.
Qed.

Lemma expand_cases : forall debug rx stream ws, words (flat_map leaves stream) ws -> rejected debug rx ws (cfg_regexp debug rx stream).
Proof.
  intros debug rx stream ws H. destruct (words_text stream ws H) as [code [EJ HR]]. unfold cfg_regexp. rewrite EJ.
  destruct (load_outcome debug rx code) as [tokens' [rest' [consumed [[HR' HN'] [Et O]]]]].
  destruct (reads_unique _ _ _ _ (proj1 HR) (proj2 HR) _ _ HR' HN') as [<- <-]. cbn [error_place] in O.
  remember (load_advanced debug rx code) as lo eqn:Elo.
  destruct O as [pre x line col post Ep H1 H2|line col _ E|H1 _ H3|f v H1 _ H3 H4 H5].
  - destruct (on_lines_split _ _ _ _ _ _ _ Ep) as [pre' [s [post' [Ew [Em ->]]]]]. cbn [bind le_line le_reason Nat.add Nat.eqb].
    replace (S (length pre') - 1) with (length pre') by lia. unfold get_ix. rewrite (line_span _ _ _ _ _ Ew). cbn [bind].
    rewrite <- Em in H1, H2. apply rj_parse with pre' x post'; assumption.
  - discriminate.
  - rewrite on_lines_fst in H1, H3. apply rj_none; assumption.
  - rewrite on_lines_fst in H4. rewrite Elo. apply rj_file with f; auto. intros e E. apply (file_errors debug rx code f e); [|exact E].
    split; [exact H3|]. exists (on_lines 1 ws). split; [exact HR|]. rewrite on_lines_fst. exact H4.
Qed.

(** The line of an error of a rule is that of the word that it is about. *)
Lemma rule_place : forall debug rx code ws e, reads code (on_lines 1 ws) [] -> load_advanced debug rx code = Ok (inr e) ->
  of_rule (le_reason e) = true -> le_line e <> 0 /\ exists f s, adv_file f /\ adv_file_tokens f = map fst ws /\
  nth_error (map snd ws) (le_line e - 1) = Some s /\ blamed rx f ws (le_reason e) s.
Proof.
  intros debug rx code ws e HR EL HO.
  destruct (load_rule_error debug rx code _ e HR EL HO) as [f [rs [lex [Hf [Ef [HV [HS HX]]]]]]]. rewrite on_lines_fst in Ef, HS.
  set (lx := match lex with Some l => l | None => [] end) in *.
  assert (HA : Forall (rule_at (number 0 (map fst ws))) (rs ++ lx)) by exact (start_shape_at _ _ HS _ eq_refl).
  assert (HP : forall r b, In (r, b) (map (fun x => (x, false)) rs ++ map (fun x => (x, true)) lx) ->
    rule_at (number 0 (map fst ws)) r /\ (b = true -> In r lx) /\ (b = false -> In r rs)).
  { intros r b HI. rewrite Forall_forall in HA. apply in_app_or in HI.
    destruct HI as [HI|HI]; apply in_map_iff in HI; destruct HI as [x [X HI]]; injection X as <- <-.
    - split; [apply HA, in_or_app; left; exact HI|]. split; [discriminate|auto].
    - split; [apply HA, in_or_app; right; exact HI|]. split; [auto|discriminate]. }
  destruct HX as [r r' HI HI' EQ|r b xf g s HI Hxf EF NG|r b xf s HI Hxf EF NR]; cbn [le_reason le_line] in *.
  - destruct (HP r true HI) as [_ [HL _]]. specialize (HL eq_refl). destruct (HP r' false HI') as [_ [_ HL']]. specialize (HL' eq_refl).
    assert (HB : inner_rule_at (number 0 (map fst ws)) r).
    { destruct lex as [l|]; [|destruct HL]. pose proof (start_inner_at _ _ HS _ _ eq_refl) as X. rewrite Forall_forall in X. apply X. exact HL. }
    destruct HB as [p [q [i [j [EN [ES BL]]]]]]. destruct (number_within _ _ _ _ _ EN) as [Ei Et]. cbn [fst snd map Nat.add] in Ei, Et. subst i.
    destruct (map_eq_app _ _ _ _ Et) as [w1 [w2 [Ew [M1 M2]]]]. destruct (map_eq_cons _ _ M2) as [[x1 s1] [w3 [-> [X1 M3]]]].
    destruct (map_eq_cons _ _ M3) as [[x2 s2] [w4 [-> [X2 M4]]]]. cbn [fst] in X1, X2. subst x1 x2.
    assert (LN : length p = length w1) by (rewrite <- (map_length fst p), <- M1, map_length; reflexivity).
    rewrite ES. split; [lia|].
    replace (length p + 1 - 1) with (length w1) by lia. exists f, s1. split; [exact Hf|]. split; [exact Ef|]. split; [exact (line_span _ _ _ _ _ Ew)|].
    destruct HV as [_ [HV1 HV2]].
    apply (bl_shared rx f ws w1 (xr_lhs r) s1 s2 w4 Ew); [rewrite M1; exact BL| |].
    + exists (map xf_frag (xr_rhs r')), (xr_action r'). rewrite <- HV1, <- EQ. apply (in_map erase_rule) in HL'. exact HL'.
    + exists (map xf_frag (xr_rhs r)), (xr_action r). apply (in_map erase_rule) in HL.
      destruct lex as [l|]; [|destruct HL]. destruct HV2 as [HV2 _]. rewrite <- HV2. exact HL.
  - destruct (HP r b HI) as [[_ HF] _]. rewrite Forall_forall in HF. destruct (HF xf Hxf g s EF) as [i [j [k [m [ES [_ [p [q EN]]]]]]]].
    cbn [app] in EN. destruct (number_within _ _ _ _ _ EN) as [Ei Et]. cbn [fst snd map Nat.add] in Ei, Et. subst i.
    destruct (map_eq_app _ _ _ _ Et) as [w1 [w2 [Ew [M1 M2]]]]. destruct (map_eq_cons _ _ M2) as [[x1 s1] [w3 [-> [X1 M3]]]].
    destruct (map_eq_cons _ _ M3) as [[x2 s2] [w4 [-> [X2 M4]]]]. destruct (map_eq_cons _ _ M4) as [[x3 s3] [w5 [-> [X3 M5]]]].
    destruct (map_eq_cons _ _ M5) as [[x4 s4] [w6 [-> [X4 M6]]]]. cbn [fst] in X1, X2, X3, X4. subst x1 x2 x3 x4.
    assert (LN : length p = length w1) by (rewrite <- (map_length fst p), <- M1, map_length; reflexivity).
    rewrite ES. split; [lia|].
    replace (length p + 1 - 1) with (length w1) by lia. exists f, s1. split; [exact Hf|]. split; [exact Ef|]. split; [exact (line_span _ _ _ _ _ Ew)|].
    apply (bl_function rx f ws w1 g s1 s2 s s3 s4 w6 Ew NG).
  - destruct (HP r b HI) as [[_ HF] _]. rewrite Forall_forall in HF. destruct (HF xf Hxf _ s EF) as [i [j [k [m [_ [ES [p [q EN]]]]]]]].
    cbn [app] in EN. destruct (number_within _ _ _ _ _ EN) as [Ei Et]. cbn [fst snd map Nat.add] in Ei, Et.
    change (p ++ (AIdent "Regexp", i) :: (ALParen, j) :: (AString s, k) :: (ARParen, m) :: q) with
      (p ++ [(AIdent "Regexp", i); (ALParen, j)] ++ (AString s, k) :: (ARParen, m) :: q) in EN. rewrite app_assoc in EN.
    destruct (number_within _ _ _ _ _ EN) as [Ek _]. cbn [fst snd map Nat.add] in Ek. rewrite app_length in Ek. cbn [length] in Ek. subst k.
    destruct (map_eq_app _ _ _ _ Et) as [w1 [w2 [Ew [M1 M2]]]]. destruct (map_eq_cons _ _ M2) as [[x1 s1] [w3 [-> [X1 M3]]]].
    destruct (map_eq_cons _ _ M3) as [[x2 s2] [w4 [-> [X2 M4]]]]. destruct (map_eq_cons _ _ M4) as [[x3 s3] [w5 [-> [X3 M5]]]].
    destruct (map_eq_cons _ _ M5) as [[x4 s4] [w6 [-> [X4 M6]]]]. cbn [fst] in X1, X2, X3, X4. subst x1 x2 x3 x4.
    assert (LN : length p = length w1) by (rewrite <- (map_length fst p), <- M1, map_length; reflexivity).
    rewrite ES. split; [lia|].
    assert (Ew' : ws = (w1 ++ [(AIdent "Regexp", s1); (ALParen, s2)]) ++ (AString s, s3) :: (ARParen, s4) :: w6) by (rewrite <- app_assoc; exact Ew).
    replace (length p + 2 + 1 - 1) with (length (w1 ++ [(AIdent "Regexp", s1); (ALParen, s2)])) by (rewrite app_length; cbn [length]; lia).
    exists f, s3. split; [exact Hf|]. split; [exact Ef|]. split; [exact (line_span _ _ _ _ _ Ew')|].
    apply (bl_argument rx f ws w1 s1 s2 s s3 s4 w6 Ew NR).
Qed.

(** Characters, as texts have them. *)
Definition ordinary_characters (stream : list token_tree) : Prop :=
  Forall (fun l => Forall is_char (leaf_text l)) (flat_map leaves stream).

Lemma text_chars : forall stream code spans, ordinary_characters stream -> join_tokens (flatten stream) = (code, spans) -> Forall is_char code.
Proof.
  intros stream code spans H E. rewrite flatten_leaves in E. unfold ordinary_characters in H. revert code spans E.
  induction H as [|l ls Hl H IH]; intros code spans E; cbn [map flat join_tokens] in E.
  - injection E as <- _. constructor.
  - destruct (join_tokens (map flat ls)) as [code' spans']. specialize (IH _ _ eq_refl).
    destruct (_ || _); injection E as <- _; apply Forall_app; split; auto. constructor; [left; reflexivity|exact IH].
Qed.

(** * C97 *)

(** Words that cannot follow those before them are reported where they are. *)
Theorem C97_parse_error : forall debug rx stream ws, words (flat_map leaves stream) ws -> forall place,
  cfg_regexp debug rx stream = Ok (CompileError ParseFailed place) <->
  exists pre x s post, ws = pre ++ (x, s) :: post /\ viable (map fst pre) /\ ~ viable (map fst pre ++ [x]) /\ place = Some s.
Proof.
  intros debug rx stream ws HW place. pose proof (expand_cases debug rx stream ws HW) as R.
  assert (U : forall pre x s post, ws = pre ++ (x, s) :: post -> viable (map fst pre) -> ~ viable (map fst pre ++ [x]) ->
    forall pre' x' s' post', ws = pre' ++ (x', s') :: post' -> viable (map fst pre') -> ~ viable (map fst pre' ++ [x']) -> s = s').
  { intros pre x s post E V N pre' x' s' post' E' V' N'. rewrite E in E'.
    destruct (app_split _ _ _ _ _ _ E') as [[-> X]|[[c ->]|[c ->]]]; [congruence| |]; exfalso.
    - apply N. rewrite map_app in V'. cbn [map fst] in V'. apply (viable_prefix _ (map fst c)). rewrite <- app_assoc. exact V'.
    - apply N'. rewrite map_app in V. cbn [map fst] in V. apply (viable_prefix _ (map fst c)). rewrite <- app_assoc. exact V. }
  assert (NV : forall pre x s post, ws = pre ++ (x, s) :: post -> ~ viable (map fst pre ++ [x]) -> ~ viable (map fst ws)).
  { intros pre x s post E N V. apply N. rewrite E, map_app in V. cbn [map fst] in V. apply (viable_prefix _ (map fst post)).
    rewrite <- app_assoc. exact V. }
  split.
  - intros E. rewrite E in R. inversion R as [pre x s post E1 E2 E3 E4|E1 E2 E3|f code E1 E2 E3 HE E4].
    + exists pre, x, s, post. auto.
    + exfalso. destruct (load_advanced debug rx code) as [[g|e]| |]; cbn [bind] in E4; try discriminate.
      * destruct (bs_is_empty (ag_sbs g)); discriminate.
      * specialize (HE e eq_refl). destruct (le_line e =? 0); [injection E4 as E4 _; rewrite E4 in HE; discriminate|].
        destruct (get_ix (map snd ws) (le_line e - 1)); cbn [bind] in E4; try discriminate. injection E4 as E4 _. rewrite E4 in HE. discriminate.
  - intros [pre [x [s [post [E1 [E2 [E3 ->]]]]]]]. inversion R as [pre' x' s' post' E1' E2' E3' E4'|V V1 V2|f code Hf E2' E3' HE E4'].
    + rewrite (U _ _ _ _ E1' E2' E3' _ _ _ _ E1 E2 E3). reflexivity.
    + exfalso. exact (NV _ _ _ _ E1 E3 V).
    + exfalso. apply (NV _ _ _ _ E1 E3). rewrite <- E2'. apply file_viable. exact Hf.
Qed.
Print Assumptions C97_parse_error.

(** Words that are only the beginning of a file are reported without a place. *)
Theorem C97_unfinished : forall debug rx stream ws, words (flat_map leaves stream) ws -> viable (map fst ws) ->
  (~ exists f, adv_file f /\ adv_file_tokens f = map fst ws) -> cfg_regexp debug rx stream = Ok (CompileError NoResult None).
Proof.
  intros debug rx stream ws HW V NF. pose proof (expand_cases debug rx stream ws HW) as R.
  inversion R as [pre x s post E1 E2 E3 E4|V1 V2 V3|f code Hf E2 E3 HE E4].
  - exfalso. apply E3. rewrite E1, map_app in V. cbn [map fst] in V. apply (viable_prefix _ (map fst post)). rewrite <- app_assoc. exact V.
  - reflexivity.
  - exfalso. apply NF. exists f. auto.
Qed.
Print Assumptions C97_unfinished.

(** An error of a rule is reported at the word that it is about. *)
Theorem C97_rule_error : forall debug rx stream ws reason place, words (flat_map leaves stream) ws ->
  cfg_regexp debug rx stream = Ok (CompileError reason place) -> reason = Shared \/ reason = NotRegexp \/ reason = BadRegexp ->
  exists f s, adv_file f /\ adv_file_tokens f = map fst ws /\ place = Some s /\ blamed rx f ws reason s.
Proof.
  intros debug rx stream ws reason place HW E HE. destruct (words_text stream ws HW) as [code [EJ HR]]. unfold cfg_regexp in E. rewrite EJ in E.
  destruct (load_advanced debug rx code) as [[g|e]| |] eqn:EL; cbn [bind] in E; try discriminate.
  { destruct (bs_is_empty (ag_sbs g)); discriminate. }
  assert (Er : le_reason e = reason).
  { destruct (le_line e =? 0); [injection E as <- _; reflexivity|]. destruct (get_ix (map snd ws) (le_line e - 1)); cbn [bind] in E; try discriminate.
    injection E as <- _. reflexivity. }
  assert (HO : of_rule (le_reason e) = true) by (rewrite Er; destruct HE as [->|[->| ->]]; reflexivity).
  destruct (rule_place debug rx code ws e HR EL HO) as [HN [f [s [Hf [Ef [Hs HB]]]]]]. exists f, s. split; [exact Hf|]. split; [exact Ef|].
  apply Nat.eqb_neq in HN. rewrite HN in E. unfold get_ix in E. rewrite Hs in E. cbn [bind] in E. injection E as _ <-. split; [reflexivity|].
  rewrite <- Er. exact HB.
Qed.
Print Assumptions C97_rule_error.

(** A file with a fault is rejected for the first of its faults. *)
Theorem C97_fault : forall debug rx stream ws f reason, words (flat_map leaves stream) ws -> ordinary_characters stream ->
  adv_file f -> adv_file_tokens f = map fst ws -> loadable rx f -> first_fault rx (marked_rules f) reason ->
  exists s, cfg_regexp debug rx stream = Ok (CompileError reason (Some s)).
Proof.
  intros debug rx stream ws f reason HW HC Hf Ef HL HF. destruct (words_text stream ws HW) as [code [EJ HR]].
  assert (HT : text_of code f) by (split; [exact Hf|]; exists (on_lines 1 ws); split; [exact HR|]; rewrite on_lines_fst; exact Ef).
  assert (HC' : Forall is_char code) by exact (text_chars stream code _ HC EJ).
  apply (C76_faults debug rx code f HT HC' HL) in HF. destruct HF as [e [EL <-]].
  assert (HO : of_rule (le_reason e) = true) by exact (file_errors debug rx code f e HT EL).
  destruct (rule_place debug rx code ws e HR EL HO) as [HN [f' [s [_ [_ [Hs _]]]]]]. exists s.
  unfold cfg_regexp. rewrite EJ, EL. cbn [bind]. apply Nat.eqb_neq in HN. rewrite HN. unfold get_ix. rewrite Hs. reflexivity.
Qed.
Print Assumptions C97_fault.

(** What follows the words before it cannot be read, and is at a token. *)
Lemma unreadable : forall debug rx stream l x rest ws c v sps, flat_map leaves stream = l ++ x :: rest -> words l ws ->
  viable (map fst ws) -> join_tokens (flat x :: map flat rest) = (c :: v, leaf_span x :: sps) -> no_word (c :: v) -> c <> 34%N ->
  cfg_regexp debug rx stream = Ok (CompileError Tokenize (Some (leaf_span x))).
Proof.
  intros debug rx stream l x rest ws c v sps EL HW HV EJ HNW N34.
  destruct (words_joined l ws HW (flat x :: map flat rest) 1) as [code [E1 [E2 [EP HR]]]].
  assert (EF : flatten stream = map flat l ++ flat x :: map flat rest) by (rewrite flatten_leaves, EL, map_app; reflexivity).
  rewrite <- EF in E1, E2. rewrite EJ in E1, E2. cbn [fst snd] in E1, E2.
  assert (HR1 : reads (code ++ c :: v) (on_lines 1 ws) (c :: v)).
  { split; [|exact HNW]. rewrite <- (app_nil_r (on_lines 1 ws)). apply HR. constructor. }
  unfold cfg_regexp. destruct (join_tokens (flatten stream)) as [co spans]. cbn [fst snd] in E1, E2. subst co spans.
  destruct (load_outcome debug rx (code ++ c :: v)) as [tokens' [rest' [consumed [[HR' HN'] [Ec O]]]]].
  destruct (reads_unique _ _ _ _ (proj1 HR1) (proj2 HR1) _ _ HR' HN') as [<- <-]. apply app_inv_tail in Ec. subst consumed.
  rewrite EP in O. cbn [error_place] in O. apply N.eqb_neq in N34. rewrite N34 in O.
  remember (load_advanced debug rx (code ++ c :: v)) as lo eqn:Elo. clear Elo.
  destruct O as [pre y line col post Ep H1 H2|line col _ E|H1 E H3|f w H1 E H3 H4 H5]; try discriminate.
  - exfalso. apply H2. apply (viable_prefix _ (map fst post)). rewrite <- app_assoc. cbn [app].
    rewrite <- (on_lines_fst ws 1), Ep, map_app in HV. exact HV.
  - injection E as <- _. cbn [bind le_line le_reason Nat.add Nat.eqb]. replace (S (length ws) - 1) with (length (map snd ws)) by (rewrite map_length; lia).
    unfold get_ix. rewrite nth_error_app2 by apply le_n. rewrite Nat.sub_diag. reflexivity.
Qed.

(** A token that cannot begin a word is reported, if the words before it can be continued. *)
Theorem C97_foreign : forall debug rx stream l x rest ws, flat_map leaves stream = l ++ x :: rest -> words l ws ->
  viable (map fst ws) -> foreign (leaf_text x) -> cfg_regexp debug rx stream = Ok (CompileError Tokenize (Some (leaf_span x))).
Proof.
  intros debug rx stream l x rest ws EL HW HV HF. destruct (leaf_text x) as [|c u] eqn:Et; [destruct HF|].
  assert (N58 : c <> 58%N) by (intros ->; exact (HF _ _ aw_op)).
  assert (N34 : c <> 34%N) by (intros ->; exact (HF _ _ (aw_string [] [] q_end))).
  assert (EA : exists v sps, join_tokens (flat x :: map flat rest) = (c :: v, leaf_span x :: sps)).
  { unfold flat at 1. cbn [join_tokens]. rewrite Et.
    assert (EB : (match x with LPunct c0 _ => negb (c0 =? 58)%N | LText _ _ => true end) = true).
    { destruct x as [t s|d s]; [reflexivity|]. cbn [leaf_text] in Et. injection Et as -> _. rewrite (proj2 (N.eqb_neq _ _) N58). reflexivity. }
    rewrite EB. destruct (join_tokens (map flat rest)) as [co sps]. cbn. eexists. exists sps. reflexivity. }
  destruct EA as [v [sps EJ]]. apply (unreadable debug rx stream l x rest ws c v sps EL HW HV EJ); [|exact N34].
  intros w o Hw [r Er]. destruct (word_shape w o Hw) as [d [u' [-> _]]]. injection Er as <- _. exact (HF u' o Hw).
Qed.
Print Assumptions C97_foreign.

(** So is a colon that is not followed by another character without a space. *)
Theorem C97_lone_colon : forall debug rx stream l s rest ws, flat_map leaves stream = l ++ LPunct 58%N s :: rest -> words l ws ->
  viable (map fst ws) -> (forall y rest', rest = y :: rest' -> sp_start (leaf_span y) <> sp_end s) ->
  cfg_regexp debug rx stream = Ok (CompileError Tokenize (Some s)).
Proof.
  intros debug rx stream l s rest ws EL HW HV HS.
  assert (EA : exists v sps, join_tokens (flat (LPunct 58%N s) :: map flat rest) = (58%N :: 10%N :: v, s :: sps)).
  { cbn [join_tokens flat leaf_text leaf_span]. destruct (join_tokens (map flat rest)) as [co sps].
    assert (EB : match map flat rest with (_, sp', _) :: _ => sp_end s =? sp_start sp' | [] => false end = false).
    { destruct rest as [|y rest]; [reflexivity|]. cbn [map flat]. apply Nat.eqb_neq. intros X. symmetry in X. exact (HS y rest eq_refl X). }
    rewrite EB. cbn. exists co, sps. reflexivity. }
  destruct EA as [v [sps EJ]]. apply (unreadable debug rx stream l (LPunct 58%N s) rest ws 58%N (10%N :: v) sps EL HW HV EJ); [|discriminate].
  intros w o Hw [r Er]. destruct (word_shape w o Hw) as [d [u' [Ew K]]]. rewrite Ew in Er. injection Er as Ed Er.
  destruct K as [[Hc _]|[[Ec _]|[[E1 _]|[Hs _]]]].
  - rewrite <- Ed in Hc. discriminate.
  - rewrite <- Ed in Ec. discriminate.
  - rewrite E1 in Ew. injection Ew as _ <-. discriminate Er.
  - rewrite <- Ed in Hs. discriminate.
Qed.
Print Assumptions C97_lone_colon.

(** A file without faults becomes a parser if there is something lexical in it. *)
Definition lexical (f : list declaration) : Prop := lexer_rules f <> [] \/ exists s, has_fragment (adv_file_rules f) (FString s).

Lemma lexical_symbols : forall debug rx code f g, text_of code f -> Forall is_char code -> loadable rx f ->
  load_advanced debug rx code = Ok (inl g) -> (bs_is_empty (ag_sbs g) = true <-> lexical f).
Proof.
  intros debug rx code f g HT HC HL E. destruct (C78_set_partial debug rx code f g HT HC HL E) as [strings [_ [HS [H1 [_ H2]]]]].
  rewrite bs_is_empty_spec. split.
  - intros [z Hz]. apply H2 in Hz. destruct Hz as [[l [fs [act [HI _]]]]|[i [Hi _]]].
    + left. intros X. rewrite X in HI. destruct HI.
    + right. destruct strings as [|s strings]; [inversion Hi|]. exists s. apply HS. left. reflexivity.
  - intros [HI|[s Hs]].
    + destruct (lexer_rules f) as [|[[l fs] act] rs] eqn:EL; [contradiction HI; reflexivity|].
      destruct (C80_domain debug rx code f g HT HC HL E) as [strings' [_ [_ HD]]].
      destruct (HD l) as [_ HD']. destruct HD' as [z Hz].
      { left. exists l, fs, act. split; [|left; reflexivity]. unfold adv_file_rules. apply in_or_app. right. rewrite EL. left. reflexivity. }
      exists z. apply H2. left. exists l, fs, act. split; [left; reflexivity|exact Hz].
    + apply HS in Hs. destruct strings as [|s' strings]; [destruct Hs|]. destruct (H1 0) as [z Hz]; [cbn; lia|].
      exists z. apply H2. right. exists 0. split; [cbn; lia|exact Hz].
Qed.

Theorem C97_parser_partial : forall debug rx stream ws f, words (flat_map leaves stream) ws -> ordinary_characters stream ->
  adv_file f -> adv_file_tokens f = map fst ws -> loadable rx f -> (forall reason, ~ first_fault rx (marked_rules f) reason) ->
  lexical f -> exists j, cfg_regexp debug rx stream = Ok (Parser j).
Proof.
  intros debug rx stream ws f HW HC Hf Ef HL HF HX. destruct (words_text stream ws HW) as [code [EJ HR]].
  assert (HT : text_of code f) by (split; [exact Hf|]; exists (on_lines 1 ws); split; [exact HR|]; rewrite on_lines_fst; exact Ef).
  assert (HC' : Forall is_char code) by exact (text_chars stream code _ HC EJ).
  apply (C76_loads debug rx code f HT HC' HL) in HF. destruct HF as [g EL]. unfold cfg_regexp. rewrite EJ, EL. cbn [bind].
  apply (lexical_symbols debug rx code f g HT HC' HL EL) in HX. rewrite HX. eexists. reflexivity.
Qed.
Print Assumptions C97_parser_partial.

(** There is a panic whenever there is not. *)
Theorem C97_panic_refuted : forall debug rx stream ws f, words (flat_map leaves stream) ws -> ordinary_characters stream ->
  adv_file f -> adv_file_tokens f = map fst ws -> loadable rx f -> (forall reason, ~ first_fault rx (marked_rules f) reason) ->
  ~ lexical f -> cfg_regexp debug rx stream = Panic.
Proof.
  intros debug rx stream ws f HW HC Hf Ef HL HF HX. destruct (words_text stream ws HW) as [code [EJ HR]].
  assert (HT : text_of code f) by (split; [exact Hf|]; exists (on_lines 1 ws); split; [exact HR|]; rewrite on_lines_fst; exact Ef).
  assert (HC' : Forall is_char code) by exact (text_chars stream code _ HC EJ).
  apply (C76_loads debug rx code f HT HC' HL) in HF. destruct HF as [g EL]. unfold cfg_regexp. rewrite EJ, EL. cbn [bind].
  destruct (bs_is_empty (ag_sbs g)) eqn:EB; [|reflexivity].
  exfalso. apply HX. apply (lexical_symbols debug rx code f g HT HC' HL EL). exact EB.
Qed.
Print Assumptions C97_panic_refuted.

(** All parsers are the same, whatever the grammars. *)
Theorem C97_same_parser_refuted : forall debug rx stream debug' rx' stream' j j',
  cfg_regexp debug rx stream = Ok (Parser j) -> cfg_regexp debug' rx' stream' = Ok (Parser j') -> j = j'.
Proof.
  assert (X : forall debug rx stream j, cfg_regexp debug rx stream = Ok (Parser j) -> j = JObj []).
  { intros debug rx stream j E. unfold cfg_regexp in E. destruct (join_tokens (flatten stream)) as [code spans].
    destruct (load_advanced debug rx code) as [[g|e]| |]; cbn [bind] in E; try discriminate.
    - destruct (bs_is_empty (ag_sbs g)); [|discriminate]. injection E as <-. reflexivity.
    - destruct (le_line e =? 0); [discriminate|]. destruct (get_ix spans (le_line e - 1)); cbn [bind] in E; discriminate. }
  intros debug rx stream debug' rx' stream' j j' E E'. rewrite (X _ _ _ _ E), (X _ _ _ _ E'). reflexivity.
Qed.
Print Assumptions C97_same_parser_refuted.

(** * Concrete streams *)

Local Open Scope string_scope.
Local Open Scope list_scope.

(** Tokens one after the other, with a space between those that Rust would not join. *)
Definition sp (a b : nat) := mkSpan a b.
Definition op (a : nat) : list token_tree := [TPunct 58%N (sp a (a + 1)); TPunct 58%N (sp (a + 1) (a + 2)); TPunct 61%N (sp (a + 2) (a + 3))].
Definition id (x : string) (a : nat) : token_tree := TIdent (of_string x) (sp a (a + String.length x)).
Definition semicolon (a : nat) : token_tree := TPunct 59%N (sp a (a + 1)).

(** [a ::= "x";] *)
Definition good_stream : list token_tree := id "a" 0 :: op 2 ++ [TLiteral (34 :: of_string "x" ++ [34])%N (sp 6 9); semicolon 9].
Definition good_words : list (adv_token * span) :=
  [(AIdent "a", sp 0 1); (AOp, sp 4 5); (AString (of_string "x"), sp 6 9); (ASemicolon, sp 9 10)].
Definition good_file : list declaration := [DStatement (SAlts "a" [([FString (of_string "x")], None)])].

(** [a ::= b;] *)
Definition plain_stream : list token_tree := id "a" 0 :: op 2 ++ [id "b" 6; semicolon 7].
Definition plain_words : list (adv_token * span) := [(AIdent "a", sp 0 1); (AOp, sp 4 5); (AIdent "b", sp 6 7); (ASemicolon, sp 7 8)].
Definition plain_file : list declaration := [DStatement (SAlts "a" [([FName "b" Once], None)])].

(** [a ::= b ~ ;] and [a ::= b], and [a ::= # b] *)
Definition wrong_stream : list token_tree := id "a" 0 :: op 2 ++ [id "b" 6; TPunct 126%N (sp 8 9); semicolon 10].
Definition unfinished_stream : list token_tree := id "a" 0 :: op 2 ++ [id "b" 6].
Definition foreign_stream : list token_tree := id "a" 0 :: op 2 ++ [TPunct 35%N (sp 6 7); id "b" 8].

(** [a ::= b; lexer { a ::= c; }] *)
Definition shared_stream : list token_tree :=
  id "a" 0 :: op 2 ++ [id "b" 6; semicolon 7; id "lexer" 9;
    TGroup Brace (sp 15 16) (sp 27 28) (id "a" 17 :: op 19 ++ [id "c" 23; semicolon 24])].
Definition shared_words : list (adv_token * span) :=
  [(AIdent "a", sp 0 1); (AOp, sp 4 5); (AIdent "b", sp 6 7); (ASemicolon, sp 7 8); (ALexer, sp 9 14); (ALBrace, sp 15 16);
   (AIdent "a", sp 17 18); (AOp, sp 21 22); (AIdent "c", sp 23 24); (ASemicolon, sp 24 25); (ARBrace, sp 27 28)].
Definition shared_macro_file : list declaration :=
  [DStatement (SAlts "a" [([FName "b" Once], None)]); DLexer [SAlts "a" [([FName "c" Once], None)]]].

Ltac a_word := apply w_word; [|intros X; cbn in X; repeat (destruct X as [X|X]; [discriminate X|]); destruct X|].
Ltac a_name x := apply (aw_ident (of_string x)); [split; reflexivity|discriminate].

Lemma good_reads : words (flat_map leaves good_stream) good_words.
Proof.
  a_word; [a_name "a"|]. apply w_op; [reflexivity|reflexivity|].
  a_word; [apply (aw_string (of_string "x") (of_string "x")); repeat constructor; discriminate|].
  a_word; [apply aw_semicolon|]. constructor.
Qed.
Lemma plain_reads : words (flat_map leaves plain_stream) plain_words.
Proof.
  a_word; [a_name "a"|]. apply w_op; [reflexivity|reflexivity|]. a_word; [a_name "b"|]. a_word; [apply aw_semicolon|]. constructor.
Qed.
Lemma shared_reads : words (flat_map leaves shared_stream) shared_words.
Proof.
  a_word; [a_name "a"|]. apply w_op; [reflexivity|reflexivity|]. a_word; [a_name "b"|]. a_word; [apply aw_semicolon|].
  a_word; [apply aw_lexer|]. a_word; [apply aw_lbrace|]. a_word; [a_name "a"|]. apply w_op; [reflexivity|reflexivity|].
  a_word; [a_name "c"|]. a_word; [apply aw_semicolon|]. a_word; [apply aw_rbrace|]. constructor.
Qed.

(** These meet the hypotheses above. *)
Ltac not_rejected := split; [cbn; lia|]; split; [intros s [l [fs [act [[E|[]] Hf]]]]; injection E as <- <- <-; destruct Hf as [Hf|[]];
  try discriminate Hf; injection Hf as <-; cbn; split; intros [X|[]]; discriminate X|intros s h _ X; discriminate X].
Ltac no_fault := intros reason [before [p [after [E [_ HF]]]]]; destruct before as [|q before]; [|injection E as _ E; destruct before; discriminate E];
  injection E as <- _; inversion HF as [|l fs act b e H1 [pre [x [post [H2 [_ H3]]]]]];
  destruct pre as [|y pre]; [|injection H2 as _ H2; destruct pre; discriminate H2]; injection H2 as <- _; inversion H3.
Example C97_good : words (flat_map leaves good_stream) good_words /\ ordinary_characters good_stream /\
  adv_file good_file /\ adv_file_tokens good_file = map fst good_words /\ loadable no_regexp good_file /\
  (forall reason, ~ first_fault no_regexp (marked_rules good_file) reason) /\ lexical good_file /\
  forall debug rx, cfg_regexp debug rx good_stream = Ok (Parser (JObj [])).
Proof.
  split; [exact good_reads|]. split; [repeat constructor; cbn; lia|].
  split; [split; [discriminate|]; repeat constructor; discriminate|]. split; [reflexivity|].
  split; [not_rejected|]. split; [no_fault|].
  split; [right; exists (of_string "x"), "a"%string, [FString (of_string "x")], None; split; left; reflexivity|].
  intros debug rx. vm_compute. reflexivity.
Qed.

Example C97_plain : words (flat_map leaves plain_stream) plain_words /\ ordinary_characters plain_stream /\
  adv_file plain_file /\ adv_file_tokens plain_file = map fst plain_words /\ loadable no_regexp plain_file /\
  (forall reason, ~ first_fault no_regexp (marked_rules plain_file) reason) /\ ~ lexical plain_file /\
  forall debug rx, cfg_regexp debug rx plain_stream = Panic.
Proof.
  split; [exact plain_reads|]. split; [repeat constructor; cbn; lia|].
  split; [split; [discriminate|]; repeat constructor; discriminate|]. split; [reflexivity|].
  split; [not_rejected|]. split; [no_fault|].
  split; [|intros debug rx; vm_compute; reflexivity].
  intros [X|[s [l [fs [act [[X|[]] Y]]]]]]; [apply X; reflexivity|]. injection X as _ <- _. destruct Y as [Y|[]]. discriminate Y.
Qed.

Example C97_rejected : forall debug rx,
  cfg_regexp debug rx wrong_stream = Ok (CompileError ParseFailed (Some (sp 10 11))) /\
  cfg_regexp debug rx unfinished_stream = Ok (CompileError NoResult None) /\
  cfg_regexp debug rx foreign_stream = Ok (CompileError Tokenize (Some (sp 6 7))) /\
  cfg_regexp debug rx shared_stream = Ok (CompileError Shared (Some (sp 17 18))).
Proof. intros debug rx. repeat split; vm_compute; reflexivity. Qed.

Example C97_shared : words (flat_map leaves shared_stream) shared_words /\ adv_file shared_macro_file /\
  adv_file_tokens shared_macro_file = map fst shared_words.
Proof. split; [exact shared_reads|]. split; [split; [discriminate|]; repeat constructor; discriminate|]. reflexivity. Qed.

(** A literal on two lines moves the errors after it: [a ::= "x
   y" + b;] is reported at [b] instead of [+], and without [b;] there is a panic. *)
Definition two_lines (rest : list token_tree) : list token_tree :=
  id "a" 0 :: op 2 ++ TLiteral (34 :: of_string "x" ++ 10 :: of_string "y" ++ [34])%N (sp 6 11) :: TPunct 43%N (sp 12 13) :: rest.
Theorem C97_two_lines_refuted : forall debug rx,
  cfg_regexp debug rx (two_lines [id "b" 14; semicolon 15]) = Ok (CompileError ParseFailed (Some (sp 14 15))) /\
  cfg_regexp debug rx (two_lines []) = Panic.
Proof. intros debug rx. split; vm_compute; reflexivity. Qed.
Print Assumptions C97_two_lines_refuted.

(** So does a literal that is raw: [a ::= r"\";] *)
Definition raw_stream : list token_tree := id "a" 0 :: op 2 ++ [TLiteral (114 :: 34 :: 92 :: [34])%N (sp 6 10); semicolon 10].
Theorem C97_raw_refuted : forall debug rx, cfg_regexp debug rx raw_stream = Panic.
Proof. intros debug rx. vm_compute. reflexivity. Qed.
Print Assumptions C97_raw_refuted.

(** A path is reported at its end: in [a::b] the word that the notation does not have is [::]. *)
Definition path_stream : list token_tree :=
  [id "a" 0; TPunct 58%N (sp 1 2); TPunct 58%N (sp 2 3); id "b" 3].
Theorem C97_path_refuted : forall debug rx, cfg_regexp debug rx path_stream = Ok (CompileError Tokenize (Some (sp 3 4))).
Proof. intros debug rx. vm_compute. reflexivity. Qed.
Print Assumptions C97_path_refuted.

(** [a : b] *)
Example C97_colon : forall debug rx,
  cfg_regexp debug rx [id "a" 0; TPunct 58%N (sp 2 3); id "b" 4] = Ok (CompileError Tokenize (Some (sp 2 3))).
Proof. intros debug rx. vm_compute. reflexivity. Qed.
