(** The loader of the rich notation: the grammar that is loaded. *)

From Coq Require Import String Ascii List Arith NArith Bool Lia Permutation.
From Verif Require Import Base ListFacts Spec SpecSeq SpecRegex SpecRemap GrammarFacts SymbolModel LoopModel LoopFacts HistoryModel
  CfgModel BitSetModel SetView SetProof View SeqModel RegexModel LexProof RegexProof RegexProof2 RemapModel PropsSeq PropsRegex SpecLoad SpecAdv LoadModel LoadParseProof LoadProof
  AdvModel SpecAdv2 AdvLexProof AdvTokensProof AdvParseProof AdvRegexProof AdvEmbedProof AdvLoadProof AdvLoadProof2 AdvLoadProof3 AdvLoadProof4 AdvNamesProof AdvFaultProof AdvTextProof AdvClassProof PropsAdv.
Import ListNotations.
Local Open Scope list_scope.
Local Notation length := List.length.

(** * C75 *)

(** A text that is not written for a file is rejected. *)
Theorem C75_other_texts : forall debug rx t, (~ exists f, text_of t f) -> exists e, load_advanced debug rx t = Ok (inr e).
Proof.
  intros debug rx t HT. destruct (load_outcome debug rx t) as [tokens [rest [consumed [HR [Et O]]]]].
  destruct O as [pre x line col post Ey H1 H2|line col H1 H2|H1 H2 H3|f v H1 H2 H3 H4 H5]; try (eexists; reflexivity).
  exfalso. apply HT. exists f. split; [exact H3|]. exists tokens. split; [|exact H4].
  destruct rest; [exact HR|discriminate].
Qed.
Print Assumptions C75_other_texts.

(** Else, it is loaded or rejected. *)
Theorem C75_total_partial : forall debug rx t f, text_of t f -> Forall is_char t -> loadable rx f ->
  exists o, load_advanced debug rx t = Ok o.
Proof.
  intros debug rx t f HT HC HL.
  destruct (load_cases debug rx t f HT HC HL) as [[xs [st [g [_ [_ [_ [E _]]]]]]]|[err [E _]]]; rewrite E; eexists; reflexivity.
Qed.
Print Assumptions C75_total_partial.

(** There is a panic whenever the file begins with a lexer block or has two of them. *)
Theorem C75_lexer_refuted : forall debug rx t f, text_of t f -> ~ one_lexer f -> load_advanced debug rx t = Panic.
Proof. intros debug rx t f HT HO. apply (text_loads debug rx t f HT). exact HO. Qed.
Print Assumptions C75_lexer_refuted.

Lemma concrete_text : forall t f tokens, x_tokenize t = Ok (tokens, None) -> adv_file f -> adv_file_tokens f = map fst tokens -> text_of t f.
Proof.
  intros t f tokens E Hf HT. split; [exact Hf|]. destruct (reads_ok t) as [tokens' [rest [consumed [HR [Et E']]]]].
  rewrite E in E'. injection E' as <- E'. exists tokens. split; [|exact HT]. destruct rest; [exact HR|discriminate].
Qed.

Definition lexer_first : text := of_string "lexer { a ::= b; } c ::= a;".
Definition two_lexers : text := of_string "c ::= a; lexer { a ::= b; } lexer { d ::= b; }".
(** A string of the last character of all. *)
Definition last_character : text := of_string "a ::= """ ++ [1114111%N] ++ of_string """;".

Theorem C75_panics_refuted : forall debug rx,
  load_advanced debug rx lexer_first = Panic /\ load_advanced debug rx two_lexers = Panic /\
  load_advanced debug rx last_character = Panic.
Proof. intros debug rx. repeat split; vm_compute; reflexivity. Qed.
Print Assumptions C75_panics_refuted.

(** They are texts of files. *)
Example C75_files : (exists f, text_of lexer_first f) /\ (exists f, text_of two_lexers f) /\ (exists f, text_of last_character f).
Proof.
  split; [|split].
  - exists [DLexer [SAlts "a" [([FName "b" Once], None)]]; DStatement (SAlts "c" [([FName "a" Once], None)])].
    eapply concrete_text; [vm_compute; reflexivity| |vm_compute; reflexivity].
    split; [discriminate|]. repeat constructor; try discriminate.
  - exists [DStatement (SAlts "c" [([FName "a" Once], None)]); DLexer [SAlts "a" [([FName "b" Once], None)]]; DLexer [SAlts "d" [([FName "b" Once], None)]]].
    eapply concrete_text; [vm_compute; reflexivity| |vm_compute; reflexivity].
    split; [discriminate|]. repeat constructor; try discriminate.
  - exists [DStatement (SAlts "a" [([FString [1114111%N]], None)])].
    eapply concrete_text; [vm_compute; reflexivity| |vm_compute; reflexivity].
    split; [discriminate|]. repeat constructor; try discriminate.
Qed.

(** * C76 *)

(** A text is rejected exactly if one of its rules is, and for the reason of the first of these. *)
Theorem C76_faults : forall debug rx t f, text_of t f -> Forall is_char t -> loadable rx f -> forall reason,
  (exists e, load_advanced debug rx t = Ok (inr e) /\ le_reason e = reason) <-> first_fault rx (marked_rules f) reason.
Proof.
  intros debug rx t f HT HC HL reason.
  destruct (load_cases debug rx t f HT HC HL) as [[xs [st [g [_ [_ [_ [E [_ F]]]]]]]]|[err [E F]]]; rewrite E.
  - split; [intros [e [X _]]; discriminate|intros X; exfalso; exact (faultless_first _ _ _ F X)].
  - split.
    + intros [e [X <-]]. injection X as <-. exact F.
    + intros X. exists err. split; [reflexivity|]. exact (first_fault_unique _ _ _ _ F X).
Qed.
Print Assumptions C76_faults.

(** Else, it is loaded. *)
Theorem C76_loads : forall debug rx t f, text_of t f -> Forall is_char t -> loadable rx f ->
  (exists g, load_advanced debug rx t = Ok (inl g)) <-> (forall reason, ~ first_fault rx (marked_rules f) reason).
Proof.
  intros debug rx t f HT HC HL.
  destruct (load_cases debug rx t f HT HC HL) as [[xs [st [g [_ [_ [_ [E [_ F]]]]]]]]|[err [E F]]]; rewrite E.
  - split; [intros _ reason X; exact (faultless_first _ _ _ F X)|intros _; eexists; reflexivity].
  - split; [intros [g X]; discriminate|intros X; exfalso; exact (X _ F)].
Qed.
Print Assumptions C76_loads.

Definition shared_text : text := of_string "a ::= b;
lexer {
  b ::= ""x"";
  a ::= ""y"";
}".

(** The line of the error is not that of the rule, nor is it in the text: it counts tokens. *)
Theorem C76_line_refuted : forall debug rx, load_advanced debug rx shared_text = Ok (inr (mkErr Shared 11 1 None)) /\
  length (filter (N.eqb 10) shared_text) = 4.
Proof. intros debug rx. split; vm_compute; reflexivity. Qed.
Print Assumptions C76_line_refuted.

(** * C77 *)

(** No name is one that the loader gives to a string. *)
Definition ordinary_names (f : list declaration) : Prop :=
  forall x i, adv_named (adv_file_rules f) x -> x <> append "__lex" (string_of_nat i).

(** The fragments of a loaded file are without faults, and no name is on the left in both parts. *)
Lemma fine : forall debug rx t f g, text_of t f -> Forall is_char t -> loadable rx f ->
  load_advanced debug rx t = Ok (inl g) -> exists xs st, erased xs = marked_rules f /\ adv_load_rules debug rx xs adv_loop_new = Ok (inl st) /\
  Forall (fun p => Forall (frag_ok rx) (snd (fst (fst p)))) (marked_rules f) /\ adv_result st = Ok g /\ disjoint_sides (marked_rules f) /\ sound (lp_loader st).
Proof.
  intros debug rx t f g HT HC HL E.
  destruct (load_cases debug rx t f HT HC HL) as [[xs [st [g' [HE [ER [EG [E' [HS HF]]]]]]]]|[err [E' _]]]; [|congruence].
  assert (g' = g) as -> by congruence.
  pose proof (safe_rules rx t f xs HT HC HL HE) as SF.
  assert (D : disjoint_sides (marked_rules f)).
  { intros x fs act fs' act' H1 H2. unfold marked_rules in H1, H2.
    assert (I2 : In (x, fs', act') (parser_rules f)).
    { apply in_app_or in H2. destruct H2 as [H2|H2]; apply in_map_iff in H2; destruct H2 as [r [X Hr]]; try discriminate; injection X as ->; exact Hr. }
    assert (I1 : In (x, fs, act) (lexer_rules f)).
    { apply in_app_or in H1. destruct H1 as [H1|H1]; apply in_map_iff in H1; destruct H1 as [r [X Hr]]; try discriminate; injection X as ->; exact Hr. }
    apply in_split in I1. destruct I1 as [p [q I1]].
    apply (HF (map (fun r => (r, false)) (parser_rules f) ++ map (fun r => (r, true)) p) ((x, fs, act), true) (map (fun r => (r, true)) q) Shared).
    - unfold marked_rules. rewrite I1, map_app, <- app_assoc. reflexivity.
    - constructor. exists fs', act'. apply in_or_app. left. apply in_map_iff. eexists. split; [reflexivity|exact I2]. }
  exists xs, st. split; [exact HE|]. split; [exact ER|]. split; [|auto].
  apply Forall_forall. intros [[[l fs] act] b] Hin. cbn [fst snd].
    apply Forall_forall. intros fr Hfr. rewrite <- HE in Hin. unfold erased in Hin. apply in_map_iff in Hin. destruct Hin as [[xr b'] [X Hx]]. cbn [fst snd] in X.
        unfold erase_rule in X. injection X as <- <- <- <-. rewrite Forall_forall in SF. specialize (SF _ Hx). cbn [fst] in SF.
        assert (SFf : forall y, In y (map xf_frag (xr_rhs xr)) -> safe_fragment rx y).
        { intros y Hy. apply in_map_iff in Hy. destruct Hy as [z [<- Hz]]. rewrite Forall_forall in SF. apply SF. exact Hz. }
        destruct (fragment_cases rx fr (SFf fr Hfr)) as [[OK _]|[e Fe]]; [exact OK|exfalso].
        (* the first fault of this rule *)
        assert (FF : forall l, (forall y, In y l -> safe_fragment rx y) -> In fr l -> exists e', first_fragment_fault rx l e').
        { clear -Fe. induction l as [|y l IH]; intros HS Hin; [contradiction|].
          destruct (fragment_cases rx y (HS y (or_introl eq_refl))) as [[_ NF]|[e' Fy]].
          - destruct Hin as [->|Hin]; [exfalso; exact (NF _ Fe)|]. destruct IH as [e' [pre [z [post [-> [P1 P2]]]]]]; [intros z Hz; apply HS; right; exact Hz|exact Hin|].
            exists e', (y :: pre), z, post. split; [reflexivity|]. split; [|exact P2]. intros u e1 [<-|Hu]; [apply NF|apply P1; exact Hu].
          - exists e', [], y, l. split; [reflexivity|]. split; [intros u e1 []|exact Fy]. }
        destruct (FF _ SFf Hfr) as [e' FE]. apply in_split in Hx. destruct Hx as [p [q Hx]].
        assert (EM : marked_rules f = erased p ++ (erase_rule xr, b') :: erased q).
        { rewrite <- HE, Hx. unfold erased. rewrite map_app. reflexivity. }
        apply (HF _ _ _ e' EM). unfold erase_rule. apply rf_fragment; [|exact FE].
        intros -> [fs' [act' X]]. apply (D (xr_lhs xr) (map xf_frag (xr_rhs xr)) (xr_action xr) fs' act').
        * rewrite EM. apply in_or_app. right. left. reflexivity.
        * rewrite EM. apply in_or_app. left. exact X.
Qed.

Lemma loaded : forall debug rx t f g, text_of t f -> Forall is_char t -> loadable rx f -> ordinary_names f ->
  load_advanced debug rx t = Ok (inl g) -> exists st, rules_loaded debug rx st (marked_rules f) /\
  Forall (fun p => good_rule rx (fst p)) (marked_rules f) /\ adv_result st = Ok g /\ disjoint_sides (marked_rules f).
Proof.
  intros debug rx t f g HT HC HL HO E. destruct (fine debug rx t f g HT HC HL E) as [xs [st [HE [ER [FK [EG [D HS]]]]]]].
  assert (G : Forall (fun p => good_rule rx (fst p)) (marked_rules f)).
  { apply Forall_forall. intros [[[l fs] act] b] Hin. cbn [fst]. split; cbn [fst snd].
    - intros i. apply HO. exists l, fs, act. split; [|left; reflexivity]. rewrite <- marked_fst. apply in_map_iff.
      exists ((l, fs, act), b). auto.
    - apply Forall_forall. intros fr Hfr. split.
      + rewrite Forall_forall in FK. specialize (FK _ Hin). cbn [fst snd] in FK. rewrite Forall_forall in FK. exact (FK fr Hfr).
      + destruct fr as [x k|s|func s]; cbn [plain_fragment]; auto. intros i. apply HO. exists l, fs, act.
        split; [|right; exists k; exact Hfr]. rewrite <- marked_fst. apply in_map_iff. exists ((l, fs, act), b). auto. }
  destruct (rules_step debug rx xs adv_loop_new [] (new_loaded debug rx)) as [st' [E2 RL]].
  { rewrite HE. exact G. }
  { cbn [app]. rewrite HE. exact D. }
  rewrite ER in E2. injection E2 as <-. cbn [app] in RL. rewrite HE in RL. exists st. auto.
Qed.

Lemma plainly : forall debug rx t f g, text_of t f -> Forall is_char t -> loadable rx f ->
  load_advanced debug rx t = Ok (inl g) -> exists st, plain_loaded st (marked_rules f) /\ adv_result st = Ok g.
Proof.
  intros debug rx t f g HT HC HL E. destruct (fine debug rx t f g HT HC HL E) as [xs [st [HE [ER [FK [EG [D HS]]]]]]].
  exists st. split; [|exact EG]. pose proof (rules_plain debug rx xs adv_loop_new [] st new_plain) as H. cbn [app] in H. rewrite HE in H. apply H; [|exact ER].
  rewrite <- HE in FK. unfold erased in FK. rewrite Forall_map in FK. exact FK.
Qed.

(** The symbol of a character of a string, and of a byte or class of a regular expression. *)
Definition of_char (g : adv_grammar_loaded) (c : N) (s : nat) : Prop := In ([(c, (c + 1)%N)], s) (lm_classes (ag_lexer_map g)).
Definition of_token (debug : bool) (g : adv_grammar_loaded) (x : token) (s : nat) : Prop := symbol_of debug (ag_lexer_map g) x = Some s.

Lemma derives_iff : forall (P Q : productions), (forall A r, P A r <-> Q A r) -> forall A w, language P A w <-> language Q A w.
Proof.
  intros P Q H A w. 
  assert (D : forall (P Q : productions), (forall A r, P A r <-> Q A r) -> language P A w -> language Q A w).
  { clear. intros P Q H [HD HT]. split.
    - apply (derives_mono P Q); [intros ? ? X; apply H; exact X|exact HD].
    - eapply Forall_impl; [|exact HT]. intros s Hs r X. apply (Hs r). apply H. exact X. }
  split; apply D; [exact H|]. intros A' r. symmetry. apply H.
Qed.

Lemma stand_iff : forall sym (c c' : N -> nat -> Prop) (k k' : token -> nat -> Prop) rx fs w,
  (forall x s, c x s <-> c' x s) -> (forall x s, k x s <-> k' x s) -> stand_for sym c k rx fs w -> stand_for sym c' k' rx fs w.
Proof.
  intros sym c c' k k' rx fs w HC HK H. induction H as [|f fs u w Hf _ IH]; constructor; [|exact IH].
  destruct Hf; try (constructor; assumption).
  - constructor. eapply forall2_impl; [|eassumption]. intros x y Hxy. apply HC. exact Hxy.
  - econstructor; [eassumption|eassumption|]. eapply forall2_impl; [|eassumption]. intros x y Hxy. apply HK. exact Hxy.
Qed.

(** Every name has the language that the rules describe; the root is the first left-hand side. *)
Theorem C77_language_partial : forall debug rx t f g sym, text_of t f -> Forall is_char t -> loadable rx f -> ordinary_names f ->
  load_advanced debug rx t = Ok (inl g) -> (forall x s, In (x, s) (ag_sym_map g) -> sym x = s) ->
  (forall x, adv_named (adv_file_rules f) x -> In (x, sym x) (ag_sym_map g) /\
     forall w, language (prods (ag_cfg g)) (sym x) w <->
               language (described sym (of_char g) (of_token debug g) rx (adv_file_rules f)) (sym x) w) /\
  (exists l fs act rest, adv_file_rules f = (l, fs, act) :: rest /\ roots (ag_cfg g) = [sym l]).
Proof.
  intros debug rx t f g sym HT HC HL HO E HM. destruct (loaded debug rx t f g HT HC HL HO E) as [st [RL [GR [EG _]]]].
  destruct (r_inv _ _ _ _ RL) as [L [HI _]]. pose proof (i_sound _ _ HI) as HS.
  destruct (result_ok st HS) as [g' [EG' [G1 [G2 [_ [_ [_ [_ G3]]]]]]]]. assert (g' = g) as -> by congruence.
  assert (HA : agrees (al_names (lp_loader st)) sym) by (intros x s Hx; apply HM, G3; exact Hx).
  pose proof (loaded_language debug rx st (marked_rules f) sym L RL GR HI HA) as LL.
  assert (NM : forall x, adv_named (adv_file_rules f) x -> In (x, sym x) (ag_sym_map g)).
  { intros x Hx. assert (OX : ordinary x) by (intros i; apply HO; exact Hx). rewrite <- marked_fst in Hx.
    apply (r_names _ _ _ _ RL x OX) in Hx. destruct (lookup (al_names (lp_loader st)) x) as [s|] eqn:Es; [|congruence].
    apply G3. rewrite (HA x s Es). exact Es. }
  split.
  - intros x Hx. split; [exact (NM x Hx)|]. intros w. rewrite G1, LL.
    2:{ left. exists x. split; [intros i; apply HO; exact Hx|]. apply G3. exact (NM x Hx). }
    apply derives_iff. intros A r. unfold written_here. rewrite marked_fst.
    assert (CC : forall c s, char_symbol (al_classes (lp_loader st)) c s <-> of_char g c s) by (intros c s; unfold of_char; rewrite G2; reflexivity).
    assert (KK : forall k s, token_symbol debug (al_classes (lp_loader st)) k s <-> of_token debug g k s).
    { intros k s. unfold of_token. rewrite symbol_of_token by (rewrite G2; exact (t_keys _ _ (so_table _ HS))). rewrite G2. reflexivity. }
    split; intros [l [fs [act [H1 [H2 H3]]]]]; exists l, fs, act; (split; [exact H1|]); (split; [exact H2|]);
    (eapply stand_iff; [| |exact H3]); intros; try apply CC; try apply KK; try (symmetry; apply CC); symmetry; apply KK.
  - pose proof (r_root _ _ _ _ RL) as RR. rewrite <- marked_fst. destruct (marked_rules f) as [|[[[l fs] act] b] rest] eqn:EM.
    + exfalso. destruct HL as [HL _]. destruct HT as [[_ HT] _]. unfold one_lexer in HL. destruct f as [|[s|s] f]; try contradiction.
      unfold marked_rules in EM. apply app_eq_nil in EM. destruct EM as [EM _]. apply map_eq_nil in EM. cbn in EM.
      apply app_eq_nil in EM. destruct EM as [EM _]. inversion HT as [|? ? H1 _]; subst. destruct s as [l a|l alts]; [discriminate|].
      cbn in EM, H1. apply map_eq_nil in EM. destruct H1 as [H1 _]. contradiction.
    + exists l, fs, act, (map fst rest). split; [reflexivity|]. destruct RR as [s [R1 R2]]. rewrite G1, R2, (HA l s R1). reflexivity.
Qed.
Print Assumptions C77_language_partial.

(** The names of strings can be written, too: here, one is. *)
Definition clash_text : text := of_string "a ::= __lex0 ~ ""x"";".
Definition clash_file : list declaration := [DStatement (SAlts "a" [([FName "__lex0" Once; FString [120%N]], None)])].
Definition no_regexp : text -> option hir := fun _ => None.
Definition clash_grammar : adv_grammar_loaded := Eval vm_compute in
  match load_advanced true no_regexp clash_text with Ok (inl g) => g | _ => mkAG cfg_new (mkLexer [] [] []) [] [] [] end.

Lemma ascii_text : forall s, Forall is_char (of_string s).
Proof.
  intros s. unfold of_string. apply Forall_map, Forall_forall. intros c _. left. pose proof (N_ascii_bounded c). lia.
Qed.

Theorem C77_names_refuted : exists w, text_of clash_text clash_file /\ Forall is_char clash_text /\ loadable no_regexp clash_file /\
  load_advanced true no_regexp clash_text = Ok (inl clash_grammar) /\
  exists sym, (forall x s, In (x, s) (ag_sym_map clash_grammar) -> sym x = s) /\ adv_named (adv_file_rules clash_file) "a" /\
  language (prods (ag_cfg clash_grammar)) (sym "a"%string) w /\
  ~ language (described sym (of_char clash_grammar) (of_token true clash_grammar) no_regexp (adv_file_rules clash_file)) (sym "a"%string) w.
Proof.
  exists [2; 2]. split.
  { eapply concrete_text; [vm_compute; reflexivity| |vm_compute; reflexivity]. split; [discriminate|]. repeat constructor; discriminate. }
  split; [apply ascii_text|].
  split.
  { split; [cbn; lia|]. split.
    - intros s [l [fs [act [[E|[]] Hf]]]]. injection E as <- <- <-. destruct Hf as [Hf|[Hf|[]]]; try discriminate. injection Hf as <-. cbn. split; intros [X|[]]; discriminate.
    - intros s h _ X. discriminate. }
  split; [vm_compute; reflexivity|].
  exists (fun x => if String.eqb x "a" then 0 else 1). split; [|split; [|split]].
  - intros x s [E|[E|[]]]; injection E as <- <-; reflexivity.
  - exists "a"%string, [FName "__lex0" Once; FString [120%N]], None. split; [left; reflexivity|left; reflexivity].
  - change ((if String.eqb "a" "a" then 0 else 1)) with 0.
    assert (P0 : prods (ag_cfg clash_grammar) 0 [1; 1]) by (eexists; split; [right; left; reflexivity|split; reflexivity]).
    assert (P1 : prods (ag_cfg clash_grammar) 1 [2]) by (eexists; split; [left; reflexivity|split; reflexivity]).
    split.
    + apply (derives_step _ [] 0 [] [1; 1] [2; 2] P0). apply (derives_step _ [] 1 [1] [2] [2; 2] P1).
      apply (derives_step _ [2] 1 [] [2] [2; 2] P1). constructor.
    + assert (T2 : terminal (prods (ag_cfg clash_grammar)) 2).
      { intros r [x [[<-|[<-|[]]] [X _]]]; discriminate. }
      repeat (constructor; [exact T2|]). constructor.
  - change ((if String.eqb "a" "a" then 0 else 1)) with 0. intros [D _].
    set (P := described _ _ _ _ _) in D.
    assert (HP : forall A r, P A r -> A = 0 /\ r = [1; 2]).
    { intros A r [l [fs [act [[E|[]] [-> HS]]]]]. injection E as <- <- <-. split; [reflexivity|].
      inversion HS as [|? ? u1 w1 H1 H2]; subst. inversion H2 as [|? ? u2 w2 H3 H4]; subst. inversion H4; subst.
      inversion H1; subst. inversion H3 as [| | |? ? HC|]; subst. inversion HC as [|c s ? ? HC1 HC2]; subst. inversion HC2; subst.
      destruct HC1 as [HC1|[]]. injection HC1 as <-. reflexivity. }
    assert (G : forall u w, derives P u w -> u = [0] \/ u = [1; 2] -> w = [0] \/ w = [1; 2]).
    { intros u w HD. induction HD as [u|u A v r w HA HD IH]; intros Hu; [exact Hu|]. apply HP in HA. destruct HA as [-> ->].
      apply IH. right. destruct Hu as [Hu|Hu].
      - destruct u as [|y u]; [injection Hu as ->; reflexivity|]. injection Hu as -> Hu. destruct u; discriminate.
      - destruct u as [|y u]; [discriminate|]. injection Hu as -> Hu. destruct u as [|y' u]; [discriminate|].
        injection Hu as _ Hu. destruct u; discriminate. }
    destruct (G _ _ D (or_introl eq_refl)); discriminate.
Qed.
Print Assumptions C77_names_refuted.

(** * C78 *)

Lemma string_language : forall a L i s, inv a L -> nth_error (al_strings a) i = Some s -> exists z, lookup (al_names a) (lex_name i) = Some z /\
  forall w, language (prods (al_cfg a)) z w <-> Forall2 (char_symbol (al_classes a)) s w.
Proof.
  intros a L i s HI HN. destruct (i_strings _ _ HI i s HN) as [z [child [H1 [PU HC]]]]. exists z. split; [exact H1|].
  pose proof (i_sound _ _ HI) as HS.
  assert (PZ : forall r, prods (al_cfg a) z r <-> r = child).
  { intros r. split.
    - intros Hr. apply (p_all _ _ PU z child r (conj eq_refl eq_refl) Hr).
    - intros ->. apply (p_in _ _ PU). split; reflexivity. }
  assert (TC : Forall (terminal (prods (al_cfg a))) child).
  { apply Forall_forall. intros x Hx r [y [Hy [E _]]]. apply (so_clean _ HS y Hy). rewrite E. exact (chars_classes _ _ _ _ HC Hx). }
  intros w. transitivity (w = child).
  - split.
    + intros [HD HW]. apply derives_single_inv in HD. destruct HD as [->|[r [Hr HD]]].
      * inversion HW as [|? ? X _]; subst. exfalso. apply (X child). apply PZ. reflexivity.
      * apply PZ in Hr. subst r. symmetry. apply derives_terminal_inv in HD; [congruence|exact TC].
    + intros ->. split; [apply derives_rule; apply PZ; reflexivity|exact TC].
  - split; [intros ->; exact HC|]. intros HW. pose proof (chars_unique _ _ _ (t_keys _ _ (so_table _ HS)) HC w HW). congruence.
Qed.

(** The lexemes are the left-hand sides of the lexer and the strings, each of which has a symbol that
    stands for its characters. *)
Theorem C78_lexemes_partial : forall debug rx t f g, text_of t f -> Forall is_char t -> loadable rx f -> ordinary_names f ->
  load_advanced debug rx t = Ok (inl g) -> exists strings,
  NoDup strings /\ (forall s, In s strings <-> has_fragment (adv_file_rules f) (FString s)) /\
  (forall i s, nth_error strings i = Some s -> exists z, In (append "__lex" (string_of_nat i), z) (ag_sym_map g) /\
     forall w, language (prods (ag_cfg g)) z w <-> Forall2 (of_char g) s w) /\
  length (ag_sbs g) = num_syms (ag_cfg g) /\
  forall z, member (ag_sbs g) z <->
    (exists l fs act, In (l, fs, act) (lexer_rules f) /\ In (l, z) (ag_sym_map g)) \/
    (exists i, i < length strings /\ In (append "__lex" (string_of_nat i), z) (ag_sym_map g)).
Proof.
  intros debug rx t f g HT HC HL HO E. destruct (loaded debug rx t f g HT HC HL HO E) as [st [RL [GR [EG _]]]].
  destruct (r_inv _ _ _ _ RL) as [L [HI HLx]]. pose proof (i_sound _ _ HI) as HS.
  destruct (result_ok st HS) as [g' [EG' [G1 [G2 [_ [G4 [G5 [_ G3]]]]]]]]. assert (g' = g) as -> by congruence.
  exists (al_strings (lp_loader st)). split; [exact (i_distinct _ _ HI)|]. split; [|split; [|split; [exact G4|]]].
  - intros s. rewrite (r_strings _ _ _ _ RL s), marked_fst. reflexivity.
  - intros i s Hs. destruct (string_language _ _ _ _ HI Hs) as [z [Z1 Z2]]. exists z. split; [apply G3; exact Z1|].
    intros w. rewrite G1, Z2. unfold of_char. rewrite G2. reflexivity.
  - intros z. rewrite G5, (i_lexical _ _ HI), HLx. 
    assert (M : (exists l fs act, In ((l, fs, act), true) (marked_rules f) /\ lookup (al_names (lp_loader st)) l = Some z) <->
      (exists l fs act, In (l, fs, act) (lexer_rules f) /\ In (l, z) (ag_sym_map g))).
    { split; intros [l [fs [act [H1 H2]]]]; exists l, fs, act; (split; [|apply G3; exact H2]).
      - unfold marked_rules in H1. apply in_app_or in H1. destruct H1 as [H1|H1]; apply in_map_iff in H1; destruct H1 as [r [X Hr]];
          try discriminate; injection X as ->; exact Hr.
      - unfold marked_rules. apply in_or_app. right. apply in_map_iff. eexists. split; [reflexivity|exact H1]. }
    rewrite M. split; intros [H|[i [Hi H]]]; [left; exact H|right; exists i; split; [exact Hi|apply G3; exact H]|
      left; exact H|right; exists i; split; [exact Hi|apply G3; exact H]].
Qed.
Print Assumptions C78_lexemes_partial.

(** Which symbols are lexemes does not depend on the names; a string is one of the things that its lexeme derives. *)
Theorem C78_set_partial : forall debug rx t f g, text_of t f -> Forall is_char t -> loadable rx f ->
  load_advanced debug rx t = Ok (inl g) -> exists strings,
  NoDup strings /\ (forall s, In s strings <-> has_fragment (adv_file_rules f) (FString s)) /\
  (forall i, i < length strings -> exists z, In (append "__lex" (string_of_nat i), z) (ag_sym_map g)) /\
  length (ag_sbs g) = num_syms (ag_cfg g) /\
  forall z, member (ag_sbs g) z <->
    (exists l fs act, In (l, fs, act) (lexer_rules f) /\ In (l, z) (ag_sym_map g)) \/
    (exists i, i < length strings /\ In (append "__lex" (string_of_nat i), z) (ag_sym_map g)).
Proof.
  intros debug rx t f g HT HC HL E. destruct (plainly debug rx t f g HT HC HL E) as [st [RL EG]]. pose proof (pl_sound _ _ RL) as HS.
  destruct (result_ok st HS) as [g' [EG' [G1 [G2 [_ [G4 [G5 [_ G3]]]]]]]]. assert (g' = g) as -> by congruence.
  exists (al_strings (lp_loader st)). split; [exact (pl_distinct _ _ RL)|]. split; [|split; [|split; [exact G4|]]].
  - intros s. rewrite (pl_strings _ _ RL s), marked_fst. reflexivity.
  - intros i Hi. assert (KN : known (lp_loader st) (lex_name i)) by (apply (pl_names _ _ RL); right; exists i; auto). unfold known in KN.
    destruct (lookup (al_names (lp_loader st)) (lex_name i)) as [z|] eqn:Ez; [|congruence]. exists z. apply G3. exact Ez.
  - intros z. rewrite G5, (pl_lexical _ _ RL).
    assert (M : (exists l fs act, In ((l, fs, act), true) (marked_rules f) /\ lookup (al_names (lp_loader st)) l = Some z) <->
      (exists l fs act, In (l, fs, act) (lexer_rules f) /\ In (l, z) (ag_sym_map g))).
    { split; intros [l [fs [act [H1 H2]]]]; exists l, fs, act; (split; [|apply G3; exact H2]).
      - unfold marked_rules in H1. apply in_app_or in H1. destruct H1 as [H1|H1]; apply in_map_iff in H1; destruct H1 as [r [X Hr]];
          try discriminate; injection X as ->; exact Hr.
      - unfold marked_rules. apply in_or_app. right. apply in_map_iff. eexists. split; [reflexivity|exact H1]. }
    rewrite M. split; intros [H|[i [Hi H]]]; [left; exact H|right; exists i; split; [exact Hi|apply G3; exact H]|
      left; exact H|right; exists i; split; [exact Hi|apply G3; exact H]].
Qed.
Print Assumptions C78_set_partial.

(** A name like that of a string: its lexeme derives another string, too. *)
Definition clash2_text : text := of_string "a ::= ""x""; __lex0 ::= ""yz"";".
Definition clash2_file : list declaration := [DStatement (SAlts "a" [([FString [120%N]], None)]); DStatement (SAlts "__lex0" [([FString [121%N; 122%N]], None)])].
Definition clash2_grammar : adv_grammar_loaded := Eval vm_compute in
  match load_advanced true no_regexp clash2_text with Ok (inl g) => g | _ => mkAG cfg_new (mkLexer [] [] []) [] [] [] end.

Theorem C78_lexemes_refuted : text_of clash2_text clash2_file /\ Forall is_char clash2_text /\ loadable no_regexp clash2_file /\
  load_advanced true no_regexp clash2_text = Ok (inl clash2_grammar) /\
  exists z w, In ("__lex0"%string, z) (ag_sym_map clash2_grammar) /\ member (ag_sbs clash2_grammar) z /\
  language (prods (ag_cfg clash2_grammar)) z w /\ length w = 2.
Proof.
  split.
  { eapply concrete_text; [vm_compute; reflexivity| |vm_compute; reflexivity]. split; [discriminate|]. repeat constructor; discriminate. }
  split; [apply ascii_text|].
  split.
  { split; [cbn; lia|]. split.
    - intros s [l [fs [act [[E|[E|[]]] Hf]]]]; injection E as <- <- <-; (destruct Hf as [Hf|[]]; injection Hf as <-; cbn; split; intuition discriminate).
    - intros s h _ X. discriminate. }
  split; [vm_compute; reflexivity|]. exists 1, [4; 5]. split; [vm_compute; auto|]. split; [reflexivity|]. split; [|reflexivity].
  assert (P1 : prods (ag_cfg clash2_grammar) 1 [3]) by (eexists; split; [right; right; right; left; reflexivity|split; reflexivity]).
  assert (P3 : prods (ag_cfg clash2_grammar) 3 [4; 5]) by (eexists; split; [right; right; left; reflexivity|split; reflexivity]).
  split.
  - apply (derives_step _ [] 1 [] [3] [4; 5] P1). apply (derives_step _ [] 3 [] [4; 5] [4; 5] P3). constructor.
  - repeat (constructor; [intros r [x [Hx [X _]]]; repeat (destruct Hx as [<-|Hx]; [discriminate|]); destruct Hx|]). constructor.
Qed.
Print Assumptions C78_lexemes_refuted.

(** * C79 *)

Definition origin_is (i : nat) (r : rule) : bool := (h_origin (hist r) =? N.of_nat i)%N.

Lemma filter_permutation : forall {A : Type} (p : A -> bool) l l', Permutation l l' -> Permutation (filter p l) (filter p l').
Proof.
  intros A p l l' H. induction H; cbn.
  - constructor.
  - destruct (p x); [constructor|]; assumption.
  - destruct (p x), (p y); try apply Permutation_refl. constructor.
  - eapply Permutation_trans; eauto.
Qed.

Lemma mains_filter : forall a k ps rs i p, (N.of_nat (k + length ps) < 4294967295)%N ->
  Forall2 (written_as a) (combine (seq k (length ps)) ps) rs -> nth_error ps i = Some p -> 
  exists r, filter (origin_is (k + i)) rs = [r] /\ written_as a (k + i, p) r.
Proof.
  assert (ORI : forall a j q r, (N.of_nat j < 4294967295)%N -> written_as a (j, q) r -> h_origin (hist r) = N.of_nat j).
  { intros a j [[[l fs] act] b] r Hj [_ [_ ->]]. cbn. unfold as_u32. apply N.mod_small. unfold u32_max. lia. }
  intros a k ps. revert k. induction ps as [|q ps IH]; intros k rs i p HB HF HN; [destruct i; discriminate|].
  cbn [length seq combine] in HF. inversion HF as [|? r ? rs' F1 F2]; subst. cbn [length] in HB.
  assert (OR : h_origin (hist r) = N.of_nat k) by (eapply ORI; [|exact F1]; lia).
  cbn [filter]. destruct i as [|i].
  - cbn in HN. injection HN as ->. rewrite Nat.add_0_r. unfold origin_is at 1. rewrite OR, N.eqb_refl. exists r. split; [|exact F1]. f_equal.
    assert (forall n rs', k < n -> (N.of_nat (n + length ps) < 4294967295)%N -> Forall2 (written_as a) (combine (seq n (length ps)) ps) rs' -> filter (origin_is k) rs' = []) as X.
    { clear - ORI. induction ps as [|q ps IH]; intros n rs' Hn HB HF; cbn [length seq combine] in HF; inversion HF as [|? r ? rs1 F1 F2]; subst; [reflexivity|].
      cbn [filter]. unfold origin_is at 1. cbn [length] in HB. rewrite (ORI a n q r ltac:(lia) F1).
      destruct (N.eqb_spec (N.of_nat n) (N.of_nat k)); [lia|]. apply (IH (S n)); [lia|lia|exact F2]. }
    apply (X (S k)); [lia|lia|exact F2].
  - cbn in HN. unfold origin_is at 1. rewrite OR. destruct (N.eqb_spec (N.of_nat k) (N.of_nat (k + S i))); [lia|].
    rewrite <- Nat.add_succ_comm. apply IH; [lia|exact F2|exact HN].
Qed.

Lemma combine_numbers : forall {A : Type} (l : list A) k, map (fun p => fst p) (combine (seq k (length l)) l) = seq k (length l).
Proof. intros A. induction l as [|x l IH]; intros k; cbn [length seq combine map fst]; [reflexivity|]. rewrite IH. reflexivity. Qed.

(** The origin of a rule that was written is its number, which no other rule has, and under which its action is found. *)
Theorem C79_origins_partial : forall debug rx t f g, text_of t f -> Forall is_char t -> loadable rx f ->
  (N.of_nat (length (adv_file_rules f)) < 2 ^ 32 - 2)%N -> load_advanced debug rx t = Ok (inl g) ->
  (forall i l fs act, nth_error (adv_file_rules f) i = Some (l, fs, act) ->
     (exists r, filter (fun r => (h_origin (hist r) =? N.of_nat (i + 1))%N) (rules (ag_cfg g)) = [r] /\
       In (l, lhs r) (ag_sym_map g) /\ length (rhs r) = length fs /\
       forall j x, nth_error fs j = Some (FName x Once) -> exists s, nth_error (rhs r) j = Some s /\ In (x, s) (ag_sym_map g)) /\
     In (i + 1, act) (ag_actions g)) /\
  map fst (ag_actions g) = seq 1 (length (adv_file_rules f)) /\
  (forall r, In r (rules (ag_cfg g)) -> (0 < h_origin (hist r) < 2 ^ 32 - 1)%N ->
     exists i, i < length (adv_file_rules f) /\ h_origin (hist r) = N.of_nat (i + 1)).
Proof.
  intros debug rx t f g HT HC HL HB E. destruct (plainly debug rx t f g HT HC HL E) as [st [RL EG]]. pose proof (pl_sound _ _ RL) as HS.
  destruct (result_ok st HS) as [g' [EG' [G1 [G2 [G6 [G4 [G5 [_ G3]]]]]]]]. assert (g' = g) as -> by congruence.
  change (2 ^ 32 - 2)%N with 4294967294%N in HB. change (2 ^ 32 - 1)%N with 4294967295%N.
  destruct (pl_rules _ _ RL) as [mains [helpers [HP [HM HH]]]]. rewrite G1.
  assert (LEN : length (marked_rules f) = length (adv_file_rules f)) by (rewrite <- marked_fst, map_length; reflexivity).
  assert (ACT : ag_actions g = map (fun p => (fst p, snd (fst (snd p)))) (numbered (marked_rules f))) by (rewrite G6; apply (pl_actions _ _ RL)).
  split; [|split].
  - intros i l fs act HN. rewrite <- marked_fst in HN. rewrite nth_error_map in HN.
    destruct (nth_error (marked_rules f) i) as [[r0 b]|] eqn:HN'; [|discriminate]. injection HN as ->. rename HN' into HN.
    split.
    + unfold numbered in HM. destruct (mains_filter (lp_loader st) 1 (marked_rules f) mains i _ ltac:(lia) HM HN) as [r [F [M1 [M2 M3]]]].
      exists r. split; [|split; [apply G3; exact M1|split]].
      * apply (filter_permutation (origin_is (i + 1))) in HP. rewrite filter_app in HP. rewrite Nat.add_comm in F. cbn in F. 
        rewrite Nat.add_1_r in *. rewrite F in HP.
        assert (NH : filter (origin_is (S i)) helpers = []).
        { assert (Hi : i < length (marked_rules f)) by (apply nth_error_Some; congruence).
          clear - HH HB Hi LEN. induction HH as [|h hs [H|H] HH IH]; [reflexivity| |]; cbn [filter]; unfold origin_is at 1; rewrite H.
          - destruct (N.eqb_spec 0%N (N.of_nat (S i))); [lia|]. exact IH.
          - unfold not0, u32_max. destruct (N.eqb_spec 4294967295%N (N.of_nat (S i))) as [X|X]; [lia|]. exact IH. }
        rewrite NH in HP. cbn [app] in HP. apply Permutation_sym, Permutation_length_1_inv in HP. exact HP.
      * clear - M2. induction M2; cbn; [reflexivity|f_equal; assumption].
      * intros j x Hj. clear - M2 Hj G3. revert j Hj. induction M2 as [|fr s fs' rs H _ IH]; intros [|j] Hj; try discriminate.
        -- cbn in Hj. injection Hj as ->. exists s. split; [reflexivity|]. apply G3. apply H. reflexivity.
        -- exact (IH j Hj).
    + rewrite ACT. apply in_map_iff. exists (i + 1, ((l, fs, act), b)). split; [reflexivity|]. unfold numbered.
      clear -HN. rewrite Nat.add_comm. revert i HN. generalize 1 as k. induction (marked_rules f) as [|x m IH]; intros k [|n] Hn; try discriminate; cbn in *.
      * injection Hn as ->. left. f_equal. lia.
      * right. replace (k + S n) with (S k + n) by lia. apply IH. exact Hn.
  - rewrite ACT, map_map. cbn [fst]. unfold numbered. rewrite LEN. rewrite <- LEN. apply combine_numbers.
  - intros r Hr [O1 O2]. eapply Permutation_in in Hr; [|exact HP]. apply in_app_or in Hr. destruct Hr as [Hr|Hr].
    + unfold numbered in HM. rewrite LEN in HM. 
      assert (X : forall k ps rs, (N.of_nat (k + length ps) < 4294967295)%N -> Forall2 (written_as (lp_loader st)) (combine (seq k (length ps)) ps) rs -> In r rs ->
        exists i, i < length ps /\ h_origin (hist r) = N.of_nat (k + i)).
      { clear. intros k ps. revert k. induction ps as [|[[[l fs] act] b] ps IH]; intros k rs HB HF Hr; cbn [length seq combine] in *; inversion HF as [|? r0 ? rs' F1 F2]; subst; [contradiction|].
        destruct Hr as [->|Hr].
        - exists 0. split; [lia|]. destruct F1 as [_ [_ ->]]. cbn. unfold as_u32. rewrite Nat.add_0_r. apply N.mod_small. unfold u32_max. lia.
        - destruct (IH (S k) rs' ltac:(lia) F2 Hr) as [i [I1 I2]]. exists (S i). split; [lia|]. rewrite I2. f_equal. lia. }
      rewrite <- LEN in HM. destruct (X 1 (marked_rules f) mains ltac:(lia) HM Hr) as [i [I1 I2]]. exists i. split; [lia|]. rewrite I2. f_equal. lia.
    + exfalso. rewrite Forall_forall in HH. destruct (HH r Hr) as [H|H]; rewrite H in *; [lia|]. unfold not0, u32_max in O2. lia.
Qed.
Print Assumptions C79_origins_partial.

(** * C80 *)

Lemma lookup_injective : forall ld x y s, good ld -> lookup ld x = Some s -> lookup ld y = Some s -> x = y.
Proof.
  intros ld x y s HG Hx Hy. apply (g_names _ HG) in Hx, Hy. congruence.
Qed.

(** Every name has one symbol, under which the name is found; different names have different symbols.
    The symbols of characters and classes are different, have no names and are terminals. *)
Theorem C80_names : forall debug rx t f g, text_of t f -> Forall is_char t -> loadable rx f ->
  load_advanced debug rx t = Ok (inl g) ->
  (forall x s s', In (x, s) (ag_sym_map g) -> In (x, s') (ag_sym_map g) -> s = s') /\
  (forall x y s, In (x, s) (ag_sym_map g) -> In (y, s) (ag_sym_map g) -> x = y) /\
  (forall x s, In (x, s) (ag_sym_map g) -> s < num_syms (ag_cfg g) /\ names_original_name_of (names (src (ag_cfg g))) s = Some x) /\
  (forall k k' s, In (k, s) (lm_classes (ag_lexer_map g)) -> In (k', s) (lm_classes (ag_lexer_map g)) -> k = k') /\
  (forall k s s', In (k, s) (lm_classes (ag_lexer_map g)) -> In (k, s') (lm_classes (ag_lexer_map g)) -> s = s') /\
  (forall k s, In (k, s) (lm_classes (ag_lexer_map g)) -> s < num_syms (ag_cfg g) /\ terminal (prods (ag_cfg g)) s /\ forall x, ~ In (x, s) (ag_sym_map g)).
Proof.
  intros debug rx t f g HT HC HL E.
  destruct (load_cases debug rx t f HT HC HL) as [[xs [st [g' [_ [_ [EG [E' [HS _]]]]]]]]|[err [E' _]]]; [|congruence].
  assert (g' = g) as -> by congruence.
  destruct (result_ok st HS) as [g' [EG' [G1 [G2 [_ [_ [_ [GN G3]]]]]]]]. assert (g' = g) as -> by congruence.
  pose proof (so_good _ HS) as HG. pose proof (so_table _ HS) as HB. rewrite G1, G2. cbn [lm_classes].
  split; [|split; [|split; [|split; [|split]]]].
  - intros x s s' H1 H2. apply G3 in H1, H2. congruence.
  - intros x y s H1 H2. apply G3 in H1, H2. exact (lookup_injective _ _ _ _ HG H1 H2).
  - intros x s H. apply G3 in H. split; [apply (g_below _ HG); exact (lookup_seen _ _ _ H)|].
    apply (g_names _ HG) in H. unfold al_cfg. unfold names_original_name_of. rewrite H. reflexivity.
  - intros k k' s H1 H2. pose proof (t_syms _ _ HB) as HV. clear - HV H1 H2. induction (al_classes (lp_loader st)) as [|[k0 s0] T IH]; [contradiction|].
    cbn [map snd] in HV. inversion HV as [|? ? N1 N2]; subst. destruct H1 as [H1|H1], H2 as [H2|H2].
    + congruence.
    + exfalso. apply N1. injection H1 as -> ->. apply in_map_iff. exists (k', s). auto.
    + exfalso. apply N1. injection H2 as -> ->. apply in_map_iff. exists (k, s). auto.
    + auto.
  - intros k s s' H1 H2. pose proof (t_keys _ _ HB) as HV. clear - HV H1 H2. induction (al_classes (lp_loader st)) as [|[k0 s0] T IH]; [contradiction|].
    cbn [map fst] in HV. inversion HV as [|? ? N1 N2]; subst. destruct H1 as [H1|H1], H2 as [H2|H2].
    + congruence.
    + exfalso. apply N1. injection H1 as -> ->. apply in_map_iff. exists (k, s'). auto.
    + exfalso. apply N1. injection H2 as -> ->. apply in_map_iff. exists (k, s). auto.
    + auto.
  - intros k s H. assert (Hs : In s (map snd (al_classes (lp_loader st)))) by (apply in_map_iff; exists (k, s); auto).
    split; [exact (class_below _ _ HS Hs)|]. split.
    + intros r [y [Hy [X _]]]. apply (so_clean _ HS y Hy). rewrite X. exact Hs.
    + intros x Hx. apply G3 in Hx. exact (so_apart _ HS s (lookup_seen _ _ _ Hx) Hs).
Qed.
Print Assumptions C80_names.

(** The names are those that are written and those of strings. *)
Theorem C80_domain : forall debug rx t f g, text_of t f -> Forall is_char t -> loadable rx f ->
  load_advanced debug rx t = Ok (inl g) -> exists strings, NoDup strings /\
  (forall s, In s strings <-> has_fragment (adv_file_rules f) (FString s)) /\
  forall x, (exists s, In (x, s) (ag_sym_map g)) <->
    adv_named (adv_file_rules f) x \/ exists i, i < length strings /\ x = append "__lex" (string_of_nat i).
Proof.
  intros debug rx t f g HT HC HL E. destruct (plainly debug rx t f g HT HC HL E) as [st [RL EG]]. pose proof (pl_sound _ _ RL) as HS.
  destruct (result_ok st HS) as [g' [EG' [G1 [G2 [_ [_ [_ [_ G3]]]]]]]]. assert (g' = g) as -> by congruence.
  exists (al_strings (lp_loader st)). split; [exact (pl_distinct _ _ RL)|].
  split; [intros s; rewrite (pl_strings _ _ RL s), marked_fst; reflexivity|].
  intros x. rewrite <- marked_fst. pose proof (pl_names _ _ RL x) as HN. unfold string_name, lex_name in HN. rewrite <- HN. unfold known. split.
  - intros [s Hs]. apply G3 in Hs. congruence.
  - intros Hx. destruct (lookup (al_names (lp_loader st)) x) as [s|] eqn:Es; [|congruence]. exists s. apply G3. exact Es.
Qed.
Print Assumptions C80_domain.

(** * C81 *)

(** Before [compute], [get] panics for every ASCII character and lists nothing for others. *)
Theorem C81_uncomputed_refuted : forall debug rx t f g c, text_of t f -> Forall is_char t -> loadable rx f ->
  load_advanced debug rx t = Ok (inl g) -> lexer_get (ag_lexer_map g) c = if (c <? 128)%N then Panic else Ok [].
Proof.
  intros debug rx t f g c HT HC HL E.
  destruct (load_cases debug rx t f HT HC HL) as [[xs [st [g' [_ [_ [EG [E' [HS _]]]]]]]]|[err [E' _]]]; [|congruence].
  assert (g' = g) as -> by congruence.
  destruct (result_ok st HS) as [g' [EG' [_ [G2 _]]]]. assert (g' = g) as -> by congruence. rewrite G2.
  unfold lexer_get, is_ascii. cbn. destruct (c <? 128)%N; auto. unfold get_ix. destruct (N.to_nat c); reflexivity.
Qed.
Print Assumptions C81_uncomputed_refuted.

(** The characters of strings are followed by two characters; the classes of expressions are usual. *)
Definition usual_file (rx : text -> option hir) (f : list declaration) : Prop :=
  (forall s c, has_fragment (adv_file_rules f) (FString s) -> In c s -> is_char (c + 2)) /\
  (forall s h x, has_fragment (adv_file_rules f) (FCall "Regexp" s) -> rx s = Some h -> written x h ->
     match x with
     | TByte b => (b < 255)%N
     | TClass ranges => canonical ranges /\ Forall usual_range ranges
     end).

(** After [compute], [get] lists the symbols of the strings and expressions that have the character; but
    a character that is written in a string, or in an expression by itself, stands for the next one, too. *)
Theorem C81_get_partial : forall debug rx t f g, text_of t f -> Forall is_char t -> loadable rx f -> usual_file rx f ->
  load_advanced debug rx t = Ok (inl g) -> exists lm, compute (ag_lexer_map g) = Ok lm /\
  forall ch, exists l, lexer_get lm ch = Ok l /\ NoDup l /\
  forall s, In s l <->
    (exists x c, has_fragment (adv_file_rules f) (FString x) /\ In c x /\ of_char g c s /\ (ch = c \/ ch = c + 1)%N) \/
    (exists x h k, has_fragment (adv_file_rules f) (FCall "Regexp" x) /\ rx x = Some h /\ written k h /\ of_token debug g k s /\
       match k with TByte b => (ch = b \/ ch = b + 1)%N | TClass ranges => in_ranges ranges ch end).
Proof.
  intros debug rx t f g HT HC HL [U1 U2] E.
  destruct (load_cases debug rx t f HT HC HL) as [[xs [st [g' [HE [ER [EG [E' [HS _]]]]]]]]|[err [E' _]]]; [|congruence].
  assert (g' = g) as -> by congruence.
  destruct (result_ok st HS) as [g' [EG' [_ [G2 _]]]]. assert (g' = g) as -> by congruence.
  set (K := fun k : lexer_classes =>
    (exists x c, has_fragment (adv_file_rules f) (FString x) /\ In c x /\ k = [(c, (c + 1)%N)] /\ is_char c /\ char_ok c) \/
    (exists x h tk, has_fragment (adv_file_rules f) (FCall "Regexp" x) /\ rx x = Some h /\ written tk h /\ token_classes debug tk = Ok k)).
  assert (HF : forall p xf, In p xs -> In xf (xr_rhs (fst p)) -> has_fragment (adv_file_rules f) (xf_frag xf)).
  { intros [xr b] xf Hxr Hxf. exists (xr_lhs xr), (map xf_frag (xr_rhs xr)), (xr_action xr). split; [|apply in_map; exact Hxf].
    rewrite <- marked_fst, <- HE. unfold erased. rewrite map_map. apply in_map_iff. exists (xr, b). split; [reflexivity|exact Hxr]. }
  pose proof (safe_rules rx t f xs HT HC HL HE) as SF.
  assert (HK : keys_in K (al_classes (lp_loader st))).
  { apply (adv_rules_keys debug rx K xs adv_loop_new st ER); [|intros k s []].
    apply Forall_forall. intros p Hp. apply Forall_forall. intros xf Hxf. pose proof (HF p xf Hp Hxf) as HX.
    rewrite Forall_forall in SF. specialize (SF p Hp). rewrite Forall_forall in SF. specialize (SF xf Hxf).
    destruct (xf_frag xf) as [x k|x|func x]; cbn [fragment_keys safe_fragment] in *; [exact I| |].
    - intros c k Hc Ek. rewrite Forall_forall in SF. pose proof (SF c Hc) as CO. rewrite (classes_of_char_ok c CO) in Ek.
      injection Ek as <-. left. exists x, c. split; [exact HX|]. split; [exact Hc|]. split; [reflexivity|]. split; [|exact CO].
      destruct HT as [_ [tokens [[HR _] HT]]]. apply file_string in HX. rewrite HT in HX.
      rewrite Forall_forall in HC. apply HC. exact (reads_strings _ _ _ _ HR x HX c Hc).
    - intros -> h tk k Eh Hw Ek. right. exists x, h, tk. repeat split; assumption. }
  assert (CK : forall k, K k -> canonical k /\ Forall handled k).
  { intros k [[x [c [H1 [H2 [-> [H3 H4]]]]]]|[x [h [tk [H1 [H2 [H3 H4]]]]]]].
    - pose proof (U1 x c H1 H2) as H5. split.
      + unfold canonical. cbn. split; [exact H3|]. split; [exact H4|]. split; [lia|exact I].
      + constructor; [|constructor]. split; [unfold narrow; cbn; lia|]. unfold followed_by_char. cbn [snd]. replace (c + 1 + 1)%N with (c + 2)%N by lia. exact H5.
    - pose proof (U2 x h tk H1 H2 H3) as H5. destruct tk as [b|rs]; cbn in H4.
      + unfold classes_of_byte in H4. destruct (b =? 255)%N eqn:EB; [apply N.eqb_eq in EB; lia|]. injection H4 as <-.
        split; [unfold canonical; cbn; unfold is_char; lia|]. constructor; [|constructor]. split; [unfold narrow; cbn; lia|].
        unfold followed_by_char, is_char. cbn. lia.
      + injection H4 as <-. destruct H5 as [H5 H6]. rewrite canonical_id by exact H5. split; [exact H5|exact H6]. }
  assert (HH : Forall (fun p : lexer_classes * nat => Forall handled (fst p)) (lm_classes (ag_lexer_map g))).
  { rewrite G2. apply Forall_forall. intros [k s] Hk. exact (proj2 (CK k (HK k s Hk))). }
  assert (HN : Forall (fun p : lexer_classes * nat => canonical (fst p)) (lm_classes (ag_lexer_map g))).
  { rewrite G2. apply Forall_forall. intros [k s] Hk. exact (proj1 (CK k (HK k s Hk))). }
  destruct (compute_ok _ HH) as [lm [EL _]]. exists lm. split; [exact EL|]. intros ch.
  destruct (get_spec (ag_lexer_map g) lm ch HH HN) as [l [L1 [L2 L3]]]; [rewrite G2; exact (t_syms _ _ (so_table _ HS))|exact EL|].
  exists l. split; [exact L1|]. split; [exact L2|]. intros s. rewrite L3, G2. cbn [lm_classes].
  assert (ND : NoDup (map fst (lm_classes (ag_lexer_map g)))) by (rewrite G2; exact (t_keys _ _ (so_table _ HS))).
  split.
  - intros [k [Hk Hin]]. destruct (HK k s Hk) as [[x [c [H1 [H2 [-> _]]]]]|[x [h [tk [H1 [H2 [H3 H4]]]]]]].
    + left. exists x, c. split; [exact H1|]. split; [exact H2|]. split; [unfold of_char; rewrite G2; exact Hk|].
      destruct Hin as [lo [hi [[X|[]] HR]]]. injection X as <- <-. lia.
    + right. exists x, h, tk. split; [exact H1|]. split; [exact H2|]. split; [exact H3|].
      split; [apply symbol_of_token; [exact ND|]; exists k; split; [exact H4|rewrite G2; exact Hk]|].
      pose proof (U2 x h tk H1 H2 H3) as H5. destruct tk as [b|rs]; cbn in H4.
      * unfold classes_of_byte in H4. destruct (b =? 255)%N eqn:EB; [apply N.eqb_eq in EB; lia|]. injection H4 as <-.
        destruct Hin as [lo [hi [[X|[]] HR]]]. injection X as <- <-. lia.
      * injection H4 as <-. destruct H5 as [H5 _]. rewrite canonical_id in Hin by exact H5. exact Hin.
  - intros [[x [c [H1 [H2 [H3 H4]]]]]|[x [h [tk [H1 [H2 [H3 [H4 H5]]]]]]]].
    + exists [(c, (c + 1)%N)]. unfold of_char in H3. rewrite G2 in H3. split; [exact H3|]. exists c, (c + 1)%N. split; [left; reflexivity|]. lia.
    + apply symbol_of_token in H4; [|exact ND]. destruct H4 as [k [H4 H6]]. rewrite G2 in H6. exists k. split; [exact H6|].
      pose proof (U2 x h tk H1 H2 H3) as H7. destruct tk as [b|rs]; cbn in H4.
      * unfold classes_of_byte in H4. destruct (b =? 255)%N eqn:EB; [apply N.eqb_eq in EB; lia|]. injection H4 as <-.
        exists b, (b + 1)%N. split; [left; reflexivity|]. lia.
      * injection H4 as <-. destruct H7 as [H7 _]. rewrite canonical_id by exact H7. exact H5.
Qed.
Print Assumptions C81_get_partial.

Definition letter_text : text := of_string "a ::= ""x"";".

(** The text [y] is accepted where [x] is written. *)
Theorem C81_next_refuted : exists g lm root, load_advanced true no_regexp letter_text = Ok (inl g) /\ compute (ag_lexer_map g) = Ok lm /\
  roots (ag_cfg g) = [root] /\ accepts (ag_cfg g) lm root (of_string "y").
Proof.
  eexists _, _, 0. split; [vm_compute; reflexivity|]. split; [vm_compute; reflexivity|]. split; [reflexivity|].
  exists [2]. split.
  - set (P := prods _).
    assert (P0 : P 0 [1]) by (eexists; split; [right; left; reflexivity|split; reflexivity]).
    assert (P1 : P 1 [2]) by (eexists; split; [left; reflexivity|split; reflexivity]).
    split.
    + apply (derives_step _ [] 0 [] [1] [2] P0). apply (derives_step _ [] 1 [] [2] [2] P1). constructor.
    + constructor; [|constructor]. intros r [x [[<-|[<-|[]]] [X _]]]; discriminate.
  - constructor; [|constructor]. exists [2]. split; [vm_compute; reflexivity|left; reflexivity].
Qed.
Print Assumptions C81_next_refuted.

(** * A text that is loaded *)

Definition sample_text : text := of_string "start ::= item+ > Main | ""("" ~ start ~ "")"" > Paren | item* ;
item ::= name ~ "","";
lexer { name ::= Regexp(""[a-z]"") ~ ""(""; }".
Definition sample_file : list declaration :=
  [DStatement (SAlts "start" [([FName "item" OneOrMore], Some "Main"%string);
     ([FString [40]%N; FName "start" Once; FString [41]%N], Some "Paren"%string); ([FName "item" ZeroOrMore], None)]);
   DStatement (SAlts "item" [([FName "name" Once; FString [44]%N], None)]);
   DLexer [SAlts "name" [([FCall "Regexp" [91; 97; 45; 122; 93]%N; FString [40]%N], None)]]].
Definition sample_rx : text -> option hir := fun t => if text_eqb t [91; 97; 45; 122; 93]%N then Some (HClass [(97, 122)]%N) else None.

Example sample_ok : text_of sample_text sample_file /\ Forall is_char sample_text /\ loadable sample_rx sample_file /\ ordinary_names sample_file /\
  (N.of_nat (length (adv_file_rules sample_file)) < 2 ^ 32 - 2)%N /\ forall debug, exists g, load_advanced debug sample_rx sample_text = Ok (inl g).
Proof.
  assert (HF : text_of sample_text sample_file).
  { eapply concrete_text; [vm_compute; reflexivity| |vm_compute; reflexivity]. split; [discriminate|]. repeat constructor; discriminate. }
  split; [exact HF|]. split; [apply ascii_text|]. split; [|split; [|split]].
  - split; [cbn; lia|]. split.
    + intros s [l [fs [act [Hr Hf]]]].
      repeat (destruct Hr as [E|Hr]; [injection E as <- <- <-; repeat (destruct Hf as [Hf|Hf]; [try discriminate; injection Hf as <-; cbn; split; intros [X|[]]; discriminate|]); contradiction|]).
      contradiction.
    + intros s h _. unfold sample_rx. destruct (text_eqb s [91; 97; 45; 122; 93]%N); [|discriminate]. intros E. injection E as <-. constructor.
  - intros x i [l [fs [act [Hr Hf]]]] ->.
    repeat (destruct Hr as [E|Hr]; [injection E as <- <- <-; destruct Hf as [Hf|[k Hf]]; [discriminate|]; repeat (destruct Hf as [Hf|Hf]; [discriminate|]); contradiction|]).
    contradiction.
  - vm_compute. reflexivity.
  - intros [|]; eexists; vm_compute; reflexivity.
Qed.

Example sample_usual : usual_file sample_rx sample_file.
Proof.
  split.
  - intros s c [l [fs [act [Hr Hf]]]] Hc.
    repeat (destruct Hr as [E|Hr]; [injection E as <- <- <-; repeat (destruct Hf as [Hf|Hf]; [try discriminate; injection Hf as <-; destruct Hc as [<-|[]]; unfold is_char; lia|]); contradiction|]).
    contradiction.
  - intros s h x _. unfold sample_rx. destruct (text_eqb s [91; 97; 45; 122; 93]%N); [|discriminate]. intros E. injection E as <-. intros W.
    inversion W as [|? X| | | |]; subst. unfold canonical, usual_range. cbn. unfold is_char. split; [lia|]. constructor; [cbn; lia|constructor].
Qed.

(** The text of C76 meets its hypotheses. *)
Example shared_ok : exists f, text_of shared_text f /\ Forall is_char shared_text /\ loadable no_regexp f /\ first_fault no_regexp (marked_rules f) Shared.
Proof.
  assert (HF : text_of shared_text [DStatement (SAlts "a" [([FName "b" Once], None)]);
      DLexer [SAlts "b" [([FString [120]%N], None)]; SAlts "a" [([FString [121]%N], None)]]]).
  { eapply concrete_text; [vm_compute; reflexivity| |vm_compute; reflexivity]. split; [discriminate|]. repeat constructor; discriminate. }
  eexists. split; [exact HF|]. split; [apply ascii_text|].
  assert (HL : loadable no_regexp [DStatement (SAlts "a" [([FName "b" Once], None)]);
      DLexer [SAlts "b" [([FString [120]%N], None)]; SAlts "a" [([FString [121]%N], None)]]]).
  { split; [cbn; lia|]. split; [|intros s h _ X; discriminate]. intros s [l [fs [act [Hr Hf]]]].
    repeat (destruct Hr as [E|Hr]; [injection E as <- <- <-; repeat (destruct Hf as [Hf|Hf]; [try discriminate; injection Hf as <-; cbn; split; intros [X|[]]; discriminate|]); contradiction|]).
    contradiction. }
  split; [exact HL|]. apply (C76_faults true no_regexp shared_text _ HF (ascii_text _) HL). eexists. split; [apply C76_line_refuted|reflexivity].
Qed.
