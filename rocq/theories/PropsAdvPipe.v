(** Property C128: from a file in the rich notation to the strings that a parser accepts or that are generated. *)

From Coq Require Import String Ascii List Arith NArith Bool Lia.
From Verif Require Import Base ListFacts Spec SpecRegex GrammarFacts SymbolModel HistoryModel CfgModel View RegexModel SpecLoad SpecAdv LoadModel LoadProof
  AdvModel SpecAdv2 AdvLoadProof AdvLoadProof2 AdvLoadProof3 AdvLoadProof4 AdvNamesProof AdvFaultProof AdvTextProof AdvClassProof PropsAdv PropsAdv2 PropsPipe FloatModel GenModel PropsGen.
Import ListNotations.
Local Open Scope list_scope.
Local Notation length := List.length.

Lemma adv_closed : forall debug rx t f g, text_of t f -> Forall is_char t -> loadable rx f -> ordinary_names f ->
  load_advanced debug rx t = Ok (inl g) ->
  closed_rules (ag_cfg g) /\ limit (ag_cfg g) = None /\ forall x s, In (x, s) (ag_sym_map g) -> s < num_syms (ag_cfg g).
Proof.
  intros debug rx t f g HT HC HL HO E. destruct (loaded debug rx t f g HT HC HL HO E) as [st [RL [GR [EG _]]]].
  destruct (r_inv _ _ _ _ RL) as [L [HI _]]. pose proof (i_sound _ _ HI) as HS. pose proof (so_good _ HS) as HG.
  destruct (result_ok st HS) as [g' [EG' [G1 [_ [_ [_ [_ [_ G3]]]]]]]]. assert (g' = g) as -> by congruence.
  rewrite G1. split; [exact (g_closed _ HG)|]. split; [exact (g_limit _ HG)|]. intros x s Hx. apply G3 in Hx.
  apply (g_below _ HG). exact (lookup_seen _ _ _ Hx).
Qed.

Lemma derives_below : forall g, closed_rules g -> forall u w, derives (prods g) u w -> Forall (fun s => s < num_syms g) u -> Forall (fun s => s < num_syms g) w.
Proof.
  intros g HC u w D. induction D as [u|u A v r w [x [Hx [_ <-]]] D IH]; intros H; [exact H|]. apply IH.
  apply Forall_app in H. destruct H as [H1 H2]. inversion H2; subst. apply Forall_app. split; [exact H1|]. apply Forall_app. split; [apply HC; exact Hx|assumption].
Qed.

(** The terminals of the grammar that is loaded. *)
Definition word_of (g : adv_grammar_loaded) (s : nat) : Prop := s < num_syms (ag_cfg g) /\ terminal (prods (ag_cfg g)) s.

(** A file that is loaded and prepared for a parser: the root accepts, between the markers, exactly what the rules of the file
    describe for their first left-hand side. *)
Theorem C128_parser : forall debug rx t f g sym, text_of t f -> Forall is_char t -> loadable rx f -> ordinary_names f ->
  load_advanced debug rx t = Ok (inl g) -> (forall x s, In (x, s) (ag_sym_map g) -> sym x = s) ->
  exists l fs act rest g' W, adv_file_rules f = (l, fs, act) :: rest /\ prepare (ag_cfg g) = Ok g' /\ wroots g' = [W] /\ roots g' = [wr_root W] /\
    forall w, Forall (word_of g) w ->
      (language (prods g') (wr_root W) (wr_start W :: w ++ [wr_end W]) <->
       language (described sym (of_char g) (of_token debug g) rx (adv_file_rules f)) (sym l) w).
Proof.
  intros debug rx t f g sym HT HC HL HO E HM. destruct (adv_closed debug rx t f g HT HC HL HO E) as [CL [LI BE]].
  destruct (C77_language_partial debug rx t f g sym HT HC HL HO E HM) as [HN [l [fs [act [rest [ER HR]]]]]].
  assert (NL : adv_named (adv_file_rules f) l) by (exists l, fs, act; rewrite ER; split; [left; reflexivity|left; reflexivity]).
  destruct (HN l NL) as [HI HLang].
  assert (HR2 : Forall (fun s => s < num_syms (ag_cfg g)) (roots (ag_cfg g))) by (rewrite HR; constructor; [exact (BE _ _ HI)|constructor]).
  assert (HG : good_limit (limit (ag_cfg g))) by (rewrite LI; exact I).
  destruct (C100_prepared _ CL HR2 HG) as [g' [EP [R1 [R2 [HWr [HIn _]]]]]].
  rewrite HR in R2. destruct (wroots g') as [|W [|W2 ws]] eqn:EW; try discriminate. cbn [map] in R2. injection R2 as R2.
  exists l, fs, act, rest, g', W. split; [exact ER|]. split; [exact EP|]. split; [exact EW|]. split; [exact R1|].
  destruct (HWr W (or_introl eq_refl)) as [_ [_ [_ [_ HWL]]]]. intros w Hw.
  assert (FI : Forall (input_symbol (ag_cfg g) g') (wr_start W :: w ++ [wr_end W])).
  { constructor; [right; exists W; rewrite EW; simpl; auto|]. apply Forall_app. split.
    - eapply Forall_impl; [|exact Hw]. intros s Hs. left. exact Hs.
    - constructor; [right; exists W; rewrite EW; simpl; auto|constructor]. }
  rewrite <- HLang. split.
  - intros [D _]. apply (HWL _ FI) in D. destruct D as [v [L EV]]. injection EV as EV. apply app_inj_tail in EV. destruct EV as [-> _].
    rewrite R2 in L. exact L.
  - intros L. split.
    + apply (HWL _ FI). exists w. rewrite R2. auto.
    + eapply Forall_impl; [|exact FI]. intros a Ha. apply HIn. exact Ha.
Qed.
Print Assumptions C128_parser.

(** What is generated from a file that is loaded is described by its rules, whatever the source of random values. *)
Theorem C128_generated : forall debug rx t f g sym, text_of t f -> Forall is_char t -> loadable rx f -> ordinary_names f ->
  load_advanced debug rx t = Ok (inl g) -> (forall x s, In (x, s) (ag_sym_map g) -> sym x = s) ->
  forall x, adv_named (adv_file_rules f) x ->
  forall (R : Type) (generate : R -> f64 -> res (f64 * R)) (mutate_start : R -> N -> R)
    (to_char : nat -> R -> option nat * R) p limit rng result string,
  random generate mutate_start to_char p (ag_cfg g) (sym x) limit rng [] = Ok (Generated result string) ->
  language (described sym (of_char g) (of_token debug g) rx (adv_file_rules f)) (sym x) result /\ Forall (word_of g) result.
Proof.
  intros debug rx t f g sym HT HC HL HO E HM x Hx R generate ms tc p lim rng result string H.
  destruct (adv_closed debug rx t f g HT HC HL HO E) as [CL [LI BE]].
  destruct (C77_language_partial debug rx t f g sym HT HC HL HO E HM) as [HN _]. destruct (HN x Hx) as [HI HLang].
  destruct (C47_language R generate ms tc p _ _ lim rng result string CL H) as [L _]. split; [apply HLang; exact L|].
  destruct L as [D T]. pose proof (derives_below _ CL _ _ D) as HB.
  assert (HF : Forall (fun s => s < num_syms (ag_cfg g)) result) by (apply HB; constructor; [exact (BE _ _ HI)|constructor]).
  apply Forall_forall. intros s Hs. rewrite Forall_forall in HF, T. split; auto.
Qed.
Print Assumptions C128_generated.

Definition sample_grammar : adv_grammar_loaded := Eval vm_compute in
  match load_advanced true sample_rx sample_text with Ok (inl g) => g | _ => mkAG cfg_new (mkLexer [] [] []) [] [] [] end.
Definition sample_sym (x : string) : nat := match find (fun p => String.eqb (fst p) x) (ag_sym_map sample_grammar) with Some p => snd p | None => 0 end.

(** The sample file meets the hypotheses; [(y(,)] is generated from it, so it is accepted between the markers. *)
Example C128_example : text_of sample_text sample_file /\ Forall is_char sample_text /\ loadable sample_rx sample_file /\ ordinary_names sample_file /\
  load_advanced true sample_rx sample_text = Ok (inl sample_grammar) /\ (forall x s, In (x, s) (ag_sym_map sample_grammar) -> sample_sym x = s) /\
  adv_named (adv_file_rules sample_file) "start" /\
  exists result, random bytes_generate bytes_mutate_start
    (fun s r => (match find (fun p => snd p =? s) (lm_classes (ag_lexer_map sample_grammar)) with
                 | Some ((_, c) :: _, _) => Some (N.to_nat c - 1)
                 | _ => None end, r)) 6
    (ag_cfg sample_grammar) (sample_sym "start") None (mkBytes [128; 0]%N []) [] = Ok (Generated result [40; 121; 40; 44; 41]).
Proof.
  destruct sample_ok as [H1 [H2 [H3 [H4 _]]]]. split; [exact H1|]. split; [exact H2|]. split; [exact H3|]. split; [exact H4|].
  split; [vm_compute; reflexivity|]. split; [|split].
  - intros x s Hx. cbn in Hx. repeat (destruct Hx as [E|Hx]; [injection E as <- <-; reflexivity|]). contradiction.
  - exists "start"%string, [FName "item" OneOrMore], (Some "Main"%string). split; [left; reflexivity|left; reflexivity].
  - eexists. vm_compute. reflexivity.
Qed.
