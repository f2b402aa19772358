(** Property C126: from the text of a BNF file to the strings that a parser accepts or that are generated. *)

From Coq Require Import List Arith NArith Ascii Bool String Lia.
From Verif Require Import Base ListFacts Spec SpecClassify SpecRemap GrammarFacts SymbolModel HistoryModel CfgModel View SetView SpecLoad LoadModel LoadLexProof LoadParseProof
  LoadProof LoadProof2 LoadPrintProof SpecText PropsLoad PropsPipe FloatModel SpecFloats GenModel PropsGen.
Import ListNotations.
Local Open Scope string_scope.
Local Open Scope list_scope.
Local Notation length := List.length.

Lemma expands_some : forall fs, exists r, expands fs r.
Proof.
  induction fs as [|[x k] fs [r IH]]; [exists []; constructor|]. destruct k.
  - exists (x :: r). constructor; auto.
  - exists (repeat x 0 ++ r). constructor; auto.
  - exists (repeat x 1 ++ r). constructor; auto.
Qed.

Lemma expands_names : forall fs r, expands fs r -> forall x, In x r -> In x (map fst fs).
Proof.
  induction 1; intros y Hy; simpl; auto.
  - destruct Hy as [->|Hy]; auto.
  - apply in_app_or in Hy. destruct Hy as [Hy|Hy]; auto. apply repeat_spec in Hy. auto.
  - apply in_app_or in Hy. destruct Hy as [Hy|Hy]; auto. apply repeat_spec in Hy. auto.
Qed.

Lemma sentence_app : forall rs u v x y, sentence_of rs u x -> sentence_of rs v y -> sentence_of rs (u ++ v) (x ++ y).
Proof.
  intros rs u v x y H HY. induction H as [|a u w HN H IH|a fs r u v' w HI HE H1 IH1 H2 IH2]; simpl; auto.
  - constructor; auto.
  - rewrite <- app_assoc. apply (so_rule rs a fs r); auto.
Qed.

Lemma sentence_app_inv : forall rs u v w, sentence_of rs (u ++ v) w -> exists x y, w = x ++ y /\ sentence_of rs u x /\ sentence_of rs v y.
Proof.
  induction u as [|a u IH]; intros v w H; simpl in H.
  - exists [], w. split; [reflexivity|]. split; [constructor|exact H].
  - inversion H as [|? ? w' HN H'|? fs r ? v' w' HI HE H1 H2]; subst.
    + destruct (IH _ _ H') as [x [y [-> [X Y]]]]. exists (a :: x), y. split; [reflexivity|]. split; [constructor; auto|exact Y].
    + destruct (IH _ _ H2) as [x [y [-> [X Y]]]]. exists (v' ++ x), y. split; [apply app_assoc|]. split; [apply (so_rule rs a fs r); auto|exact Y].
Qed.

Section Names.
Context (rs : list bnf_rule) (sym : string -> nat).
Context (inj : forall x y, named rs x -> named rs y -> sym x = sym y -> x = y).
Let P := written_prods sym rs.

Lemma rule_named : forall x fs, In (x, fs) rs -> named rs x.
Proof. intros x fs H. exists x, fs. auto. Qed.

Lemma expansion_named : forall x fs r, In (x, fs) rs -> expands fs r -> Forall (named rs) r.
Proof. intros x fs r H HE. apply Forall_forall. intros y Hy. exists x, fs. split; auto. right. eapply expands_names; eauto. Qed.

Lemma word_terminal : forall x, named rs x -> (terminal P (sym x) <-> no_rule_for rs x).
Proof.
  intros x Hx. split.
  - intros HT fs HI. destruct (expands_some fs) as [r Hr]. apply (HT (map sym r)). exists x, fs, r. auto.
  - intros HN r [l [fs [w [HI [E _]]]]]. apply inj in E; [|exact Hx|eapply rule_named; eauto]. subst l. exact (HN fs HI).
Qed.

Lemma sentence_derives : forall u w, sentence_of rs u w -> Forall (named rs) u ->
  derives P (map sym u) (map sym w) /\ Forall (terminal P) (map sym w).
Proof.
  induction 1 as [|x u w HN H IH|x fs r u v w HI HE H1 IH1 H2 IH2]; intros HU.
  - split; constructor.
  - inversion HU as [|? ? U1 U2]; subst. destruct (IH U2) as [D T]. split.
    + cbn [map]. change (sym x :: map sym u) with ([sym x] ++ map sym u). change (sym x :: map sym w) with ([sym x] ++ map sym w).
      apply derives_app; [constructor|exact D].
    + constructor; auto. apply word_terminal; auto.
  - inversion HU as [|? ? U1 U2]; subst. destruct (IH1 (expansion_named _ _ _ HI HE)) as [D1 T1]. destruct (IH2 U2) as [D2 T2].
    rewrite map_app. split; [|apply Forall_app; auto]. cbn [map]. change (sym x :: map sym u) with ([sym x] ++ map sym u). apply derives_app; [|exact D2].
    apply (derives_step P [] (sym x) [] (map sym r)); [exists x, fs, r; auto|]. rewrite app_nil_r. exact D1.
Qed.

Lemma derives_sentence : forall a b, derives P a b -> forall u, a = map sym u -> Forall (named rs) u -> Forall (terminal P) b ->
  exists w, b = map sym w /\ sentence_of rs u w.
Proof.
  induction 1 as [a|p A q r b HP HD IH]; intros u E HU HT.
  - exists u. split; [exact E|]. subst a. induction u as [|x u IHu]; [constructor|]. inversion HU; subst. inversion HT; subst.
    constructor; [apply word_terminal; assumption|auto].
  - destruct HP as [l [fs [z [HI [-> [HE ->]]]]]].
    assert (X : exists u1 x u2, u = u1 ++ x :: u2 /\ p = map sym u1 /\ sym l = sym x /\ q = map sym u2).
    { clear - E. revert u E. induction p as [|c p IHp]; intros u E; destruct u as [|y u]; try discriminate; cbn in E; injection E as E1 E2.
      - exists [], y, u. auto.
      - destruct (IHp u E2) as [u1 [x [u2 [-> [-> [H1 H2]]]]]]. exists (y :: u1), x, u2. subst c. auto. }
    destruct X as [u1 [x [u2 [-> [-> [EX ->]]]]]]. apply Forall_app in HU. destruct HU as [U1 U2]. inversion U2 as [|? ? U3 U4]; subst.
    apply inj in EX; [|eapply rule_named; eauto|exact U3]. subst l.
    destruct (IH (u1 ++ z ++ u2)) as [w [-> HS]]; [rewrite !map_app; reflexivity| |exact HT|].
    + apply Forall_app. split; auto. apply Forall_app. split; auto. eapply expansion_named; eauto.
    + exists w. split; [reflexivity|]. apply sentence_app_inv in HS. destruct HS as [w1 [w2 [-> [S1 S2]]]].
      apply sentence_app_inv in S2. destruct S2 as [w3 [w4 [-> [S3 S4]]]]. apply sentence_app; auto. apply (so_rule rs x fs z); auto.
Qed.

Lemma language_sentence : forall x b, named rs x -> (language P (sym x) b <-> exists w, b = map sym w /\ sentence_of rs [x] w).
Proof.
  intros x b Hx. split.
  - intros [D T]. apply (derives_sentence [sym x] b D [x]); auto.
  - intros [w [-> HS]]. apply (sentence_derives [x] w HS). auto.
Qed.

Lemma map_sym_inj : forall u v, Forall (named rs) u -> Forall (named rs) v -> map sym u = map sym v -> u = v.
Proof.
  induction u as [|x u IH]; intros [|y v] HU HV E; try discriminate; auto. cbn in E. injection E as E1 E2.
  inversion HU; subst. inversion HV; subst. f_equal; auto.
Qed.

Lemma sentence_named : forall u w, sentence_of rs u w -> Forall (named rs) u -> Forall (fun x => named rs x /\ no_rule_for rs x) w.
Proof.
  induction 1 as [|x u w HN H IH|x fs r u v w HI HE H1 IH1 H2 IH2]; intros HU; [constructor| |]; inversion HU; subst.
  - constructor; auto.
  - apply Forall_app. split; auto. apply IH1. eapply expansion_named; eauto.
Qed.
End Names.

Lemma load_good : forall debug text g, load debug text = Ok (Loaded g) -> limit g = None /\ length (names (src g)) = num_syms g.
Proof.
  intros debug text g E. unfold load in E. destruct (tokenize text) as [[tokens|]| |]; try discriminate. cbn [bind] in E.
  destruct (parse_bnf tokens) as [rs|]; [|discriminate]. destruct (load_rules debug rs) as [g0| |] eqn:EL; try discriminate. cbn [bind] in E. injection E as ->.
  unfold load_rules in EL. destruct (rules_step debug rs _ 0 good_new) as [ld [E [G _]]]. rewrite E in EL. cbn [bind] in EL. injection EL as <-.
  split; apply G.
Qed.

(** The language of the first name of a file, in the grammar that is loaded. *)
Lemma text_language : forall debug text first rest, valid_file (first :: rest) -> reads text (file_tokens (first :: rest)) "" ->
  let rs := file_rules (first :: rest) in
  exists g sym, load debug text = Ok (Loaded g) /\ closed_rules g /\ limit g = None /\ roots g = [sym (fst first)] /\ sym (fst first) < num_syms g /\
    (forall x y, named rs x -> named rs y -> sym x = sym y -> x = y) /\
    (forall x, named rs x -> names_original_name_of (names (src g)) (sym x) = Some x /\ sym x < num_syms g) /\
    named rs (fst first) /\
    (forall x, named rs x -> (terminal (prods g) (sym x) <-> no_rule_for rs x)) /\
    (forall b, language (prods g) (sym (fst first)) b <-> exists w, b = map sym w /\ sentence_of rs [fst first] w).
Proof.
  intros debug text first rest HF HR rs. destruct (C52_language debug text (first :: rest) HF HR) as [g [sym [E [HI [HN [HRo [HL [HD HC]]]]]]]].
  fold rs in HI, HN, HL, HD. destruct (load_good _ _ _ E) as [HLim HLen].
  assert (NF : named rs (fst first)).
  { unfold rs. change (file_rules (first :: rest)) with (statement_rules first ++ file_rules rest). destruct first as [l alts]. cbn [fst].
    destruct alts as [|a alts]; [exists l, []|exists l, (fragments a)]; (split; [left; reflexivity|left; reflexivity]). }
  assert (NB : forall x, named rs x -> sym x < num_syms g).
  { intros x Hx. specialize (HN x Hx). rewrite <- HLen. apply nth_error_Some. unfold names_original_name_of in HN.
    destruct (nth_error (names (src g)) (sym x)); congruence. }
  exists g, sym. split; [exact E|]. split; [exact HC|]. split; [exact HLim|]. split; [apply (HRo first rest); reflexivity|]. split; [apply NB; exact NF|].
  split; [exact HI|]. split; [intros x Hx; split; auto|]. split; [exact NF|]. split.
  - intros x Hx.
    rewrite <- (word_terminal rs sym HI x Hx). split.
    + intros HT. assert (L : language (prods g) (sym x) [sym x]) by (split; [constructor|constructor; auto]).
      apply (HL x _ Hx) in L. destruct L as [_ L]. inversion L; auto.
    + intros HT. assert (L : language (written_prods sym rs) (sym x) [sym x]) by (split; [constructor|constructor; auto]).
      apply (HL x _ Hx) in L. destruct L as [_ L]. inversion L; auto.
  - intros b. rewrite (HL _ b NF). apply (language_sentence rs sym HI). exact NF.
Qed.

(** A file that is loaded and prepared for a parser: the root accepts, between the markers, exactly the sentences of the
    first name of the file. *)
Theorem C126_parser : forall debug text first rest, valid_file (first :: rest) -> reads text (file_tokens (first :: rest)) "" ->
  let rs := file_rules (first :: rest) in
  exists g g' W sym, load debug text = Ok (Loaded g) /\ prepare g = Ok g' /\ wroots g' = [W] /\ roots g' = [wr_root W] /\
    (forall x, named rs x -> names_original_name_of (names (src g)) (sym x) = Some x) /\
    forall w, Forall (fun x => named rs x /\ no_rule_for rs x) w ->
      (language (prods g') (wr_root W) (wr_start W :: map sym w ++ [wr_end W]) <-> sentence_of rs [fst first] w).
Proof.
  intros debug text first rest HF HR rs.
  destruct (text_language debug text first rest HF HR) as [g [sym [E [HC [HLim [HRo [HB [HI [HN [NF [HT HL]]]]]]]]]]]. fold rs in HI, HN, NF, HT, HL.
  assert (HR2 : Forall (fun s => s < num_syms g) (roots g)) by (rewrite HRo; constructor; auto).
  assert (HG : good_limit (limit g)) by (rewrite HLim; exact I).
  destruct (C100_prepared g HC HR2 HG) as [g' [EP [R1 [R2 [HW [HIn _]]]]]].
  rewrite HRo in R2. destruct (wroots g') as [|W [|W2 ws]] eqn:EW; try discriminate. cbn [map] in R2. injection R2 as R2.
  exists g, g', W, sym. split; [exact E|]. split; [exact EP|]. split; [exact EW|]. split; [exact R1|]. split; [intros x Hx; apply HN; exact Hx|].
  intros w Hw. destruct (HW W (or_introl eq_refl)) as [ND [B1 [B2 [B3 HWL]]]].
  assert (NW : Forall (named rs) w) by (eapply Forall_impl; [|exact Hw]; simpl; tauto).
  assert (FI : Forall (input_symbol g g') (wr_start W :: map sym w ++ [wr_end W])).
  { constructor; [right; exists W; rewrite EW; simpl; auto|]. apply Forall_app. split.
    - apply Forall_forall. intros s Hs. apply in_map_iff in Hs. destruct Hs as [x [<- Hx]]. rewrite Forall_forall in Hw. destruct (Hw x Hx) as [H1 H2].
      left. split; [apply HN; exact H1|]. apply HT; auto.
    - constructor; [right; exists W; rewrite EW; simpl; auto|constructor]. }
  specialize (HWL _ FI). unfold language at 1. split.
  - intros [D _]. apply HWL in D. destruct D as [v [L EV]]. injection EV as EV. apply app_inj_tail in EV. destruct EV as [EV _].
    rewrite R2 in L. apply HL in L. destruct L as [w2 [-> HS]].
    assert (N2 : Forall (named rs) w2).
    { eapply Forall_impl; [|exact (sentence_named rs [fst first] w2 HS ltac:(auto))]. simpl. tauto. }
    apply (map_sym_inj rs sym HI) in EV; auto. subst w2. exact HS.
  - intros HS. split.
    + apply HWL. exists (map sym w). split; [|reflexivity]. rewrite R2. apply HL. exists w. auto.
    + eapply Forall_impl; [|exact FI]. intros a Ha. apply HIn. exact Ha.
Qed.
Print Assumptions C126_parser.

(** What is generated from a file that is loaded is a sentence of the first name of the file, whatever the source of
    random values. *)
Theorem C126_generated : forall debug text first rest, valid_file (first :: rest) -> reads text (file_tokens (first :: rest)) "" ->
  let rs := file_rules (first :: rest) in
  exists g sym, load debug text = Ok (Loaded g) /\ roots g = [sym (fst first)] /\
    (forall x, named rs x -> names_original_name_of (names (src g)) (sym x) = Some x) /\
    forall (R : Type) (generate : R -> f64 -> res (f64 * R)) (mutate_start : R -> N -> R)
      (to_char : nat -> R -> option nat * R) p limit rng result string,
    random generate mutate_start to_char p g (sym (fst first)) limit rng [] = Ok (Generated result string) ->
    exists w, result = map sym w /\ sentence_of rs [fst first] w.
Proof.
  intros debug text first rest HF HR rs.
  destruct (text_language debug text first rest HF HR) as [g [sym [E [HC [HLim [HRo [HB [HI [HN [NF [HT HL]]]]]]]]]]]. fold rs in HI, HN, NF, HT, HL.
  exists g, sym. split; [exact E|]. split; [exact HRo|]. split; [intros x Hx; apply HN; exact Hx|].
  intros R generate ms tc p lim rng result s H. destruct (C47_language R generate ms tc p g _ lim rng result s HC H) as [L _].
  apply HL. exact L.
Qed.
Print Assumptions C126_generated.

(** [a a b b end] is a sentence of the file, and [b] is not. *)
Example C126_example : exists first rest, valid_file (first :: rest) /\
  reads "list ::= item+ end; item ::= a* b | item;" (file_tokens (first :: rest)) "" /\
  sentence_of (file_rules (first :: rest)) [fst first] ["a"; "a"; "b"; "b"; "end"] /\
  ~ sentence_of (file_rules (first :: rest)) [fst first] ["b"] /\
  Forall (fun x => named (file_rules (first :: rest)) x /\ no_rule_for (file_rules (first :: rest)) x) ["a"; "b"; "end"].
Proof.
  exists ("list", [[Some ("item", OneOrMore); Some ("end", Once)]]), [("item", [[Some ("a", ZeroOrMore); Some ("b", Once)]; [Some ("item", Once)]])].
  set (rs := file_rules _).
  assert (NR : forall x, x <> "list" -> x <> "item" -> no_rule_for rs x).
  { intros x H1 H2 fs HI. cbn in HI. destruct HI as [E|[E|[E|[]]]]; injection E as E _; congruence. }
  assert (Na : no_rule_for rs "a") by (apply NR; discriminate). assert (Nb : no_rule_for rs "b") by (apply NR; discriminate).
  assert (Ne : no_rule_for rs "end") by (apply NR; discriminate).
  assert (HA : forall n, sentence_of rs (repeat "a" n ++ ["b"]) (repeat "a" n ++ ["b"])).
  { intros n. apply sentence_app; [|repeat (constructor; auto)]. induction n; cbn [repeat]; [constructor|constructor; auto]. }
  assert (HI : forall n u w, sentence_of rs u w -> sentence_of rs ("item" :: u) ((repeat "a" n ++ ["b"]) ++ w)).
  { intros n u w H. apply (so_rule rs "item" [("a", ZeroOrMore); ("b", Once)] (repeat "a" n ++ ["b"])); [cbn; auto|repeat constructor|apply HA|exact H]. }
  split; [split; [discriminate | repeat (constructor; try discriminate)]|]. split; [|split; [|split]].
  - destruct (C54_tokens "list ::= item+ end; item ::= a* b | item;") as [[toks [H1 H2]]|H].
    + vm_compute in H1. injection H1 as <-. exact H2.
    + destruct H as [line [col [b [t [r [H _]]]]]]. vm_compute in H. discriminate.
  - change ["a"; "a"; "b"; "b"; "end"] with (((repeat "a" 2 ++ ["b"]) ++ ((repeat "a" 0 ++ ["b"]) ++ ["end"])) ++ []).
    apply (so_rule rs "list" [("item", OneOrMore); ("end", Once)] (repeat "item" 2 ++ ["end"])); [cbn; auto| | |constructor].
    + apply ex_one; [lia|]. repeat constructor.
    + cbn [repeat app]. apply (HI 2 ["item"; "end"]). apply (HI 0 ["end"]). repeat (constructor; auto).
  - cbn [fst]. intros H. inversion H as [|? ? ? X|? fs r ? v w HIn HE H1 H2]; subst.
    inversion H2; subst. rewrite app_nil_r in *. subst v. cbn in HIn. destruct HIn as [E|[E|[E|[]]]]; try discriminate. injection E as <-.
    assert (L : exists q, r = q ++ ["end"]).
    { inversion HE as [| | |? n ? z Hn HZ]; subst. inversion HZ as [|? ? z2 HZ2| |]; subst. inversion HZ2; subst. eexists; reflexivity. }
    destruct L as [q ->]. apply sentence_app_inv in H1. destruct H1 as [x [y [EX [_ HY]]]].
    inversion HY as [|? ? ? X1 X2|? fs2 r2 ? v2 w2 Y1 _ _ _]; subst.
    + inversion X2; subst. change ["b"] with ([] ++ ["b"]) in EX. apply app_inj_tail in EX. destruct EX as [_ EX]. discriminate.
    + exact (Ne _ Y1).
  - constructor; [split; auto; exists "item", [("a", ZeroOrMore); ("b", Once)]; cbn; auto|].
    constructor; [split; auto; exists "item", [("a", ZeroOrMore); ("b", Once)]; cbn; auto|].
    constructor; [split; auto; exists "list", [("item", OneOrMore); ("end", Once)]; cbn; auto|constructor].
Qed.
