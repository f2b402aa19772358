(** Properties C52-C55 and C70-C72: loading and printing grammars in BNF. *)

From Coq Require Import List Arith NArith Ascii Bool String Lia.
From Verif Require Import Base ListFacts Spec SymbolModel HistoryModel CfgModel View SpecLoad LoadModel LoadLexProof LoadParseProof
  LoadProof LoadProof2 LoadPrintProof.
Import ListNotations.
Local Open Scope string_scope.

Definition nl : string := one_char newline_char.

(** ** C54 *)

(** The tokenizer ends.  Either it reads all of the text, or there is an error at the first place
    where no word begins. *)
Theorem C54_tokens : forall text,
  (exists tokens, tokenize text = Ok (inl tokens) /\ reads text tokens "") \/
  (exists line col before tokens rest, tokenize text = Ok (inr (line, col)) /\
     text = append before rest /\ reads text tokens rest /\ rest <> "" /\
     (forall w t, word w t -> ~ begins w rest) /\ (line, col) = position before 1 1).
Proof.
  intros text. destruct (tokenize_spec (String.length text) (mkLex text 1 1) [] (Nat.le_refl _)) as [[toks [H1 H2]]|H].
  - left. exists toks. auto.
  - right. destruct H as [line [col [pre [toks [rest [H1 [H2 [H3 [H4 [H5 H6]]]]]]]]]].
    exists line, col, pre, toks, rest. auto 10.
Qed.
Print Assumptions C54_tokens.

(** There is only one reading. *)
Theorem C54_only : forall text tokens, reads text tokens "" -> tokenize text = Ok (inl tokens).
Proof. exact reads_tokenize. Qed.
Print Assumptions C54_only.

Example C54_example : exists text, reads text [BIdent "ab_3"; BOp; BLParen; BRParen; BPlus; BSemicolon] "" /\
  tokenize text = Ok (inl [BIdent "ab_3"; BOp; BLParen; BRParen; BPlus; BSemicolon]) /\
  tokenize (append text "::;") = Ok (inr (2, 3)).
Proof.
  exists (append "ab_3::=()" (append nl "+;")). split; [|split; vm_compute; reflexivity].
  destruct (C54_tokens (append "ab_3::=()" (append nl "+;"))) as [[toks [H1 H2]]|H].
  - vm_compute in H1. injection H1 as <-. exact H2.
  - destruct H as [line [col [b [t [r [H _]]]]]]. vm_compute in H. discriminate.
Qed.

(** ** C55 *)

(** A history of calls of [get_or_intern]: the results and the interner after it. *)
Fixpoint intern_calls (calls : list string) (it : interner) : list nat * interner :=
  match calls with
  | [] => ([], it)
  | s :: calls' => let (i, it1) := get_or_intern it s in
                   let (l, it2) := intern_calls calls' it1 in (i :: l, it2)
  end.

Lemma intern_calls_ok : forall calls it results it', NoDup it -> intern_calls calls it = (results, it') ->
  NoDup it' /\ (exists c, it' = it ++ c)%list /\ List.length results = List.length calls /\
  forall n s, nth_error calls n = Some s -> exists i, nth_error results n = Some i /\ nth_error it' i = Some s.
Proof.
  induction calls as [|s calls IH]; intros it results it' HN H; simpl in H.
  - injection H as <- <-. split; auto. split; [exists []; rewrite app_nil_r; auto|]. split; auto. intros [|n] s E; discriminate.
  - destruct (get_or_intern it s) as [i it1] eqn:E1. destruct (intern_calls calls it1) as [l it2] eqn:E2. injection H as <- <-.
    destruct (get_or_intern_ok _ _ _ _ HN E1) as [N1 [R1 [c1 C1]]].
    destruct (IH _ _ _ N1 E2) as [N2 [[c2 C2] [L2 R2]]]. split; auto. split; [exists (c1 ++ c2)%list; rewrite app_assoc; congruence|].
    split; [simpl; auto|]. intros [|n] s' Hs; simpl in *; auto. injection Hs as <-. exists i. split; auto. rewrite C2.
    rewrite nth_error_app1; auto. apply nth_error_Some. congruence.
Qed.

(** In every history each call has a result; equal results are those of equal strings; and the
    result is resolved to the string, at the end and, since every prefix of a history is one,
    at all times since the call. *)
Theorem C55_injective : forall calls results it, intern_calls calls [] = (results, it) ->
  List.length results = List.length calls /\
  forall m n s t i j, nth_error calls m = Some s -> nth_error calls n = Some t ->
    nth_error results m = Some i -> nth_error results n = Some j ->
    (i = j <-> s = t) /\ intern_resolve it i = Some s.
Proof.
  intros calls results it H. destruct (intern_calls_ok _ _ _ _ (NoDup_nil _) H) as [HN [_ [HL HR]]]. split; auto.
  intros m n s t i j Hs Ht Hi Hj. destruct (HR m s Hs) as [i' [E1 E2]]. destruct (HR n t Ht) as [j' [E3 E4]].
  rewrite Hi in E1. injection E1 as <-. rewrite Hj in E3. injection E3 as <-. split; [|exact E2]. split.
  - intros <-. congruence.
  - intros <-. eapply NoDup_nth_error; eauto; [apply nth_error_Some|]; congruence.
Qed.
Print Assumptions C55_injective.

Example C55_example : intern_calls ["b"; "a"; "b"; ""] [] = ([0; 1; 0; 2], ["b"; "a"; ""]).
Proof. reflexivity. Qed.

(** ** C70 *)

(** Every parse tree of a text has the same value: the rules of the statements the text is made
    of. *)
Theorem C70_unambiguous : forall tokens v, evaluates YStart tokens v <->
  exists file, valid_file file /\ tokens = file_tokens file /\ v = VRules (file_rules file).
Proof.
  intros tokens v. rewrite parse_evaluates. split.
  - intros [rs [-> H]]. apply parse_iff in H. destruct H as [f [F1 [F2 ->]]]. eauto.
  - intros [f [F1 [F2 ->]]]. exists (file_rules f). split; auto. apply parse_iff. eauto.
Qed.
Print Assumptions C70_unambiguous.

Theorem C70_value : forall tokens v v', evaluates YStart tokens v -> evaluates YStart tokens v' -> v = v'.
Proof.
  intros tokens v v' H H'. apply parse_evaluates in H, H'. destruct H as [r [-> H]], H' as [r' [-> H']]. congruence.
Qed.
Print Assumptions C70_value.

(** A text is loaded exactly if it is made of statements. *)
Theorem C70_accepts : forall debug text,
  (exists g, load debug text = Ok (Loaded g)) <-> (exists file, valid_file file /\ reads text (file_tokens file) "").
Proof.
  intros debug text. unfold load. split.
  - intros [g H]. destruct (C54_tokens text) as [[toks [H1 H2]]|[line [col [b [t [r [H1 _]]]]]]]; rewrite H1 in H; cbn [bind] in H; [|discriminate].
    destruct (parse_bnf toks) as [rs|] eqn:EP; [|discriminate]. apply parse_iff in EP. destruct EP as [f [F1 [-> F3]]]. eauto.
  - intros [f [F1 F2]]. rewrite (C54_only _ _ F2). cbn [bind]. rewrite (parse_complete f F1).
    destruct (load_rules_ok debug (file_rules f)) as [g [sym [E _]]]. rewrite E. simpl. eauto.
Qed.
Print Assumptions C70_accepts.

(** A text of tokens that is not made of statements gives an error. *)
Theorem C70_rejects : forall debug text, load debug text = Ok LoadFailed <->
  exists tokens, reads text tokens "" /\ ~ exists file, valid_file file /\ tokens = file_tokens file.
Proof.
  intros debug text. unfold load. split.
  - intros H. destruct (C54_tokens text) as [[toks [H1 H2]]|[line [col [b [t [r [H1 _]]]]]]]; rewrite H1 in H; cbn [bind] in H; [|discriminate].
    exists toks. split; auto. intros [f [F1 ->]]. rewrite (parse_complete f F1) in H.
    destruct (load_rules_ok debug (file_rules f)) as [g [sym [E _]]]. rewrite E in H. discriminate.
  - intros [toks [H1 H2]]. rewrite (C54_only _ _ H1). cbn [bind].
    destruct (parse_bnf toks) as [rs|] eqn:EP; auto. exfalso. apply H2. apply parse_iff in EP. destruct EP as [f [F1 [F2 _]]]. eauto.
Qed.
Print Assumptions C70_rejects.

Example C70_example : exists file, valid_file file /\
  reads (append "start ::= a+ b | () c* ;" (append nl "b::=;")) (file_tokens file) "" /\
  file_rules file = [("start", [("a", OneOrMore); ("b", Once)]); ("start", [("c", ZeroOrMore)]); ("b", [])].
Proof.
  exists [("start", [[Some ("a", OneOrMore); Some ("b", Once)]; [None; Some ("c", ZeroOrMore)]]); ("b", [])].
  split; [split; [discriminate | repeat (constructor; try discriminate)]|]. split; [|reflexivity].
  destruct (C54_tokens (append "start ::= a+ b | () c* ;" (append nl "b::=;"))) as [[toks [H1 H2]]|H].
  - vm_compute in H1. injection H1 as <-. exact H2.
  - destruct H as [line [col [b [t [r [H _]]]]]]. vm_compute in H. discriminate.
Qed.

Example C70_example_rejected : load false "a ::= b |;" = Ok LoadFailed /\ load false "" = Ok LoadFailed.
Proof. split; vm_compute; reflexivity. Qed.

(** ** C52 *)

(** The loaded grammar has one symbol for each name in the file; the first left-hand side is its
    root; and each name has the language that the written rules give it. *)
Theorem C52_language : forall debug text file, valid_file file -> reads text (file_tokens file) "" ->
  exists g sym, load debug text = Ok (Loaded g) /\
    (forall x y, named (file_rules file) x -> named (file_rules file) y -> sym x = sym y -> x = y) /\
    (forall x, named (file_rules file) x -> names_original_name_of (names (src g)) (sym x) = Some x) /\
    (forall first rest, file = first :: rest -> roots g = [sym (fst first)]) /\
    (forall x w, named (file_rules file) x ->
       (language (prods g) (sym x) w <-> language (written_prods sym (file_rules file)) (sym x) w)) /\
    (forall u w, Forall (named (file_rules file)) u -> Forall (named (file_rules file)) w ->
       (derives (prods g) (map sym u) (map sym w) <-> derives (written_prods sym (file_rules file)) (map sym u) (map sym w))) /\
    closed_rules g.
Proof.
  intros debug text f F1 F2. unfold load. rewrite (C54_only _ _ F2). cbn [bind]. rewrite (parse_complete f F1).
  destruct (load_rules_ok debug (file_rules f)) as [g [sym [E [H1 [H2 [H3 [H4 [H5 [H6 H7]]]]]]]]]. rewrite E. cbn [bind].
  exists g, sym. split; auto. split; auto. split; [|split; [|split; [|split]]]; auto.
  - intros x Hx. unfold names_original_name_of. rewrite (H3 x Hx). auto.
  - intros [l alts] rest ->. rewrite H4. change (file_rules ((l, alts) :: rest)) with (statement_rules (l, alts) ++ file_rules rest)%list.
    destruct alts; reflexivity.
  - intros u w Hu Hw. apply H5; apply Forall_map; eapply Forall_impl; try eassumption; simpl; intros x Hx; exists x; auto.
Qed.
Print Assumptions C52_language.

(** Without repetitions, the rules of the grammar are the written ones, in their order, and the
    origin of each is its number. *)
Theorem C52_plain : forall debug text file, valid_file file -> reads text (file_tokens file) "" ->
  (forall l fs f, In (l, fs) (file_rules file) -> In f fs -> snd f = Once) ->
  exists g sym, load debug text = Ok (Loaded g) /\
    (forall x y, named (file_rules file) x -> named (file_rules file) y -> sym x = sym y -> x = y) /\
    List.length (rules g) = List.length (file_rules file) /\
    forall i l fs r, nth_error (file_rules file) i = Some (l, fs) -> nth_error (rules g) i = Some r ->
      lhs r = sym l /\ rhs r = map sym (map fst fs) /\ h_origin (hist r) = (N.of_nat (i + 1) mod 2 ^ 32)%N.
Proof.
  intros debug text f F1 F2 HO. unfold load. rewrite (C54_only _ _ F2). cbn [bind]. rewrite (parse_complete f F1).
  destruct (load_rules_ok debug (file_rules f)) as [g [sym [E [H1 [H2 [H3 [H4 [H5 [H6 H7]]]]]]]]]. rewrite E. cbn [bind].
  exists g, sym. split; auto. split; auto.
  destruct H7 as [H7 H8]. { apply Forall_forall. intros [l fs] Hr. apply Forall_forall. intros q Hq. simpl in Hq. exact (HO l fs q Hr Hq). }
  split; auto. intros i l fs r Hi Hr. destruct (H8 i (l, fs) r Hi Hr) as [P1 [P2 P3]]. simpl in P1, P2. split; auto.
  split; [rewrite map_map; auto|]. rewrite P3. reflexivity.
Qed.
Print Assumptions C52_plain.

Example C52_example : exists file, valid_file file /\ reads "list ::= item+ end; item ::= a* b | item;" (file_tokens file) "" /\
  named (file_rules file) "list" /\ named (file_rules file) "a".
Proof.
  exists [("list", [[Some ("item", OneOrMore); Some ("end", Once)]]); ("item", [[Some ("a", ZeroOrMore); Some ("b", Once)]; [Some ("item", Once)]])].
  split; [split; [discriminate | repeat (constructor; try discriminate)]|]. split; [|split].
  - destruct (C54_tokens "list ::= item+ end; item ::= a* b | item;") as [[toks [H1 H2]]|H].
    + vm_compute in H1. injection H1 as <-. exact H2.
    + destruct H as [line [col [b [t [r [H _]]]]]]. vm_compute in H. discriminate.
  - exists "list", [("item", OneOrMore); ("end", Once)]. simpl. auto.
  - exists "item", [("a", ZeroOrMore); ("b", Once)]. simpl. auto.
Qed.

(** ** C71 *)

(** A text with a place where no word begins is not an error but a panic. *)
Theorem C71_panics_refuted : exists text, forall debug, load debug text = Panic.
Proof. exists "start ::= 'a';". intros debug. vm_compute. reflexivity. Qed.
Print Assumptions C71_panics_refuted.

(** These are the only ones. *)
Theorem C71_total_partial : forall debug text,
  (load debug text = Panic <-> ~ exists tokens, reads text tokens "") /\ load debug text <> OutOfFuel.
Proof.
  intros debug text. unfold load.
  destruct (C54_tokens text) as [[toks [H1 H2]]|[line [col [b [t [r [H1 [H2 [H3 [H4 [H5 _]]]]]]]]]]]; rewrite H1; cbn [bind].
  - destruct (parse_bnf toks) as [rs|].
    + destruct (load_rules_ok debug rs) as [g [sym [E _]]]. rewrite E. cbn [bind]. split; [|discriminate].
      split; [discriminate|]. intros H. exfalso. apply H. eauto.
    + split; [|discriminate]. split; [discriminate|]. intros H. exfalso. apply H. eauto.
  - split; [|discriminate]. split; auto. intros _ [toks HR].
    destruct (reads_det _ _ _ HR _ _ H3 empty_stuck H5) as [_ E]. congruence.
Qed.
Print Assumptions C71_total_partial.

(** ** C53 *)

(** A symbol of some rule. *)
Definition used (g : cfg) (s : nat) : Prop := exists r, In r (rules g) /\ (s = lhs r \/ In s (rhs r)).

Lemma used_named : forall g, (forall s, used g s -> identifier (name_of g s)) -> Forall (named_rule (name_of g)) (rules g).
Proof.
  intros g H. apply Forall_forall. intros r Hr. split; [apply H; exists r; auto|]. apply Forall_forall. intros s Hs. apply H. exists r. auto.
Qed.

(** The printed text is read back as the tokens of the rules, one after another. *)
Theorem C53_tokens : forall g, (forall s, used g s -> identifier (name_of g s)) ->
  tokenize (to_bnf g) = Ok (inl (flat_map (fun r =>
    BIdent (name_of g (lhs r)) :: BOp :: map (fun s => BIdent (name_of g s)) (rhs r) ++ [BSemicolon]) (rules g)))%list.
Proof. intros g H. apply reads_tokenize. apply reads_bnf. apply used_named. auto. Qed.
Print Assumptions C53_tokens.

(** ** C72 *)

(** Loading the printed text of a grammar gives the same rules, with symbols renamed. *)
Theorem C72_rules_partial : forall debug g first rest, rules g = first :: rest ->
  (forall s, used g s -> identifier (name_of g s)) ->
  (forall s t, used g s -> used g t -> name_of g s = name_of g t -> s = t) ->
  exists g' f, load debug (to_bnf g) = Ok (Loaded g') /\
    (forall s t, used g s -> used g t -> f s = f t -> s = t) /\
    (forall s, used g s -> name_of g' (f s) = name_of g s) /\
    map (fun r => (lhs r, rhs r)) (rules g') = map (fun r => (f (lhs r), map f (rhs r))) (rules g) /\
    roots g' = [f (lhs first)].
Proof.
  intros debug g first rest ER HI HJ. assert (HN : rules g <> []) by (rewrite ER; discriminate).
  destruct (printed_file (name_of g) (rules g) HN) as [F1 [F2 F3]]. cbn zeta in *.
  pose proof (reads_bnf g (used_named g HI)) as HR. rewrite <- F2 in HR.
  unfold load. rewrite (C54_only _ _ HR). cbn [bind]. rewrite (parse_complete _ F1), F3.
  destruct (load_rules_ok debug (map (printed_rule (name_of g)) (rules g))) as [g' [sym [E [H1 [H2 [H3 [H4 [H5 [H6 H7]]]]]]]]].
  rewrite E. cbn [bind].
  assert (HU : forall s, used g s -> named (map (printed_rule (name_of g)) (rules g)) (name_of g s)).
  { intros s [r [Hr Hs]]. exists (name_of g (lhs r)), (map (fun s => (name_of g s, Once)) (rhs r)). split; [apply in_map_iff; exists r; auto|].
    destruct Hs as [->|Hs]; auto. right. rewrite map_map. apply in_map_iff. exists s. auto. }
  exists g', (fun s => sym (name_of g s)). split; auto. split; [|split; [|split]].
  - intros s t Hs Ht E'. apply HJ; auto.
  - intros s Hs. unfold name_of at 1, names_name_of. rewrite (H3 (name_of g s) (HU s Hs)). auto.
  - destruct H7 as [H7 H8].
    { apply Forall_forall. intros r Hr. apply in_map_iff in Hr. destruct Hr as [q [<- _]]. simpl. rewrite Forall_map.
      apply Forall_forall. intros s _. reflexivity. }
    rewrite map_length in H7. apply nth_error_ext.
    intros i. rewrite !nth_error_map. destruct (nth_error (rules g) i) as [r|] eqn:E1.
    + assert (E2 : exists r', nth_error (rules g') i = Some r').
      { destruct (nth_error (rules g') i) eqn:E2; eauto. apply nth_error_None in E2. assert (i < List.length (rules g)) by (apply nth_error_Some; congruence). lia. }
      destruct E2 as [r' E2]. rewrite E2. simpl.
      destruct (H8 i (printed_rule (name_of g) r) r') as [P1 [P2 _]]; auto; [rewrite nth_error_map, E1; reflexivity|].
      rewrite P1, P2. simpl. rewrite map_map. reflexivity.
    + apply nth_error_None in E1. assert (E2 : nth_error (rules g') i = None) by (apply nth_error_None; lia). rewrite E2. reflexivity.
  - rewrite H4, ER. reflexivity.
Qed.
Print Assumptions C72_rules_partial.

(** The root of the loaded grammar is the first left-hand side, whatever the roots were. *)
Theorem C72_roots_refuted : exists g g', (forall s, used g s -> identifier (name_of g s)) /\
  (forall s t, used g s -> used g t -> name_of g s = name_of g t -> s = t) /\
  load false (to_bnf g) = Ok (Loaded g') /\
  map (name_of g) (roots g) = ["main"] /\ map (name_of g') (roots g') = ["item"].
Proof.
  set (g := mkCfg (mkSrc 2 [Some "item"; Some "main"]) [mkRule 0 [] (history_new 0); mkRule 1 [0; 0] (history_new 1)] [1] [] None).
  assert (HU : forall s, used g s -> s = 0 \/ s = 1).
  { intros s [r [[<-|[<-|[]]] [->|Hs]]]; simpl in *; intuition. }
  exists g. eexists. split; [|split; [|split; [vm_compute; reflexivity | split; reflexivity]]].
  - intros s Hs. destruct (HU s Hs) as [->| ->]; split; reflexivity.
  - intros s t Hs Ht. destruct (HU s Hs) as [->| ->], (HU t Ht) as [->| ->]; auto; discriminate.
Qed.
Print Assumptions C72_roots_refuted.

(** A symbol without a name is printed as a name that another symbol can have. *)
Theorem C72_names_refuted : exists g g' A w, closed g /\ (forall s, used g s -> identifier (name_of g s)) /\
  load false (to_bnf g) = Ok (Loaded g') /\ language (prods g) A w /\ A < num_syms g /\
  forall B v, B < num_syms g' -> ~ language (prods g') B v.
Proof.
  set (g := mkCfg (mkSrc 2 [Some "g1"; None]) [mkRule 0 [1] (history_new 0)] [0] [] None).
  assert (HU : forall s, used g s -> s = 0 \/ s = 1).
  { intros s [r [[<-|[]] [->|Hs]]]; simpl in *; intuition. }
  exists g. eexists. exists 0, [1]. split; [|split; [|split; [vm_compute; reflexivity|split; [|split; [vm_compute; lia|]]]]].
  - split; [intros x [<-|[]]; split; [vm_compute; lia|]; repeat constructor; vm_compute; lia|].
    split; repeat constructor; vm_compute; lia.
  - intros s Hs. destruct (HU s Hs) as [->| ->]; split; reflexivity.
  - split.
    + apply (derives_step _ [] 0 [] [1]); [eexists; split; [left; reflexivity | split; reflexivity] | constructor].
    + constructor; [|constructor]. intros r [x [[<-|[]] [E _]]]. discriminate.
  - intros B v HB [HD HT]. unfold num_syms in HB. simpl in HB. assert (B = 0) by lia. subst B.
    assert (HV : forall u w, derives (fun A r => A = 0 /\ r = [0]) u w -> u = w).
    { intros u w H. induction H as [|u A q r w [-> ->] H IH]; auto. }
    assert (E : [0] = v).
    { apply HV. match type of HD with derives ?P _ _ => apply (GrammarFacts.derives_mono P) end; auto.
      intros A r [x [[<-|[]] [<- <-]]]. auto. }
    subst v. apply Forall_inv in HT. apply (HT [0]). eexists. split; [left; reflexivity | split; reflexivity].
Qed.
Print Assumptions C72_names_refuted.

(** A grammar without rules is printed as a text that does not load. *)
Theorem C72_empty_refuted : forall debug g, rules g = [] -> load debug (to_bnf g) = Ok LoadFailed.
Proof. intros debug g H. unfold to_bnf. rewrite H. reflexivity. Qed.
Print Assumptions C72_empty_refuted.

(** What [stringify_to_bnf] prints is not BNF in this sense: loading it panics. *)
Theorem C72_stringify_refuted : exists g, closed g /\ (forall s, used g s -> identifier (name_of g s)) /\
  forall debug, load debug (stringify_to_bnf g) = Panic.
Proof.
  set (g := mkCfg (mkSrc 2 [Some "main"; Some "item"]) [mkRule 0 [1; 1] (history_new 0)] [0] [] None).
  assert (HU : forall s, used g s -> s = 0 \/ s = 1).
  { intros s [r [[<-|[]] [->|Hs]]]; simpl in *; intuition. }
  exists g. split; [|split].
  - split; [intros x [<-|[]]; split; [vm_compute; lia|]; repeat constructor; vm_compute; lia|].
    split; repeat constructor; vm_compute; lia.
  - intros s Hs. destruct (HU s Hs) as [->| ->]; split; reflexivity.
  - intros debug. vm_compute. reflexivity.
Qed.
Print Assumptions C72_stringify_refuted.

Example C72_example : exists g first rest, rules g = first :: rest /\ rest <> [] /\
  (forall s, used g s -> identifier (name_of g s)) /\
  (forall s t, used g s -> used g t -> name_of g s = name_of g t -> s = t) /\
  to_bnf g = append "main ::= item g2;" (append nl (append "main ::= ;" nl)).
Proof.
  set (g := mkCfg (mkSrc 3 [Some "main"; Some "item"; None]) [mkRule 0 [1; 2] (history_new 0); mkRule 0 [] (history_new 1)] [0] [] None).
  assert (HU : forall s, used g s -> s = 0 \/ s = 1 \/ s = 2).
  { intros s [r [[<-|[<-|[]]] [->|Hs]]]; simpl in *; intuition. }
  exists g. do 2 eexists. split; [reflexivity|]. split; [discriminate|]. split; [|split].
  - intros s Hs. destruct (HU s Hs) as [->|[->| ->]]; split; reflexivity.
  - intros s t Hs Ht. destruct (HU s Hs) as [->|[->| ->]], (HU t Ht) as [->|[->| ->]]; auto; discriminate.
  - reflexivity.
Qed.
