(** Property C127: from a regular expression to the texts that a parser accepts or that are generated. *)

From Coq Require Import List Arith NArith Bool Lia.
From Verif Require Import Base ListFacts Spec SpecRegex GrammarFacts SymbolModel HistoryModel CfgModel View RegexModel LexProof RegexProof RegexProof2 RegexNames
  PropsRegex PropsPipe FloatModel GenModel PropsGen PropsGenChars.
Import ListNotations.
Local Notation length := List.length.

(** All that is written are classes of the usual kind, as in C69. *)
Definition usual_classes (h : hir) : Prop :=
  forall t, written t h -> exists ranges, t = TClass ranges /\ canonical ranges /\ Forall usual_range ranges.

(** The lexer map lists, for each character of the text, the symbol of the string at that place. *)
Definition lexed (lm : lexer_map) (text : list N) (w : list nat) : Prop :=
  Forall2 (fun s c => exists l, lexer_get lm c = Ok l /\ In s l) w text.

Lemma regex_lexed : forall debug h, supported h -> usual_classes h ->
  exists g lm lm' root, cfg_from_hir debug h = Ok (g, lm) /\ compute lm = Ok lm' /\ roots g = [root] /\
    closed_rules g /\ root < num_syms g /\ limit g = None /\
    (forall s c, (exists l, lexer_get lm' c = Ok l /\ In s l) -> s < num_syms g /\ terminal (prods g) s) /\
    forall text, matches_text h text <-> exists w, language (prods g) root w /\ lexed lm' text w.
Proof.
  intros debug h HS HW. destruct (C69_text_partial debug h HS HW) as [g [lm [lm' [root [E1 [E2 [E3 HA]]]]]]].
  destruct (from_hir_ok debug h HS) as [g0 [lm0 [root0 [F1 [F2 [F3 [F4 [_ [F6 [F7 _]]]]]]]]]]. rewrite E1 in F1. injection F1 as <- <-.
  rewrite E3 in F2. injection F2 as <-.
  assert (HK : forall k s, In (k, s) (lm_classes lm) -> canonical k /\ Forall handled k).
  { apply (from_hir_keys debug (fun k => canonical k /\ Forall handled k) h g lm); auto.
    intros t k Ht Ek. destruct (HW t Ht) as [rs [-> [H1 H2]]]. cbn in Ek. injection Ek as <-. rewrite canonical_id by auto. split; auto. }
  exists g, lm, lm', root. repeat (split; [assumption|]). split; [exact (n_limit _ _ _ _ (from_hir_named debug h g lm E1))|]. split.
  - intros s c [l [HG HI]]. destruct (get_spec lm lm' c) as [l2 [G1 [_ G3]]]; auto; try (apply Forall_forall; intros [k x] Hx; apply (HK k x Hx)).
    rewrite G1 in HG. injection HG as ->. apply G3 in HI. destruct HI as [k [HI _]]. exact (F7 k s HI).
  - intros text. symmetry. exact (HA text).
Qed.

(** The expression is translated, its lexer map is computed, and the grammar is prepared for a parser: the root accepts, between
    the markers, some string of symbols that the lexer map lists for the text, exactly if the expression matches the text. *)
Theorem C127_parser : forall debug h, supported h -> usual_classes h ->
  exists g lm lm' g' W, cfg_from_hir debug h = Ok (g, lm) /\ compute lm = Ok lm' /\ prepare g = Ok g' /\
    wroots g' = [W] /\ roots g' = [wr_root W] /\
    forall text, matches_text h text <->
      exists w, lexed lm' text w /\ language (prods g') (wr_root W) (wr_start W :: w ++ [wr_end W]).
Proof.
  intros debug h HS HW. destruct (regex_lexed debug h HS HW) as [g [lm [lm' [root [E1 [E2 [E3 [HC [HB [HL [HT HM]]]]]]]]]]].
  assert (HR : Forall (fun s => s < num_syms g) (roots g)) by (rewrite E3; constructor; auto).
  assert (HG : good_limit (limit g)) by (rewrite HL; exact I).
  destruct (C100_prepared g HC HR HG) as [g' [EP [R1 [R2 [HWr [HIn _]]]]]].
  rewrite E3 in R2. destruct (wroots g') as [|W [|W2 ws]] eqn:EW; try discriminate. cbn [map] in R2. injection R2 as R2.
  exists g, lm, lm', g', W. split; [exact E1|]. split; [exact E2|]. split; [exact EP|]. split; [exact EW|]. split; [exact R1|].
  destruct (HWr W (or_introl eq_refl)) as [_ [_ [_ [_ HWL]]]].
  assert (FI : forall text w, lexed lm' text w -> Forall (input_symbol g g') (wr_start W :: w ++ [wr_end W])).
  { intros text w Hw. constructor; [right; exists W; rewrite EW; simpl; auto|]. apply Forall_app. split.
    - induction Hw as [|s c w text Hc Hw IH]; constructor; auto. left. exact (HT s c Hc).
    - constructor; [right; exists W; rewrite EW; simpl; auto|constructor]. }
  intros text. rewrite HM. split.
  - intros [w [L X]]. exists w. split; auto. split.
    + apply (HWL _ (FI _ _ X)). exists w. rewrite R2. auto.
    + eapply Forall_impl; [|exact (FI _ _ X)]. intros a Ha. apply HIn. exact Ha.
  - intros [w [X [D _]]]. exists w. split; auto. apply (HWL _ (FI _ _ X)) in D. destruct D as [v [L EV]]. injection EV as EV.
    apply app_inj_tail in EV. destruct EV as [-> _]. rewrite R2 in L. exact L.
Qed.
Print Assumptions C127_parser.

(** Generating from the translated grammar, when no class of the expression is empty: if each symbol is written as some
    character that the lexer map lists the symbol for, chosen at random or not, then the expression matches the text. *)
Theorem C127_generated : forall debug h, supported h -> usual_classes h -> ~ written (TClass []) h ->
  exists g lm lm' root, cfg_from_hir debug h = Ok (g, lm) /\ compute lm = Ok lm' /\ roots g = [root] /\
    forall (R : Type) (generate : R -> f64 -> res (f64 * R)) (mutate_start : R -> N -> R)
      (to_char : nat -> R -> option nat * R) p limit rng result string,
    (forall s ch l, lexer_get lm' ch = Ok l -> In s l ->
       forall r, exists c l', fst (to_char s r) = Some c /\ lexer_get lm' (N.of_nat c) = Ok l' /\ In s l') ->
    random generate mutate_start to_char p g root limit rng [] = Ok (Generated result string) ->
    matches_text h (map N.of_nat string).
Proof.
  intros debug h HS HW HE. destruct (regex_lexed debug h HS HW) as [g [lm [lm' [root [E1 [E2 [E3 [HC [HB [HL [HT HM]]]]]]]]]]].
  exists g, lm, lm', root. split; [exact E1|]. split; [exact E2|]. split; [exact E3|].
  intros R generate ms tc p lim rng result string HX H.
  destruct (C47_language R generate ms tc p g root lim rng result string HC H) as [L _].
  destruct (C47_chars R generate ms tc p g root lim rng result string H) as [cs [HF ->]].
  apply HM. exists result. split; auto.
  destruct (from_hir_ok debug h HS) as [g0 [lm0 [root0 [F1 [F2 [_ [_ [_ [F6 [_ [_ F8]]]]]]]]]]]. rewrite E1 in F1. injection F1 as <- <-.
  rewrite E3 in F2. injection F2 as <-. apply F8 in L. destruct L as [ts [HMt HTs]]. pose proof (matches_written h ts HMt) as HWr.
  assert (HK : forall k s, In (k, s) (lm_classes lm) -> canonical k /\ Forall handled k).
  { apply (from_hir_keys debug (fun k => canonical k /\ Forall handled k) h g lm); auto.
    intros t k Ht Ek. destruct (HW t Ht) as [rs [-> [H1 H2]]]. cbn in Ek. injection Ek as <-. rewrite canonical_id by auto. split; auto. }
  assert (HG : Forall (fun s => exists ch l, lexer_get lm' ch = Ok l /\ In s l) result).
  { clear HF HMt H. induction HTs as [|t s ts w [k [K1 K2]] HTs IH]; constructor; [|apply IH; exact (Forall_inv_tail HWr)].
    pose proof (Forall_inv HWr) as Ht. destruct (HW t Ht) as [rs [-> [H1 H2]]]. cbn in K1. rewrite canonical_id in K1 by auto. injection K1 as <-.
    destruct rs as [|[lo hi] rs]; [contradiction|]. destruct H1 as [_ [_ [[_ H1] _]]]. exists lo.
    destruct (get_spec lm lm' lo) as [l [G1 [_ G3]]]; auto; try (apply Forall_forall; intros [k x] Hx; apply (HK k x Hx)).
    exists l. split; auto. apply G3. exists ((lo, hi) :: rs). split; auto. exists lo, hi. split; [left; reflexivity|lia]. }
  clear HTs HWr HMt H. induction HF as [|s c w cs [r Hr] HF IH]; cbn; [constructor|].
  destruct (Forall_inv HG) as [ch [l [G1 G2]]]. destruct (HX s ch l G1 G2 r) as [n [l' [N1 [N2 N3]]]]. rewrite N1 in Hr. subst c. cbn.
  constructor; [exists l'; auto|]. apply IH. exact (Forall_inv_tail HG).
Qed.
Print Assumptions C127_generated.

(** The expression [(foo|bar)[0-9]+] of C69, without regard to case: [Bar5] and a digit outside of ASCII are accepted between the markers,
    and a text is generated whose characters are drawn from the source, upper or lower case. *)
Example C127_example : supported sample_regexp /\ usual_classes sample_regexp /\ ~ written (TClass []) sample_regexp /\
  matches_text sample_regexp [66; 97; 114; 53; 130033]%N /\
  exists g lm lm' root, cfg_from_hir true sample_regexp = Ok (g, lm) /\ compute lm = Ok lm' /\ roots g = [root] /\
  let to_char := fun s src => let (b, src') := next_byte src in
    (match filter (fun c => match lexer_get lm' c with Ok l => existsb (Nat.eqb s) l | _ => false end)
             ((if (b <? 128)%N then [66; 65; 82] else [98; 97; 114]) ++ [70; 79; 48; 102; 111])%N with
     | c :: _ => Some (N.to_nat c)
     | [] => None
     end, src') in
  exists result, random bytes_generate bytes_mutate_start to_char 5 g root None (mkBytes [200; 0; 200; 0; 0]%N []) [] =
    Ok (Generated result [66; 97; 82; 48]).
Proof.
  split; [apply C69_sample|]. split; [exact (proj1 (proj2 C69_sample))|]. split.
  - intros H. destruct C69_sample as [_ [HW _]]. unfold sample_regexp in H.
    repeat match goal with
    | H : In _ [] |- _ => destruct H
    | H : In _ (_ :: _) |- _ => destruct H; [subst|]
    | H : written _ (_ _) |- _ => inversion H; clear H; subst
    | H : written _ (HRepetition _ _ _) |- _ => inversion H; clear H; subst
    end; discriminate.
  - split; [apply C69_sample|]. eexists _, _, _, _. split; [vm_compute; reflexivity|]. split; [vm_compute; reflexivity|]. split; [reflexivity|].
    eexists. vm_compute. reflexivity.
Qed.
