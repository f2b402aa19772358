(** Property C117: which regular expressions the translation refuses. *)

From Coq Require Import List Arith NArith Bool Lia.
From Verif Require Import Base ListFacts Spec SpecSeq SpecRegex GrammarFacts SymbolModel LoopModel HistoryModel
  CfgModel View CfgProof SeqModel SeqProof SeqExact PropsSeq RegexModel RegexProof.
Import ListNotations.
Local Notation length := List.length.

Definition free (tr : translator) : Prop := limit (tr_cfg tr) = None.

Lemma rules_free : forall s x g, limit g = None -> exists g', fold_res (fun g r => rule_rhs g s r) x g = Ok g' /\ limit g' = None.
Proof.
  intros s. induction x as [|r x IH]; intros g HL; [exists g; auto|]. cbn [fold_res].
  assert (E : exists g1, rule_rhs g s r = Ok g1 /\ limit g1 = None).
  { unfold rule_rhs, rule_history_rhs, add_rule, add_rule_parts, add_rule_fuel. rewrite HL. cbn [bind]. eexists. split; [reflexivity|]. exact HL. }
  destruct E as [g1 [E1 E2]]. rewrite E1. cbn [bind]. apply IH. exact E2.
Qed.

Lemma new_symbol_free : forall tr x, free tr -> exists s tr', new_symbol_with tr x = Ok (s, tr') /\ free tr'.
Proof.
  intros tr x HF. unfold new_symbol_with, next_sym, src_next.
  match goal with |- context [fold_res (fun g r => rule_rhs g ?s r) x ?g0] => destruct (rules_free s x g0) as [g' [E1 E2]] end; [exact HF|].
  rewrite E1. cbn [bind]. eexists _, _. split; [reflexivity|]. exact E2.
Qed.

Lemma symbol_for_free : forall tr x, free tr -> exists s tr', symbol_for tr x = Ok (s, tr') /\ free tr'.
Proof.
  intros tr x HF. unfold symbol_for. destruct x as [|[|s [|? ?]] [|? ?]]; try (apply new_symbol_free; exact HF). exists s, tr. auto.
Qed.

Lemma concat_part_free : forall r x tr, free tr -> exists r' tr', concat_part r x tr = Ok (r', tr') /\ free tr'.
Proof.
  intros r x tr HF. unfold concat_part. destruct x as [|y [|z x]]; [eauto|eauto|].
  destruct (new_symbol_free tr (y :: z :: x) HF) as [s [tr' [E1 E2]]]. rewrite E1. cbn [bind]. eauto.
Qed.

Lemma class_sym_free : forall tr k n, free tr -> free (snd (class_sym tr k n)).
Proof. intros tr k n HF. unfold class_sym. destruct (table_get _ _); [exact HF|]. unfold next_sym, src_next. exact HF. Qed.

Lemma literal_free : forall bytes acc tr, free tr ->
  (~ In 255%N bytes /\ exists l tr', fold_res (walk_byte true) bytes (acc, tr) = Ok (l, tr') /\ free tr') \/
  (In 255%N bytes /\ fold_res (walk_byte true) bytes (acc, tr) = Panic).
Proof.
  induction bytes as [|b bytes IH]; intros acc tr HF.
  - left. split; [intros []|]. exists acc, tr. auto.
  - cbn [fold_res]. destruct (N.eq_dec b 255) as [->|NB].
    + right. split; [left; reflexivity|]. reflexivity.
    + assert (EW : exists s tr1, walk_byte true (acc, tr) b = Ok (acc ++ [s], tr1) /\ free tr1).
      { unfold walk_byte, classes_of_byte. apply N.eqb_neq in NB. rewrite NB. cbn [bind fst snd].
        match goal with |- context [class_sym tr ?k ?n] => pose proof (class_sym_free tr k n HF) as HF1; destruct (class_sym tr k n) as [s tr1] end.
        exists s, tr1. auto. }
      destruct EW as [s [tr1 [EW HF1]]]. rewrite EW. cbn [bind]. destruct (IH (acc ++ [s]) tr1 HF1) as [[H1 H2]|[H1 H2]].
      * left. split; [intros [H|H]; auto; congruence|exact H2].
      * right. split; [right; exact H1|exact H2].
Qed.

(** What walking an expression gives in debug builds. *)
Definition decided (h : hir) : Prop := forall tr, free tr -> u32_counts h ->
  (translatable h /\ exists x tr', walk_hir true h tr = Ok (x, tr') /\ free tr' /\ (x = [] <-> branchless h)) \/
  (~ translatable h /\ walk_hir true h tr = Panic).

Definition walk_concat (debug : bool) := fix walk_all (l : list hir) (result : list nat) (tr : translator) {struct l} : res (list nat * translator) :=
  match l with
  | [] => Ok (result, tr)
  | e :: l' => do (x, tr1) <- walk_hir debug e tr; do (result', tr2) <- concat_part result x tr1; walk_all l' result' tr2
  end.
Definition walk_alt (debug : bool) := fix walk_all (l : list hir) (result : list (list nat)) (tr : translator) {struct l} : res (list (list nat) * translator) :=
  match l with
  | [] => Ok (result, tr)
  | e :: l' => do (x, tr1) <- walk_hir debug e tr; walk_all l' (result ++ x) tr1
  end.

Lemma concat_decided : forall l, Forall decided l -> Forall u32_counts l -> forall r tr, free tr ->
  (Forall translatable l /\ exists x tr', walk_concat true l r tr = Ok (x, tr') /\ free tr') \/
  (~ Forall translatable l /\ walk_concat true l r tr = Panic).
Proof.
  induction l as [|h l IH]; intros HD HU r tr HF.
  - left. split; [constructor|]. exists r, tr. auto.
  - inversion HD as [|? ? HD1 HD2]; subst. inversion HU as [|? ? HU1 HU2]; subst. cbn [walk_concat].
    destruct (HD1 tr HF HU1) as [[H1 [x [tr1 [E1 [F1 _]]]]]|[H1 E1]]; rewrite E1; cbn [bind].
    + destruct (concat_part_free r x tr1 F1) as [r' [tr2 [E2 F2]]]. rewrite E2. cbn [bind].
      destruct (IH HD2 HU2 r' tr2 F2) as [[H2 H3]|[H2 H3]].
      * left. split; [constructor; auto|exact H3].
      * right. split; [intros H; inversion H; auto|exact H3].
    + right. split; [intros H; inversion H; auto|reflexivity].
Qed.

Lemma alt_decided : forall l, Forall decided l -> Forall u32_counts l -> forall r tr, free tr ->
  (Forall translatable l /\ exists x tr', walk_alt true l r tr = Ok (x, tr') /\ free tr' /\ (x = [] <-> r = [] /\ Forall branchless l)) \/
  (~ Forall translatable l /\ walk_alt true l r tr = Panic).
Proof.
  induction l as [|h l IH]; intros HD HU r tr HF.
  - left. split; [constructor|]. exists r, tr. split; [reflexivity|]. split; [exact HF|]. split; [intros ->; auto|tauto].
  - inversion HD as [|? ? HD1 HD2]; subst. inversion HU as [|? ? HU1 HU2]; subst. cbn [walk_alt].
    destruct (HD1 tr HF HU1) as [[H1 [x [tr1 [E1 [F1 B1]]]]]|[H1 E1]]; rewrite E1; cbn [bind].
    + destruct (IH HD2 HU2 (r ++ x) tr1 F1) as [[H2 [y [tr2 [E2 [F2 B2]]]]]|[H2 H3]].
      * left. split; [constructor; auto|]. exists y, tr2. split; [exact E2|]. split; [exact F2|]. rewrite B2. split.
        -- intros [H3 H4]. apply app_eq_nil in H3. destruct H3 as [-> ->]. split; [reflexivity|]. constructor; [apply B1; reflexivity|exact H4].
        -- intros [-> H4]. inversion H4 as [|? ? H5 H6]; subst. apply B1 in H5. subst x. auto.
      * right. split; [intros H; inversion H; auto|exact H3].
    + right. split; [intros H; inversion H; auto|reflexivity].
Qed.

Lemma fits_dec : forall mi ma, counts_fit mi ma \/ ~ counts_fit mi ma.
Proof. intros mi ma. destruct (valid_dec (mkKey 0 mi ma Null)) as [H|H]; [left|right]; exact H. Qed.

Lemma walk_decided : forall h, decided h.
Proof.
  induction h using hir_ind'; intros tr HF HU.
  - left. split; [constructor|]. exists [[]], tr. split; [reflexivity|]. split; [exact HF|]. split; [discriminate|intros H; inversion H].
  - cbn [walk_hir]. destruct (literal_free b [] tr HF) as [[H1 [l [tr' [E F]]]]|[H1 E]]; rewrite E; cbn [bind].
    + left. split; [constructor; exact H1|]. exists [l], tr'. split; [reflexivity|]. split; [exact F|]. split; [discriminate|intros H; inversion H].
    + right. split; [intros H; inversion H; auto|reflexivity].
  - left. split; [constructor|]. cbn [walk_hir]. destruct (class_sym tr (classes_of_class r) None) as [s tr'] eqn:Es.
    exists [[s]], tr'. split; [reflexivity|]. split; [|split; [discriminate|intros H; inversion H]].
    pose proof (class_sym_free tr (classes_of_class r) None HF) as X. rewrite Es in X. exact X.
  - right. split; [intros H; inversion H|reflexivity].
  - inversion HU as [| | | |? ? ? U1 U2 U3| | |]; subst. cbn [walk_hir]. unfold next_sym, src_next.
    match goal with |- context [walk_hir true h ?t] => destruct (IHh t HF U3) as [[H1 [x [tr1 [E1 [F1 B1]]]]]|[H1 E1]] end; rewrite E1; cbn [bind].
    2:{ right. split; [intros H; inversion H; auto|reflexivity]. }
    destruct x as [|y x].
    { right. split; [|reflexivity]. intros H. inversion H as [| | |? ? ? T1 T2 T3| | |]; subst. apply T3. apply B1. reflexivity. }
    assert (NB : ~ branchless h) by (intros H; apply B1 in H; discriminate).
    destruct (symbol_for_free tr1 (y :: x) F1) as [s [tr2 [E2 F2]]]. rewrite E2. cbn [bind]. rewrite add_repetition_eq.
    match goal with |- context [seq_rewrite true ?g ?q] => destruct (C28_accepted g q) as [A1 A2]; [unfold free in F2; rewrite F2; exact I|exact U1|exact U2|];
      pose proof (valid_ok true g q) as A3 end.
    destruct (fits_dec mi ma) as [HV|HV].
    + destruct A3 as [g' [E3 F3]]; [unfold free in F2; rewrite F2; exact I|exact HV|]. rewrite E3. cbn [bind].
      left. split; [constructor; auto|]. eexists _, _. split; [reflexivity|]. split; [unfold free in *; cbn [tr_cfg]; congruence|]. split; [discriminate|intros H; inversion H].
    + rewrite (A2 HV). right. split; [|reflexivity]. intros H. inversion H; auto.
  - inversion HU as [| | | | |? HU'| |]; subst. cbn [walk_hir]. destruct (IHh tr HF HU') as [[H1 [x [tr1 [E1 [F1 B1]]]]]|[H1 E1]].
    + left. split; [constructor; auto|]. exists x, tr1. split; auto. split; auto. rewrite B1. split; [constructor; auto|intros H; inversion H; auto].
    + right. split; [intros H; inversion H; auto|exact E1].
  - inversion HU as [| | | | | |? HU'|? HU']; subst. cbn [walk_hir]. fold (walk_concat true). destruct (concat_decided l H HU' [] tr HF) as [[HT [x [tr1 [E1 F1]]]]|[HT E1]]; rewrite E1; cbn [bind].
    + left. split; [constructor; auto|]. exists [x], tr1. split; [reflexivity|]. split; auto. split; [discriminate|intros X; inversion X].
    + right. split; [intros X; inversion X; auto|reflexivity].
  - inversion HU as [| | | | | |? HU'|? HU']; subst. cbn [walk_hir]. fold (walk_alt true). destruct (alt_decided l H HU' [] tr HF) as [[HT [x [tr1 [E1 [F1 B1]]]]]|[HT E1]].
    + left. split; [constructor; auto|]. exists x, tr1. split; [exact E1|]. split; auto. rewrite B1. split; [intros [_ X]; constructor; auto|intros X; inversion X; auto].
    + right. split; [intros X; inversion X; auto|exact E1].
Qed.

(** ** C117 *)

(** Debug builds translate exactly the translatable expressions, and panic for all others. *)
Theorem C117_accepted : forall h, u32_counts h ->
  (translatable h -> exists g lm, cfg_from_hir true h = Ok (g, lm)) /\ (~ translatable h -> cfg_from_hir true h = Panic).
Proof.
  intros h HU. unfold cfg_from_hir. destruct (walk_decided h (mkTr cfg_new []) eq_refl HU) as [[H1 [x [tr [E [F _]]]]]|[H1 E]]; rewrite E; cbn [bind].
  - split; [intros _|contradiction]. assert (X : exists l tr', match x with [] => new_symbol_with tr [[]] | _ => symbol_for tr x end = Ok (l, tr')).
    { destruct x; [destruct (new_symbol_free tr [[]] F) as [s [tr' [E1 _]]]|destruct (symbol_for_free tr (l :: x) F) as [s [tr' [E1 _]]]]; eauto. }
    destruct X as [l [tr' X]]. rewrite X. cbn [bind]. eauto.
  - split; [contradiction|reflexivity].
Qed.
Print Assumptions C117_accepted.

Lemma unusable_not_translatable : forall h, unusable h -> ~ translatable h.
Proof.
  induction h using hir_ind'; intros HX HT; inversion HX; subst; inversion HT; subst; try tauto.
  - match goal with A : In ?h0 l, B : unusable ?h0, C : Forall translatable l |- _ => exact (proj1 (Forall_forall _ _) H h0 A B (proj1 (Forall_forall _ _) C h0 A)) end.
  - match goal with A : In ?h0 l, B : unusable ?h0, C : Forall translatable l |- _ => exact (proj1 (Forall_forall _ _) H h0 A B (proj1 (Forall_forall _ _) C h0 A)) end.
Qed.

Lemma walk_usable : forall debug h tr x tr', walk_hir debug h tr = Ok (x, tr') -> ~ unusable h /\ (x = [] <-> branchless h).
Proof.
  intros debug. induction h using hir_ind'; intros tr x tr' E; cbn [walk_hir] in E.
  - injection E as <- <-. split; [intros X; inversion X|]. split; [discriminate|intros X; inversion X].
  - apply bind_ok in E. destruct E as [[l tr1] [_ E]]. injection E as <- <-. split; [intros X; inversion X|]. split; [discriminate|intros X; inversion X].
  - destruct (class_sym tr (classes_of_class r) None) as [s tr1]. injection E as <- <-. split; [intros X; inversion X|]. split; [discriminate|intros X; inversion X].
  - discriminate.
  - destruct (next_sym (tr_cfg tr) None) as [l g]. apply bind_ok in E. destruct E as [[y tr1] [E1 E]]. destruct (IHh _ _ _ E1) as [H1 H2].
    destruct y as [|a y]; [discriminate|]. apply bind_ok in E. destruct E as [[s tr2] [E2 E]]. apply bind_ok in E. destruct E as [g' [E3 E]]. injection E as <- <-.
    split; [|split; [discriminate|intros X; inversion X]]. intros X. inversion X; subst; auto. assert (Y : a :: y = []) by (apply H2; auto). discriminate.
  - destruct (IHh _ _ _ E) as [H1 H2]. split; [intros X; inversion X; auto|]. rewrite H2. split; [constructor; auto|intros X; inversion X; auto].
  - fold (walk_concat debug) in E. apply bind_ok in E. destruct E as [[r tr1] [E1 E]]. injection E as <- <-. split; [|split; [discriminate|intros X; inversion X]].
    intros X. inversion X as [| | | |? h HI HU|]; subst. clear X. revert HI E1. generalize (@nil nat) as acc. revert tr. induction l as [|a l IH]; intros tr acc HI E1; [destruct HI|].
    inversion H as [|? ? Ha Hl]; subst. cbn [walk_concat] in E1. apply bind_ok in E1. destruct E1 as [[x1 tr2] [X1 E1]]. apply bind_ok in E1. destruct E1 as [[r2 tr3] [X2 E1]].
    destruct HI as [->|HI]; [exact (proj1 (Ha _ _ _ X1) HU)|exact (IH Hl tr3 r2 HI E1)].
  - fold (walk_alt debug) in E.
    assert (HX : forall l, Forall (fun h => forall tr x tr', walk_hir debug h tr = Ok (x, tr') -> ~ unusable h /\ (x = [] <-> branchless h)) l ->
      forall acc tr, walk_alt debug l acc tr = Ok (x, tr') -> (forall h, In h l -> ~ unusable h) /\ (x = [] <-> acc = [] /\ Forall branchless l)).
    { clear. induction l as [|a l IH]; intros HF acc tr E; cbn [walk_alt] in E.
      - injection E as <- <-. split; [intros h []|]. split; [intros ->; auto|tauto].
      - inversion HF as [|? ? Ha Hl]; subst. apply bind_ok in E. destruct E as [[x1 tr2] [X1 E]]. destruct (Ha _ _ _ X1) as [A1 A2]. destruct (IH Hl _ _ E) as [B1 B2].
        split; [intros h [<-|HI]; auto|]. rewrite B2. split.
        + intros [H3 H4]. apply app_eq_nil in H3. destruct H3 as [-> ->]. split; [reflexivity|]. constructor; [apply A2; reflexivity|exact H4].
        + intros [-> H4]. inversion H4 as [|? ? H5 H6]; subst. apply A2 in H5. subst x1. auto. }
    destruct (HX l H [] tr E) as [A1 A2]. split; [intros X; inversion X as [| | | | |? h HI HU]; subst; exact (A1 h HI HU)|].
    rewrite A2. split; [intros [_ X]; constructor; auto|intros X; inversion X; auto].
Qed.

(** No build translates look-around, or a repetition of an expression without branches. *)
Theorem C117_refused : forall debug h, unusable h -> forall g lm, cfg_from_hir debug h <> Ok (g, lm).
Proof.
  intros debug h HU g lm E. unfold cfg_from_hir in E. apply bind_ok in E. destruct E as [[x tr] [E _]].
  exact (proj1 (walk_usable debug h _ _ _ E) HU).
Qed.
Print Assumptions C117_refused.

(** Every supported expression is translatable. *)
Theorem C117_supported : forall h, supported h -> translatable h.
Proof.
  assert (HB : forall h, supported h -> ~ branchless h).
  { induction h using hir_ind'; intros HS HB; inversion HS; subst; inversion HB; subst; try tauto.
    destruct l as [|a l]; [contradiction|].
    match goal with A : Forall supported _, B : Forall branchless _ |- _ => exact (Forall_inv H (Forall_inv A) (Forall_inv B)) end. }
  assert (HL : forall l, Forall (fun h => supported h -> translatable h) l -> Forall supported l -> Forall translatable l).
  { intros l H1 H2. rewrite Forall_forall in *. auto. }
  induction h using hir_ind'; intros HS; inversion HS as [|? X|? X|? ? ? X Y|? X|? X|? X Y]; subst; constructor; auto.
  intros HI. rewrite Forall_forall in X. specialize (X _ HI). lia.
Qed.
Print Assumptions C117_supported.

(** Hypotheses and both outcomes are met. *)
Example C117_example :
  let a := HLiteral [97]%N in
  let e := HConcat [HRepetition 2 (Some 3%N) a; HAlternation []; HCapture (HAlternation [a; HEmpty])] in
  u32_counts e /\ translatable e /\ ~ supported e /\
  u32_counts (HConcat [a; HLook]) /\ ~ translatable (HConcat [a; HLook]) /\ unusable (HConcat [a; HLook]) /\
  unusable (HRepetition 0 None (HCapture (HAlternation []))) /\ ~ translatable (HRepetition 3 (Some 2%N) a).
Proof.
  cbv zeta. assert (HF : counts_fit 2 (Some 3%N)) by (split; [lia|]; intros m Hm; injection Hm as <-; lia).
  split; [repeat constructor; try lia; intros m Hm; injection Hm as <-; lia|].
  split; [constructor; constructor; [constructor; [exact HF|constructor; intros [X|[]]; discriminate|intros X; inversion X]|]; constructor; [constructor; constructor|];
    constructor; [|constructor]; constructor; constructor; constructor; [constructor; intros [X|[]]; discriminate|]; repeat constructor|].
  split; [intros X; inversion X as [| | | | |? Y|]; subst; inversion Y as [|? ? _ Z]; subst; inversion Z as [|? ? W _]; subst; inversion W; congruence|].
  split; [repeat constructor|].
  split; [apply unusable_not_translatable; apply x_concat with (h := HLook); [right; left; reflexivity|constructor]|].
  split; [apply x_concat with (h := HLook); [right; left; reflexivity|constructor]|].
  split; [apply x_repeated; constructor; constructor; constructor|].
  intros X. inversion X as [| | |? ? ? [_ Y]| | |]; subst. specialize (Y _ eq_refl). lia.
Qed.
