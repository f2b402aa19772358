(** Property C79: a file of 2^32 rules. *)

From Coq Require Import String Ascii List Arith NArith Bool Lia Permutation.
From Verif Require Import Base ListFacts Spec SpecSeq SpecRegex SpecRemap GrammarFacts SymbolModel LoopModel LoopFacts HistoryModel
  CfgModel View SpecLoad SpecAdv LoadModel AdvModel SpecAdv2 AdvNamesProof PropsAdv PropsAdv2.
From Verif Require Import AdvLoadProof AdvLoadProof2 AdvLoadProof3 AdvLoadProof4 AdvFaultProof AdvTextProof.
Import ListNotations.
Local Open Scope list_scope.
Local Notation length := List.length.

(** [a::=;] as often as wanted. *)
Definition many_text (n : nat) : text := List.concat (repeat (of_string "a::=;") n).
Definition many_file (n : nat) : list declaration := repeat (DStatement (SEmpty "a" None)) n.

Lemma starts_cons : forall w c t, starts w (c :: t) -> w = [] \/ exists w', w = c :: w' /\ starts w' t.
Proof. intros [|x w] c t [r E]; [left; reflexivity|]. cbn in E. injection E as <- E. right. exists w. split; [reflexivity|]. exists r. exact E. Qed.

Lemma word_nonempty : forall o, ~ adv_word [] o.
Proof. intros o H. inversion H; subst; try discriminate. cbn in *. contradiction. Qed.

Lemma longest_name : forall t w o, adv_word w o -> starts w (97%N :: 58%N :: t) -> length w <= 1.
Proof.
  intros t w o H HS. apply starts_cons in HS. destruct HS as [->|[w1 [-> HS]]]; [simpl; lia|].
  apply starts_cons in HS. destruct HS as [->|[w2 [-> HS]]]; [simpl; lia|].
  exfalso. inversion H; subst; try discriminate. match goal with X : name_chars _ |- _ => destruct X as [_ X]; cbn in X; discriminate end.
Qed.

Lemma longest_op : forall t w o, adv_word w o -> starts w (58%N :: t) -> length w <= 3.
Proof.
  intros t w o H HS. apply starts_cons in HS. destruct HS as [->|[w1 [-> HS]]]; [simpl; lia|].
  inversion H; subst; cbn; try lia. match goal with X : name_chars _ |- _ => destruct X as [X _]; cbn in X; discriminate end.
Qed.

Lemma longest_semicolon : forall t w o, adv_word w o -> starts w (59%N :: t) -> length w <= 1.
Proof.
  intros t w o H HS. apply starts_cons in HS. destruct HS as [->|[w1 [-> HS]]]; [simpl; lia|].
  inversion H; subst; cbn; try lia. match goal with X : name_chars _ |- _ => destruct X as [X _]; cbn in X; discriminate end.
Qed.

Lemma many_reads : forall n p, exists tokens, adv_reads p (many_text n) tokens [] /\ adv_file_tokens (many_file n) = map fst tokens.
Proof.
  induction n as [|n IH]; intros p.
  - exists []. split; [constructor|reflexivity].
  - set (p1 := place (of_string "a") p). set (p2 := place (of_string "::=") p1). set (p3 := place (of_string ";") p2).
    destruct (IH p3) as [tokens [HR HT]]. exists ((AIdent "a", p) :: (AOp, p1) :: (ASemicolon, p2) :: tokens). split.
    + assert (W1 : adv_word (of_string "a") (Some (AIdent "a"))).
      { apply (aw_ident (of_string "a")); [split; reflexivity|]. vm_compute. discriminate. }
      change (many_text (S n)) with (of_string "a" ++ (of_string "::=" ++ (of_string ";" ++ many_text n))).
      apply (ar_word p (of_string "a") (Some (AIdent "a")) _ ((AOp, p1) :: (ASemicolon, p2) :: tokens)); [exact W1| |].
      { intros w o H HS. apply (longest_name _ w o H HS). }
      apply (ar_word p1 (of_string "::=") (Some AOp) _ ((ASemicolon, p2) :: tokens)); [constructor| |].
      { intros w o H HS. apply (longest_op _ w o H HS). }
      apply (ar_word p2 (of_string ";") (Some ASemicolon) _ tokens); [constructor| |exact HR].
      intros w o H HS. apply (longest_semicolon _ w o H HS).
    + cbn [many_file repeat adv_file_tokens flat_map declaration_tokens adv_statement_tokens action_tokens app map fst].
      unfold adv_file_tokens, many_file in HT. rewrite HT. reflexivity.
Qed.

Lemma many_rules : forall n, parser_rules (many_file n) = repeat ("a"%string, [], None) n /\ lexer_rules (many_file n) = [].
Proof. induction n as [|n [IH1 IH2]]; [split; reflexivity|]. cbn. unfold parser_rules, lexer_rules, many_file in *. rewrite IH1, IH2. split; reflexivity. Qed.

Lemma many_ok : forall n, text_of (many_text (S n)) (many_file (S n)) /\ Forall is_char (many_text (S n)) /\
  (forall rx, loadable rx (many_file (S n))) /\ adv_file_rules (many_file (S n)) = repeat ("a"%string, [], None) (S n).
Proof.
  intros n. destruct (many_rules (S n)) as [R1 R2].
  assert (HR : adv_file_rules (many_file (S n)) = repeat ("a"%string, [], None) (S n)) by (unfold adv_file_rules; rewrite R1, R2, app_nil_r; reflexivity).
  split; [|split; [|split; [|exact HR]]].
  - split; [split; [discriminate|]|].
    + apply Forall_forall. intros d Hd. apply repeat_spec in Hd. subst d. exact I.
    + destruct (many_reads (S n) (1, 1)) as [tokens [H1 H2]]. exists tokens. split; [|exact H2]. split; [exact H1|].
      intros w o HW [r E]. destruct w; [exact (word_nonempty _ HW)|discriminate].
  - unfold many_text. apply Forall_forall. intros c Hc. apply in_concat in Hc. destruct Hc as [w [Hw Hc]]. apply repeat_spec in Hw. subst w.
    cbn in Hc. unfold is_char. repeat (destruct Hc as [<-|Hc]; [lia|]). destruct Hc.
  - intros rx. assert (HF : forall fr, ~ has_fragment (adv_file_rules (many_file (S n))) fr).
    { intros fr [l [fs [a [H1 H2]]]]. rewrite HR in H1. apply repeat_spec in H1. injection H1 as -> -> ->. destruct H2. }
    split; [|split].
    + cbn [many_file repeat one_lexer]. replace (filter is_block (repeat (DStatement (SEmpty "a" None)) n)) with (@nil declaration); [simpl; lia|].
      clear. induction n; [reflexivity|]. exact IHn.
    + intros s H. destruct (HF _ H).
    + intros s h H. destruct (HF _ H).
Qed.

Lemma many_loads : forall debug rx n, exists g, load_advanced debug rx (many_text (S n)) = Ok (inl g).
Proof.
  intros debug rx n. destruct (many_ok n) as [H1 [H2 [H3 H4]]]. apply (C76_loads debug rx _ _ H1 H2 (H3 rx)).
  intros reason [before [p [after [E [_ HF]]]]]. destruct (many_rules (S n)) as [R1 R2]. unfold marked_rules in E. rewrite R1, R2, app_nil_r in E.
  assert (HI : In p (before ++ p :: after)) by (apply in_or_app; right; left; reflexivity). rewrite <- E in HI.
  apply in_map_iff in HI. destruct HI as [r [<- Hr]]. apply repeat_spec in Hr. subst r. inversion HF; subst.
  match goal with X : first_fragment_fault _ _ _ |- _ => destruct X as [pre [f [post [X _]]]]; destruct pre; discriminate end.
Qed.

(** Rule number 2^32 of a file can be loaded, but no rule of the grammar has this number as its origin: origins are
    smaller. *)
Theorem C79_many_refuted : forall debug rx, exists t f g i l fs act, text_of t f /\ Forall is_char t /\ loadable rx f /\
  load_advanced debug rx t = Ok (inl g) /\ nth_error (adv_file_rules f) i = Some (l, fs, act) /\
  forall r, In r (rules (ag_cfg g)) -> h_origin (hist r) <> N.of_nat (i + 1).
Proof.
  intros debug rx.
  assert (HN : exists n, N.of_nat (n + 1) = 4294967296%N).
  { exists (N.to_nat 4294967295). rewrite Nat2N.inj_add, N2Nat.id. reflexivity. }
  destruct HN as [n HN]. destruct (many_ok n) as [H1 [H2 [H3 H4]]]. destruct (many_loads debug rx n) as [g E].
  exists (many_text (S n)), (many_file (S n)), g, n, "a"%string, [], None. split; [exact H1|]. split; [exact H2|]. split; [apply H3|]. split; [exact E|].
  split; [rewrite H4; clear; induction n; [reflexivity|exact IHn]|].
  destruct (plainly debug rx _ _ g H1 H2 (H3 rx) E) as [st [RL EG]]. pose proof (pl_sound _ _ RL) as HS.
  destruct (result_ok st HS) as [g' [EG' [G1 _]]]. assert (g' = g) as -> by congruence.
  destruct (pl_rules _ _ RL) as [mains [helpers [HP [HM HH]]]]. intros r Hr X. rewrite HN in X. rewrite G1 in Hr.
  eapply Permutation_in in Hr; [|exact HP]. apply in_app_or in Hr. destruct Hr as [Hr|Hr].
  - assert (O : exists i, hist r = process_root (ROrigin i)).
    { clear - HM Hr. induction HM as [|[i [[[l fs] act] b]] r0 ps rs [_ [_ H]] _ IH]; [contradiction|]. destruct Hr as [->|Hr]; [exists i; exact H|auto]. }
    destruct O as [i O]. rewrite O in X. cbn in X. unfold as_u32 in X.
    pose proof (N.mod_upper_bound (N.of_nat i) (u32_max + 1)) as Y. unfold u32_max in *. lia.
  - rewrite Forall_forall in HH. destruct (HH r Hr) as [H|H]; rewrite H in X; [discriminate|]. unfold not0, u32_max in X. lia.
Qed.
Print Assumptions C79_many_refuted.
