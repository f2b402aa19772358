(** The advanced loader: from the text to the loop over the rules. *)

From Coq Require Import String Ascii List Arith NArith Bool Lia Permutation.
From Verif Require Import Base ListFacts Spec SpecSeq SpecRegex SpecRemap GrammarFacts SymbolModel LoopModel LoopFacts HistoryModel
  CfgModel BitSetModel SetView SetProof View SeqModel RegexModel RegexProof RegexProof2 RemapModel PropsSeq SpecLoad SpecAdv LoadModel LoadParseProof LoadProof
  AdvModel SpecAdv2 AdvLexProof AdvTokensProof AdvParseProof AdvRegexProof AdvEmbedProof AdvLoadProof AdvLoadProof2 AdvLoadProof3 AdvLoadProof4 AdvFaultProof PropsAdv.
Import ListNotations.
Local Open Scope list_scope.
Local Notation length := List.length.

(** * Characters of strings *)

Lemma quoted_incl : forall b v, quoted b v -> incl v b.
Proof.
  intros b v H. induction H as [|c b v _ _ _ IH|c b v _ IH]; intros x Hx; [exact Hx| |].
  - destruct Hx as [->|Hx]; [left; reflexivity|right; apply IH; exact Hx].
  - destruct Hx as [->|Hx]; [right; left; reflexivity|right; right; apply IH; exact Hx].
Qed.

Lemma reads_strings : forall p t tokens rest, adv_reads p t tokens rest -> forall s, In (AString s) (map fst tokens) -> incl s t.
Proof.
  intros p t tokens rest H. induction H as [p t|p w o t tokens rest HW _ _ IH]; intros s Hs; [contradiction|].
  destruct o as [x|].
  - cbn [map fst] in Hs. destruct Hs as [->|Hs]; [|intros c Hc; apply in_or_app; right; exact (IH s Hs c Hc)].
    inversion HW as [| |b v HQ| | | | | | | | | | | | | |]; subst. apply quoted_incl in HQ. intros c Hc. apply in_or_app. left. right.
    apply in_or_app. left. apply HQ. exact Hc.
  - intros c Hc. apply in_or_app. right. exact (IH s Hs c Hc).
Qed.

Lemma joined_in : forall sep l x a, In a l -> In x a -> In x (joined sep l).
Proof.
  intros sep l x a. induction l as [|b l IH]; intros Ha Hx; [contradiction|]. cbn [joined]. destruct l as [|c l].
  - destruct Ha as [->|[]]. exact Hx.
  - apply in_or_app. destruct Ha as [->|Ha]; [left; exact Hx|right; right; exact (IH Ha Hx)].
Qed.

Lemma statement_string : forall st l fs act s, In (l, fs, act) (adv_statement_rules st) -> In (FString s) fs -> In (AString s) (adv_statement_tokens st).
Proof.
  intros [l0 act0|l0 alts] l fs act s Hr Hs; cbn [adv_statement_rules adv_statement_tokens] in *.
  - destruct Hr as [E|[]]. injection E as <- <- <-. contradiction.
  - apply in_map_iff in Hr. destruct Hr as [[fs' act'] [E Hr]]. injection E as <- <- <-. right. right. apply in_or_app. left.
    apply joined_in with (alt_tokens (fs', act')); [apply in_map; exact Hr|]. unfold alt_tokens. cbn [fst snd] in *. apply in_or_app. left.
    apply joined_in with (frag_tokens (FString s)); [apply in_map; exact Hs|]. left. reflexivity.
Qed.

Lemma file_string : forall f s, has_fragment (adv_file_rules f) (FString s) -> In (AString s) (adv_file_tokens f).
Proof.
  intros f s [l [fs [act [Hr Hs]]]]. unfold adv_file_rules, adv_file_tokens in *. apply in_flat_map.
  apply in_app_or in Hr. destruct Hr as [Hr|Hr]; apply in_flat_map in Hr; destruct Hr as [[st|sts] [Hd Hr]]; try contradiction.
  - exists (DStatement st). split; [exact Hd|]. exact (statement_string _ _ _ _ _ Hr Hs).
  - exists (DLexer sts). split; [exact Hd|]. apply in_flat_map in Hr. destruct Hr as [st [Ht Hr]]. cbn [declaration_tokens].
    right. right. apply in_or_app. left. apply in_flat_map. exists st. split; [exact Ht|]. exact (statement_string _ _ _ _ _ Hr Hs).
Qed.

(** * The text *)

Lemma marked_fst : forall f, map fst (marked_rules f) = adv_file_rules f.
Proof.
  intros f. unfold marked_rules, adv_file_rules. rewrite map_app, !map_map. cbn [fst]. rewrite !map_id. reflexivity.
Qed.

Definition finish (r : adv_loop + load_error) : res adv_outcome :=
  match r with
  | inl st => do a <- adv_result st; Ok (inl a)
  | inr e => Ok (inr e)
  end.

Lemma text_loads : forall debug rx t f, text_of t f -> 
  (one_lexer f -> exists xs, erased xs = marked_rules f /\
    load_advanced debug rx t = (do r <- adv_load_rules debug rx xs adv_loop_new; finish r)) /\
  (~ one_lexer f -> load_advanced debug rx t = Panic).
Proof.
  intros debug rx t f [Hf [tokens [[HR HN] HT]]].
  destruct (load_outcome debug rx t) as [tokens' [rest' [consumed [[HR' HN'] [_ O]]]]].
  destruct (reads_unique _ _ _ _ HR HN _ _ HR' HN') as [<- <-]. clear HR' HN'.
  assert (V : viable (map fst tokens)) by (rewrite <- HT; apply file_viable; exact Hf).
  destruct O as [pre y line' col' post Et' H1' H2'|line' col' _ E|_ _ HX|f' v _ _ Hf' HT' HV].
  - exfalso. apply H2'. apply (viable_prefix _ (map fst post)). rewrite <- app_assoc. rewrite Et', map_app in V. exact V.
  - discriminate.
  - exfalso. apply HX. exists f. auto.
  - assert (f' = f) as -> by (apply C74_one_file; congruence).
    destruct v as [v| |]; cbn [file_value] in HV.
    + destruct v as [| |rs lex| | | | | | |]; try contradiction. destruct HV as [HO [HV1 HV2]]. split; [|intros X; contradiction].
      intros _. exists (map (fun x => (x, false)) rs ++ map (fun x => (x, true)) (match lex with Some l => l | None => [] end)).
      split; [|reflexivity]. unfold erased, marked_rules. rewrite map_app, !map_map, <- HV1.
      assert (EL : lexer_rules f = map erase_rule (match lex with Some l => l | None => [] end)).
      { destruct lex as [l|]; destruct HV2 as [HV2 _]; [symmetry; exact HV2|exact HV2]. }
      rewrite EL, !map_map. reflexivity.
    + split; [intros X; contradiction|reflexivity].
    + contradiction.
Qed.

Lemma safe_rules : forall rx t f xs, text_of t f -> Forall is_char t -> loadable rx f -> erased xs = marked_rules f ->
  Forall (fun p => Forall (fun xf => safe_fragment rx (xf_frag xf)) (xr_rhs (fst p))) xs.
Proof.
  intros rx t f xs [Hf [tokens [[HR _] HT]]] HC [_ [HS HX]] HE.
  apply Forall_forall. intros [xr b] Hxr. apply Forall_forall. intros xf Hxf. cbn [fst] in Hxf.
  assert (HF : has_fragment (adv_file_rules f) (xf_frag xf)).
  { exists (xr_lhs xr), (map xf_frag (xr_rhs xr)), (xr_action xr). split; [|apply in_map; exact Hxf].
    rewrite <- marked_fst, <- HE. unfold erased. rewrite map_map. apply in_map_iff. exists (xr, b). split; [reflexivity|exact Hxr]. }
  destruct (xf_frag xf) as [x k|s|func s]; cbn [safe_fragment]; [exact I| |].
  - destruct (HS s HF) as [N1 N2]. apply Forall_forall. intros c Hc. apply file_string in HF. rewrite HT in HF.
    pose proof (reads_strings _ _ _ _ HR s HF c Hc) as Hct. rewrite Forall_forall in HC. specialize (HC c Hct).
    unfold char_ok, is_char in *. assert (c <> 55295%N) by (intros ->; contradiction). assert (c <> 1114111%N) by (intros ->; contradiction). lia.
  - intros -> h E. exact (HX s h HF E).
Qed.

(** Loading succeeds, or there is a first fault. *)
Lemma load_cases : forall debug rx t f, text_of t f -> Forall is_char t -> loadable rx f ->
  (exists xs st g, erased xs = marked_rules f /\ adv_load_rules debug rx xs adv_loop_new = Ok (inl st) /\ adv_result st = Ok g /\
     load_advanced debug rx t = Ok (inl g) /\ sound (lp_loader st) /\ faultless rx (marked_rules f)) \/
  (exists err, load_advanced debug rx t = Ok (inr err) /\ first_fault rx (marked_rules f) (le_reason err)).
Proof.
  intros debug rx t f HT HC HL. destruct (text_loads debug rx t f HT) as [HO _]. destruct (HO (proj1 HL)) as [xs [HE EL]].
  pose proof (safe_rules rx t f xs HT HC HL HE) as HS.
  destruct (rules_out debug rx xs adv_loop_new [] new_base) as [[st [E [B F]]]|[err [E F]]]; [|exact HS| |].
  - intros [|x b0] q a0 e X; discriminate.
  - left. destruct (result_ok st (b_sound _ _ B)) as [g [Eg _]]. exists xs, st, g. cbn [app] in F. rewrite HE in F.
    split; [exact HE|]. split; [exact E|]. split; [exact Eg|]. split; [|split; [exact (b_sound _ _ B)|exact F]].
    rewrite EL, E. cbn [bind finish]. rewrite Eg. reflexivity.
  - right. exists err. cbn [app] in F. rewrite HE in F. split; [|exact F]. rewrite EL, E. reflexivity.
Qed.

(** The first fault is one. *)
Lemma app_split : forall {A : Type} (b b' : list A) p p' a a', b ++ p :: a = b' ++ p' :: a' ->
  (b = b' /\ p = p') \/ (exists c, b' = b ++ p :: c) \/ (exists c, b = b' ++ p' :: c).
Proof.
  intros A. induction b as [|x b IH]; intros [|y b'] p p' a a' E; cbn [app] in E; injection E as E1 E2.
  - left. auto.
  - right. left. subst. exists b'. reflexivity.
  - right. right. subst. exists b. reflexivity.
  - subst. destruct (IH _ _ _ _ _ E2) as [[-> ->]|[[c ->]|[c ->]]]; [left; auto|right; left; exists c; reflexivity|right; right; exists c; reflexivity].
Qed.

Lemma fragment_fault_unique : forall rx fs e e', first_fragment_fault rx fs e -> first_fragment_fault rx fs e' -> e = e'.
Proof.
  intros rx fs e e' [p [f [q [E [H1 H2]]]]] [p' [f' [q' [E' [H1' H2']]]]]. rewrite E in E'.
  destruct (app_split _ _ _ _ _ _ E') as [[<- <-]|[[c ->]|[c ->]]].
  - inversion H2; subst; inversion H2'; subst; try reflexivity; contradiction.
  - exfalso. apply (H1' f e); [apply in_or_app; right; left; reflexivity|exact H2].
  - exfalso. apply (H1 f' e'); [apply in_or_app; right; left; reflexivity|exact H2'].
Qed.

Lemma rule_fault_unique : forall rx b p e e', rule_fault rx b p e -> rule_fault rx b p e' -> e = e'.
Proof.
  intros rx b p e e' H H'. inversion H as [? ? ? S|? ? ? c e0 N F]; subst; inversion H' as [? ? ? S'|? ? ? c' e0' N' F']; subst.
  - reflexivity.
  - exfalso. exact (N' eq_refl S).
  - exfalso. exact (N eq_refl S').
  - eapply fragment_fault_unique; eauto.
Qed.

Lemma first_fault_unique : forall rx l e e', first_fault rx l e -> first_fault rx l e' -> e = e'.
Proof.
  intros rx l e e' [b [p [a [E [H1 H2]]]]] [b' [p' [a' [E' [H1' H2']]]]]. rewrite E in E'.
  destruct (app_split _ _ _ _ _ _ E') as [[<- <-]|[[c ->]|[c ->]]].
  - eapply rule_fault_unique; eauto.
  - exfalso. exact (H1' _ _ _ _ eq_refl H2).
  - exfalso. exact (H1 _ _ _ _ eq_refl H2').
Qed.

Lemma faultless_first : forall rx l e, faultless rx l -> first_fault rx l e -> False.
Proof. intros rx l e H [b [p [a [E [_ HF]]]]]. exact (H _ _ _ _ E HF). Qed.
