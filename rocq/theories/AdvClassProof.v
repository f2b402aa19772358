(** The advanced loader: where the classes come from. *)

From Coq Require Import String Ascii List Arith NArith Bool Lia.
From Verif Require Import Base ListFacts Spec SpecRegex SymbolModel HistoryModel CfgModel RemapModel RegexModel RegexProof RegexProof2
  SpecLoad SpecAdv LoadModel AdvModel SpecAdv2 AdvLoadProof.
Import ListNotations.
Local Open Scope list_scope.

Section Keys.
Context (debug : bool) (rx : text -> option hir) (K : lexer_classes -> Prop).

Definition keys_in (t : class_table) : Prop := forall k s, In (k, s) t -> K k.

Definition fragment_keys (f : adv_fragment) : Prop :=
  match f with
  | FName _ _ => True
  | FString t => forall c k, In c t -> classes_of_char c = Ok k -> K k
  | FCall func t => func = regexp_name -> forall h x k, rx t = Some h -> written x h -> token_classes debug x = Ok k -> K k
  end.

Lemma class_entry_keys : forall g t k s g' t', class_entry g t k = (s, g', t') -> K k -> keys_in t -> keys_in t'.
Proof.
  intros g t k s g' t' E HK HT. unfold class_entry in E. destruct (table_get t k) as [x|] eqn:Ex.
  - injection E as <- <- <-. exact HT.
  - destruct (next_sym g None) as [y g1]. injection E as <- <- <-. intros k' s' H. apply table_put_in in H.
    + destruct H as [H|H]; [injection H as -> ->; exact HK|exact (HT _ _ H)].
    + exact (table_get_none _ _ Ex).
Qed.

Lemma map_classes_keys : forall l m g t m' g' t', fold_left map_classes l (m, g, t) = (m', g', t') ->
  (forall k s, In (k, s) l -> K k) -> keys_in t -> keys_in t'.
Proof.
  induction l as [|[k s] l IH]; intros m g t m' g' t' E HL HT; cbn [fold_left] in E; [injection E as <- <- <-; exact HT|].
  unfold map_classes at 2 in E. cbn [fst snd] in E. destruct (class_entry g t k) as [[x g1] t1] eqn:Ec.
  apply (IH _ _ _ _ _ _ E); [intros k' s' H; apply (HL k' s'); right; exact H|].
  apply (class_entry_keys _ _ _ _ _ _ Ec); [apply (HL k s); left; reflexivity|exact HT].
Qed.

Lemma add_char_keys : forall s child g t child' g' t', fold_res add_char s (child, g, t) = Ok (child', g', t') ->
  (forall c k, In c s -> classes_of_char c = Ok k -> K k) -> keys_in t -> keys_in t'.
Proof.
  induction s as [|c s IH]; intros child g t child' g' t' E HS HT; cbn [fold_res] in E; [injection E as <- <- <-; exact HT|].
  unfold add_char at 1 in E. destruct (classes_of_char c) as [k| |] eqn:Ek; cbn [bind] in E; try discriminate.
  destruct (class_entry g t k) as [[x g1] t1] eqn:Ec. cbn [bind] in E.
  apply (IH _ _ _ _ _ _ E); [intros c' k' H; apply HS; right; exact H|].
  apply (class_entry_keys _ _ _ _ _ _ Ec); [apply (HS c k); [left; reflexivity|exact Ek]|exact HT].
Qed.

Lemma adv_fragment_keys : forall a xf s a', adv_load_fragment debug rx a xf = Ok (inl (s, a')) -> fragment_keys (xf_frag xf) ->
  keys_in (al_classes a) -> keys_in (al_classes a').
Proof.
  intros a xf s a' E HF HK. unfold adv_load_fragment in E. destruct (xf_frag xf) as [x k|t|func t]; cbn [fragment_keys] in HF.
  - unfold load_name in E. destruct (load_fragment debug ([], al_names a) (x, k)) as [[l ld]| |]; cbn [bind] in E; try discriminate.
    injection E as <- <-. exact HK.
  - unfold load_string in E. destruct (intern_text (al_strings a) t) as [id strings].
    destruct (symbol_named (al_names a) (lex_name id)) as [x ld].
    destruct (fold_res add_char t ([], ld_cfg ld, al_classes a)) as [[[child g] t']| |] eqn:Ef; cbn [bind] in E; try discriminate.
    destruct (rule_rhs g x child) as [g'| |]; cbn [bind] in E; try discriminate. injection E as <- <-. cbn [al_classes].
    exact (add_char_keys _ _ _ _ _ _ _ Ef HF HK).
  - destruct (String.eqb_spec func regexp_name) as [->|N]; cbn [negb] in E; [|discriminate].
    destruct (rx t) as [h|] eqn:Eh; [|discriminate]. unfold embed_regexp in E.
    destruct (cfg_from_hir debug h) as [[rg lm]| |] eqn:Er; cbn [bind] in E; try discriminate.
    destruct (fold_left map_classes (lm_classes lm) ([], al_cfg a, al_classes a)) as [[m1 g1] t1] eqn:Em.
    destruct (fold_left visit (visited_symbols rg) (m1, g1)) as [m2 g2].
    destruct (remap_symbols _ rg) as [rg'| |]; cbn [bind] in E; try discriminate.
    destruct (roots rg') as [|r [|]]; cbn [bind] in E; try discriminate. injection E as <- <-. cbn [al_classes].
    apply (map_classes_keys _ _ _ _ _ _ _ Em); [|exact HK].
    apply (from_hir_keys debug K h rg lm); [|exact Er]. intros x k Hx Ek. exact (HF eq_refl h x k eq_refl Hx Ek).
Qed.

Lemma adv_fragments_keys : forall xfs syms a rs a', adv_load_fragments debug rx xfs syms a = Ok (inl (rs, a')) ->
  Forall (fun xf => fragment_keys (xf_frag xf)) xfs -> keys_in (al_classes a) -> keys_in (al_classes a').
Proof.
  induction xfs as [|xf xfs IH]; intros syms a rs a' E HF HK; cbn [adv_load_fragments] in E; [injection E as <- <-; exact HK|].
  inversion HF as [|? ? F1 F2]; subst.
  destruct (adv_load_fragment debug rx a xf) as [[[s a1]|e]| |] eqn:E1; cbn [bind] in E; try discriminate.
  apply (IH _ _ _ _ E F2). exact (adv_fragment_keys _ _ _ _ E1 F1 HK).
Qed.

Lemma adv_rules_keys : forall xs st st', adv_load_rules debug rx xs st = Ok (inl st') ->
  Forall (fun p => Forall (fun xf => fragment_keys (xf_frag xf)) (xr_rhs (fst p))) xs ->
  keys_in (al_classes (lp_loader st)) -> keys_in (al_classes (lp_loader st')).
Proof.
  induction xs as [|[xr b] xs IH]; intros st st' E HF HK; cbn [adv_load_rules] in E; [injection E as <-; exact HK|].
  inversion HF as [|? ? F1 F2]; subst. cbn [fst] in F1.
  destruct (adv_load_rule debug rx st (xr, b)) as [[st1|e]| |] eqn:E1; cbn [bind] in E; try discriminate.
  apply (IH _ _ E F2). unfold adv_load_rule in E1.
  destruct (b && existsb _ _); [discriminate|]. destruct (symbol_named (al_names (lp_loader st)) (xr_lhs xr)) as [l ld].
  destruct (adv_load_fragments _ _ _ _ _) as [[[rs a2]|e]| |] eqn:Ef in E1; cbn [bind] in E1; try discriminate.
  destruct (rule_history_rhs _ _ _ _) as [g3| |]; cbn [bind] in E1; try discriminate. injection E1 as <-. cbn [lp_loader al_classes].
  exact (adv_fragments_keys _ _ _ _ _ Ef F1 HK).
Qed.
End Keys.
