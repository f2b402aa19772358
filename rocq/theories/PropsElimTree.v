(** Property C92: the elimination of nulling rules and parse trees. *)

From Coq Require Import List Arith NArith Bool Lia.
From Verif Require Import Base ListFacts Spec SpecTree SetView GrammarFacts SymbolModel HistoryModel CfgModel View
  BitSetModel ClosureModel ElimModel CfgProof CfgProof2 SetProof ElimProof TreeProof TreeLimit TreeLang TreeOps ElimTree ElimTree2
  PropsGrammar PropsElim PropsTree.
Import ListNotations.
Local Notation length := List.length.

(** A terminal of the grammar as it was given. *)
Definition given_terminal (g : cfg) (s : nat) : Prop := s < num_syms g /\ terminal (prods g) s.

(** No symbol of the grammar has two parses of the empty string. *)
Definition one_empty_parse (g : cfg) : Prop := forall B t t', B < num_syms g -> parses (rule_list g) B t -> parses (rule_list g) B t' ->
  yield t = [] -> yield t' = [] -> t = t'.

(** No nonempty string has two parses from [A]. *)
Definition unambiguous_nonempty (g : cfg) (A : nat) : Prop := forall t t', parses (rule_list g) A t -> parses (rule_list g) A t' ->
  yield t = yield t' -> yield t <> [] -> t = t'.

(** No string over the terminals [T] has two parses from [A]. *)
Definition unambiguous_over (T : nat -> Prop) (g : cfg) (A : nat) : Prop := forall t t', parses (rule_list g) A t -> parses (rule_list g) A t' ->
  yield t = yield t' -> Forall T (yield t) -> t = t'.

Lemma nth_rule_list : forall g i A r, nth_error (rule_list g) i = Some (A, r) <-> exists x, nth_error (rules g) i = Some x /\ lhs x = A /\ rhs x = r.
Proof.
  intros g i A r. unfold rule_list. rewrite nth_error_map. destruct (nth_error (rules g) i) as [x|]; cbn [option_map].
  - split; [intros E; injection E as <- <-; eauto|intros [y [E [<- <-]]]; injection E as <-; reflexivity].
  - split; [discriminate|intros [y [E _]]; discriminate].
Qed.

Section Trees.
  Context (g g1 g' result : cfg) (p q : bitset).
  Hypothesis (HC : closed_rules g) (EL : eliminated g g1 g' result p q).
  Hypothesis HR : rules g' = filter (fun r => bit q (lhs r)) (pre_rules p (rules g1)).
  Hypothesis HQ : forall s, member q s <-> closure_all (pre_prods p (rules g1))
                (fun x => x < num_syms g1 /\ terminal (pre_prods p (rules g1)) x /\
                          ~ (exists r, In r (rules result) /\ lhs r = x)) s.

  Definition tl : list ((nat * option bool) * rule) :=
    filter (fun t => negb (is_nil (rhs (snd t))) && bit q (lhs (snd t))) (tagged p (rules g1)).
  Definition tag (i : nat) : nat * option bool := nth i (map fst tl) (0, None).

  Lemma tl_rules : map snd tl = rules g'.
  Proof.
    unfold tl. rewrite (filter_snd _ _ (fun x : rule => negb (is_nil (rhs x)) && bit q (lhs x))), tagged_snd, HR. unfold pre_rules. rewrite filter_filter. reflexivity.
  Qed.
  Lemma tl_nodup : NoDup (map fst tl).
  Proof. apply NoDup_filter_fst, tagged_nodup. Qed.

  Lemma tl_nth : forall i A r, nth_error (rule_list g') i = Some (A, r) ->
    exists x, nth_error tl i = Some (tag i, x) /\ lhs x = A /\ rhs x = r.
  Proof.
    intros i A r E. apply nth_rule_list in E. destruct E as [x [E [E1 E2]]]. exists x. rewrite <- tl_rules, nth_error_map in E.
    destruct (nth_error tl i) as [[t y]|] eqn:Et; [|discriminate]. cbn in E. injection E as ->. split; auto.
    unfold tag. symmetry. f_equal. f_equal. apply nth_error_nth. rewrite nth_error_map, Et. reflexivity.
  Qed.
  Lemma tl_index : forall t x, In (t, x) tl -> exists i, tag i = t /\ nth_error (rule_list g') i = Some (lhs x, rhs x).
  Proof.
    intros t x H. apply In_nth_error in H. destruct H as [i E]. exists i. split.
    - unfold tag. apply nth_error_nth. rewrite nth_error_map, E. reflexivity.
    - apply nth_rule_list. exists x. split; auto. rewrite <- tl_rules, nth_error_map, E. reflexivity.
  Qed.

  Lemma e_tag : forall i A r, nth_error (rule_list g') i = Some (A, r) -> r <> [] /\
    match snd (tag i) with
    | None => nth_error (rule_list g1) (fst (tag i)) = Some (A, r)
    | Some false => exists a b, r = [b] /\ nth_error (rule_list g1) (fst (tag i)) = Some (A, [a; b]) /\ bit p a = true
    | Some true => exists a b, r = [a] /\ nth_error (rule_list g1) (fst (tag i)) = Some (A, [a; b]) /\ bit p b = true
    end.
  Proof.
    intros i A r E. destruct (tl_nth i A r E) as [x [Ex [<- <-]]]. apply nth_error_In in Ex. unfold tl in Ex. apply filter_In in Ex.
    destruct Ex as [Hin Hf]. cbn [snd] in Hf. apply andb_true_iff in Hf. destruct Hf as [Hf _]. apply negb_true_iff, is_nil_false in Hf. split; auto.
    destruct (tag i) as [j m]. cbn [fst snd]. apply tagged_In in Hin. destruct Hin as [y [Ey [El Hm]]]. destruct m as [[|]|].
    - destruct Hm as [a [b [H1 [H2 H3]]]]. exists a, b. split; auto. split; auto. apply nth_rule_list. eauto.
    - destruct Hm as [a [b [H1 [H2 H3]]]]. exists a, b. split; auto. split; auto. apply nth_rule_list. eauto.
    - subst y. apply nth_rule_list. eauto.
  Qed.

  Lemma e_inj : forall i j a b, nth_error (rule_list g') i = Some a -> nth_error (rule_list g') j = Some b -> tag i = tag j -> i = j.
  Proof.
    intros i j [A r] [B r'] Ei Ej E. destruct (tl_nth i A r Ei) as [x [Ex _]]. destruct (tl_nth j B r' Ej) as [y [Ey _]].
    pose proof tl_nodup as HN. rewrite NoDup_nth_error in HN. apply HN.
    - rewrite map_length. apply nth_error_Some. congruence.
    - rewrite !nth_error_map, Ex, Ey. cbn. congruence.
  Qed.

  Lemma e_T : forall s, given_terminal g s -> forall r, ~ In (s, r) (rule_list g1).
  Proof.
    intros s H r Hr. apply rule_list_prods in Hr. apply (old_terminal_P1 g g1 g' result p q HC EL s H r Hr).
  Qed.

  Lemma e_null : forall a t, parses (rule_list g1) a t -> yield t = [] -> bit p a = true.
  Proof.
    intros a t Ht E. apply bit_member. apply (el_nullable _ _ _ _ _ _ EL). apply parses_derives in Ht. destruct Ht as [H _]. rewrite E in H.
    unfold nullable. eapply derives_ext; [|exact H]. intros; symmetry; apply rule_list_prods.
  Qed.

  Lemma e_eps : exists eps, forall a, bit p a = true -> parses (rule_list g1) a (eps a) /\ yield (eps a) = [].
  Proof.
    destruct (choose_eps p (fun a t => parses (rule_list g1) a t /\ yield t = []) (num_syms g1)) as [e He].
    - intros a _ Ha. apply bit_member in Ha. apply (el_nullable _ _ _ _ _ _ EL) in Ha. apply C88_trees_are_parses. split; [exact Ha|constructor].
    - exists e. intros a Ha. apply He; auto. apply bit_member in Ha. unfold member in Ha. rewrite <- (el_lenp _ _ _ _ _ _ EL). apply nth_error_Some. congruence.
  Qed.

  Lemma e_embeds : embeds (fun _ => True) (given_terminal g) (rule_list g') (rule_list g1).
  Proof.
    destruct e_eps as [eps He].
    exact (elim_embeds (rule_list g1) (rule_list g') tag (given_terminal g) (fun a => bit p a = true) eps e_tag e_inj e_T He).
  Qed.

  Lemma e_T' : forall s, given_terminal g s -> forall r, ~ In (s, r) (rule_list g').
  Proof.
    intros s H r Hr. apply In_nth_error in Hr. destruct Hr as [i E]. pose proof (e_T s H) as HN. apply e_tag in E. destruct E as [_ E].
    destruct (snd (tag i)) as [[|]|].
    - destruct E as [a [b [_ [E _]]]]. apply nth_error_In in E. eapply HN; eauto.
    - destruct E as [a [b [_ [E _]]]]. apply nth_error_In in E. eapply HN; eauto.
    - apply nth_error_In in E. eapply HN; eauto.
  Qed.

  Lemma e_live : forall A t, parses (rule_list g1) A t -> yield t <> [] -> Forall (given_terminal g) (yield t) -> bit q A = true.
  Proof.
    intros A t Ht HN HT. apply bit_member. apply HQ.
    assert (HD : derives (prods g1) [A] (yield t)).
    { apply parses_derives in Ht. destruct Ht as [H _]. eapply derives_ext; [|exact H]. intros; symmetry; apply rule_list_prods. }
    apply derives_yields in HD. apply (yields_splits g g1 g' result p q EL) in HD. apply lift_single in HD. destruct HD as [[? _]|[_ HY]]; [contradiction|].
    destruct (live_derives g1 g' result p q [A] (yield t) HY) as [HL _]; auto.
    - eapply Forall_impl; [|exact HT]. intros s. apply (old_terminal_live g g1 g' result p q HC EL).
    - inversion HL; auto.
  Qed.

  Hypothesis H_one : forall a t t', parses (rule_list g1) a t -> parses (rule_list g1) a t' -> yield t = [] -> yield t' = [] -> t = t'.

  Lemma e_same : forall A, unambiguous_over (given_terminal g) g' A -> forall t t', parses (rule_list g1) A t -> parses (rule_list g1) A t' ->
    Forall (given_terminal g) (yield t) -> yield t = yield t' -> yield t <> [] -> t = t'.
  Proof.
    intros A HU t t' Ht Ht' HT EY HN. destruct e_eps as [eps He].
    assert (HO : forall t, parses (rule_list g1) A t -> Forall (given_terminal g) (yield t) -> yield t <> [] -> exists t', parses (rule_list g') A t' /\ etree (rule_list g1) tag eps t' = t).
    { intros u Hu HTu HNu.
      apply (etree_onto (rule_list g1) (rule_list g') tag (given_terminal g) (fun a => bit p a = true) eps (fun a => bit q a = true)); auto.
      - intros j B r E. apply nth_rule_list in E. destruct E as [x [E [_ <-]]]. apply nth_error_In in E.
        pose proof (g1_len g g1 g' result p q EL) as HL. rewrite Forall_forall in HL. auto.
      - intros j B r E Hne HL. apply nth_rule_list in E. destruct E as [x [E [<- <-]]].
        destruct (tl_index (j, None) x) as [i [I1 I2]]; [|exists i; auto]. unfold tl. apply filter_In. split; [apply tagged_full; auto|].
        cbn [snd]. rewrite HL, andb_true_r. apply negb_true_iff, is_nil_false. auto.
      - intros j B a b E Ha HL. apply nth_rule_list in E. destruct E as [y [E [<- Er]]]. destruct (tagged_left p (rules g1) j y a b E Er Ha) as [x [X1 [X2 X3]]].
        destruct (tl_index (j, Some false) x) as [i [I1 I2]]; [|exists i; rewrite X2, X3 in I2; auto]. unfold tl. apply filter_In. split; auto.
        cbn [snd]. rewrite X2, X3, HL. reflexivity.
      - intros j B a b E Ha HL. apply nth_rule_list in E. destruct E as [y [E [<- Er]]]. destruct (tagged_right p (rules g1) j y a b E Er Ha) as [x [X1 [X2 X3]]].
        destruct (tl_index (j, Some true) x) as [i [I1 I2]]; [|exists i; rewrite X2, X3 in I2; auto]. unfold tl. apply filter_In. split; auto.
        cbn [snd]. rewrite X2, X3, HL. reflexivity.
      - intros B v Hv Hn HTv. eapply e_live; eauto.
      - exact e_T'.
      - exact e_null.
      - intros a v Hv Ev. destruct (He a (e_null a v Hv Ev)) as [X1 X2]. apply (H_one a); auto. }
    destruct (HO t Ht HT HN) as [u [U1 U2]]. destruct (HO t' Ht') as [u' [U3 U4]]; [congruence|congruence|]. rewrite <- U2, <- U4. f_equal.
    assert (HY : forall u, parses (rule_list g') A u -> Forall (given_terminal g) (yield (etree (rule_list g1) tag eps u)) -> Forall (given_terminal g) (yield u)).
    { intros v Hv. assert (EV : yield (etree (rule_list g1) tag eps v) = yield v); [|congruence]. clear - HC EL HR HQ He Hv.
      revert A v Hv. apply (parses_ind2 (rule_list g') (fun A v => yield (etree (rule_list g1) tag eps v) = yield v)); [reflexivity|].
      intros A r i ts E _ HF. assert (X : flat_map yield (map (etree (rule_list g1) tag eps) ts) = flat_map yield ts).
      { clear E. induction HF; cbn [map flat_map]; congruence. }
      apply e_tag in E. destruct E as [_ E]. cbn [etree yield]. destruct (snd (tag i)) as [[|]|].
      - destruct E as [a [b [_ [E Hb]]]]. rewrite (sym_at_eq _ _ _ _ 1 b E eq_refl), flat_map_app. cbn [flat_map]. rewrite (proj2 (He b Hb)), !app_nil_r. exact X.
      - destruct E as [a [b [_ [E Hb]]]]. rewrite (sym_at_eq _ _ _ _ 0 a E eq_refl). cbn [flat_map]. rewrite (proj2 (He a Hb)). exact X.
      - exact X. }
    pose proof (elim_embeds (rule_list g1) (rule_list g') tag (given_terminal g) (fun a => bit p a = true) eps e_tag e_inj e_T He) as _.
    destruct (etree_ok (rule_list g1) (rule_list g') tag (given_terminal g) (fun a => bit p a = true) eps e_tag e_T He A u U1) as [_ Y1]; [apply HY; auto; rewrite U2; auto|].
    destruct (etree_ok (rule_list g1) (rule_list g') tag (given_terminal g) (fun a => bit p a = true) eps e_tag e_T He A u' U3) as [_ Y2]; [apply HY; auto; rewrite U4; congruence|].
    apply HU; auto; [congruence|apply HY; auto; rewrite U2; auto].
  Qed.
End Trees.

(** * Trees of the split grammar *)
Lemma split_trees_over : forall g g1, closed_rules g -> limit_rhs_len g (Some 2) = Ok g1 ->
  forall A t, A < num_syms g -> parses (rule_list g1) A t -> Forall (given_terminal g) (yield t).
Proof.
  intros g g1 HC E A t HA Ht. destruct (C88_limit_rhs_len g (Some 2) g1 HC ltac:(cbn; lia) E) as [[f [F1 [F2 F3]]] _].
  destruct (F3 A t HA Ht) as [u [U1 <-]]. rewrite (proj2 (F1 A u HA U1)). pose proof (yield_below g A u HC HA U1) as HB.
  apply parses_derives in U1. destruct U1 as [_ HT]. rewrite Forall_forall in *. intros s Hs. split; auto.
  intros r Hr. apply (HT s Hs r). apply rule_list_prods. exact Hr.
Qed.

Lemma split_one_empty : forall g g1, closed_rules g -> limit_rhs_len g (Some 2) = Ok g1 -> one_empty_parse g ->
  forall a t, parses (rule_list g1) a t -> forall t', parses (rule_list g1) a t' -> yield t = [] -> yield t' = [] -> t = t'.
Proof.
  intros g g1 HC E H1. destruct (C88_limit_rhs_len g (Some 2) g1 HC ltac:(cbn; lia) E) as [[f [F1 [F2 F3]]] _].
  assert (HO : forall a t t', a < num_syms g -> parses (rule_list g1) a t -> parses (rule_list g1) a t' -> yield t = [] -> yield t' = [] -> t = t').
  { intros a t t' Ha Ht Ht' EY EY'. destruct (F3 a t Ha Ht) as [u [U1 <-]]. destruct (F3 a t' Ha Ht') as [u' [U2 <-]]. f_equal.
    rewrite (proj2 (F1 a u Ha U1)) in EY. rewrite (proj2 (F1 a u' Ha U2)) in EY'. apply (H1 a); auto. }
  apply (parses_ind2 (rule_list g1) (fun a t => forall t', parses (rule_list g1) a t' -> yield t = [] -> yield t' = [] -> t = t')).
  - intros s _ t' _ HY. discriminate.
  - intros A r i ts Ei HP HF t' Ht' EY EY'. destruct (Nat.lt_ge_cases A (num_syms g)) as [HA|HA].
    { apply (HO A); auto. econstructor; eauto. }
    destruct t' as [s|j us]; [discriminate|]. apply parses_node_inv in Ht'. destruct Ht' as [r' [Ej HP']].
    assert (i = j) by (eapply (limit_made g (Some 2) g1); eauto; cbn; lia). subst j. rewrite Ei in Ej. injection Ej as <-. f_equal.
    clear Ei HP. cbn [yield] in *. revert us HP' EY'. induction HF as [|x t r ts Hx HF IH]; intros us HP' EY'.
    + inversion HP'. reflexivity.
    + inversion HP' as [|? u ? us' P1 P2]; subst. cbn [flat_map] in *. apply app_eq_nil in EY. apply app_eq_nil in EY'. destruct EY, EY'. f_equal; auto.
Qed.

(** ** C92 *)

(** [g1] is the grammar with rules split in two, whose parse trees are those of [g] (C88). *)
Theorem C92_embeds : forall g g1 g' result, closed_rules g -> limit_rhs_len g (Some 2) = Ok g1 -> eliminate_nulling g = Ok (g', result) ->
  embeds (fun _ => True) (given_terminal g) (rule_list g') (rule_list g1).
Proof.
  intros g g1 g' result HC E1 E. destruct (elim_inv g g' result HC E) as [g2 [p [q EL]]].
  pose proof (el_limit _ _ _ _ _ _ EL) as E2. rewrite E1 in E2. injection E2 as <-.
  destruct (el_cases _ _ _ _ _ _ EL) as [[_ ->]|[HR HQ]].
  - exists (fun t => t). split; auto.
  - eapply e_embeds; eauto.
Qed.
Print Assumptions C92_embeds.

Theorem C92_no_new_ambiguity : forall g g' result A, closed_rules g -> eliminate_nulling g = Ok (g', result) -> A < num_syms g ->
  unambiguous_nonempty g A -> unambiguous_over (given_terminal g) g' A.
Proof.
  intros g g' result A HC E HA HU t t' Ht Ht' EY HT.
  destruct (limit_rhs_len_Repr g (Some 2) HC) as [g1 [E1 _]]; [cbn; lia|].
  assert (HN : yield t <> []).
  { intros EN. apply parses_derives in Ht. destruct Ht as [HD _]. rewrite EN in HD.
    destruct (elim_inv g g' result HC E) as [g2 [p [q EL]]]. assert (X : [A] = []); [|discriminate].
    eapply (elim_no_empty g g2 g' result p q EL). eapply derives_ext; [|exact HD]. intros; symmetry; apply rule_list_prods. }
  destruct (C92_embeds g g1 g' result HC E1 E) as [f [F1 F2]]. apply (F2 A); auto; [congruence|].
  destruct (F1 A t I Ht HT) as [X1 Y1]. destruct (F1 A t' I Ht') as [X2 Y2]; [congruence|].
  destruct (C88_limit_rhs_len g (Some 2) g1 HC ltac:(cbn; lia) E1) as [[k [K1 [K2 K3]]] _].
  destruct (K3 A _ HA X1) as [u [U1 U2]]. destruct (K3 A _ HA X2) as [u' [U3 U4]]. rewrite <- U2, <- U4. f_equal.
  assert (Z1 := proj2 (K1 A u HA U1)). assert (Z2 := proj2 (K1 A u' HA U3)). apply HU; auto; congruence.
Qed.
Print Assumptions C92_no_new_ambiguity.

(** If no symbol has two parses of the empty string, no ambiguity of nonempty strings is lost either. *)
Theorem C92_same_ambiguity : forall g g' result A, closed_rules g -> eliminate_nulling g = Ok (g', result) -> A < num_syms g -> one_empty_parse g ->
  (unambiguous_nonempty g A <-> unambiguous_over (given_terminal g) g' A).
Proof.
  intros g g' result A HC E HA H1. split; [eapply C92_no_new_ambiguity; eauto|].
  intros HU t t' Ht Ht' EY HN. destruct (elim_inv g g' result HC E) as [g1 [p [q EL]]]. pose proof (el_limit _ _ _ _ _ _ EL) as E1.
  destruct (C88_limit_rhs_len g (Some 2) g1 HC ltac:(cbn; lia) E1) as [[k [K1 [K2 K3]]] _].
  destruct (K1 A t HA Ht) as [X1 Y1]. destruct (K1 A t' HA Ht') as [X2 Y2]. apply (K2 A); auto.
  pose proof (split_trees_over g g1 HC E1 A _ HA X1) as HT.
  destruct (el_cases _ _ _ _ _ _ EL) as [[_ Eg]|[HR HQ]].
  - subst g'. apply HU; auto. congruence.
  - apply (e_same g g1 g' result p q HC EL HR HQ) with (A := A); auto; [|congruence|congruence].
    intros a u u' Hu Hu'. apply (split_one_empty g g1 HC E1 H1 a u Hu u' Hu').
Qed.
Print Assumptions C92_same_ambiguity.

(** S ::= A b ;  A ::= a | ;   S A b a = 0 1 2 3 *)
Definition ex_elim_tree : cfg :=
  mkCfg (mkSrc 4 (repeat None 4)) [mkRule 0 [1; 2] hd0; mkRule 1 [3] hd0; mkRule 1 [] hd0] [0] [] None.

Example C92_example : closed_rules ex_elim_tree /\ one_empty_parse ex_elim_tree /\ unambiguous_nonempty ex_elim_tree 0 /\
  exists g' result, eliminate_nulling ex_elim_tree = Ok (g', result) /\ rule_list g' = [(0, [1; 2]); (1, [3]); (0, [2])] /\
    parses (rule_list g') 0 (Node 2 [Leaf 2]) /\ parses (rule_list g') 0 (Node 0 [Node 1 [Leaf 3]; Leaf 2]).
Proof.
  assert (HC : closed_rules ex_elim_tree).
  { intros x Hx. simpl in Hx. unfold num_syms; simpl. repeat (destruct Hx as [<- | Hx]; [simpl; repeat constructor; lia|]). destruct Hx. }
  assert (L : forall s t, s = 2 \/ s = 3 -> parses (rule_list ex_elim_tree) s t -> t = Leaf s).
  { intros s [x|i ts] Hs H; [apply parses_leaf_inv in H; destruct H as [-> _]; reflexivity|].
    apply parses_node_inv in H. destruct H as [r [E _]]. destruct i as [|[|[|i]]]; cbn in E; try (destruct i; discriminate); injection E as <- _; lia. }
  assert (HA : forall t, parses (rule_list ex_elim_tree) 1 t -> t = Node 1 [Leaf 3] \/ t = Node 2 []).
  { intros [x|i ts] H; [apply parses_leaf_inv in H; destruct H as [<- H]; exfalso; apply (H []); cbn; auto|].
    apply parses_node_inv in H. destruct H as [r [E HF]]. destruct i as [|[|[|i]]]; cbn in E; try (destruct i; discriminate); try discriminate; injection E as <-.
    - inversion HF as [|? t ? ts' H1 H2]; subst. inversion H2; subst. apply L in H1; auto. subst. auto.
    - inversion HF; subst. auto. }
  assert (HS : forall t, parses (rule_list ex_elim_tree) 0 t -> t = Node 0 [Node 1 [Leaf 3]; Leaf 2] \/ t = Node 0 [Node 2 []; Leaf 2]).
  { intros [x|i ts] H; [apply parses_leaf_inv in H; destruct H as [<- H]; exfalso; apply (H [1; 2]); cbn; auto|].
    apply parses_node_inv in H. destruct H as [r [E HF]]. destruct i as [|[|[|i]]]; cbn in E; try (destruct i; discriminate); try discriminate; injection E as <-.
    inversion HF as [|? t ? ts' H1 H2]; subst. inversion H2 as [|? t' ? ts'' H3 H4]; subst. inversion H4; subst. apply L in H3; auto. subst.
    apply HA in H1. destruct H1 as [->| ->]; auto. }
  split; auto. split; [|split].
  - intros B t t' HB Ht Ht' E E'. unfold num_syms in HB. cbn in HB. destruct B as [|[|B]].
    + apply HS in Ht. destruct Ht as [->| ->]; discriminate.
    + apply HA in Ht. apply HA in Ht'. destruct Ht as [->| ->], Ht' as [->| ->]; try discriminate. reflexivity.
    + apply L in Ht; [|lia]. subst. discriminate.
  - intros t t' Ht Ht' E _. apply HS in Ht. apply HS in Ht'. destruct Ht as [->| ->], Ht' as [->| ->]; try discriminate; reflexivity.
  - do 2 eexists. split; [vm_compute; reflexivity|]. split; [reflexivity|]. split; tree_tac.
Qed.

(** Ambiguity that is kept: C ::= A A ;  A ::= a | (symbols 4, 1 and 3 of [ex_null]). *)
Example C92_ambiguous : one_empty_parse ex_null -> exists g' result, eliminate_nulling ex_null = Ok (g', result) /\ ~ unambiguous_over (given_terminal ex_null) g' 4.
Proof.
  intros H. destruct (C13_total ex_null ex_null_closed) as [g' [result E]]. exists g', result. split; auto. intros HU.
  apply (C92_same_ambiguity ex_null g' result 4 ex_null_closed E) in HU; [|cbn; unfold num_syms; cbn; lia|exact H].
  assert (X : Node 4 [Node 2 [Leaf 3]; Node 3 []] = Node 4 [Node 3 []; Node 2 [Leaf 3]]); [|discriminate].
  apply HU; [tree_tac|tree_tac|reflexivity|discriminate].
Qed.
