(** Property C101: which roots stay in the rules of a prepared grammar, from the original grammar alone. *)

From Coq Require Import List Arith Bool Lia Relations String.
From Verif Require Import Base ListFacts Spec SpecClassify SpecRemap GrammarFacts SymbolModel HistoryModel CfgModel View SetView
  BitSetModel ClosureModel SetProof MatrixModel MatrixProof ClassifyModel UsefulProof ElimModel ElimProof CfgProof CfgProof2
  CyclesProof PipeProof RemapModel RemapProof RemapProof2 OpsModel SplitProof PropsGrammar PropsElim PropsClassify PropsRemap PropsOps PropsPipe.
Import ListNotations.
Local Open Scope list_scope.
Local Notation length := List.length.

(** * Wrapping adds no rules to symbols of the original grammar *)

Lemma chain_lhs : forall r l p s w c, chain r l p s w c -> forall x, In x c -> lhs x = lhs r \/ s <= lhs x.
Proof.
  intros r l p s w c H. induction H as [p s w Hw Hl|p s w c Hl Hc IH]; intros x Hx.
  - destruct Hx as [<-|[]]. left. reflexivity.
  - destruct Hx as [<-|Hx]; [right; cbn; lia|]. destruct (IH x Hx) as [->|K]; [auto|right; lia].
Qed.

Lemma add_rule_lhs : forall n g r g', good_limit (limit g) -> add_rule g r = Ok g' -> n <= num_syms g -> n <= lhs r ->
  (forall x, In x (rules g') -> In x (rules g) \/ n <= lhs x) /\ n <= num_syms g' /\ limit g' = limit g.
Proof.
  intros n g r g' HL E Hn Hr. destruct (add_rule_spec g r HL) as [k [c [E' [_ Hc]]]]. rewrite E' in E. injection E as <-.
  split; [|split; [change (n <= num_syms g + k); lia|reflexivity]].
  intros x Hx. change (In x (rules g ++ c)) in Hx. apply in_app_or in Hx. destruct Hx as [Hx|Hx]; auto. right.
  destruct Hc as [[-> _]|[l [_ [_ Hc]]]]; [destruct Hx as [<-|[]]; auto|].
  destruct (chain_lhs _ _ _ _ _ _ Hc x Hx) as [->|K]; lia.
Qed.

Lemma wrap_fold_lhs : forall n l g g', good_limit (limit g) -> fold_res wrap_one l g = Ok g' -> n <= num_syms g ->
  forall x, In x (rules g') -> In x (rules g) \/ n <= lhs x.
Proof.
  intros n. induction l as [|R l IH]; intros g g' HL E Hn x Hx; cbn [fold_res] in E.
  - injection E as <-. auto.
  - destruct (wrap_one g R) as [g1| |] eqn:E1; try discriminate. cbn [bind] in E.
    unfold wrap_one, next_sym, src_next in E1. cbn [fst snd src rules roots wroots limit] in E1.
    apply bind_ok in E1. destruct E1 as [g4 [E3 E4]]. injection E4 as <-.
    apply add_rule_lhs with (n := n) in E3; [|exact HL|unfold num_syms in *; cbn in *; lia|unfold num_syms in *; cbn in *; lia].
    destruct E3 as [K1 [K2 K3]]. cbn [limit] in K3.
    match type of E with fold_res _ _ ?gg = _ => assert (HL2 : good_limit (limit gg)) by (cbn [limit]; rewrite K3; exact HL) end.
    destruct (IH _ _ HL2 E K2 x Hx) as [K|K]; auto.
Qed.

Lemma wrap_input_lhs : forall g g', good_limit (limit g) -> wrap_input g = Ok g' ->
  forall x, In x (rules g') -> In x (rules g) \/ num_syms g <= lhs x.
Proof. intros g g' HL E x Hx. unfold wrap_input in E. eapply wrap_fold_lhs in E; [exact E|exact HL|apply le_n|exact Hx]. Qed.

(** * The rules of wrapped roots, also when they are split *)

(** [A ::= a b c], or its two parts. *)
Definition three (P : productions) (A a b c : nat) : Prop := P A [a; b; c] \/ exists X, P X [a; b] /\ P A [X; c].

Lemma three_mono : forall (P Q : productions) A a b c, (forall B r, P B r -> Q B r) -> three P A a b c -> three Q A a b c.
Proof. intros P Q A a b c H [K|[X [K1 K2]]]; [left; auto|right; exists X; auto]. Qed.

Lemma add_rule_three : forall g r g' a b c, good_limit (limit g) -> add_rule g r = Ok g' -> rhs r = [a; b; c] -> three (prods g') (lhs r) a b c.
Proof.
  intros g r g' a b c HL E HR. destruct (add_rule_spec g r HL) as [k [d [E' [_ Hd]]]]. rewrite E' in E. injection E as <-.
  destruct Hd as [[-> _]|[l [El [Hl Hd]]]].
  - left. exists r. split; [change (In r (rules g ++ [r])); apply in_app_iff; right; left; reflexivity|auto].
  - rewrite El in HL. rewrite HR in *. cbn in HL, Hl. assert (l = 2) by lia. subst l. clear Hl.
    inversion Hd as [p s w Hw H1|p s w d' H1 H2]; subst; [cbn in H1; lia|]. cbn [skipn firstn] in *.
    inversion H2 as [p s w Hw H3|p s w d'' H3 H4]; subst; [|cbn in H3; lia].
    right. exists (num_syms g). split.
    + eexists. split; [change (In ?x (rules (added g k ?d))) with (In x (rules g ++ d)); apply in_app_iff; right; left; reflexivity|split; reflexivity].
    + eexists. split; [change (In ?x (rules (added g k ?d))) with (In x (rules g ++ d)); apply in_app_iff; right; right; left; reflexivity|split; reflexivity].
Qed.

Lemma add_rule_old : forall g r g', good_limit (limit g) -> add_rule g r = Ok g' ->
  (forall A w, prods g A w -> prods g' A w) /\ limit g' = limit g /\ wroots g' = wroots g /\ (length (rhs r) <= 2 -> prods g' (lhs r) (rhs r)).
Proof.
  intros g r g' HL E. destruct (add_rule_spec g r HL) as [k [d [E' [_ Hd]]]]. rewrite E' in E. injection E as <-.
  split; [|split; [reflexivity|split; [reflexivity|]]].
  - intros A w [x [Hx K]]. exists x. split; [change (In x (rules g ++ d)); apply in_app_iff; auto|exact K].
  - intros H2. destruct Hd as [[-> _]|[l [El [Hl _]]]].
    + exists r. split; [change (In r (rules g ++ [r])); apply in_app_iff; right; left; reflexivity|auto].
    + exfalso. rewrite El in HL. cbn in HL. lia.
Qed.

Lemma wrap_fold_three : forall l g g', good_limit (limit g) -> fold_res wrap_one l g = Ok g' ->
  (forall W, In W (wroots g) -> three (prods g) (wr_root W) (wr_start W) (wr_inner W) (wr_end W)) ->
  forall W, In W (wroots g') -> three (prods g') (wr_root W) (wr_start W) (wr_inner W) (wr_end W).
Proof.
  induction l as [|R l IH]; intros g g' HL E H W HW; cbn [fold_res] in E.
  - injection E as <-. auto.
  - destruct (wrap_one g R) as [g1| |] eqn:E1; try discriminate. cbn [bind] in E.
    unfold wrap_one, next_sym, src_next in E1. cbn [fst snd src rules roots wroots limit] in E1.
    apply bind_ok in E1. destruct E1 as [g4 [E3 E4]]. injection E4 as <-.
    pose proof (add_rule_three _ _ _ _ _ _ (HL : good_limit (limit (mkCfg _ _ _ _ _))) E3 eq_refl) as T. cbn [lhs] in T.
    destruct (add_rule_old _ _ _ (HL : good_limit (limit (mkCfg _ _ _ _ _))) E3) as [K1 [K2 [K3 _]]]. cbn [limit wroots] in K2, K3.
    refine (IH _ _ _ E _ W HW); [cbn [limit]; rewrite K2; exact HL|].
    intros W' HW'. cbn [wroots] in HW'. rewrite K3 in HW'. apply in_app_or in HW'. destruct HW' as [HW'|[<-|[]]]; [|exact T].
    eapply three_mono; [|apply H; exact HW']. intros B r HB. change (prods g4 B r). apply K1. exact HB.
Qed.

Lemma limit_fold_parts : forall rs g g', good_limit (limit g) -> fold_res add_rule rs g = Ok g' ->
  (forall A w, prods g A w -> prods g' A w) /\
  forall x, In x rs -> (length (rhs x) <= 2 -> prods g' (lhs x) (rhs x)) /\
    forall a b c, rhs x = [a; b; c] -> three (prods g') (lhs x) a b c.
Proof.
  induction rs as [|r rs IH]; intros g g' HL E; cbn [fold_res] in E.
  - injection E as <-. split; auto. intros x [].
  - destruct (add_rule g r) as [g1| |] eqn:E1; try discriminate. cbn [bind] in E.
    destruct (add_rule_old g r g1 HL E1) as [K1 [K2 [_ K3]]]. destruct (IH g1 g' ltac:(rewrite K2; exact HL) E) as [M1 M2].
    split; auto. intros x [<-|Hx]; [|apply M2; exact Hx]. split; auto. intros a b c HR. eapply three_mono; [exact M1|]. eapply add_rule_three; eauto.
Qed.

Lemma limit_bound2 : forall g g', good_limit (limit g) -> limit_rhs_len g (Some 2) = Ok g' -> forall A a b c, three (prods g) A a b c ->
  Forall (fun x => length (rhs x) <= 2) (rules g') -> exists X, prods g' X [a; b] /\ prods g' A [X; c].
Proof.
  intros g g' HL E A a b c T HB. unfold limit_rhs_len in E.
  destruct (limit_fold_parts (rules g) (mkCfg (src g) [] (roots g) (wroots g) (Some 2)) g' (le_n 2 : good_limit (Some 2)) E) as [_ M].
  destruct T as [[x [Hx [<- HR]]]|[X [[x [Hx [Hxl Hxr]]] [y [Hy [Hyl Hyr]]]]]].
  - destruct (M x Hx) as [_ M2]. destruct (M2 a b c HR) as [[y [Hy [_ Ey]]]|K]; [|exact K]. exfalso.
    rewrite Forall_forall in HB. specialize (HB y Hy). rewrite Ey in HB. cbn in HB. lia.
  - exists X. destruct (M x Hx) as [M1 _]. destruct (M y Hy) as [M2 _]. rewrite Hxl, Hxr in M1. rewrite Hyl, Hyr in M2. split; [apply M1|apply M2]; cbn; lia.
Qed.

Lemma closure_all_nested : forall (P : productions) (S0 K : nat -> Prop), (forall s, S0 s -> K s) ->
  (forall A r, P A r -> r <> [] -> Forall (closure_all P S0) r -> Forall K r -> K A) -> forall s, closure_all P S0 s -> K s.
Proof.
  intros P S0 K H0 H1. fix IH 2. intros s [s' Hs|A r HA HN HF]; [exact (H0 _ Hs)|]. apply (H1 A r HA HN HF).
  revert HF. clear HN HA. intros HF. induction HF as [|x l Hx _ IHl]; constructor; [apply IH; exact Hx|exact IHl].
Qed.

(** * Elimination keeps rules whose left-hand sides have strings *)

Section Live.
  Context (g g1 g' result : cfg) (p q : bitset).
  Hypothesis (HC : closed_rules g) (EL : eliminated g g1 g' result p q).

  (** Every symbol with a string has a string afterwards, perhaps as a terminal. *)
  Lemma elim_productive : forall s, s < num_syms g1 -> productive (prods g1) s -> productive (prods g') s.
  Proof.
    intros s Hs HP. destruct (el_cases _ _ _ _ _ _ EL) as [[_ ->]|[HR HQ]]; auto.
    assert (IN : forall x, In x (rules g') -> In x (pre_rules p (rules g1))) by (intros x Hx; rewrite HR in Hx; apply filter_In in Hx; tauto).
    destruct (bit q s) eqn:B.
    - apply bit_member, HQ in B. clear HP Hs. revert s B. apply closure_all_nested; [intros s [_ [T _]]|intros A r HA HNE HF IH].
      + exists [s]. split; [constructor|]. constructor; [|constructor]. intros r [x [Hx [<- <-]]]. apply (T (rhs x)). exists x. auto.
      + apply productive_list in IH. destruct IH as [v [D T]]. exists v. split; auto. eapply derives_rule_then; [|exact D].
        destruct HA as [x [Hx [<- <-]]]. exists x. split; [|auto]. rewrite HR. apply filter_In. split; [exact Hx|].
        apply bit_member, HQ. eapply ca_rule; [exists x; auto|exact HNE|exact HF].
    - exists [s]. split; [constructor|]. constructor; [|constructor]. intros r [x [Hx [EX _]]]. rewrite HR in Hx. apply filter_In in Hx.
      destruct Hx as [_ Hx]. rewrite EX, B in Hx. discriminate.
  Qed.

  (** The two rules that derive [a; b; c] from A. *)
  Lemma elim_keeps_three : forall A X a b c v, prods g1 X [a; b] -> prods g1 A [X; c] -> old_terminal g a -> old_terminal g c ->
    derives (prods g1) [b] v -> Forall (old_terminal g) v -> derives (prods g') [A] [a; b; c].
  Proof.
    intros A X a b c v HX HA Ta Tc D T. apply (derives_step _ [] A [] [X; c]); [|apply (derives_step _ [] X [c] [a; b]); [|constructor]];
      (destruct (el_cases _ _ _ _ _ _ EL) as [[_ ->]|[HR HQ]]; [assumption|]);
      pose proof (old_terminal_live g g1 g' result p q HC EL a Ta) as La; pose proof (old_terminal_live g g1 g' result p q HC EL c Tc) as Lc;
      set (live := closure_all _ _) in *.
    all: assert (LX : live X).
    1, 3: destruct v as [|t v];
      [eapply ca_rule; [apply (PP_right g1 p X a b HX); apply (el_nullable _ _ _ _ _ _ EL); exact D|discriminate|constructor; [exact La|constructor]]
      |eapply ca_rule; [apply (PP_rule g1 p X [a; b] HX); discriminate|discriminate|constructor; [exact La|constructor; [|constructor]]];
       apply derives_yields in D; apply (yields_splits g g1 g' result p q EL) in D; apply lift_single in D; destruct D as [[? _]|[_ D]]; [discriminate|];
       apply (live_derives g1 g' result p q) in D; [destruct D as [D _]; inversion D; assumption| |exact HQ|exact HR];
       eapply Forall_impl; [|exact T]; apply (old_terminal_live g g1 g' result p q HC EL)].
    - assert (LA : live A) by (eapply ca_rule; [apply (PP_rule g1 p A [X; c] HA); discriminate|discriminate|constructor; [exact LX|constructor; [exact Lc|constructor]]]).
      destruct HA as [x [Hx [EX ER]]]. exists x. split; [|auto]. rewrite HR. apply filter_In. split; [apply pre_In; split; [rewrite ER; discriminate|auto]|].
      apply bit_member. rewrite EX. apply HQ. exact LA.
    - destruct HX as [x [Hx [EX ER]]]. exists x. split; [|auto]. rewrite HR. apply filter_In. split; [apply pre_In; split; [rewrite ER; discriminate|auto]|].
      apply bit_member. rewrite EX. apply HQ. exact LX.
  Qed.
End Live.

Lemma elim_sound1 : forall g g1 g' result p q, closed_rules g -> eliminated g g1 g' result p q ->
  forall A w, derives1 (prods g') [A] w -> derives1 (prods g1) [A] w.
Proof.
  intros g g1 g' result p q HC EL A w H. apply derives1_single in H. destruct H as [r [HR HD]].
  apply (elim_sound g g1 g' result p q EL) in HD. apply derives1_trans_l with (v := r); [|exact HD].
  destruct (el_cases _ _ _ _ _ _ EL) as [[_ ->]|[HX _]].
  - apply derives1_single. exists r. split; [exact HR|constructor].
  - assert (PPr : pre_prods p (rules g1) A r).
    { destruct HR as [x [Hx [<- <-]]]. rewrite HX in Hx. apply filter_In in Hx. exists x. split; [tauto|auto]. }
    clear HR HD. destruct PPr as [x [Hx [<- <-]]]. apply pre_In in Hx. destruct Hx as [_ [Hx|[y [Hy Hx]]]].
    + apply derives1_single. exists (rhs x). split; [exists x; auto|constructor].
    + apply works_In in Hx. destruct Hx as [-> [a [b [E H]]]]. apply derives1_single. exists [a; b].
      split; [exists y; auto|].
      assert (HN : forall s, bit p s = true -> derives (prods g1) [s] []).
      { intros s Hs. apply bit_member in Hs. apply (el_nullable _ _ _ _ _ _ EL) in Hs. exact Hs. }
      assert (HL : bit p a = true -> derives (prods g1) [a; b] [b]).
      { intros Ha. change (derives (prods g1) ([a] ++ [b]) ([] ++ [b])). apply derives_app; [auto|constructor]. }
      assert (HRr : bit p b = true -> derives (prods g1) [a; b] [a]).
      { intros Hb. change (derives (prods g1) ([a] ++ [b]) ([a] ++ [])). apply derives_app; [constructor|auto]. }
      destruct H as [[H1 [H2 [_ [H|H]]]]|[[H1 [_ [H _]]]|[_ [H1 [H _]]]]]; rewrite H; auto.
Qed.

Lemma unit_derives1 : forall P A B, unit_derives P A B -> derives1 P [A] [B].
Proof.
  intros P A B H. induction H as [A B [H _]|A B C _ IH1 _ IH2].
  - apply derives1_single. exists [B]. split; [exact H|constructor].
  - eapply derives1_trans_l; [exact IH1|]. apply derives1_derives. exact IH2.
Qed.

(** * Derivations of strings of productive symbols use useful rules *)

Lemma useful_part_forms_kept : forall P l u w, derives P u w -> Forall (productive P) w -> Forall (reachable_from P l) u ->
  derives (useful_part P l) u w.
Proof.
  intros P l u w HD HT HU. apply derives_yields in HD. apply yields_derives.
  induction HD as [|s u v H IH|A r u w1 w2 HP H1 IH1 H2 IH2].
  - constructor.
  - inversion HT; inversion HU; subst. constructor. auto.
  - apply Forall_app in HT. inversion HU; subst. apply y_rule with r; [|apply IH1|apply IH2]; try tauto.
    + split; auto. split; auto. destruct HT as [HT _]. apply productive_list in HT. destruct HT as [v [D T]].
      exists v. split; auto. eapply derives_trans; [apply yields_derives; exact H1|exact D].
    + eapply reachable_step; eauto.
Qed.

Lemma make_proper_forms : forall g b g' R w, closed_rules g -> Forall (fun s => s < num_syms g) (roots g) -> make_proper g = Ok (b, g') ->
  In R (roots g) -> derives (prods g) [R] w -> Forall (productive (prods g)) w ->
  derives (prods g') [R] w /\ Forall (productive (prods g')) w.
Proof.
  intros g b g' R w HC HR E HI D HP. destruct (C32_rules_kept g HC HR) as [b2 [g2 [E2 [K [_ _]]]]]. rewrite E in E2. injection E2 as <- <-.
  assert (HE : forall A r, prods g' A r <-> useful_part (prods g) (roots g) A r).
  { intros A r. unfold prods at 1, useful_part. split.
    - intros [x [Hx [<- <-]]]. apply K in Hx. destruct Hx as [Hx HU]. split; [exists x; auto|exact HU].
    - intros [[x [Hx [<- <-]]] HU]. exists x. split; [apply K; auto|auto]. }
  assert (RR : Forall (reachable_from (prods g) (roots g)) [R]) by (constructor; [apply root_reachable; exact HI|constructor]).
  split.
  - apply (derives_ext _ _ HE). apply useful_part_forms_kept; auto.
  - assert (RW : Forall (reachable_from (prods g) (roots g)) w).
    { apply (derives_Forall (prods g) (reachable_from (prods g) (roots g))) with (u := [R]); auto.
      intros A r HA HRA. eapply reachable_step; eauto. }
    rewrite Forall_forall in *. intros s Hs. destruct (useful_part_productive _ _ s (RW s Hs) (HP s Hs)) as [v [D' T]].
    exists v. split; [apply (derives_ext _ _ HE); exact D'|]. eapply Forall_impl; [|exact T]. intros a Ha. apply (terminal_ext _ _ HE). exact Ha.
Qed.

(** * The derivation of the root between the markers *)

Lemma prepare_inner : forall g g' W v, closed_rules g -> Forall (fun s => s < num_syms g) (roots g) -> good_limit (limit g) ->
  prepare g = Ok g' -> In W (wroots g') -> language (prods g) (wr_inner W) v ->
  ~ derives1 (prods g) [wr_inner W] [wr_inner W] ->
  derives (prods g') [wr_root W] [wr_start W; wr_inner W; wr_end W].
Proof.
  intros g g' W v HC HR HG E HW LV NC.
  destruct (prepare_spec g HC HR HG) as [g1 [g'' [E1 [E' [_ [WR _]]]]]]. rewrite E in E'. injection E' as <-. rewrite WR in HW. clear WR.
  destruct (C18_wrap_input g HC HR HG) as [g1' [E1' [R1 [R2 [R3 R4]]]]]. rewrite E1 in E1'. injection E1' as <-.
  destruct (wrap_input_inv g HC HR HG) as [g1' [Cs [E1' [WI _]]]]. rewrite E1 in E1'. injection E1' as <-.
  destruct (wrap_input_fresh g g1 HC HR HG E1) as [L1 [HC1 [N1 HF1]]].
  destruct (R3 W HW) as [ND [B1 [B2 [B3 [T1 [T2 _]]]]]]. destruct (HF1 W HW) as [C1 [C2 [C3 NR]]].
  assert (BI : wr_inner W < num_syms g) by (rewrite Forall_forall in HR; apply HR; rewrite <- R2; apply in_map; exact HW).
  (* in the wrapped grammar *)
  assert (D1 : three (prods g1) (wr_root W) (wr_start W) (wr_inner W) (wr_end W)).
  { unfold wrap_input in E1. eapply wrap_fold_three in E1; [exact E1|exact HG|intros W' []|exact HW]. }
  assert (LV1 : language (prods g1) (wr_inner W) v) by (apply R4; auto).
  assert (NC1 : ~ derives1 (prods g1) [wr_inner W] [wr_inner W]).
  { intros X. apply NC. clear -X BI HC E1 HG.
    assert (OLD : forall A r, A < num_syms g -> prods g1 A r -> prods g A r).
    { intros A r HA [x [Hx [<- <-]]]. destruct (wrap_input_lhs g g1 HG E1 x Hx) as [K|K]; [exists x; auto|lia]. }
    assert (DD : forall u w, derives (prods g1) u w -> Forall (fun s => s < num_syms g) u -> derives (prods g) u w).
    { intros u w D. induction D as [u|u A y r w HP D IH]; intros HU; [constructor|].
      apply Forall_app in HU. destruct HU as [U1 U2]. inversion U2 as [|? ? HA U3]; subst. pose proof (OLD _ _ HA HP) as HP'.
      eapply derives_step; [exact HP'|]. apply IH. apply Forall_app. split; auto. apply Forall_app. split; auto.
      destruct HP' as [x [Hx [_ <-]]]. apply (HC x Hx). }
    apply derives1_single in X. destruct X as [r [HP D]]. apply OLD in HP; [|exact BI]. apply derives1_single. exists r. split; auto. apply DD; auto.
    destruct HP as [x [Hx [_ <-]]]. apply (HC x Hx). }
  assert (TV1 : Forall (old_terminal g1) v).
  { destruct LV1 as [D T]. assert (BV : Forall (fun s => s < num_syms g1) v).
    { apply (derives_Forall (prods g1) (fun s => s < num_syms g1)) with (u := [wr_inner W]); [|exact D|constructor; [lia|constructor]].
      intros A r [x [Hx [_ <-]]] _. apply (HC1 x Hx). }
    clear -T BV. induction T; constructor; inversion BV; subst; auto. split; auto. }
  (* elimination *)
  unfold prepare in E. rewrite E1 in E. cbn [bind] in E.
  destruct (eliminate_nulling g1) as [[g2 res2]| |] eqn:E2; try discriminate. cbn [bind] in E.
  destruct (elim_inv g1 g2 res2 HC1 E2) as [g1b [p [q EL]]].
  pose proof (g1_num g1 g1b g2 res2 p q HC1 EL) as NB.
  pose proof (g1_closed g1 g1b g2 res2 p q HC1 EL) as HCB.
  pose proof (rp_rep _ _ _ (g1_Repr g1 g1b g2 res2 p q HC1 EL)) as RB.
  assert (N2 : num_syms g2 = num_syms g1b) by (unfold num_syms; rewrite (el_src _ _ _ _ _ _ EL); reflexivity).
  destruct (el_roots _ _ _ _ _ _ EL) as [RO2 [WR2 LI2]].
  assert (HC2 : closed_rules g2).
  { intros x Hx. rewrite N2. destruct (el_cases _ _ _ _ _ _ EL) as [[_ Eg]|[ER _]]; [subst g2; apply HCB; exact Hx|].
    rewrite ER in Hx. apply filter_In in Hx. destruct Hx as [Hx _]. apply pre_In in Hx. destruct Hx as [_ [Hx|[y [Hy Hx]]]]; [apply HCB; exact Hx|].
    exact (works_closed g1b p y HCB Hy x Hx). }
  assert (LOW : forall u w, derives (prods g1) u w -> Forall (fun s => s < num_syms g1) u -> Forall (fun s => s < num_syms g1) w -> derives (prods g1b) u w).
  { intros u w D HU HWW. apply (represents_derives _ _ _ RB); auto; [eapply Forall_impl; [|exact HU]|eapply Forall_impl; [|exact HWW]]; cbn; intros; lia. }
  assert (IB : derives (prods g1b) [wr_inner W] v).
  { apply LOW; [apply LV1|constructor; [lia|constructor]|]. eapply Forall_impl; [|exact TV1]. intros a [K _]. exact K. }
  destruct (limit_bound2 g1 g1b ltac:(rewrite L1; exact HG) (el_limit _ _ _ _ _ _ EL) _ _ _ _ D1 (g1_len g1 g1b g2 res2 p q EL)) as [X0 [DX DA]].
  assert (D2 : derives (prods g2) [wr_root W] [wr_start W; wr_inner W; wr_end W]).
  { apply (elim_keeps_three g1 g1b g2 res2 p q HC1 EL _ X0 _ _ _ v); auto; split; auto. }
  assert (PV2 : productive (prods g2) (wr_inner W)).
  { apply (elim_productive g1 g1b g2 res2 p q EL); [lia|]. exists v. split; auto. eapply Forall_impl; [|exact TV1].
    intros a K. exact (old_terminal_P1 g1 g1b g2 res2 p q HC1 EL a K). }
  assert (NC2 : ~ unit_derives (prods g2) (wr_inner W) (wr_inner W)).
  { intros X. apply unit_derives1 in X. apply (elim_sound1 g1 g1b g2 res2 p q HC1 EL) in X. apply NC1.
    assert (KP : kept (num_syms g1) (prods g1) (prods g1b)).
    { apply (limit_kept g1 (Some 2) g1b HC1); [cbn; lia|apply (el_limit _ _ _ _ _ _ EL)]. }
    apply (k_back1 _ _ _ KP); auto; [lia|constructor; [lia|constructor]]. }
  pose proof (elim_syms g1 g1b g2 res2 p q EL) as SY2.
  assert (TT2 : forall a, a < num_syms g1 -> terminal (prods g1) a -> terminal (prods g2) a).
  { intros a Ha HT r [x [Hx [HL HRr]]]. destruct (SY2 x Hx) as [[H|[y [Hy H]]] _]; [lia|].
    apply (HT (rhs y)). exists y. split; auto. split; [congruence|reflexivity]. }
  assert (NCR : ~ unit_derives (prods g2) (wr_root W) (wr_root W)).
  { apply not_in_rhs_no_cycle. intros x Hx HX. destruct (SY2 x Hx) as [_ HS]. destruct (HS _ HX) as [H|[y [Hy H]]]; [lia|]. exact (NR y Hy H). }
  assert (NCT : forall a, terminal (prods g2) a -> ~ unit_derives (prods g2) a a).
  { intros a T X. apply unit_derives1 in X. apply derives1_single in X. destruct X as [r [X _]]. exact (T r X). }
  (* cycles *)
  assert (HG2 : good_limit (limit g2)) by (rewrite LI2; simpl; lia).
  destruct (rewrite_cycles_spec g2 HC2 HG2) as [c [c' [r [E3 [E3' RW]]]]].
  rewrite E3 in E. cbn [bind] in E. rewrite E3' in E. cbn [bind] in E. set (g3 := cy_grammar c') in *.
  destruct (rw_repr _ _ _ RW) as [V [RP [HV [_ [_ [DVV _]]]]]]. fold g3 in RP. pose proof (rp_closed _ _ _ RP) as HC3.
  pose proof (rw_num _ _ _ RW) as N3. pose proof (rw_roots _ _ _ RW) as RO3. fold g3 in N3, RO3.
  assert (UP : forall A w, ~ unit_derives (prods g2) A A -> Forall (fun s => ~ unit_derives (prods g2) s s) w ->
    A < num_syms g2 -> Forall (fun s => s < num_syms g2) w -> derives (prods g2) [A] w -> derives (prods g3) [A] w).
  { intros A w HA HWc BA BW D. apply (DVV [A] w HWc) in D. cbn [map] in D. rewrite (rw_id _ _ _ RW A HA) in D.
    apply (represents_derives _ _ _ (rp_rep _ _ _ RP)); auto; [constructor; [lia|constructor]|]. eapply Forall_impl; [|exact BW]. cbn; intros; lia. }
  assert (T3 : forall a, a < num_syms g2 -> terminal (prods g2) a -> terminal (prods g3) a).
  { intros a Ha T. apply (represents_terminal _ _ _ (rp_rep _ _ _ RP)). split; [lia|]. intros w K. apply HV in K. destruct K as [x [Hx [_ [-> _]]]].
    destruct (rewrite_cycles_dec g2 HC2 (lhs x)) as [HU|HU].
    - destruct (rw_first _ _ _ RW _ HU) as [pre [z [post [_ [_ [_ [[_ H4] _]]]]]]].
      apply unit_derives1, derives1_single in H4. destruct H4 as [w' [H4 _]]. exact (T w' H4).
    - rewrite (rw_id _ _ _ RW) in T by auto. apply (T (rhs x)). exists x. auto. }
  assert (D3 : derives (prods g3) [wr_root W] [wr_start W; wr_inner W; wr_end W]).
  { apply UP; auto; [|lia|repeat constructor; lia]. constructor; [apply NCT, TT2; auto|]. constructor; [exact NC2|]. constructor; [apply NCT, TT2; auto|constructor]. }
  assert (P3 : Forall (productive (prods g3)) [wr_start W; wr_inner W; wr_end W]).
  { assert (PT : forall a, a < num_syms g1 -> terminal (prods g1) a -> productive (prods g3) a).
    { intros a Ha T. exists [a]. split; [constructor|]. constructor; [apply T3; [lia|apply TT2; auto]|constructor]. }
    constructor; [apply PT; auto|]. constructor; [|constructor; [apply PT; auto|constructor]]. destruct PV2 as [v2 [DV2 TV2]].
    assert (BV2 : Forall (fun s => s < num_syms g2) v2).
    { apply (derives_Forall (prods g2) (fun s => s < num_syms g2)) with (u := [wr_inner W]); [|exact DV2|constructor; [lia|constructor]].
      intros A w [x [Hx [_ <-]]] _. apply (HC2 x Hx). }
    exists v2. split; [apply UP; auto; [|lia]; eapply Forall_impl; [|exact TV2]; exact NCT|].
    clear -TV2 BV2 T3. induction TV2; constructor; inversion BV2; subst; auto. }
  (* the two calls of make_proper *)
  assert (IR3 : In (wr_root W) (roots g3)) by (rewrite RO3, RO2, R1; apply in_map; exact HW).
  assert (HR3 : Forall (fun s => s < num_syms g3) (roots g3)).
  { rewrite RO3, RO2, R1. apply Forall_forall. intros R HRR. apply in_map_iff in HRR. destruct HRR as [W' [<- HW']]. destruct (HF1 W' HW') as [K _]. lia. }
  destruct (make_proper_keeps g3 HC3 HR3) as [b4 [g4 [E4 [HC4 [RO4 [_ [N4 _]]]]]]]. rewrite E4 in E. cbn [bind] in E.
  destruct (make_proper_forms g3 b4 g4 _ _ HC3 HR3 E4 IR3 D3 P3) as [D4 P4].
  assert (HR4 : Forall (fun s => s < num_syms g4) (roots g4)) by (rewrite RO4, N4; exact HR3).
  destruct (make_proper g4) as [[b5 g5]| |] eqn:E5; try discriminate. cbn [bind] in E. injection E as <-.
  apply (make_proper_forms g4 b5 g5 _ _ HC4 HR4 E5); auto. rewrite RO4. exact IR3.
Qed.

(** ** C101 *)

(** Conditions on the original grammar only: there is a root, and each root has a string and does not derive itself in one or more
    steps.  Then the prepared grammar can be renumbered in any way. *)
Theorem C101_roots_partial : forall g g' ops, closed g -> names_wf g -> good_limit (limit g) ->
  prepare g = Ok g' -> roots g <> [] ->
  Forall (fun R => productive (prods g) R /\ ~ derives1 (prods g) [R] [R]) (roots g) ->
  Forall (occurs (prods g')) (roots g) /\ used_roots g' /\ rules g' <> [] /\
  exists r, remap_run ops g' = Ok r /\
  let g'' := rm_grammar r in let m := rm_mapping r in
  Forall2 (fun W W' => internal_of m (wr_root W) = Some (wr_root W') /\ internal_of m (wr_inner W) = Some (wr_inner W') /\
                       internal_of m (wr_start W) = Some (wr_start W') /\ internal_of m (wr_end W) = Some (wr_end W'))
          (wroots g') (wroots g'') /\
  forall W W' w y, In W (wroots g') -> internal_of m (wr_root W) = Some (wr_root W') -> Forall (input_symbol g g') w ->
    Forall2 (fun a b => internal_of m a = Some b) w y ->
    (language (prods g'') (wr_root W') y <-> exists v, language (prods g) (wr_inner W) v /\ w = wr_start W :: v ++ [wr_end W]).
Proof.
  intros g g' ops HC HN HG E HNR HF.
  assert (HO : Forall (occurs (prods g')) (roots g)).
  { destruct HC as [HC [HR _]]. destruct (C100_prepared g HC HR HG) as [g2 [E2 [RO [WR [HW _]]]]]. rewrite E in E2. injection E2 as <-.
    rewrite Forall_forall in *. intros R HRi. destruct (HF R HRi) as [[v LV] NC].
    assert (HRi2 : In R (map wr_inner (wroots g'))) by (rewrite WR; exact HRi). apply in_map_iff in HRi2. destruct HRi2 as [W [EW HI]]. subst R.
    assert (D : derives (prods g') [wr_root W] [wr_start W; wr_inner W; wr_end W]).
    { apply (prepare_inner g g' W v); auto. apply Forall_forall. exact HR. }
    assert (O : Forall (fun s => s = wr_root W \/ occurs (prods g') s) [wr_start W; wr_inner W; wr_end W]).
    { apply (derives_Forall (prods g') (fun s => s = wr_root W \/ occurs (prods g') s)) with (u := [wr_root W]); [|exact D|constructor; auto].
      intros B r HB _. apply Forall_forall. intros s Hs. right. exists B, r. auto. }
    inversion O as [|? ? _ O2]; subst. inversion O2 as [|? ? [K|K] _]; subst; [|exact K]. exfalso.
    destruct (HW W HI) as [_ [B _]]. specialize (HR _ HRi). lia. }
  split; [exact HO|]. apply (C101_sentences_partial g g' ops HC HN HG E HNR).
  rewrite Forall_forall in *. intros R HRi. destruct (HF R HRi) as [PR _]. split; [exact PR|apply HO; exact HRi].
Qed.
Print Assumptions C101_roots_partial.

(** L ::= L I |  ;  I ::= P | x ;  P ::= I ;  U ::= U : the root L has the string x, and does not derive itself.  There is a cycle of
    other symbols. *)
Example C101_roots_example : closed ex_pipe /\ names_wf ex_pipe /\ good_limit (limit ex_pipe) /\ roots ex_pipe = [0] /\
  language (prods ex_pipe) 0 [3] /\ ~ derives1 (prods ex_pipe) [0] [0] /\ unit_derives (prods ex_pipe) 1 1 /\
  exists g', prepare ex_pipe = Ok g'.
Proof.
  assert (IN : forall A r, prods ex_pipe A r -> In (A, r) [(0, [0; 1]); (0, []); (1, [2]); (1, [3]); (2, [1]); (4, [4])]).
  { intros A r [x [Hx [<- <-]]]. simpl in Hx. repeat (destruct Hx as [<-|Hx]; [cbn; tauto|]). destruct Hx. }
  assert (RU : forall i x, nth_error (rules ex_pipe) i = Some x -> prods ex_pipe (lhs x) (rhs x)).
  { intros i x H. exists x. split; [eapply nth_error_In; exact H|auto]. }
  split; [split; [closed_tac|split; repeat constructor]|]. split; [reflexivity|]. split; [exact I|]. split; [reflexivity|]. split; [|split; [|split]].
  - split.
    + apply (derives_step _ [] 0 [] [0; 1]); [apply (RU 0 _ eq_refl)|]. apply (derives_step _ [] 0 [1] []); [apply (RU 1 _ eq_refl)|].
      apply (derives_step _ [] 1 [] [3]); [apply (RU 3 _ eq_refl)|]. constructor.
    + constructor; [|constructor]. intros r H. apply IN in H. cbn in H. repeat (destruct H as [H|H]; [discriminate|]). destruct H.
  - intros H. apply derives1_single in H. destruct H as [r [HP D]].
    assert (K : forall u w, derives (prods ex_pipe) u w -> Exists (fun s => In s [1; 2; 3]) u -> Exists (fun s => In s [1; 2; 3]) w).
    { intros u w H. induction H as [u|u A v q w HA H IH]; auto. intros HX. apply IH. apply IN in HA.
      apply Exists_app in HX. rewrite !Exists_app. destruct HX as [HX|HX]; auto. right. inversion HX as [? ? HS|? ? HS]; subst; auto. left.
      cbn in HA. destruct HA as [HA|[HA|[HA|[HA|[HA|[HA|[]]]]]]]; injection HA as <- <-; try (cbn in HS; lia); apply Exists_cons_hd; cbn; auto. }
    apply IN in HP. cbn in HP. destruct HP as [HP|[HP|HP]].
    + injection HP as <-. apply K in D; [|apply Exists_cons_tl, Exists_cons_hd; cbn; auto]. inversion D as [? ? X|? ? X]; subst; [cbn in X; lia|inversion X].
    + injection HP as <-. apply derives_nil_inv in D. discriminate D.
    + repeat (destruct HP as [HP|HP]; [discriminate|]). destruct HP.
  - apply t_trans with (y := 2); apply t_step; (split; [|discriminate]); [apply (RU 2 _ eq_refl)|apply (RU 4 _ eq_refl)].
  - eexists. vm_compute. reflexivity.
Qed.
