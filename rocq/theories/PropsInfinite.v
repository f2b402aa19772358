(** Property C114: elimination of nulling rules decides which grammars have strings with infinitely many parse trees. *)

From Coq Require Import List Arith NArith Bool Lia Relations.
From Verif Require Import Base ListFacts Spec SpecClassify SpecTree SetView GrammarFacts TreeProof TreeLang LoopModel SymbolModel HistoryModel CfgModel View
  CfgProof BitSetModel ClosureModel SetProof MatrixModel MatrixProof ClassifyModel UsefulProof CyclesProof ElimModel ElimProof PropsGrammar PropsElim PropsClassify
  LLProof PropsLL LLTree PropsLLTree PropsPipe SplitProof PropsSplit FiniteProof FiniteNull PropsFinite PropsElimSets.
Import ListNotations.
Local Notation length := List.length.

(** Without empty rules, a symbol that derives itself does so by rules with one symbol. *)
Section NoEmpty.
  Context (P : productions).
  Hypothesis no_empty : forall A r, P A r -> r <> [].

  Lemma derives_longer : forall u w, derives P u w -> length u <= length w.
  Proof.
    induction 1 as [u|u A v r w HP HD IH]; auto. rewrite !app_length in *. simpl. apply no_empty in HP. destruct r; [congruence|simpl in IH; lia].
  Qed.

  Lemma single_units : forall u w, derives P u w -> forall a b, u = [b] -> w = [a] -> clos_refl_trans _ (unit_step P) b a.
  Proof.
    induction 1 as [u|u A v r w HP HD IH]; intros a b Eu Ew.
    - subst. injection Ew as <-. apply rt_refl.
    - assert (u = [] /\ A = b /\ v = []) as [-> [-> ->]].
      { destruct u as [|x u]; [injection Eu as <- ->; auto|]. destruct u; discriminate. }
      simpl in *. rewrite app_nil_r in *. pose proof (derives_longer _ _ HD) as HL. subst w. simpl in HL. pose proof (no_empty _ _ HP) as HN.
      destruct r as [|c [|d r]]; [congruence| |simpl in HL; lia]. specialize (IH a c eq_refl eq_refl).
      destruct (Nat.eq_dec b c) as [->|HE]; auto. eapply rt_trans; [apply rt_step; split; eauto|exact IH].
  Qed.

  Lemma self_iff : forall a, derives1 P [a] [a] <-> P a [a] \/ unit_derives P a a.
  Proof.
    assert (UD : forall a b, unit_derives P a b -> derives1 P [a] [b]).
    { intros a b H. induction H as [a b [H _]|a b c _ I1 _ I2]; [apply derives1_single; exists [b]; split; auto; constructor|].
      eapply derives1_trans_l; [exact I1|]. apply derives1_derives, I2. }
    intros a. split.
    - intros H. apply derives1_single in H. destruct H as [r [HP HD]]. pose proof (derives_longer _ _ HD) as HL. pose proof (no_empty _ _ HP) as HN.
      destruct r as [|c [|d r]]; [congruence| |simpl in HL; lia]. destruct (Nat.eq_dec a c) as [->|HE]; auto.
      right. pose proof (single_units _ _ HD a c eq_refl eq_refl) as X. assert (S1 : unit_step P a c) by (split; auto).
      revert S1. apply clos_rt_rt1n in X.
      assert (G : forall x y, clos_refl_trans_1n _ (unit_step P) x y -> forall z, unit_step P z x -> unit_derives P z y).
      { clear. induction 1 as [x|x y z Y _ IH]; intros t S1; [apply t_step; exact S1|]. eapply t_trans; [apply t_step; exact S1|]. apply IH. exact Y. }
      intros S1. exact (G _ _ X _ S1).
    - intros [H|H]; [apply derives1_single; exists [a]; split; auto; constructor|auto].
  Qed.
End NoEmpty.

Lemma derives_nil_all : forall P u, derives P u [] -> Forall (nullable P) u.
Proof.
  intros P u. induction u as [|a u IH]; intros H; constructor.
  - change (a :: u) with ([a] ++ u) in H. apply derives_app_inv in H. destruct H as [x [y [E [H1 _]]]]. symmetry in E. apply app_eq_nil in E. destruct E as [-> _]. exact H1.
  - apply IH. change (a :: u) with ([a] ++ u) in H. apply derives_app_inv in H. destruct H as [x [y [E [_ H2]]]]. symmetry in E. apply app_eq_nil in E. destruct E as [_ ->]. exact H2.
Qed.

Lemma all_derives_nil : forall P u, Forall (nullable P) u -> derives P u [].
Proof. intros P u H. induction H as [|a u H _ IH]; [constructor|]. apply (derives_app P [a] u [] []); auto. Qed.

Section Elim.
  Context (g g1 g' result : cfg) (p q : bitset).
  Hypothesis (HC : closed_rules g) (EL : eliminated g g1 g' result p q).
  Notation P1 := (prods g1).

  Lemma if_result : forall A r, prods result A r <-> P1 A r /\ Forall (nullable P1) r.
  Proof.
    intros A r. rewrite (result_prods g g1 g' result p q EL). split; intros [H1 H2]; split; auto; (eapply Forall_impl; [|exact H2]); intros a; apply (el_nullable _ _ _ _ _ _ EL).
  Qed.

  Lemma if_forms : forall u w, derives (prods result) u w -> Forall (nullable P1) u -> Forall (nullable P1) w.
  Proof.
    induction 1 as [u|u A v r w HP HD IH]; intros F; auto. apply IH. apply Forall_app in F. destruct F as [F1 F2]. inversion F2; subst.
    apply Forall_app. split; auto. apply Forall_app. split; auto. apply if_result in HP. tauto.
  Qed.

  Lemma if_back : forall u w, derives P1 u w -> forall a, w = [a] -> nullable P1 a -> exists x y, derives (prods result) u (x ++ a :: y).
  Proof.
    induction 1 as [u|u A v r w HP HD IH]; intros a Ew HN; [exists [], []; subst; constructor|].
    destruct (IH a Ew HN) as [x [y D]]. exists x, y. eapply derives_step; [|exact D]. apply if_result. split; auto.
    assert (F : derives P1 (u ++ r ++ v) []) by (eapply derives_trans; [exact HD|]; subst w; exact HN).
    apply derives_nil_all in F. apply Forall_app in F. destruct F as [_ F]. apply Forall_app in F. tauto.
  Qed.

  Lemma if_null_loop : forall a, reaches1 (prods result) a a <-> nullable P1 a /\ derives1 P1 [a] [a].
  Proof.
    intros a. split.
    - intros [u [v D]]. apply derives1_single in D. destruct D as [r [HP D]]. pose proof HP as HR. apply if_result in HR. destruct HR as [H1 HN].
      split; [eapply derives_rule_then; [exact H1|]; apply all_derives_nil; exact HN|].
      apply derives1_single. exists r. split; auto. pose proof (if_forms _ _ D HN) as F. apply Forall_app in F. destruct F as [F1 F2]. inversion F2; subst.
      eapply derives_trans; [eapply derives_mono; [|exact D]; intros A x HX; apply if_result in HX; tauto|].
      apply (derives_app P1 u (a :: v) [] [a]); [apply all_derives_nil; auto|]. apply (derives_app P1 [a] v [a] []); [constructor|apply all_derives_nil; auto].
    - intros [HN D]. apply derives1_single in D. destruct D as [r [HP D]]. destruct (if_back _ _ D a eq_refl HN) as [x [y D']].
      exists x, y. apply derives1_single. exists r. split; auto. apply if_result. split; auto.
      apply derives_nil_all. eapply derives_trans; [exact D|exact HN].
  Qed.

  Lemma if_closed : closed_rules result.
  Proof.
    pose proof (g1_closed g g1 g' result p q HC EL) as H1. intros x Hx. unfold num_syms. rewrite (el_rsrc _ _ _ _ _ _ EL).
    rewrite (el_result _ _ _ _ _ _ EL) in Hx. apply in_flat_map in Hx. destruct Hx as [y [Hy Hx]]. apply results_In in Hx. destruct Hx as [_ ->]. exact (H1 y Hy).
  Qed.

  Lemma if_no_empty : forall A r, prods g' A r -> r <> [].
  Proof.
    intros A r [x [Hx [_ <-]]] E. pose proof (elim_shape g g1 g' result p q EL) as HS. rewrite Forall_forall in HS. specialize (HS x Hx). rewrite E in HS. simpl in HS. lia.
  Qed.

  Lemma if_loop : forall a, a < num_syms g -> productive (prods g) a ->
    (derives1 (prods g) [a] [a] <-> prods g' a [a] \/ unit_derives (prods g') a a \/ reaches1 (prods result) a a).
  Proof.
    intros a Ha HP. pose proof (es_kept g g1 g' result p q HC EL) as K. split.
    - intros D. apply (k_derives1 _ _ _ K) in D. destruct HP as [w HW]. destruct w as [|c w].
      + right. right. apply if_null_loop. split; auto. apply (k_nullable _ _ _ K a Ha). apply HW.
      + assert (X : derives1 (prods g') [a] [a]).
        { apply (es_complete1 g g1 g' result p q HC EL); [exact D|discriminate|]. constructor; auto. split; auto. exists (c :: w). split; [discriminate|exact HW]. }
        apply (self_iff _ if_no_empty) in X. tauto.
    - intros X. apply (k_back1 _ _ _ K); auto. assert (Y : (prods g' a [a] \/ unit_derives (prods g') a a) \/ reaches1 (prods result) a a) by tauto. destruct Y as [Y|Y].
      + apply (self_iff _ if_no_empty) in Y. apply (es_sound1 g g1 g' result p q EL). exact Y.
      + apply if_null_loop in Y. tauto.
  Qed.
End Elim.

Lemma plain_derives1 : forall g a w, derives1 (of_list (plain g)) [a] w <-> derives1 (prods g) [a] w.
Proof.
  intros g a w. split; intros H; apply derives1_single in H; destruct H as [r [H D]]; apply derives1_single; exists r; (split; [apply plain_prods; exact H|]);
    (eapply derives_mono; [|exact D]); intros B x; apply plain_prods.
Qed.

(** ** C114.  A grammar has finitely many parse trees of every string exactly if, after elimination, no productive symbol of
    it derives itself by unit rules, has itself as a rule, or reaches itself in the returned grammar. *)
Theorem C114_exact : forall g g' result, closed_rules g -> eliminate_nulling g = Ok (g', result) ->
  exists u m, unit_derivation_matrix g' = Ok u /\ reachability_matrix result = Ok m /\
  ((forall A w, finitely_parsed (plain g) A w) <->
   forall a, a < num_syms g -> productive (prods g) a ->
     mx_get u a a = Ok false /\ mx_get m a a = Ok false /\ forall x, In x (rules g') -> lhs x = a -> rhs x <> [a]).
Proof.
  intros g g' result HC E. destruct (elim_inv g g' result HC E) as [g1 [p [q EL]]].
  pose proof (es_closed g g1 g' result p q HC EL) as HC'. pose proof (if_closed g g1 g' result p q HC EL) as HR.
  pose proof (es_num g g1 g' result p q HC EL) as HN. pose proof (es_num' g g1 g' result p q EL) as HN'.
  assert (HNR : num_syms result = num_syms g1) by (unfold num_syms; rewrite (el_rsrc _ _ _ _ _ _ EL); reflexivity).
  destruct (unit_matrix_spec g' HC') as [u [E1 [S1 B1]]]. destruct (reachability_spec result HR) as [m [E2 [S2 B2]]].
  exists u, m. split; auto. split; auto. rewrite finite_iff.
  assert (FL : forall b (Q : Prop), (b = true <-> Q) -> (@Ok bool b = Ok false <-> ~ Q)).
  { intros b Q HQ. destruct b; split; intros X.
    - discriminate.
    - exfalso. apply X, HQ. reflexivity.
    - intros Y. apply HQ in Y. discriminate.
    - reflexivity. }
  assert (M : forall a, a < num_syms g -> ((mx_get u a a = Ok false <-> ~ unit_derives (prods g') a a) /\ (mx_get m a a = Ok false <-> ~ reaches1 (prods result) a a))).
  { intros a Ha. destruct (mx_get_ok _ u a a S1) as [x [Ex X]]; [lia|lia|]. destruct (mx_get_ok _ m a a S2) as [y [Ey Y]]; [lia|lia|].
    rewrite Ex, Ey. split; apply FL; [rewrite X; apply B1|rewrite Y; apply B2]. }
  split.
  - intros H a Ha HP. destruct (M a Ha) as [M1 M2]. rewrite M1, M2.
    assert (NL : ~ derives1 (prods g) [a] [a]).
    { intros D. apply (H a); [|apply plain_derives1; exact D]. destruct HP as [w HW]. exists w. apply plain_language. exact HW. }
    rewrite (if_loop g g1 g' result p q HC EL a Ha HP) in NL. split; [tauto|]. split; [tauto|].
    intros x Hx EL1 ER. apply NL. left. exists x. auto.
  - intros H A [w HW] D. apply plain_derives1 in D. apply plain_language in HW.
    assert (HA : A < num_syms g). { apply derives1_single in D. destruct D as [r [[x [Hx [<- _]]] _]]. apply (HC x Hx). }
    assert (HP : productive (prods g) A) by (exists w; exact HW). destruct (M A HA) as [M1 M2]. destruct (H A HA HP) as [X1 [X2 X3]].
    rewrite M1 in X1. rewrite M2 in X2. apply (if_loop g g1 g' result p q HC EL A HA HP) in D. destruct D as [[x [Hx [HX1 HX2]]]|[D|D]]; [|tauto|tauto].
    exact (X3 x Hx HX1 HX2).
Qed.
Print Assumptions C114_exact.

(** Each such symbol has infinitely many parse trees for each of its strings. *)
Theorem C114_infinite : forall g g' result u m a w, closed_rules g -> eliminate_nulling g = Ok (g', result) ->
  unit_derivation_matrix g' = Ok u -> reachability_matrix result = Ok m -> a < num_syms g ->
  mx_get u a a = Ok true \/ mx_get m a a = Ok true \/ (exists x, In x (rules g') /\ lhs x = a /\ rhs x = [a]) ->
  language (prods g) a w -> infinitely_parsed (plain g) a w.
Proof.
  intros g g' result u m a w HC E E1 E2 Ha HX HW. destruct (elim_inv g g' result HC E) as [g1 [p [q EL]]].
  pose proof (es_closed g g1 g' result p q HC EL) as HC'. pose proof (if_closed g g1 g' result p q HC EL) as HR.
  pose proof (es_num g g1 g' result p q HC EL) as HN. pose proof (es_num' g g1 g' result p q EL) as HN'.
  assert (HNR : num_syms result = num_syms g1) by (unfold num_syms; rewrite (el_rsrc _ _ _ _ _ _ EL); reflexivity).
  destruct (unit_matrix_spec g' HC') as [u0 [E1' [S1 B1]]]. destruct (reachability_spec result HR) as [m0 [E2' [S2 B2]]].
  rewrite E1 in E1'. rewrite E2 in E2'. injection E1' as <-. injection E2' as <-.
  apply infinite_null; [|apply plain_language; exact HW]. apply plain_derives1. apply (if_loop g g1 g' result p q HC EL a Ha); [exists w; exact HW|].
  destruct (mx_get_ok _ u a a S1) as [x [Ex X]]; [lia|lia|]. destruct (mx_get_ok _ m a a S2) as [y [Ey Y]]; [lia|lia|].
  destruct HX as [HX|[HX|[z [Z1 [Z2 Z3]]]]].
  - right. left. apply B1, X. congruence.
  - right. right. apply B2, Y. congruence.
  - left. exists z. auto.
Qed.
Print Assumptions C114_infinite.

(** The grammar of C13: finitely many trees.  S ::= A b A | C ;  A ::= a | ;  C ::= A A.
    S ::= a E ;  E ::= E | ;  infinitely many trees of  a,  although the eliminated grammar has no loop. *)
Definition ex_null_loop : cfg :=
  mkCfg (mkSrc 3 (repeat None 3)) [mkRule 0 [1; 2] hd0; mkRule 2 [2] hd0; mkRule 2 [] hd0] [0] [] None.
Example C114_example : (forall A w, finitely_parsed (plain ex_null) A w) /\
  closed_rules ex_null_loop /\ exists g' result u m, eliminate_nulling ex_null_loop = Ok (g', result) /\
  unit_derivation_matrix g' = Ok u /\ reachability_matrix result = Ok m /\ mx_get u 2 2 = Ok false /\ mx_get m 2 2 = Ok true /\
  infinitely_parsed (plain ex_null_loop) 2 [].
Proof.
  split.
  - destruct (C13_total ex_null ex_null_closed) as [g' [result E]]. destruct (C114_exact ex_null g' result ex_null_closed E) as [u [m [E1 [E2 H]]]].
    apply H. intros a Ha _. vm_compute in E. injection E as <- <-. vm_compute in E1. injection E1 as <-. vm_compute in E2. injection E2 as <-.
    unfold num_syms in Ha. simpl in Ha. destruct a as [|[|[|[|[|a]]]]]; try lia; (split; [reflexivity|split; [reflexivity|]]);
      intros x Hx; simpl in Hx; repeat (destruct Hx as [<-|Hx]; [simpl; discriminate|]); destruct Hx.
  - assert (HC : closed_rules ex_null_loop) by closed_tac. split; auto.
    destruct (C13_total ex_null_loop HC) as [g' [result E]]. pose proof E as E0. vm_compute in E0. injection E0 as Eg Er.
    exists g', result. destruct (unit_matrix_spec g') as [u [E1 _]]; [subst; closed_tac|]. destruct (reachability_spec result) as [m [E2 _]]; [subst; closed_tac|].
    exists u, m. split; auto. split; auto. split; auto.
    pose proof E1 as X1. rewrite <- Eg in X1. vm_compute in X1. injection X1 as <-. pose proof E2 as X2. rewrite <- Er in X2. vm_compute in X2. injection X2 as <-.
    split; [reflexivity|]. split; [reflexivity|].
    eapply (C114_infinite ex_null_loop g' result _ _ 2 [] HC E E1 E2); [unfold num_syms; simpl; lia|right; left; reflexivity|].
    split; [apply derives_rule; exists (mkRule 2 [] hd0); split; [simpl; auto|auto]|constructor].
Qed.
