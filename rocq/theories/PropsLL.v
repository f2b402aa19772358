(** C44: the LL(1) classification. *)

From Coq Require Import List Arith Bool Lia Sorted Relations.
From Verif Require Import Base Spec SpecPredict GrammarFacts HistoryModel CfgModel View PropsGrammar
  BitSetModel SetView SetProof MatrixProof UsefulProof SetsModel SetsProof FollowProof PropsClassify
  PropsPredict LLModel LLProof.
Import ListNotations.

(** The rules of a grammar without their history. *)
Definition plain (g : cfg) : list (nat * list nat) := map (fun r => (lhs r, rhs r)) (rules g).

Lemma closure_any_reaches : forall (P : productions) (Q : nat -> Prop) A, closure_any P Q A <-> exists B, reaches P A B /\ Q B.
Proof.
  intros P Q A. split.
  - induction 1 as [s H|A r s HP Hs _ [B [HR HB]]].
    + exists s. split; auto. exists [], []. constructor.
    + exists B. split; auto. apply reaches_iff. right. apply reaches1_direct.
      apply reaches_iff in HR. destruct HR as [->|HR].
      * apply t_step. exists r; auto.
      * eapply t_trans; [apply t_step; exists r; eauto|]. apply reaches1_direct; auto.
  - intros [B [HR HB]]. apply reaches_iff in HR. destruct HR as [->|HR]; [constructor; auto|].
    apply reaches1_direct in HR. apply Operators_Properties.clos_trans_t1n in HR.
    induction HR as [A B [r [HP Hi]]|A C B [r [HP Hi]] _ IH].
    + eapply cy_rule; eauto. constructor; auto.
    + eapply cy_rule; eauto.
Qed.

Lemma puts_selects : forall g f fo r t, closed_rules g -> first_sets_new g = Ok f -> follow_sets g = Ok fo ->
  (forall s, s < num_syms g -> productive (prods g) s) ->
  In r (rules g) -> puts f fo r t -> selects (prods g) (lhs r) (rhs r) t.
Proof.
  intros g f fo r t HC EF EFO HP Hr [v [EV HV]].
  destruct (first_string_spec g f (rhs r) HC EF (proj2 (HC r Hr))) as [v' [u1 [u2 [EV' [EU [H1 H2]]]]]].
  rewrite EV in EV'. injection EV' as <-.
  assert (HN : derives (prods g) u1 []).
  { assert (HB : Forall (fun s => s < num_syms g) u1).
    { destruct (HC r Hr) as [_ HR]. rewrite EU in HR. apply Forall_app in HR. apply HR. }
    clear -HP H1 HB. induction u1 as [|s u1 IH]; [constructor|].
    inversion HB as [|? ? B1 B2]; subst. apply nil_cons. split; [|apply IH; auto; intros; apply H1; right; auto].
    destruct (HP s B1) as [w [HW HT]]. destruct w as [|a w]; auto. exfalso.
    apply (H1 s a (or_introl eq_refl)). inversion HT; subst. split; auto. exists w. auto. }
  destruct u2 as [|s u2].
  - subst v. cbn [set_list has_none] in HV. destruct HV as [[]|[_ [w [EW Hw]]]]. right.
    rewrite EU, app_nil_r. split; auto.
    destruct (follow_sets_spec g HC) as [m [E [_ V]]]. rewrite EFO in E. injection E as <-.
    apply (V _ _ EW). auto.
  - destruct H2 as [N1 [_ N3]]. rewrite N1 in HV. destruct HV as [HV|[HV _]]; [|discriminate].
    apply N3 in HV. left. destruct HV as [HT [x HX]]. split; auto. exists (x ++ u2). rewrite EU.
    apply (derives_trans _ _ ([] ++ s :: u2)); [apply derives_app; auto; constructor|].
    simpl. change (s :: u2) with ([s] ++ u2). change (t :: x ++ u2) with ((t :: x) ++ u2).
    apply derives_app; auto. constructor.
Qed.

Lemma selects_puts : forall g f fo r t, closed_rules g -> first_sets_new g = Ok f -> follow_sets g = Ok fo ->
  (forall s, s < num_syms g -> productive (prods g) s) -> ~ leading_optional (prods g) ->
  In r (rules g) -> selects (prods g) (lhs r) (rhs r) t -> puts f fo r t.
Proof.
  intros g f fo r t HC EF EFO HP HN Hr HS.
  destruct (first_string_spec g f (rhs r) HC EF (proj2 (HC r Hr))) as [v [u1 [u2 [EV [EU [H1 H2]]]]]].
  assert (HZ : derives (prods g) u1 [] /\ forall u, begins (prods g) (u1 ++ u) t -> begins (prods g) u t).
  { assert (HB : Forall (fun s => s < num_syms g) u1).
    { destruct (HC r Hr) as [_ HR]. rewrite EU in HR. apply Forall_app in HR. apply HR. }
    clear -HP H1 HB. induction u1 as [|s u1 IH]; [split; [constructor|auto]|].
    inversion HB as [|? ? B1 B2]; subst. destruct IH as [I1 I2]; [intros; apply H1; right; auto|auto|]. split.
    - apply nil_cons. split; [|exact I1]. destruct (HP s B1) as [w [HW HT]]. destruct w as [|a w]; auto. exfalso.
      apply (H1 s a (or_introl eq_refl)). inversion HT; subst. split; auto. exists w. auto.
    - intros u X. cbn [app] in X. apply begins_cons in X. destruct X as [X|[_ X]]; [exfalso; exact (H1 s t (or_introl eq_refl) X)|auto]. }
  destruct HZ as [Z1 Z2]. exists v. split; auto. destruct u2 as [|s u2].
  - subst v. right. split; [reflexivity|]. destruct HS as [HS|[_ HF]].
    + exfalso. rewrite EU in HS. apply Z2 in HS. destruct HS as [_ [w X]]. apply derives_nil_inv in X. discriminate.
    + destruct (follow_sets_spec g HC) as [m [E [K V]]]. rewrite EFO in E. injection E as <-.
      destruct (map_get fo (lhs r)) as [w|] eqn:EW.
      * exists w. split; auto. apply (V _ _ EW). auto.
      * exfalso. apply (proj2 (K (lhs r))); auto. exists (rhs r), r. auto.
  - destruct H2 as [N1 [N2 N3]].
    assert (NN : ~ nullable (prods g) s).
    { intros X. destruct (set_list v) as [|b l] eqn:EL; [congruence|]. apply HN. exists (lhs r), u1, s, u2, b. rewrite <- EU.
      split; [exists r; auto|]. split; auto. split; auto. apply N3. left. reflexivity. }
    left. apply N3. rewrite EU in HS. destruct HS as [HS|[HS _]].
    + apply Z2, begins_cons in HS. destruct HS as [HS|[HS _]]; [exact HS|contradiction].
    + exfalso. apply NN. apply derives_app_inv in HS. destruct HS as [w1 [w2 [E [_ D]]]]. symmetry in E. apply app_eq_nil in E.
      destruct E as [_ ->]. apply nil_cons in D. apply D.
Qed.

(** Especially, if no symbol derives both the empty string and others. *)
Lemma leading_none : forall P, (forall s t, nullable P s -> ~ begins P [s] t) -> ~ leading_optional P.
Proof. intros P H [A [u [s [v [t [_ [_ [H1 H2]]]]]]]]. exact (H s t H1 H2). Qed.

Lemma conflict_plain : forall g B, ll1_conflict (prods g) (plain g) B <->
  exists i j ri rj t, i <> j /\ nth_error (rules g) i = Some ri /\ nth_error (rules g) j = Some rj /\
    lhs ri = B /\ lhs rj = B /\ selects (prods g) (lhs ri) (rhs ri) t /\ selects (prods g) (lhs rj) (rhs rj) t.
Proof.
  intros g B. unfold ll1_conflict, plain. split.
  - intros [i [j [r [r' [t [Hn [Hi [Hj [S1 S2]]]]]]]]]. rewrite nth_error_map in Hi, Hj.
    destruct (nth_error (rules g) i) as [ri|] eqn:Ei; [|discriminate].
    destruct (nth_error (rules g) j) as [rj|] eqn:Ej; [|discriminate].
    simpl in Hi, Hj. injection Hi as L1 R1. injection Hj as L2 R2. exists i, j, ri, rj, t.
    rewrite L1, R1, L2, R2. auto 8.
  - intros [i [j [ri [rj [t [Hn [Ei [Ej [L1 [L2 [S1 S2]]]]]]]]]]]. exists i, j, (rhs ri), (rhs rj), t.
    rewrite !nth_error_map, Ei, Ej. simpl. rewrite L1 in *. rewrite L2 in *. auto.
Qed.

(** ** C44.  Building the table and classifying never panic on a closed grammar. If all symbols are
    productive, what is reported as not LL(1) has a real conflict under it. If moreover no rule
    starts with a symbol that derives the empty string among others, then the classification is exact: a
    nonterminal is reported LL(1) exactly when neither it nor anything it reaches has two rules
    selected by one terminal.  Missing: rules that start with such symbols; see the refutation. *)
Theorem C44_ll1_partial : forall g, closed_rules g -> exists table cls,
  ll_parse_table g = Ok table /\ ll_classify g table = Ok cls /\
  ((forall s, s < num_syms g -> productive (prods g) s) ->
   (forall A, map_get cls A = Some ContextFree ->
      exists B, reaches (prods g) A B /\ ll1_conflict (prods g) (plain g) B) /\
   (~ leading_optional (prods g) ->
    forall A,
      (map_get cls A <> None <-> exists r t, prods g A r /\ selects (prods g) A r t) /\
      (map_get cls A = Some Ll1 ->
         forall B, reaches (prods g) A B -> ~ ll1_conflict (prods g) (plain g) B) /\
      (map_get cls A = Some ContextFree <->
         (exists r t, prods g A r /\ selects (prods g) A r t) /\
         exists B, reaches (prods g) A B /\ ll1_conflict (prods g) (plain g) B))).
Proof.
  intros g HC. destruct (ll_spec g HC) as [f [fo [table [cls [EF [EFO [ET [EC [HK HX]]]]]]]]].
  exists table, cls. split; auto. split; auto. intros HP.
  assert (HIn : forall i r, nth_error (rules g) i = Some r -> In r (rules g)) by (intros; eapply nth_error_In; eauto).
  assert (HS : forall A, map_get cls A = Some ContextFree ->
      exists B, reaches (prods g) A B /\ ll1_conflict (prods g) (plain g) B).
  { intros A H. apply HX in H. destruct H as [_ H]. apply closure_any_reaches in H.
    destruct H as [B [HR [i [j [ri [rj [t [Hn [Ei [Ej [L1 [L2 [P1 P2]]]]]]]]]]]]]. exists B. split; auto.
    apply conflict_plain. exists i, j, ri, rj, t. do 5 (split; auto). split; eapply puts_selects; eauto. }
  split; auto. intros HN A.
  assert (HK' : map_get cls A <> None <-> exists r t, prods g A r /\ selects (prods g) A r t).
  { rewrite HK. split.
    - intros [r [t [Hr [<- Hp]]]]. exists (rhs r), t. split; [exists r; auto|]. eapply puts_selects; eauto.
    - intros [r [t [[x [Hx [<- <-]]] Hs]]]. exists x, t. split; auto. split; auto. eapply selects_puts; eauto. }
  assert (HCF : (exists r t, prods g A r /\ selects (prods g) A r t) ->
    (exists B, reaches (prods g) A B /\ ll1_conflict (prods g) (plain g) B) -> map_get cls A = Some ContextFree).
  { intros H1 [B [HR HB]]. apply HX. split; [apply HK'; auto|]. apply closure_any_reaches. exists B. split; auto.
    apply conflict_plain in HB. destruct HB as [i [j [ri [rj [t [Hn [Ei [Ej [L1 [L2 [P1 P2]]]]]]]]]]].
    exists i, j, ri, rj, t. do 5 (split; auto). split; eapply selects_puts; eauto. }
  split; auto. split.
  - intros H B HR HB. assert (X : map_get cls A = Some ContextFree); [|congruence].
    apply HCF; [apply HK'; congruence|exists B; auto].
  - split; [|intros [? ?]; auto]. intros H. split; [apply HK'; congruence|apply HS; auto].
Qed.
Print Assumptions C44_ll1_partial.

(** S ::= A b B | b ; A ::= a ; B ::= a a | a b   with S A B a b = 0..4: here B has a conflict and S
    reaches it, A is LL(1). *)
Definition ex_ll : cfg :=
  mkCfg (mkSrc 5 []) [mkRule 0 [1; 4; 2] hd0; mkRule 0 [4] hd0; mkRule 1 [3] hd0; mkRule 2 [3; 3] hd0;
                      mkRule 2 [3; 4] hd0] [0] [] None.
Example C44_example : closed ex_ll /\
  (forall s, s < num_syms ex_ll -> productive (prods ex_ll) s) /\
  ~ leading_optional (prods ex_ll) /\
  exists table, ll_parse_table ex_ll = Ok table /\
  ll_classify ex_ll table = Ok [(0, ContextFree); (1, Ll1); (2, ContextFree)].
Proof.
  split; [split; [closed_tac|split; repeat constructor]|].
  assert (T : forall s, 2 < s -> terminal (prods ex_ll) s).
  { intros s Hs r [x [Hx [HL _]]]. simpl in Hx. repeat (destruct Hx as [<-|Hx]; [simpl in HL; lia|]). destruct Hx. }
  assert (D : forall A r, In (A, r) (plain ex_ll) -> prods ex_ll A r).
  { intros A r H. apply in_map_iff in H. destruct H as [x [E Hx]]. injection E as <- <-. exists x. auto. }
  assert (HT3 : terminal (prods ex_ll) 3) by (apply T; lia).
  assert (HT4 : terminal (prods ex_ll) 4) by (apply T; lia).
  split; [|split].
  - intros s Hs. change (s < 5) in Hs. destruct s as [|[|[|[|[|s]]]]]; [| | | | |lia].
    + exists [4]. split; [|repeat constructor; auto]. apply derives_rule. apply D. simpl. auto.
    + exists [3]. split; [|repeat constructor; auto]. apply derives_rule. apply D. simpl. auto.
    + exists [3; 3]. split; [|repeat constructor; auto]. apply derives_rule. apply D. simpl. auto.
    + exists [3]. split; [|repeat constructor; auto]. constructor.
    + exists [4]. split; [|repeat constructor; auto]. constructor.
  - apply leading_none. intros s t H _. assert (HZ : forall u v, derives (prods ex_ll) u v -> v = [] -> u = []).
    { induction 1 as [w|p C q r w HP HD IH]; auto. intros ->. specialize (IH eq_refl).
      apply app_eq_nil in IH. destruct IH as [_ IH]. apply app_eq_nil in IH. destruct IH as [-> _].
      exfalso. destruct HP as [x [Hx [_ HR]]]. simpl in Hx. repeat (destruct Hx as [<-|Hx]; [discriminate|]). destruct Hx. }
    specialize (HZ _ _ H eq_refl). discriminate.
  - eexists. split; vm_compute; reflexivity.
Qed.

(** S ::= B x | x ; B ::= y | : both rules of S start with x, S is reported LL(1). All symbols are
    productive. *)
Definition ex_ll_bad : cfg :=
  mkCfg (mkSrc 4 []) [mkRule 0 [1; 2] hd0; mkRule 0 [2] hd0; mkRule 1 [3] hd0; mkRule 1 [] hd0] [0] [] None.
Theorem C44_ll1_refuted : exists g table cls A, closed g /\
  (forall s, s < num_syms g -> productive (prods g) s) /\
  ll_parse_table g = Ok table /\ ll_classify g table = Ok cls /\
  map_get cls A = Some Ll1 /\ ll1_conflict (prods g) (plain g) A.
Proof.
  exists ex_ll_bad. eexists. eexists. exists 0. split; [split; [closed_tac|split; repeat constructor]|].
  assert (T : forall s, 1 < s -> terminal (prods ex_ll_bad) s).
  { intros s Hs r [x [Hx [HL _]]]. simpl in Hx. repeat (destruct Hx as [<-|Hx]; [simpl in HL; lia|]). destruct Hx. }
  assert (D : forall A r, In (A, r) (plain ex_ll_bad) -> prods ex_ll_bad A r).
  { intros A r H. apply in_map_iff in H. destruct H as [x [E Hx]]. injection E as <- <-. exists x. auto. }
  assert (HT3 : terminal (prods ex_ll_bad) 2) by (apply T; lia).
  assert (HT4 : terminal (prods ex_ll_bad) 3) by (apply T; lia).
  split.
  { intros s Hs. change (s < 4) in Hs. destruct s as [|[|[|[|s]]]]; [| | | |lia].
    + exists [2]. split; [|repeat constructor; auto]. apply derives_rule. apply D. simpl. auto.
    + exists [3]. split; [|repeat constructor; auto]. apply derives_rule. apply D. simpl. auto.
    + exists [2]. split; [|repeat constructor; auto]. constructor.
    + exists [3]. split; [|repeat constructor; auto]. constructor. }
  split; [vm_compute; reflexivity|]. split; [vm_compute; reflexivity|]. split; [reflexivity|].
  exists 0, 1, [1; 2], [2], 2. split; [discriminate|]. split; [reflexivity|]. split; [reflexivity|].
  split; left; split; auto; exists [].
  - apply (derives_step _ [] 1 [2] []); [apply D; simpl; auto 8|]. constructor.
  - constructor.
Qed.
Print Assumptions C44_ll1_refuted.

(** The grammars of cfg/tests/test_classification.rs 14-71, with the outcomes expected there. *)
Example ll_repo_tests :
  (exists t, ll_parse_table (mkCfg (mkSrc 6 []) [mkRule 0 [1; 2; 3] hd0; mkRule 0 [4] hd0; mkRule 3 [1; 1] hd0;
       mkRule 3 [1; 4] hd0; mkRule 4 [2] hd0; mkRule 4 [5] hd0; mkRule 1 [] hd0] [] [] None) = Ok t /\
     ll_classify (mkCfg (mkSrc 6 []) [mkRule 0 [1; 2; 3] hd0; mkRule 0 [4] hd0; mkRule 3 [1; 1] hd0;
       mkRule 3 [1; 4] hd0; mkRule 4 [2] hd0; mkRule 4 [5] hd0; mkRule 1 [] hd0] [] [] None) t
     = Ok [(0, ContextFree); (1, Ll1); (3, Ll1); (4, Ll1)]) /\
  (exists t, ll_parse_table (mkCfg (mkSrc 5 []) [mkRule 0 [1] hd0; mkRule 1 [3; 2] hd0; mkRule 2 [3; 4] hd0;
       mkRule 2 [3] hd0] [] [] None) = Ok t /\
     ll_classify (mkCfg (mkSrc 5 []) [mkRule 0 [1] hd0; mkRule 1 [3; 2] hd0; mkRule 2 [3; 4] hd0;
       mkRule 2 [3] hd0] [] [] None) t
     = Ok [(0, ContextFree); (1, ContextFree); (2, ContextFree)]).
Proof. split; eexists; split; vm_compute; reflexivity. Qed.
