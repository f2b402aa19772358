(** C129: what is classified LL(1) is parsed with one symbol of lookahead. *)

From Coq Require Import List Arith Bool Lia Relations.
From Verif Require Import Base Spec SpecPredict SpecTopDown GrammarFacts TopDownProof HistoryModel CfgModel View CfgProof2
  PropsGrammar BitSetModel SetView SetProof MatrixProof UsefulProof SetsModel SetsProof FollowProof PropsClassify PropsPredict LLModel LLProof PropsLL LLTree PipeProof PropsLLTree.
Import ListNotations.

(** ** C129.  If all symbols are productive, no rule starts with a symbol that derives the empty string among others, and [A] is reported
    LL(1), then the parser that looks at one symbol of the input never has a choice, never runs forever, and accepts
    only what [A] derives.  Missing: rules that start with such symbols; see the refutation. *)
Theorem C129_deterministic_partial : forall g table cls A, closed_rules g ->
  (forall s, s < num_syms g -> productive (prods g) s) ->
  ~ leading_optional (prods g) ->
  ll_parse_table g = Ok table -> ll_classify g table = Ok cls -> map_get cls A = Some Ll1 ->
  td_deterministic (prods g) A /\ td_ends (prods g) A /\ forall w, td_accepts (prods g) A w -> language (prods g) A w.
Proof.
  intros g table cls A HC HP HN ET EC HA.
  destruct (C44_ll1_partial g HC) as [t2 [c2 [ET2 [EC2 H]]]]. rewrite ET in ET2. injection ET2 as <-.
  rewrite EC in EC2. injection EC2 as <-. destruct (H HP) as [_ H2]. destruct (H2 HN A) as [_ [HL _]]. specialize (HL HA).
  assert (HD : td_deterministic (prods g) A).
  { intros w c c1 c2 HS H1 H3.
    assert (HR : Forall (reaches (prods g) A) (fst c)).
    { apply (steps_reached (prods g) (reaches (prods g) A)) with (c := ([A], w)); [|exact HS|].
      - intros B r HB HPB. apply Forall_forall. intros C HI. eapply reaches_rule; eauto.
      - constructor; [exists [], []; constructor|constructor]. }
    inversion H1 as [t s i HT|B r s t i HB HSel]; subst; inversion H3 as [t' s' i' HT'|B' r' s' t' i' HB' HSel']; subst.
    - reflexivity.
    - exfalso. exact (HT _ HB').
    - exfalso. exact (HT' _ HB).
    - cbn [fst] in HR. inversion HR as [|? ? HRB _]; subst.
      pose proof (proj2 (plain_prods g B r) HB) as I1. pose proof (proj2 (plain_prods g B r') HB') as I2.
      destruct (In_nth_error _ _ I1) as [n1 N1]. destruct (In_nth_error _ _ I2) as [n2 N2].
      destruct (Nat.eq_dec n1 n2) as [->|NE]; [rewrite N1 in N2; injection N2 as ->; reflexivity|].
      exfalso. apply (HL B HRB). exists n1, n2, r, r', t. auto. }
  split; [exact HD|]. split.
  - intros w. apply (det_ends (prods g) (S (length w)) 2); [lia|cbn; lia|]. intros b b1 b2. apply (HD w).
  - intros w HS. exact (steps_sound _ _ _ HS eq_refl).
Qed.
Print Assumptions C129_deterministic_partial.

(** With markers around the input, the parser accepts exactly the sentences of the grammar as it was. *)
Theorem C129_parser_partial : forall g g' W table cls, closed_rules g ->
  Forall (fun s => s < num_syms g) (roots g) -> (limit g = None \/ exists n, limit g = Some n /\ 3 <= n) ->
  wrap_input g = Ok g' -> In W (wroots g') ->
  (forall s, s < num_syms g' -> productive (prods g') s) ->
  ~ leading_optional (prods g') ->
  ll_parse_table g' = Ok table -> ll_classify g' table = Ok cls -> map_get cls (wr_root W) = Some Ll1 ->
  td_deterministic (prods g') (wr_root W) /\ td_ends (prods g') (wr_root W) /\
  forall w, td_accepts (prods g') (wr_root W) w <->
    exists v, language (prods g) (wr_inner W) v /\ w = wr_start W :: v ++ [wr_end W].
Proof.
  intros g g' W table cls HC HR HLim E HW HP HN ET EC HA.
  assert (HG : good_limit (limit g)). { destruct HLim as [-> | [n [-> ?]]]; simpl; auto. lia. }
  destruct (wrap_input_spec g HC HR HG) as [g2 [E2 [R1 [R2 [R3 R4]]]]].
  rewrite E in E2. injection E2 as <-.
  destruct (wrap_input_fresh g g' HC HR HG E) as [_ [HC' [HNS _]]].
  destruct (wrap_fold_rules _ _ _ (HLim : limit (mkCfg (src g) (rules g) [] [] (limit g)) = None \/ _) E)
    as [rs [ws [Q1 [Q2 [_ [Q4 _]]]]]]. cbn in Q1, Q2.
  destruct (C129_deterministic_partial g' table cls (wr_root W) HC' HP HN ET EC HA) as [HD [HE HS]].
  split; [exact HD|]. split; [exact HE|]. intros w. destruct (R3 W HW) as [_ [_ [_ [_ [_ [_ RL]]]]]]. rewrite <- RL.
  split; [apply HS|]. intros [D T]. pose proof (lm_complete _ _ _ D T) as L.
  assert (HInv : forall r, prods g' (wr_root W) r -> exists V, In V (wroots g') /\ r = [wr_start V; wr_inner V; wr_end V]).
  { intros r [x [Hx [EL ER]]]. rewrite Q1 in Hx. apply in_app_iff in Hx. destruct Hx as [Hx|Hx].
    - exfalso. destruct (R3 W HW) as [_ [B _]]. pose proof (proj1 (HC x Hx)). lia.
    - apply (in_map (fun x => (lhs x, rhs x))) in Hx. rewrite Q4 in Hx. apply in_map_iff in Hx.
      destruct Hx as [V [EV HV]]. unfold wroot_rule in EV. injection EV as EV1 EV2. exists V. rewrite Q2.
      split; auto. congruence. }
  assert (HRule : prods g' (wr_root W) [wr_start W; wr_inner W; wr_end W]).
  { pose proof HW as HV. rewrite Q2 in HV. apply (in_map wroot_rule) in HV. rewrite <- Q4 in HV. apply in_map_iff in HV.
    destruct HV as [x [EX Hx]]. unfold wroot_rule in EX. injection EX as EL ER. exists x. rewrite Q1. split; auto.
    apply in_app_iff; auto. }
  inversion L as [|t u w' HT L'|A r u w' HPr L']; subst; [exfalso; exact (HT _ HRule)|]. rewrite app_nil_r in L'.
  destruct (HInv r HPr) as [V [HV ->]]. destruct (R3 V HV) as [_ [_ [_ [_ [T1 [T2 _]]]]]].
  inversion L' as [|t u w' HT L2|A r u w' HX L2]; subst; [|exfalso; exact (T1 _ HX)].
  unfold td_accepts. eapply steps_cons.
  - apply td_predict; [exact HPr|]. left. split; [exact T1|]. exists [wr_inner V; wr_end V]. constructor.
  - rewrite app_nil_r. apply lm_accepted; [exact L'| |].
    + exists (wr_root W), []. apply derives_rule. exact HPr.
    + right. exists [wr_start V; wr_inner V], (wr_end V). split; [reflexivity|exact T2].
Qed.
Print Assumptions C129_parser_partial.

(** S ::= a S N b | c ; N ::=   with the root wrapped: the conditions hold, and "a a c b b" between the markers is accepted. *)
Example C129_example : exists g' W table cls, closed ex_ll_wrap /\ wrap_input ex_ll_wrap = Ok g' /\ In W (wroots g') /\
  (forall s, s < num_syms g' -> productive (prods g') s) /\
  ~ leading_optional (prods g') /\
  ll_parse_table g' = Ok table /\ ll_classify g' table = Ok cls /\ map_get cls (wr_root W) = Some Ll1 /\
  td_accepts (prods g') (wr_root W) [wr_start W; 1; 1; 3; 2; 2; wr_end W] /\
  ~ td_accepts (prods g') (wr_root W) [wr_start W; 1; 1; 3; 2; wr_end W].
Proof.
  destruct C102_example as [g' [W [table [cls [HC [E [HW [HP [HN [ET [EC [HA _]]]]]]]]]]]].
  exists g', W, table, cls. do 8 (split; [assumption|]). destruct HC as [HC [HR _]].
  assert (EI : wr_inner W = 0).
  { vm_compute in E. injection E as <-. cbn in HW. destruct HW as [<-|[]]. reflexivity. }
  destruct (C129_parser_partial ex_ll_wrap g' W table cls HC HR (or_introl eq_refl) E HW HP HN ET EC HA) as [_ [_ H]].
  set (G := ex_ll_wrap) in *.
  assert (T : forall s, In s [1; 2; 3] -> terminal (prods G) s).
  { intros s Hs r [x [Hx [HL _]]]. simpl in Hs, Hx.
    repeat (destruct Hx as [<-|Hx]; [simpl in HL; subst s; intuition lia|]). destruct Hx. }
  assert (D : forall A r, In (A, r) (plain G) -> prods G A r) by (intros; apply plain_prods; auto).
  split.
  - apply H. exists [1; 1; 3; 2; 2]. split; [|reflexivity]. rewrite EI. split; [|repeat constructor; apply T; simpl; auto].
    apply (derives_step _ [] 0 [] [1; 0; 4; 2]); [apply D; simpl; auto|]. cbn.
    apply (derives_step _ [1] 0 [4; 2] [1; 0; 4; 2]); [apply D; simpl; auto|]. cbn.
    apply (derives_step _ [1; 1] 0 [4; 2; 4; 2] [3]); [apply D; simpl; auto|]. cbn.
    apply (derives_step _ [1; 1; 3] 4 [2; 4; 2] []); [apply D; simpl; auto|]. cbn.
    apply (derives_step _ [1; 1; 3; 2] 4 [2] []); [apply D; simpl; auto|]. constructor.
  - intros X. apply H in X. destruct X as [v [[DV _] EV]]. rewrite EI in DV.
    change [wr_start W; 1; 1; 3; 2; wr_end W] with (wr_start W :: [1; 1; 3; 2] ++ [wr_end W]) in EV.
    injection EV as EV. change (1 :: 1 :: 3 :: 2 :: [wr_end W]) with ([1; 1; 3; 2] ++ [wr_end W]) in EV.
    apply app_inj_tail in EV. destruct EV as [<- _].
    assert (K : forall u w, derives (prods G) u w -> count_occ Nat.eq_dec u 1 = count_occ Nat.eq_dec u 2 ->
      count_occ Nat.eq_dec w 1 = count_occ Nat.eq_dec w 2).
    { intros u w DD. induction DD as [u|u A x r w [rl [Hx [HL HRr]]] DD IH]; [auto|]. intros EQ. apply IH.
      simpl in Hx. repeat (destruct Hx as [<-|Hx]; [simpl in HL, HRr; subst A r; rewrite !count_occ_app in *; simpl in *; lia|]). destruct Hx. }
    specialize (K _ _ DV eq_refl). vm_compute in K. discriminate.
Qed.

(** E ::= F T ; T ::= + F T | ; F ::= ( E ) | a   with E T F + ( ) a = 0..6 and the root wrapped: T derives the empty
    string among others, the conditions hold, and "a + ( a )" between the markers is accepted. *)
Definition ex_expr : cfg :=
  mkCfg (mkSrc 7 []) [mkRule 0 [2; 1] hd0; mkRule 1 [3; 2; 1] hd0; mkRule 1 [] hd0; mkRule 2 [4; 0; 5] hd0; mkRule 2 [6] hd0]
    [0] [] None.
Definition ex_expr_wrapped : cfg := Eval vm_compute in match wrap_input ex_expr with Ok g => g | _ => ex_expr end.
Definition ex_expr_W : wrapped_root := Eval vm_compute in match wroots ex_expr_wrapped with W :: _ => W | [] => mkWrapped 0 0 0 0 end.
Example C129_expressions : closed ex_expr /\ wrap_input ex_expr = Ok ex_expr_wrapped /\ In ex_expr_W (wroots ex_expr_wrapped) /\
  (forall s, s < num_syms ex_expr_wrapped -> productive (prods ex_expr_wrapped) s) /\
  ~ leading_optional (prods ex_expr_wrapped) /\
  (nullable (prods ex_expr_wrapped) 1 /\ begins (prods ex_expr_wrapped) [1] 3) /\
  (exists table cls, ll_parse_table ex_expr_wrapped = Ok table /\ ll_classify ex_expr_wrapped table = Ok cls /\
     map_get cls (wr_root ex_expr_W) = Some Ll1) /\
  td_accepts (prods ex_expr_wrapped) (wr_root ex_expr_W) ([wr_start ex_expr_W] ++ [6; 3; 4; 6; 5] ++ [wr_end ex_expr_W]).
Proof.
  set (G := ex_expr_wrapped). set (W := ex_expr_W).
  assert (HC : closed ex_expr) by (split; [closed_tac|split; repeat constructor]).
  assert (E : wrap_input ex_expr = Ok G) by (vm_compute; reflexivity).
  assert (HW : In W (wroots G)) by (left; reflexivity).
  assert (T : forall s, In s [3; 4; 5; 6; 8; 9] -> terminal (prods G) s).
  { intros s Hs r [x [Hx [HL _]]]. simpl in Hs, Hx.
    repeat (destruct Hx as [<-|Hx]; [simpl in HL; subst s; intuition lia|]). destruct Hx. }
  assert (D : forall A r, In (A, r) (plain G) -> prods G A r) by (intros; apply plain_prods; auto).
  assert (LT : forall s, terminal (prods G) s -> productive (prods G) s).
  { intros s HT. exists [s]. split; [constructor|repeat constructor; auto]. }
  assert (D1 : derives (prods G) [1] []) by (apply derives_rule; apply D; simpl; auto).
  assert (D2 : derives (prods G) [2] [6]) by (apply derives_rule; apply D; simpl; auto 8).
  assert (D0 : derives (prods G) [0] [6]).
  { apply (derives_step _ [] 0 [] [2; 1]); [apply D; simpl; auto|]. apply (derives_app _ [2] [1] [6] []); auto. }
  assert (HP : forall s, s < num_syms G -> productive (prods G) s).
  { intros s Hs. change (s < 10) in Hs.
    destruct s as [|[|[|[|[|[|[|[|[|[|s]]]]]]]]]]; [| | | | | | | | | |lia]; try (apply LT; apply T; simpl; auto 10; fail).
    - exists [6]. split; [exact D0|repeat constructor; apply T; simpl; auto].
    - exists []. split; [exact D1|constructor].
    - exists [6]. split; [exact D2|repeat constructor; apply T; simpl; auto].
    - exists [8; 6; 9]. split; [|repeat constructor; apply T; simpl; auto 8].
      eapply derives_rule_then; [apply D; simpl; do 5 right; left; reflexivity|].
      apply (derives_ctx (prods G) [8] [9] [0] [6]). exact D0. }
  assert (HZ : forall u v, derives (prods G) u v -> v = [] -> Forall (fun s => s = 1) u).
  { induction 1 as [w|p C q r w HPr HD IH]; [intros ->; constructor|]. intros ->. specialize (IH eq_refl).
    apply Forall_app in IH. destruct IH as [I1 I2]. apply Forall_app in I2. destruct I2 as [I2 I3].
    apply Forall_app. split; auto. constructor; auto.
    destruct HPr as [x [Hx [HL HR]]]. simpl in Hx.
    repeat (destruct Hx as [<-|Hx]; [simpl in HL, HR; subst r C; auto; inversion I2; discriminate|]). destruct Hx. }
  assert (HN : ~ leading_optional (prods G)).
  { intros [A [u [s [v [t [HPr [DU [DS _]]]]]]]]. specialize (HZ _ _ DU eq_refl) as ZU. specialize (HZ _ _ DS eq_refl) as ZS.
    inversion ZS; subst. destruct HPr as [x [Hx [_ HR]]]. simpl in Hx.
    repeat (destruct Hx as [<-|Hx]; [simpl in HR; destruct u as [|y u]; [discriminate|]; inversion ZU; subst; discriminate|]). destruct Hx. }
  destruct (C44_ll1_partial G) as [table [cls [ET [EC _]]]].
  { destruct (wrap_input_fresh ex_expr G (proj1 HC) (proj1 (proj2 HC)) I E) as [_ [X _]]. exact X. }
  assert (HA : map_get cls (wr_root W) = Some Ll1).
  { vm_compute in ET. injection ET as <-. vm_compute in EC. injection EC as <-. reflexivity. }
  do 5 (split; [assumption|]). split.
  { split; [exact D1|]. split; [apply T; simpl; auto|]. exists [2; 1]. apply derives_rule. apply D. simpl. auto. }
  split; [exists table, cls; auto|].
  apply (C129_parser_partial ex_expr G W table cls (proj1 HC) (proj1 (proj2 HC)) (or_introl eq_refl) E HW HP HN ET EC HA).
  exists [6; 3; 4; 6; 5]. split; [|reflexivity].
  assert (D' : forall A r, In (A, r) (plain ex_expr) -> prods ex_expr A r) by (intros; apply plain_prods; auto).
  split.
  - change (wr_inner W) with 0. apply (derives_step _ [] 0 [] [2; 1]); [apply D'; simpl; auto|]. cbn.
    apply (derives_step _ [] 2 [1] [6]); [apply D'; simpl; auto 8|]. cbn.
    apply (derives_step _ [6] 1 [] [3; 2; 1]); [apply D'; simpl; auto|]. cbn.
    apply (derives_step _ [6; 3] 2 [1] [4; 0; 5]); [apply D'; simpl; auto 8|]. cbn.
    apply (derives_step _ [6; 3; 4] 0 [5; 1] [2; 1]); [apply D'; simpl; auto|]. cbn.
    apply (derives_step _ [6; 3; 4] 2 [1; 5; 1] [6]); [apply D'; simpl; auto 8|]. cbn.
    apply (derives_step _ [6; 3; 4; 6] 1 [5; 1] []); [apply D'; simpl; auto|]. cbn.
    apply (derives_step _ [6; 3; 4; 6; 5] 1 [] []); [apply D'; simpl; auto|]. constructor.
  - assert (T' : forall s, In s [3; 4; 5; 6] -> terminal (prods ex_expr) s).
    { intros s Hs r [x [Hx [HL _]]]. simpl in Hs, Hx.
      repeat (destruct Hx as [<-|Hx]; [simpl in HL; subst s; intuition lia|]). destruct Hx. }
    repeat constructor; apply T'; simpl; auto.
Qed.

(** S ::= B x | x ; B ::= y |   with S wrapped: the root is reported LL(1), and there is a choice. *)
Theorem C129_refuted : exists g g' W table cls, closed g /\ limit g = None /\ wrap_input g = Ok g' /\ In W (wroots g') /\
  (forall s, s < num_syms g' -> productive (prods g') s) /\
  ll_parse_table g' = Ok table /\ ll_classify g' table = Ok cls /\
  map_get cls (wr_root W) = Some Ll1 /\ ~ td_deterministic (prods g') (wr_root W).
Proof.
  exists ex_ll_bad.
  destruct (wrap_input ex_ll_bad) as [g'| |] eqn:E; [|vm_compute in E; discriminate..].
  vm_compute in E. injection E as <-.
  match goal with |- exists g' _ _ _, _ /\ _ /\ Ok ?x = _ /\ _ => set (G := x); exists x end.
  eexists. eexists. eexists.
  split; [split; [closed_tac|split; repeat constructor]|]. split; [reflexivity|]. split; [reflexivity|]. split; [left; reflexivity|].
  assert (T : forall s, In s [2; 3; 5; 6] -> terminal (prods G) s).
  { intros s Hs r [x [Hx [HL _]]]. simpl in Hs, Hx.
    repeat (destruct Hx as [<-|Hx]; [simpl in HL; subst s; intuition lia|]). destruct Hx. }
  assert (D : forall A r, In (A, r) (plain G) -> prods G A r) by (intros; apply plain_prods; auto).
  assert (LT : forall s, terminal (prods G) s -> productive (prods G) s).
  { intros s HT. exists [s]. split; [constructor|repeat constructor; auto]. }
  assert (L0 : language (prods G) 0 [2]).
  { split; [|repeat constructor; apply T; simpl; auto]. apply derives_rule. apply D. simpl. auto. }
  split.
  - intros s Hs. change (s < 7) in Hs.
    destruct s as [|[|[|[|[|[|[|s]]]]]]]; [| | | | | | |lia]; try (apply LT; apply T; simpl; auto 10; fail).
    + exists [2]. exact L0.
    + exists []. split; [|constructor]. apply derives_rule. apply D. simpl. auto 6.
    + exists [5; 2; 6]. split; [|repeat constructor; apply T; simpl; auto 8].
      eapply derives_rule_then; [apply D; simpl; do 4 right; left; reflexivity|].
      apply (derives_ctx (prods G) [5] [6] [0] [2]). apply L0.
  - split; [vm_compute; reflexivity|]. split; [vm_compute; reflexivity|]. split; [vm_compute; reflexivity|].
    intros HD. assert (X : ([1; 2; 6], [2; 6]) = ([2; 6], [2; 6])); [|discriminate].
    apply (HD [5; 2; 6] ([0; 6], [2; 6])).
    + eapply steps_cons.
      * apply (td_predict _ 4 [5; 0; 6]); [apply D; simpl; auto 8|]. left. split; [apply T; simpl; auto|]. exists [0; 6]. constructor.
      * eapply steps_cons; [apply td_match; apply T; simpl; auto|]. constructor.
    + apply (td_predict _ 0 [1; 2] [6] 2 [6]); [apply D; simpl; auto|]. left. split; [apply T; simpl; auto|]. exists [].
      apply (derives_step _ [] 1 [2] []); [apply D; simpl; auto 6|]. constructor.
    + apply (td_predict _ 0 [2] [6] 2 [6]); [apply D; simpl; auto|]. left. split; [apply T; simpl; auto|]. exists []. constructor.
Qed.
Print Assumptions C129_refuted.
