(** C102: what is reported as LL(1) is unambiguous. *)

From Coq Require Import List Arith Bool Lia Relations.
From Verif Require Import Base Spec SpecPredict SpecTree GrammarFacts TreeProof TreeLang HistoryModel CfgModel View CfgProof2
  PropsGrammar BitSetModel SetView SetProof MatrixProof UsefulProof SetsModel SetsProof FollowProof PropsClassify PropsPredict LLModel LLProof PropsLL LLTree PipeProof.
Import ListNotations.

Lemma plain_prods : forall g A r, In (A, r) (plain g) <-> prods g A r.
Proof.
  intros g A r. unfold plain. rewrite in_map_iff. split.
  - intros [x [E Hx]]. injection E as <- <-. exists x. auto.
  - intros [x [Hx [<- <-]]]. exists x. auto.
Qed.

Lemma selects_ext : forall (P Q : productions) A r t, (forall B q, P B q <-> Q B q) -> selects P A r t -> selects Q A r t.
Proof.
  intros P Q A r t H HS.
  assert (T : forall s, terminal P s -> terminal Q s) by (intros s X q Y; apply (X q); apply H; auto).
  assert (D : forall u v, derives P u v -> derives Q u v) by (intros u v; apply derives_mono; intros B q; apply H).
  destruct HS as [[X [v Y]]|[X [Y [C [u [v Z]]]]]]; [left; split; auto; exists v; auto|right; split; auto; split; auto; exists C, u, v; auto].
Qed.

Lemma plain_conflict : forall g B, ll1_conflict (of_list (plain g)) (plain g) B -> ll1_conflict (prods g) (plain g) B.
Proof.
  intros g B [i [j [r [r' [t [N [Hi [Hj [S1 S2]]]]]]]]]. exists i, j, r, r', t. do 3 (split; auto).
  split; (eapply selects_ext; [|eauto]); intros; apply plain_prods.
Qed.

Lemma plain_vanish : forall g B, vanish_conflict (of_list (plain g)) (plain g) B -> vanish_conflict (prods g) (plain g) B.
Proof.
  intros g B [i [j [r [r' [N [Hi [Hj [S1 S2]]]]]]]]. exists i, j, r, r'. do 3 (split; auto).
  split; [revert S1|revert S2]; apply derives_mono; intros A q X; apply plain_prods; exact X.
Qed.

Lemma reaches_rule : forall (P : productions) A B r C, reaches P A B -> P B r -> In C r -> reaches P A C.
Proof.
  intros P A B r C [u [v H]] HP HI. apply in_split in HI. destruct HI as [x [y ->]].
  exists (u ++ x), (y ++ v). pose proof (derives_step_r P [A] u B v _ H HP) as K.
  rewrite <- !app_assoc in *. exact K.
Qed.

(** ** C102.  If all symbols are productive, no rule starts with a symbol that derives the empty string among others, and [A] is
    reported LL(1), then no string has two parse trees from [A], as long as no symbol under [A] has two rules that can
    vanish.  Missing: the end of the input, which the table has no column for, and rules that
    start with such symbols; see the refutations. *)
Theorem C102_unambiguous_partial : forall g table cls A, closed_rules g ->
  (forall s, s < num_syms g -> productive (prods g) s) ->
  ~ leading_optional (prods g) ->
  ll_parse_table g = Ok table -> ll_classify g table = Ok cls -> map_get cls A = Some Ll1 ->
  (forall B, reaches (prods g) A B -> ~ vanish_conflict (prods g) (plain g) B) ->
  unambiguous (plain g) A.
Proof.
  intros g table cls A HC HP HN ET EC HA HV.
  destruct (C44_ll1_partial g HC) as [t2 [c2 [ET2 [EC2 H]]]]. rewrite ET in ET2. injection ET2 as <-.
  rewrite EC in EC2. injection EC2 as <-. destruct (H HP) as [_ H2]. destruct (H2 HN A) as [_ [HL _]].
  apply (ll_unambiguous (plain g) (fun B => reaches (prods g) A B)).
  - intros B r C HB HI HCr. eapply reaches_rule; eauto. apply plain_prods; auto.
  - intros B HB X. apply (HL HA B HB). apply plain_conflict; auto.
  - intros B HB X. apply (HV B HB). apply plain_vanish; auto.
  - exists [], []. constructor.
Qed.
Print Assumptions C102_unambiguous_partial.

Lemma productive_list : forall P u, Forall (productive P) u -> exists w, derives P u w /\ Forall (terminal P) w.
Proof.
  induction 1 as [|s u [w [D T]] _ [x [D2 T2]]]; [exists []; split; constructor|].
  exists (w ++ x). split; [change (s :: u) with ([s] ++ u); apply derives_app; auto|apply Forall_app; auto].
Qed.

(** With markers around the input, the end of the input is a terminal like others: the root is unambiguous, and so is the
    symbol that it wraps, in the grammar as it was. *)
Theorem C102_wrapped_partial : forall g g' W table cls, closed_rules g ->
  Forall (fun s => s < num_syms g) (roots g) -> (limit g = None \/ exists n, limit g = Some n /\ 3 <= n) ->
  wrap_input g = Ok g' -> In W (wroots g') ->
  (forall s, s < num_syms g' -> productive (prods g') s) ->
  ~ leading_optional (prods g') ->
  ll_parse_table g' = Ok table -> ll_classify g' table = Ok cls -> map_get cls (wr_root W) = Some Ll1 ->
  unambiguous (plain g') (wr_root W) /\ unambiguous (plain g) (wr_inner W).
Proof.
  intros g g' W table cls HC HR HLim E HW HP HN ET EC HA.
  assert (HG : good_limit (limit g)). { destruct HLim as [-> | [n [-> ?]]]; simpl; auto. lia. }
  destruct (wrap_input_spec g HC HR HG) as [g2 [E2 [R1 [R2 [R3 R4]]]]].
  rewrite E in E2. injection E2 as <-.
  destruct (wrap_input_fresh g g' HC HR HG E) as [_ [HC' [HNS _]]].
  destruct (wrap_fold_rules _ _ _ (HLim : limit (mkCfg (src g) (rules g) [] [] (limit g)) = None \/ _) E)
    as [rs [ws [Q1 [Q2 [_ [Q4 _]]]]]]. cbn in Q1, Q2.
  destruct (C44_ll1_partial g' HC') as [t2 [c2 [ET2 [EC2 H]]]]. rewrite ET in ET2. injection ET2 as <-.
  rewrite EC in EC2. injection EC2 as <-. destruct (H HP) as [_ H2]. destruct (H2 HN (wr_root W)) as [_ [HL _]].
  specialize (HL HA). clear H H2.
  set (P := prods g') in *.
  assert (HRule : forall V, In V (wroots g') -> P (wr_root V) [wr_start V; wr_inner V; wr_end V]).
  { intros V HV. rewrite Q2 in HV. apply (in_map wroot_rule) in HV. rewrite <- Q4 in HV. apply in_map_iff in HV.
    destruct HV as [x [EX Hx]]. unfold wroot_rule in EX. injection EX as EL ER. exists x. rewrite Q1. split; auto.
    apply in_app_iff; auto. }
  assert (HInv : forall A r, In A (map wr_root (wroots g')) -> P A r ->
    exists V, In V (wroots g') /\ wr_root V = A /\ r = [wr_start V; wr_inner V; wr_end V]).
  { intros A r HI [x [Hx [EL ER]]]. rewrite Q1 in Hx. apply in_app_iff in Hx. destruct Hx as [Hx|Hx].
    - exfalso. apply in_map_iff in HI. destruct HI as [V [EV HV]]. destruct (R3 V HV) as [_ [B _]].
      pose proof (proj1 (HC x Hx)). lia.
    - apply (in_map (fun x => (lhs x, rhs x))) in Hx. rewrite Q4 in Hx. apply in_map_iff in Hx.
      destruct Hx as [V [EV HV]]. unfold wroot_rule in EV. injection EV as EV1 EV2. exists V. rewrite Q2.
      split; auto. split; congruence. }
  assert (HU : unambiguous (plain g') (wr_root W)).
  { apply (ll_unambiguous (plain g') (fun B => exists V, In V (wroots g') /\ wr_root V = wr_root W /\
      (B = wr_root V \/ terminal P B /\ reaches P (wr_root W) B \/ reaches P (wr_inner V) B))).
    - intros A r B [V [HV [EV HB]]] HI HBr. apply plain_prods in HI. destruct HB as [->|[[HT _]|HB]].
      + destruct (HInv (wr_root V) r) as [U [HU [EU ->]]]; [apply in_map; auto|exact HI|].
        exists U. split; auto. split; [congruence|]. destruct (R3 U HU) as [_ [_ [_ [_ [T1 [T2 _]]]]]].
        pose proof (HRule U HU) as HUr. rewrite EU, EV in HUr.
        assert (K : reaches P (wr_root W) B) by (eapply reaches_rule; [exists [], []; constructor|exact HUr|exact HBr]).
        destruct HBr as [<-|[<-|[<-|[]]]]; [right; left; auto|right; right; exists [], []; constructor|right; left; auto].
      + exfalso. apply (HT r HI).
      + exists V. split; auto. split; auto. right. right. eapply reaches_rule; eauto.
    - intros B [V [HV [EV HB]]] X. apply plain_conflict in X. apply (HL B); auto.
      destruct HB as [->|[[_ HB]|HB]]; [rewrite EV; exists [], []; constructor|auto|].
      destruct HB as [u [v HB]]. exists (wr_start V :: u), (v ++ [wr_end V]).
      eapply derives_rule_then; [rewrite <- EV; apply HRule; auto|].
      change ([wr_start V; wr_inner V; wr_end V]) with ([wr_start V] ++ [wr_inner V] ++ [wr_end V]).
      change ((wr_start V :: u) ++ B :: v ++ [wr_end V]) with ([wr_start V] ++ (u ++ (B :: v) ++ [wr_end V])).
      rewrite (app_assoc u). apply derives_ctx. auto.
    - intros B [V [HV [EV HB]]] X. apply plain_vanish in X.
      destruct X as [i [j [r [r' [NE [Hi [Hj [D1 D2]]]]]]]].
      assert (PB : P B r) by (apply plain_prods; eapply nth_error_In; eauto).
      destruct HB as [->|[[HT _]|HB]].
      + destruct (HInv (wr_root V) r) as [U [HU [EU ->]]]; [apply in_map; auto|exact PB|].
        destruct (R3 U HU) as [_ [_ [_ [_ [T1 _]]]]].
        apply derives_cons_inv in D1. destruct D1 as [w1 [w2 [EW [D1 _]]]]. symmetry in EW. apply app_eq_nil in EW.
        destruct EW as [-> _]. apply derives_terminal_inv in D1; [discriminate|repeat constructor; auto].
      + exact (HT r PB).
      + destruct HB as [u [v HB]].
        destruct (R3 V HV) as [_ [_ [_ [_ [_ [T2 _]]]]]].
        assert (HRe : derives P [wr_root V] ((wr_start V :: u) ++ B :: v ++ [wr_end V])).
        { eapply derives_rule_then; [apply HRule; auto|].
          change ([wr_start V; wr_inner V; wr_end V]) with ([wr_start V] ++ [wr_inner V] ++ [wr_end V]).
          change ((wr_start V :: u) ++ B :: v ++ [wr_end V]) with ([wr_start V] ++ (u ++ (B :: v) ++ [wr_end V])).
          rewrite (app_assoc u). apply derives_ctx. auto. }
        assert (HBR : reaches P (wr_root W) B) by (rewrite <- EV; eexists; eexists; exact HRe).
        assert (HBd : Forall (fun s => s < num_syms g') v).
        { assert (X : Forall (fun s => s < num_syms g') ((wr_start V :: u) ++ B :: v ++ [wr_end V])).
          { eapply (derives_Forall P); [|exact HRe|].
            - intros A q [x [Hx [<- <-]]] _. apply (HC' x Hx).
            - repeat constructor. destruct (HRule V HV) as [x [Hx [<- _]]]. apply (HC' x Hx). }
          apply Forall_app in X. destruct X as [_ X]. inversion X as [|? ? _ X2]; subst. apply Forall_app in X2. apply X2. }
        destruct (productive_list P v) as [z [DZ TZ]]; [eapply Forall_impl; [|exact HBd]; auto|].
        assert (HF : exists b, follows P B b).
        { assert (K : derives P [wr_root V] ((wr_start V :: u) ++ B :: z ++ [wr_end V])).
          { eapply derives_trans; [exact HRe|]. apply derives_app; [constructor|]. apply derives_cons_same.
            apply derives_app; [auto|constructor]. }
          destruct z as [|b z]; [exists (wr_end V)|exists b]; (split; [|eexists; eexists; eexists; exact K]).
          - exact T2.
          - inversion TZ; auto. }
        destruct HF as [b HF]. apply (HL B HBR). exists i, j, r, r', b. do 3 (split; auto).
        split; right; auto.
    - exists W. auto. }
  split; auto. intros t t' Ht Ht' EY.
  assert (HPl : plain g' = plain g ++ map wroot_rule (wroots g')) by (unfold plain; rewrite Q1, Q2, map_app, Q4; auto).
  assert (Hin : wr_inner W < num_syms g).
  { assert (X : In (wr_inner W) (map wr_inner (wroots g'))) by (apply in_map; auto). rewrite R2 in X.
    rewrite Forall_forall in HR. auto. }
  assert (HEmb : forall A u, A < num_syms g -> parses (plain g) A u -> parses (plain g') A u).
  { intros A u HA2 HPu. revert HA2. induction HPu as [s Hs|A r i ts Hi Hts IH] using parses_ind2; intros HA2.
    - constructor. intros r X. rewrite HPl in X. apply in_app_iff in X. destruct X as [X|X]; [apply (Hs r X)|].
      apply in_map_iff in X. destruct X as [V [EV HV]]. injection EV as EV _. destruct (R3 V HV) as [_ [B _]]. lia.
    - apply (parses_node _ _ r).
      + rewrite HPl. rewrite nth_error_app1; auto. apply nth_error_Some. congruence.
      + assert (X : Forall (fun s => s < num_syms g) r).
        { apply nth_error_In in Hi. apply plain_prods in Hi. destruct Hi as [x [Hx [_ <-]]]. apply (HC x Hx). }
        clear -IH X. induction IH as [|B u r ts H1 _ IH2]; constructor; inversion X; subst; auto. }
  destruct (HRule W HW) as [x [Hx [EL ER]]]. destruct (In_nth_error _ _ Hx) as [k Hk].
  assert (Hk2 : nth_error (plain g') k = Some (wr_root W, [wr_start W; wr_inner W; wr_end W])).
  { unfold plain. rewrite nth_error_map, Hk. simpl. rewrite EL, ER. auto. }
  destruct (R3 W HW) as [_ [_ [_ [_ [T1 [T2 _]]]]]].
  assert (G : forall u, parses (plain g) (wr_inner W) u ->
    parses (plain g') (wr_root W) (Node k [Leaf (wr_start W); u; Leaf (wr_end W)])).
  { intros u Hu. econstructor; [exact Hk2|]. repeat constructor; auto.
    - intros r X. apply plain_prods in X. exact (T1 r X).
    - intros r X. apply plain_prods in X. exact (T2 r X). }
  assert (Z : Node k [Leaf (wr_start W); t; Leaf (wr_end W)] = Node k [Leaf (wr_start W); t'; Leaf (wr_end W)]).
  { apply HU; auto. simpl. rewrite EY. auto. }
  injection Z as Z. auto.
Qed.
Print Assumptions C102_wrapped_partial.

(** S ::= a S N b | c ; N ::=   with S a b c N = 0..4 and the root S wrapped: all the conditions hold. *)
Definition ex_ll_wrap : cfg :=
  mkCfg (mkSrc 5 []) [mkRule 0 [1; 0; 4; 2] hd0; mkRule 0 [3] hd0; mkRule 4 [] hd0] [0] [] None.
Example C102_example : exists g' W table cls, closed ex_ll_wrap /\ wrap_input ex_ll_wrap = Ok g' /\ In W (wroots g') /\
  (forall s, s < num_syms g' -> productive (prods g') s) /\
  ~ leading_optional (prods g') /\
  ll_parse_table g' = Ok table /\ ll_classify g' table = Ok cls /\ map_get cls (wr_root W) = Some Ll1 /\
  exists t, parses (plain g') (wr_root W) t /\ yield t = [wr_start W; 1; 1; 3; 2; 2; wr_end W].
Proof.
  destruct (wrap_input ex_ll_wrap) as [g'| |] eqn:E; [|vm_compute in E; discriminate..].
  vm_compute in E. injection E as <-.
  match goal with |- exists g' _ _ _, _ /\ Ok ?x = _ /\ _ => set (G := x); exists x end.
  eexists. eexists. eexists.
  split; [split; [closed_tac|split; repeat constructor]|]. split; [reflexivity|]. split; [left; reflexivity|].
  assert (T : forall s, In s [1; 2; 3; 6; 7] \/ 7 < s -> terminal (prods G) s).
  { intros s Hs r [x [Hx [HL _]]]. simpl in Hs, Hx.
    repeat (destruct Hx as [<-|Hx]; [simpl in HL; subst s; intuition lia|]). destruct Hx. }
  assert (D : forall A r, In (A, r) (plain G) -> prods G A r) by (intros; apply plain_prods; auto).
  assert (LT : forall s, terminal (prods G) s -> productive (prods G) s).
  { intros s HT. exists [s]. split; [constructor|repeat constructor; auto]. }
  assert (L0 : language (prods G) 0 [3]).
  { split; [|repeat constructor; apply T; simpl; auto]. apply derives_rule. apply D. simpl. auto. }
  split; [|split].
  - intros s Hs. change (s < 8) in Hs.
    destruct s as [|[|[|[|[|[|[|[|s]]]]]]]]; [| | | | | | | |lia]; try (apply LT; apply T; simpl; auto 10; fail).
    + exists [3]. exact L0.
    + exists []. split; [|constructor]. apply derives_rule. apply D. simpl. auto.
    + exists [6; 3; 7]. split; [|repeat constructor; apply T; simpl; auto 8].
      eapply derives_rule_then; [apply D; simpl; right; right; right; left; reflexivity|].
      apply (derives_ctx (prods G) [6] [7] [0] [3]). apply L0.
  - apply leading_none.
    assert (HZ : forall u v, derives (prods G) u v -> v = [] -> Forall (fun s => s = 4) u).
    { induction 1 as [w|p C q r w HP HD IH]; [intros ->; constructor|]. intros ->. specialize (IH eq_refl).
      apply Forall_app in IH. destruct IH as [I1 I2]. apply Forall_app in I2. destruct I2 as [I2 I3].
      apply Forall_app. split; auto. constructor; auto.
      destruct HP as [x [Hx [HL HR]]]. simpl in Hx.
      repeat (destruct Hx as [<-|Hx]; [simpl in HL, HR; subst r C; auto; inversion I2; discriminate|]). destruct Hx. }
    assert (HY : forall u v, derives (prods G) u v -> Forall (fun s => s = 4) u -> Forall (fun s => s = 4) v).
    { induction 1 as [w|p C q r w HP HD IH]; auto. intros HF. apply IH. apply Forall_app in HF. destruct HF as [F1 F2].
      inversion F2 as [|? ? F3 F4]; subst. apply Forall_app. split; auto. apply Forall_app. split; auto.
      destruct HP as [x [Hx [HL HR]]]. simpl in Hx.
      repeat (destruct Hx as [<-|Hx]; [simpl in HL, HR; subst r; try discriminate; constructor|]). destruct Hx. }
    intros s t HS [HT [v HD]]. apply HZ in HS; auto. apply HY in HD; auto. inversion HD; subst.
    apply (HT []). apply D. simpl. auto.
  - split; [vm_compute; reflexivity|]. split; [vm_compute; reflexivity|]. split; [vm_compute; reflexivity|].
    assert (Leafs : forall s, terminal (prods G) s -> parses (plain G) s (Leaf s)).
    { intros s HT. constructor. intros r X. apply plain_prods in X. exact (HT r X). }
    assert (PN : parses (plain G) 4 (Node 2 [])) by (apply (parses_node _ _ []); [reflexivity|constructor]).
    assert (P3 : parses (plain G) 0 (Node 1 [Leaf 3])).
    { apply (parses_node _ _ [3]); [reflexivity|]. constructor; [apply Leafs, T; simpl; auto|constructor]. }
    assert (PS : forall t, parses (plain G) 0 t -> parses (plain G) 0 (Node 0 [Leaf 1; t; Node 2 []; Leaf 2])).
    { intros t Ht. apply (parses_node _ _ [1; 0; 4; 2]); [reflexivity|].
      constructor; [apply Leafs, T; simpl; auto|]. constructor; auto. constructor; auto.
      constructor; [apply Leafs, T; simpl; auto|]. constructor. }
    exists (Node 3 [Leaf 6; Node 0 [Leaf 1; Node 0 [Leaf 1; Node 1 [Leaf 3]; Node 2 []; Leaf 2]; Node 2 []; Leaf 2]; Leaf 7]).
    split; [|reflexivity]. simpl. apply (parses_node _ _ [6; 0; 7]); [reflexivity|].
    apply Forall2_cons; [apply Leafs, T; simpl; auto 8|]. apply Forall2_cons; [apply PS, PS, P3|].
    apply Forall2_cons; [apply Leafs, T; simpl; auto 9|]. apply Forall2_nil.
Qed.

(** S ::= a B ; B ::= C | D ; C ::= ; D ::=   with S a B C D = 0..4: S is reported LL(1) although "a" has two parse trees.
    The conflict is at the end of the input only. *)
Definition ex_ll_end : cfg :=
  mkCfg (mkSrc 5 []) [mkRule 0 [1; 2] hd0; mkRule 2 [3] hd0; mkRule 2 [4] hd0; mkRule 3 [] hd0; mkRule 4 [] hd0] [0] [] None.
Theorem C102_end_refuted : exists g table cls A, closed g /\
  (forall s, s < num_syms g -> productive (prods g) s) /\
  ~ leading_optional (prods g) /\
  ll_parse_table g = Ok table /\ ll_classify g table = Ok cls /\
  map_get cls A = Some Ll1 /\ ~ unambiguous (plain g) A.
Proof.
  exists ex_ll_end. eexists. eexists. exists 0. split; [split; [closed_tac|split; repeat constructor]|].
  set (G := ex_ll_end).
  assert (T : terminal (prods G) 1).
  { intros r [x [Hx [HL _]]]. simpl in Hx. repeat (destruct Hx as [<-|Hx]; [simpl in HL; lia|]). destruct Hx. }
  assert (D : forall A r, In (A, r) (plain G) -> prods G A r) by (intros; apply plain_prods; auto).
  assert (D3 : derives (prods G) [3] []) by (apply derives_rule; apply D; simpl; auto).
  assert (D4 : derives (prods G) [4] []) by (apply derives_rule; apply D; simpl; auto 8).
  assert (D2 : derives (prods G) [2] []) by (eapply derives_rule_then; [apply D; simpl; right; left; reflexivity|auto]).
  split; [|split].
  - intros s Hs. change (s < 5) in Hs. destruct s as [|[|[|[|[|s]]]]]; [| | | | |lia].
    + exists [1]. split; [|repeat constructor; auto]. eapply derives_rule_then; [apply D; simpl; left; reflexivity|].
      change [1; 2] with ([1] ++ [2] ++ []). change [1] with ([1] ++ [] ++ []) at 2. apply derives_ctx. auto.
    + exists [1]. split; [constructor|repeat constructor; auto].
    + exists []. split; [auto|constructor].
    + exists []. split; [auto|constructor].
    + exists []. split; [auto|constructor].
  - apply leading_none.
    assert (HZ : forall u v, derives (prods G) u v -> v = [] -> Forall (fun s => 2 <= s) u).
    { induction 1 as [w|p C q r w HP HD IH]; [intros ->; constructor|]. intros ->. specialize (IH eq_refl).
      apply Forall_app in IH. destruct IH as [I1 I2]. apply Forall_app in I2. destruct I2 as [I2 I3].
      apply Forall_app. split; auto. constructor; auto.
      destruct HP as [x [Hx [HL HR]]]. simpl in Hx.
      repeat (destruct Hx as [<-|Hx]; [simpl in HL, HR; subst r C; try lia; inversion I2; lia|]). destruct Hx. }
    assert (HY : forall u v, derives (prods G) u v -> Forall (fun s => 2 <= s < 5) u -> Forall (fun s => 2 <= s < 5) v).
    { induction 1 as [w|p C q r w HP HD IH]; auto. intros HF. apply IH. apply Forall_app in HF. destruct HF as [F1 F2].
      inversion F2 as [|? ? F3 F4]; subst. apply Forall_app. split; auto. apply Forall_app. split; auto.
      destruct HP as [x [Hx [HL HR]]]. simpl in Hx.
      repeat (destruct Hx as [<-|Hx]; [simpl in HL, HR; subst r; try lia; repeat constructor; lia|]). destruct Hx. }
    intros s t HS [HT [v HD]].
    assert (HB : s < 5).
    { destruct (derives_single_inv _ _ _ HS) as [X|[r [X _]]]; [discriminate|].
      destruct X as [x [Hx [HL _]]]. simpl in Hx. repeat (destruct Hx as [<-|Hx]; [simpl in HL; lia|]). destruct Hx. }
    apply HZ in HS; auto. inversion HS; subst. apply HY in HD; [|constructor; [lia|constructor]]. inversion HD as [|? ? HB1 HB2]; subst.
    destruct t as [|[|[|[|[|t]]]]]; try lia.
    + apply (HT [3]). apply D. simpl. auto.
    + apply (HT []). apply D. simpl. auto.
    + apply (HT []). apply D. simpl. auto 8.
  - split; [vm_compute; reflexivity|]. split; [vm_compute; reflexivity|]. split; [vm_compute; reflexivity|].
    intros HU. assert (X : Node 0 [Leaf 1; Node 1 [Node 3 []]] = Node 0 [Leaf 1; Node 2 [Node 4 []]]); [|discriminate].
    apply HU; [| |reflexivity].
    + apply (parses_node _ _ [1; 2]); [reflexivity|]. constructor; [constructor; intros r Y; apply plain_prods in Y; exact (T r Y)|].
      repeat constructor. apply (parses_node _ _ [3]); [reflexivity|]. repeat constructor.
      apply (parses_node _ _ []); [reflexivity|]. constructor.
    + apply (parses_node _ _ [1; 2]); [reflexivity|]. constructor; [constructor; intros r Y; apply plain_prods in Y; exact (T r Y)|].
      repeat constructor. apply (parses_node _ _ [4]); [reflexivity|]. repeat constructor.
      apply (parses_node _ _ []); [reflexivity|]. constructor.
Qed.
Print Assumptions C102_end_refuted.

(** S ::= B x | x ; B ::= y |   with S B x y = 0..3 and S wrapped: the root is reported LL(1), "x" has two parse trees. *)
Theorem C102_wrapped_refuted : exists g g' W table cls, closed g /\ limit g = None /\ wrap_input g = Ok g' /\ In W (wroots g') /\
  (forall s, s < num_syms g' -> productive (prods g') s) /\
  ll_parse_table g' = Ok table /\ ll_classify g' table = Ok cls /\
  map_get cls (wr_root W) = Some Ll1 /\ ~ unambiguous (plain g) (wr_inner W).
Proof.
  exists ex_ll_bad.
  destruct (wrap_input ex_ll_bad) as [g'| |] eqn:E; [|vm_compute in E; discriminate..].
  vm_compute in E. injection E as <-.
  match goal with |- exists g' _ _ _, _ /\ _ /\ Ok ?x = _ /\ _ => set (G := x); exists x end.
  eexists. eexists. eexists.
  split; [split; [closed_tac|split; repeat constructor]|]. split; [reflexivity|]. split; [reflexivity|]. split; [left; reflexivity|].
  assert (T : forall s, In s [2; 3; 5; 6] -> terminal (prods G) s).
  { intros s Hs r [x [Hx [HL _]]]. simpl in Hs, Hx.
    repeat (destruct Hx as [<-|Hx]; [simpl in HL; subst s; intuition lia|]). destruct Hx. }
  assert (D : forall A r, In (A, r) (plain G) -> prods G A r) by (intros; apply plain_prods; auto).
  assert (LT : forall s, terminal (prods G) s -> productive (prods G) s).
  { intros s HT. exists [s]. split; [constructor|repeat constructor; auto]. }
  assert (L0 : language (prods G) 0 [2]).
  { split; [|repeat constructor; apply T; simpl; auto]. apply derives_rule. apply D. simpl. auto. }
  split.
  - intros s Hs. change (s < 7) in Hs.
    destruct s as [|[|[|[|[|[|[|s]]]]]]]; [| | | | | | |lia]; try (apply LT; apply T; simpl; auto 10; fail).
    + exists [2]. exact L0.
    + exists []. split; [|constructor]. apply derives_rule. apply D. simpl. auto 6.
    + exists [5; 2; 6]. split; [|repeat constructor; apply T; simpl; auto 8].
      eapply derives_rule_then; [apply D; simpl; do 4 right; left; reflexivity|].
      apply (derives_ctx (prods G) [5] [6] [0] [2]). apply L0.
  - split; [vm_compute; reflexivity|]. split; [vm_compute; reflexivity|]. split; [vm_compute; reflexivity|].
    intros HU. assert (X : Node 0 [Node 3 []; Leaf 2] = Node 1 [Leaf 2]); [|discriminate].
    assert (T2 : parses (plain ex_ll_bad) 2 (Leaf 2)).
    { constructor. intros r X. simpl in X. intuition congruence. }
    apply HU; [| |reflexivity].
    + apply (parses_node _ _ [1; 2]); [reflexivity|]. apply Forall2_cons.
      * apply (parses_node _ _ []); [reflexivity|constructor].
      * apply Forall2_cons; [exact T2|apply Forall2_nil].
    + apply (parses_node _ _ [2]); [reflexivity|]. apply Forall2_cons; [exact T2|apply Forall2_nil].
Qed.
Print Assumptions C102_wrapped_refuted.
