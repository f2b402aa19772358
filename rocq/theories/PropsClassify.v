(** Properties C30 - C36: derivation matrices, usefulness, cycles, recursion. *)

From Coq Require Import List Arith Bool Lia Relations Sorted.
From Verif Require Import Base ListFacts Spec SpecClassify GrammarFacts SymbolModel HistoryModel CfgModel View SetView
  BitSetModel ClosureModel SetProof MatrixModel MatrixProof ClassifyModel UsefulProof CfgProof CyclesProof PropsGrammar.
Import ListNotations.
Local Notation length := List.length.

(** S ::= X U | x ;  X ::= y ;  U ::= U.     S X U x y = 0 1 2 3 4.   root S *)
Definition ex_useless : cfg :=
  mkCfg (mkSrc 5 (repeat None 5))
        [mkRule 0 [1; 2] hd0; mkRule 0 [3] hd0; mkRule 1 [4] hd0; mkRule 2 [2] hd0] [0] [] None.

(** A ::= B ;  B ::= A | x ;  C ::= A B ;  x.   A B x C = 0 1 2 3.  roots B C *)
Definition ex_cycle : cfg :=
  mkCfg (mkSrc 4 (repeat None 4))
        [mkRule 0 [1] hd0; mkRule 1 [0] hd0; mkRule 1 [2] hd0; mkRule 3 [0; 1] hd0] [1; 3] [] None.

Ltac closed_tac := let x := fresh in let Hx := fresh in
  intros x Hx; simpl in Hx; unfold num_syms; simpl;
  repeat (destruct Hx as [<- | Hx]; [simpl; repeat constructor; lia|]); destruct Hx.

Lemma ex_useless_closed : closed_rules ex_useless.
Proof. closed_tac. Qed.
Lemma ex_cycle_closed : closed_rules ex_cycle.
Proof. closed_tac. Qed.

(** ** C30 *)
Theorem C30_reachability : forall g, closed_rules g ->
  exists m, reachability_matrix g = Ok m /\
  (forall a b, a < num_syms g -> b < num_syms g ->
     exists v, mx_get m a b = Ok v /\ (v = true <-> reaches1 (prods g) a b)) /\
  (forall a, a < num_syms g ->
     exists l, iter_row_syms m a = Ok l /\ StronglySorted lt l /\ forall b, In b l <-> reaches1 (prods g) a b).
Proof.
  intros g HC. destruct (reachability_spec g HC) as [m [E [HS HB]]]. exists m. split; auto. split.
  - intros a b Ha Hb. destruct (mx_get_ok _ m a b HS Ha Hb) as [v [Ev Mv]]. exists v. rewrite Mv, HB. tauto.
  - intros a Ha. destruct (iter_row_syms_spec _ m a HS Ha) as [l [El Ml]]. exists l. split; auto. split.
    + unfold iter_row_syms in El. destruct (get_ix m a); simpl in El; inversion El. apply row_syms_sorted.
    + intros b. rewrite Ml. apply HB.
Qed.
Print Assumptions C30_reachability.

Theorem C30_reflexive : forall g, closed_rules g ->
  exists m m', reachability_matrix g = Ok m /\ reflexive m = Ok m' /\
  forall a b, a < num_syms g -> b < num_syms g ->
    exists v, mx_get m' a b = Ok v /\ (v = true <-> reaches (prods g) a b).
Proof.
  intros g HC. destruct (reachability_spec g HC) as [m [E [HS HB]]].
  destruct (reflexive_closure_spec _ m HS) as [m' [E' [HS' HB']]]. exists m, m'. split; auto. split; auto.
  intros a b Ha Hb. destruct (mx_get_ok _ m' a b HS' Ha Hb) as [v [Ev Mv]]. exists v. split; auto.
  rewrite Mv, HB', HB, reaches_iff. intuition.
Qed.
Print Assumptions C30_reflexive.

Theorem C30_unit : forall g, closed_rules g ->
  exists m, unit_derivation_matrix g = Ok m /\
  forall a b, a < num_syms g -> b < num_syms g ->
    exists v, mx_get m a b = Ok v /\ (v = true <-> unit_derives (prods g) a b).
Proof.
  intros g HC. destruct (unit_matrix_spec g HC) as [m [E [HS HB]]]. exists m. split; auto.
  intros a b Ha Hb. destruct (mx_get_ok _ m a b HS Ha Hb) as [v [Ev Mv]]. exists v. rewrite Mv, HB. tauto.
Qed.
Print Assumptions C30_unit.

Example C30_example : closed_rules ex_cycle /\
  reachability_matrix ex_cycle = Ok [[true; true; true; false]; [true; true; true; false];
                                     [false; false; false; false]; [true; true; true; false]] /\
  unit_derivation_matrix ex_cycle = Ok [[true; true; true; false]; [true; true; true; false];
                                     [false; false; false; false]; [false; false; false; false]].
Proof. split; [exact ex_cycle_closed|]. split; vm_compute; reflexivity. Qed.

(** ** C31.  [l] are the roots the analysis is asked for; [usefulness()] takes the grammar's. *)
Theorem C31_productive : forall g l, closed_rules g -> Forall (fun s => s < num_syms g) l ->
  exists u, usefulness_with_roots g l = Ok u /\
  (forall s, s < num_syms g -> exists b, us_productive u s = Ok b /\ (b = true <-> productive (prods g) s)) /\
  (us_all_productive u = true <-> forall s, s < num_syms g -> productive (prods g) s).
Proof.
  intros g l HC HL. destruct (usefulness_spec g l HC HL) as [u [E AN]]. exists u. split; auto. split.
  - intros s Hs. apply (us_productive_spec g l u AN s Hs).
  - apply (all_productive_spec g l u AN).
Qed.
Print Assumptions C31_productive.

Theorem C31_rule : forall g l, closed_rules g -> Forall (fun s => s < num_syms g) l ->
  exists u, usefulness_with_roots g l = Ok u /\
  (forall x, In x (rules g) -> exists v, us_rule u x = Ok v /\
     (ru_reachable v = true <-> reachable_from (prods g) l (lhs x)) /\
     (ru_productive v = true <-> productive_rhs (prods g) (rhs x)) /\
     (is_useless v = false <-> useful (prods g) l (lhs x) (rhs x))) /\
  (us_all_useful u = true <-> forall x, In x (rules g) -> useful (prods g) l (lhs x) (rhs x)) /\
  (us_all_reachable u = true <-> forall s, occurs (prods g) s -> reachable_from (prods g) l s).
Proof.
  intros g l HC HL. destruct (usefulness_spec g l HC HL) as [u [E AN]]. exists u. split; auto. split; [|split].
  - intros x Hx. apply (us_rule_spec g l u HC AN x Hx).
  - apply (all_useful_spec g l u HC AN).
  - apply (all_reachable_spec g l u HC AN).
Qed.
Print Assumptions C31_rule.

(** The list of useless rules has exactly the rules that are not useful, in rule order. *)
Theorem C31_useless_rules : forall g l, closed_rules g -> Forall (fun s => s < num_syms g) l ->
  exists u rs, usefulness_with_roots g l = Ok u /\ us_useless_rules u g = Ok rs /\
  (forall x, In x rs <-> In x (rules g) /\ ~ useful (prods g) l (lhs x) (rhs x)) /\
  exists f, rs = filter f (rules g).
Proof.
  intros g l HC HL. destruct (usefulness_spec g l HC HL) as [u [E AN]]. exists u.
  destruct (filter_res_spec (fun r => do x <- us_rule u r; Ok (is_useless x))
              (fun x => ~ useful (prods g) l (lhs x) (rhs x)) (rules g)) as [rs [Er [Mr Fr]]].
  { intros x Hx. destruct (us_rule_spec g l u HC AN x Hx) as [v [Ev [_ [_ Mv]]]]. rewrite Ev. simpl.
    eexists. split; [reflexivity|]. rewrite <- Mv. destruct (is_useless v); intuition discriminate. }
  exists rs. split; auto. split; auto. split; auto. eexists; exact Fr.
Qed.
Print Assumptions C31_useless_rules.

Example C31_example : closed_rules ex_useless /\
  exists u, cfg_usefulness ex_useless = Ok u /\ us_all_useful u = false /\
  map (us_productive u) [0; 1; 2; 3; 4] = map Ok [true; true; false; true; true] /\
  us_useless_rules u ex_useless = Ok [mkRule 0 [1; 2] hd0; mkRule 2 [2] hd0].
Proof.
  split; [exact ex_useless_closed|]. eexists. split; [vm_compute; reflexivity|].
  split; [vm_compute; reflexivity|]. split; vm_compute; reflexivity.
Qed.

(** ** C32.  For the roots the analysis was made with. *)
Theorem C32_remove_useless : forall g l, closed_rules g -> Forall (fun s => s < num_syms g) l ->
  exists u g', usefulness_with_roots g l = Ok u /\ us_remove_useless_rules u g = Ok g' /\
  forall R, In R l ->
    (forall w, language_over (terminal (prods g)) (prods g') R w <-> language (prods g) R w) /\
    (productive (prods g) R -> forall w, language (prods g') R w <-> language (prods g) R w).
Proof.
  intros g l HC HL. destruct (usefulness_spec g l HC HL) as [u [E AN]]. exists u.
  destruct (remove_useless_spec g l u HC AN) as [g' [E' [M [_ _]]]]. exists g'. split; auto. split; auto.
  intros R HR. pose proof (prods_useful g g' l M) as HP. split.
  - intros w. unfold language_over, language.
    assert (HX : Forall (terminal (prods g)) w -> (derives (prods g') [R] w <-> derives (prods g) [R] w)).
    { intros HW. rewrite (derives_ext _ _ HP). apply useful_part_derives; auto.
      constructor; auto. apply root_reachable; auto. }
    split; intros [A B]; split; auto; apply HX; auto.
  - intros HPR w. rewrite <- (useful_part_language (prods g) l R w HR HPR). apply language_ext; auto.
Qed.
Print Assumptions C32_remove_useless.

Theorem C32_make_proper : forall g, closed_rules g -> Forall (fun s => s < num_syms g) (roots g) ->
  exists b g', make_proper g = Ok (b, g') /\ roots g' = roots g /\ num_syms g' = num_syms g /\
  (b = true <-> forall x, In x (rules g) -> useful (prods g) (roots g) (lhs x) (rhs x)) /\
  (b = true -> g' = g) /\
  forall R, In R (roots g) ->
    (forall w, language_over (terminal (prods g)) (prods g') R w <-> language (prods g) R w) /\
    (productive (prods g) R -> forall w, language (prods g') R w <-> language (prods g) R w).
Proof.
  intros g HC HL. destruct (make_proper_spec g HC HL) as [b [g' [E [Mb [M [_ [EG HT]]]]]]].
  exists b, g'. split; auto. split; [rewrite EG; auto|]. split; [rewrite EG; auto|]. split; auto. split; auto.
  intros R HR. pose proof (prods_useful g g' (roots g) M) as HP. split.
  - intros w. unfold language_over, language.
    assert (HX : Forall (terminal (prods g)) w -> (derives (prods g') [R] w <-> derives (prods g) [R] w)).
    { intros HW. rewrite (derives_ext _ _ HP). apply useful_part_derives; auto.
      constructor; auto. apply root_reachable; auto. }
    split; intros [A B]; split; auto; apply HX; auto.
  - intros HPR w. rewrite <- (useful_part_language (prods g) (roots g) R w HR HPR). apply language_ext; auto.
Qed.
Print Assumptions C32_make_proper.

(** Only useful rules remain and no useful rule is lost, in rule order. *)
Theorem C32_rules_kept : forall g, closed_rules g -> Forall (fun s => s < num_syms g) (roots g) ->
  exists b g', make_proper g = Ok (b, g') /\
  (forall x, In x (rules g') <-> In x (rules g) /\ useful (prods g) (roots g) (lhs x) (rhs x)) /\
  (exists f, rules g' = filter f (rules g)) /\ g' = set_rules g (rules g').
Proof.
  intros g HC HL. destruct (make_proper_spec g HC HL) as [b [g' [E [_ [M [F [EG _]]]]]]].
  exists b, g'. auto.
Qed.
Print Assumptions C32_rules_kept.

(** Without a productive root: the root of U ::= U loses its rule and then counts as a terminal,
    which is why the theorems speak of strings of the original terminals. *)
Example C32_unproductive_root :
  let g := mkCfg (mkSrc 1 [None]) [mkRule 0 [0] hd0] [0] [] None in
  closed_rules g /\ exists g', make_proper g = Ok (false, g') /\ rules g' = [] /\ language (prods g') 0 [0].
Proof.
  intros g. split; [closed_tac|]. eexists. split; [vm_compute; reflexivity|]. split; [reflexivity|].
  split; [constructor|]. constructor; auto. intros r [x [[] _]].
Qed.

Example C32_example : closed_rules ex_useless /\ Forall (fun s => s < num_syms ex_useless) (roots ex_useless) /\
  productive (prods ex_useless) 0 /\
  exists g', make_proper ex_useless = Ok (false, g') /\ rules g' = [mkRule 0 [3] hd0; mkRule 1 [4] hd0].
Proof.
  split; [exact ex_useless_closed|]. split; [repeat constructor|]. split.
  - exists [3]. split; [apply derives_rule; exists (mkRule 0 [3] hd0); simpl; auto|].
    constructor; auto. intros r [x [Hx [H _]]]. simpl in Hx. unfold In in Hx.
    destruct Hx as [<-|[<-|[<-|[<-|[]]]]]; discriminate.
  - eexists. split; vm_compute; reflexivity.
Qed.

(** ** C33.  One call can leave rules that have become unreachable. *)
Theorem C33_refuted : exists g b g', closed_rules g /\ roots g = [0] /\
  make_proper g = Ok (b, g') /\
  exists x, In x (rules g') /\ ~ useful (prods g') (roots g') (lhs x) (rhs x).
Proof.
  exists ex_useless, false. eexists. split; [exact ex_useless_closed|]. split; [reflexivity|].
  split; [vm_compute; reflexivity|].
  match goal with |- exists x, In x (rules ?G) /\ _ => set (g' := G) end.
  exists (mkRule 1 [4] hd0). split; [simpl; auto|].
  assert (HC : closed_rules g') by closed_tac.
  destruct (usefulness_spec g' [0] HC) as [u [E AN]]; [repeat constructor|].
  vm_compute in E. inversion E as [E2]. clear E.
  destruct (us_rule_spec g' [0] u HC AN (mkRule 1 [4] hd0)) as [v [Ev [_ [_ Mv]]]]; [simpl; auto|].
  rewrite <- E2 in Ev. vm_compute in Ev. inversion Ev as [E3]. rewrite <- E3 in Mv. clear Ev.
  intros HU. apply Mv in HU. discriminate.
Qed.
Print Assumptions C33_refuted.

Lemma useful_part_kept : forall (P : productions) l, (forall s, reachable_from P l s -> productive P s) ->
  forall A r, useful_part P l A r -> useful (useful_part P l) l A r.
Proof.
  intros P l HP A r H. split; [|apply productive_list; eapply useful_part_rhs; eauto].
  destruct H as [_ [[R [HR H]] _]]. exists R. split; auto.
  apply reaches_iff in H. apply reaches_iff. destruct H as [->|H]; auto. right.
  apply reaches1_direct in H. apply reaches1_direct. apply Operators_Properties.clos_trans_tn1 in H.
  assert (HD : forall A B, reaches P R A -> direct P A B -> direct (useful_part P l) A B).
  { intros B C HA [q [Hq Hi]]. exists q. split; auto. split; auto. assert (X : reachable_from P l B) by (exists R; auto). split; [exact X|].
    apply productive_list. eapply Forall_impl; [exact HP|]. eapply reachable_step; eauto. }
  induction H as [y H|y z H1 H2 IH].
  - apply t_step. apply HD; auto. exists [], []. constructor.
  - eapply t_trans; [exact IH|]. apply t_step. apply HD; auto. apply reaches_iff. right.
    apply reaches1_direct. apply Operators_Properties.clos_tn1_trans. exact H2.
Qed.

(** What holds: one call is enough when every symbol that is reached from a root is productive. *)
Theorem C33_one_pass_partial : forall g, closed_rules g -> Forall (fun s => s < num_syms g) (roots g) ->
  (forall s, reachable_from (prods g) (roots g) s -> productive (prods g) s) ->
  exists b g', make_proper g = Ok (b, g') /\
  forall x, In x (rules g') -> useful (prods g') (roots g') (lhs x) (rhs x) /\
                               contributes (prods g') (roots g') (lhs x) (rhs x).
Proof.
  intros g HC HL HPr. destruct (make_proper_spec g HC HL) as [b [g' [E [_ [M [_ [EG _]]]]]]].
  exists b, g'. split; auto. intros x Hx. pose proof (prods_useful g g' (roots g) M) as HP.
  assert (HR : roots g' = roots g) by (rewrite EG; auto). rewrite HR.
  assert (HUP : useful_part (prods g) (roots g) (lhs x) (rhs x)) by (apply HP; exists x; auto).
  assert (HU : useful (prods g') (roots g) (lhs x) (rhs x)).
  { apply (useful_ext _ _ (roots g) HP). apply useful_part_kept; auto. }
  split; auto. apply useful_contributes; auto.
  - intros A r HA. apply HP in HA. pose proof (useful_part_rhs _ _ _ _ HA) as HF.
    eapply Forall_impl; [|exact HF]. intros a [w Hw]. exists w. eapply language_ext; [|exact Hw]. exact HP.
  - exists x; auto.
Qed.
Print Assumptions C33_one_pass_partial.

(** Two calls are always enough; every rule left is then used in a derivation of a terminal string
    from a root, and a further call changes nothing and says so. *)
Theorem C33_two_passes_partial : forall g, closed_rules g -> Forall (fun s => s < num_syms g) (roots g) ->
  exists b1 g1 b2 g2, make_proper g = Ok (b1, g1) /\ make_proper g1 = Ok (b2, g2) /\
  (forall x, In x (rules g2) -> useful (prods g2) (roots g2) (lhs x) (rhs x) /\
                                contributes (prods g2) (roots g2) (lhs x) (rhs x)) /\
  make_proper g2 = Ok (true, g2).
Proof.
  intros g HC HL. destruct (make_proper_spec g HC HL) as [b1 [g1 [E1 [_ [M1 [[f1 F1] [EG1 _]]]]]]].
  pose proof (prods_useful g g1 (roots g) M1) as HP1.
  assert (HR1 : roots g1 = roots g) by (rewrite EG1; auto).
  assert (HN1 : num_syms g1 = num_syms g) by (rewrite EG1; auto).
  assert (HC1 : closed_rules g1).
  { intros x Hx. apply M1 in Hx. destruct Hx as [Hx _]. rewrite HN1. apply HC; auto. }
  destruct (make_proper_spec g1 HC1) as [b2 [g2 [E2 [_ [M2 [_ [EG2 _]]]]]]]; [rewrite HR1, HN1; auto|].
  pose proof (prods_useful g1 g2 (roots g1) M2) as HP2.
  assert (HR2 : roots g2 = roots g1) by (rewrite EG2; auto).
  assert (HN2 : num_syms g2 = num_syms g1) by (rewrite EG2; auto).
  exists b1, g1, b2, g2. split; auto. split; auto.
  assert (HQ1 : forall A r, prods g1 A r -> Forall (productive (prods g1)) r).
  { intros A r HA. apply HP1 in HA. pose proof (useful_part_rhs _ _ _ _ HA) as HF.
    eapply Forall_impl; [|exact HF]. intros a [w Hw]. exists w. eapply language_ext; [|exact Hw]. exact HP1. }
  assert (HU : forall x, In x (rules g2) -> useful (prods g2) (roots g2) (lhs x) (rhs x)).
  { intros x Hx. rewrite HR2. apply (useful_ext _ _ (roots g1) HP2). apply useful_part_all_useful; auto.
    apply HP2. exists x; auto. }
  assert (HQ2 : forall A r, prods g2 A r -> Forall (productive (prods g2)) r).
  { intros A r HA. apply HP2 in HA. pose proof (useful_part_rhs _ _ _ _ HA) as HF.
    eapply Forall_impl; [|exact HF]. intros a [w Hw]. exists w. eapply language_ext; [|exact Hw]. exact HP2. }
  split.
  - intros x Hx. split; auto. apply useful_contributes; auto. exists x; auto.
  - assert (HC2 : closed_rules g2).
    { intros x Hx. apply M2 in Hx. destruct Hx as [Hx _]. rewrite HN2. apply HC1; auto. }
    destruct (make_proper_spec g2 HC2) as [b3 [g3 [E3 [M3b [_ [_ [_ EG3]]]]]]]; [rewrite HR2, HR1, HN2, HN1; auto|].
    rewrite E3. assert (b3 = true) by (apply M3b; exact HU). subst b3. rewrite EG3; auto.
Qed.
Print Assumptions C33_two_passes_partial.

Example C33_example : exists g1 g2, make_proper ex_useless = Ok (false, g1) /\ make_proper g1 = Ok (false, g2) /\
  rules g2 = [mkRule 0 [3] hd0].
Proof. do 2 eexists. split; [vm_compute; reflexivity|]. split; vm_compute; reflexivity. Qed.

(** S ::= x S | x ; U ::= U x ; V ::= x   with S U V x = 0..3: U is unproductive, and not reached. One call is enough. *)
Definition ex_once : cfg :=
  mkCfg (mkSrc 4 (repeat None 4)) [mkRule 0 [3; 0] hd0; mkRule 0 [3] hd0; mkRule 1 [1; 3] hd0; mkRule 2 [3] hd0] [0] [] None.
Example C33_once_example : closed_rules ex_once /\ Forall (fun s => s < num_syms ex_once) (roots ex_once) /\
  (forall s, reachable_from (prods ex_once) (roots ex_once) s -> productive (prods ex_once) s) /\
  exists g', make_proper ex_once = Ok (false, g') /\ rules g' = [mkRule 0 [3; 0] hd0; mkRule 0 [3] hd0] /\ make_proper g' = Ok (true, g').
Proof.
  split; [closed_tac|]. split; [repeat constructor|]. split; [|eexists; split; [vm_compute; reflexivity|split; vm_compute; reflexivity]].
  intros s [R [HR [u [v D]]]]. destruct HR as [<-|[]].
  assert (T : terminal (prods ex_once) 3).
  { intros r [x [Hx [HL _]]]. simpl in Hx. repeat (destruct Hx as [<-|Hx]; [discriminate|]). destruct Hx. }
  assert (F : Forall (fun s => s = 0 \/ s = 3) (u ++ s :: v)).
  { apply (derives_Forall (prods ex_once) (fun s => s = 0 \/ s = 3)) with (u := [0]); [|exact D|constructor; auto].
    intros A r [x [Hx [HL HRr]]] HA. simpl in Hx.
    repeat (destruct Hx as [<-|Hx]; [simpl in HL, HRr; subst r; repeat constructor; auto; exfalso; destruct HA; congruence|]). destruct Hx. }
  apply Forall_app in F. destruct F as [_ F]. inversion F as [|? ? [-> | ->] _]; subst.
  - exists [3]. split; [|repeat constructor; exact T]. apply derives_rule. exists (mkRule 0 [3] hd0). simpl. auto.
  - exists [3]. split; [constructor|repeat constructor; exact T].
Qed.

(** ** C34 *)
Theorem C34_cycle_free : forall g, closed_rules g ->
  exists c b c', cycles_new g = Ok c /\ cycle_free c = Ok (b, c') /\
  (b = true <-> cycle_free_grammar (prods g)) /\ cy_grammar c' = g.
Proof.
  intros g HC. destruct (cycles_new_spec g HC) as [m [E [HS HB]]].
  destruct (cycle_free_spec g m HC HS HB) as [b [EF MF]]. do 3 eexists. split; [exact E|]. split; [exact EF|]. auto.
Qed.
Print Assumptions C34_cycle_free.

Theorem C34_classify : forall g, closed_rules g ->
  exists c l, cycles_new g = Ok c /\ cy_classify c = Ok l /\ map fst l = rules g /\
  (forall x b, In (x, b) l -> (b = true <-> on_cycle (prods g) (lhs x) (rhs x))) /\
  forall want, exists rs, cycle_participants c want = Ok rs /\
    forall x, In x rs <-> In x (rules g) /\
      (if want then on_cycle (prods g) (lhs x) (rhs x) else ~ on_cycle (prods g) (lhs x) (rhs x)).
Proof.
  intros g HC. destruct (cycles_new_spec g HC) as [m [E [HS HB]]].
  destruct (classify_spec g m HC HS HB (rules g)) as [l [El [Ml Hl]]]; auto.
  exists (mkCycles g m None), l. split; auto. split; auto. split; auto. split; auto.
  intros want. unfold cycle_participants, cy_classify. cbn [cy_unit cy_grammar]. rewrite El. cbn [bind].
  eexists. split; [reflexivity|]. intros x. rewrite in_map_iff. split.
  - intros [[y b] [<- Hy]]. apply filter_In in Hy. destruct Hy as [Hy Hb]. simpl in *. split.
    + rewrite <- Ml. apply in_map_iff. exists (y, b); auto.
    + apply Hl in Hy. destruct want, b; simpl in Hb; try discriminate; [tauto|]. intros X. apply Hy in X. discriminate.
  - intros [Hx HW]. rewrite <- Ml in Hx. apply in_map_iff in Hx. destruct Hx as [[y b] [<- Hy]]. exists (y, b).
    split; auto. apply filter_In. split; auto. simpl in *. apply Hl in Hy.
    destruct want, b; simpl; auto; [apply Hy in HW; discriminate|]. exfalso. apply HW, Hy; auto.
Qed.
Print Assumptions C34_classify.

(** A new analysis of the grammar after removal or rewriting reports that it is cycle free. *)
Theorem C34_removed : forall g, closed_rules g ->
  exists c c', cycles_new g = Ok c /\ remove_cycles c = Ok c' /\
  let g' := cy_grammar c' in
  cycle_free_grammar (prods g') /\
  (exists d d', cycles_new g' = Ok d /\ cycle_free d = Ok (true, d')) /\
  (exists f, rules g' = filter f (rules g)) /\ g' = set_rules g (rules g') /\
  (forall x, In x (rules g') <-> In x (rules g) /\ ~ on_cycle (prods g) (lhs x) (rhs x)).
Proof.
  intros g HC. destruct (remove_cycles_spec g HC) as [c [c' [E [E' [EG [F [M _]]]]]]].
  exists c, c'. split; auto. split; auto. intros g'. fold g' in EG, F, M.
  assert (HF : cycle_free_grammar (prods g')) by (eapply removed_cycle_free; eauto). split; auto. split.
  - assert (HC' : closed_rules g').
    { intros x Hx. apply M in Hx. rewrite EG. change (num_syms (set_rules g (rules g'))) with (num_syms g).
      apply HC; tauto. }
    destruct (cycles_new_spec g' HC') as [m [E2 [HS HB]]].
    destruct (cycle_free_spec g' m HC' HS HB) as [b [EF MF]]. do 2 eexists. split; [exact E2|].
    assert (b = true) by (apply MF; auto). subst b. exact EF.
  - auto.
Qed.
Print Assumptions C34_removed.

Theorem C34_rewritten : forall g, closed_rules g -> good_limit (limit g) ->
  exists c c', cycles_new g = Ok c /\ rewrite_cycles c = Ok c' /\
  let g' := cy_grammar c' in
  cycle_free_grammar (prods g') /\
  exists d d', cycles_new g' = Ok d /\ cycle_free d = Ok (true, d').
Proof.
  intros g HC HG. destruct (rewrite_cycles_spec g HC HG) as [c [c' [r [E [E' RW]]]]].
  exists c, c'. split; auto. split; auto. intros g'. destruct (rw_repr _ _ _ RW) as [V [RP [_ [HU [_ [_ HF]]]]]].
  fold g' in RP, HU.
  assert (HF' : cycle_free_grammar (prods g')).
  { intros A HA. apply (HF A). apply (unit_derives_units (prods g') V); auto. }
  split; auto. pose proof (rp_closed _ _ _ RP) as HC'. destruct (cycles_new_spec g' HC') as [m [E2 [HS HB]]].
  destruct (cycle_free_spec g' m HC' HS HB) as [b [EF MF]]. do 2 eexists. split; [exact E2|].
  assert (b = true) by (apply MF; auto). subst b. exact EF.
Qed.
Print Assumptions C34_rewritten.

(** The object the removal was made with keeps its old answer. *)
Theorem C34_stale_answer_refuted : exists g c c', closed_rules g /\ cycles_new g = Ok c /\
  remove_cycles c = Ok c' /\ cycle_free_grammar (prods (cy_grammar c')) /\ cycle_free c' = Ok (false, c').
Proof.
  destruct (C34_removed ex_cycle ex_cycle_closed) as [c [c' [E [E' [HF _]]]]].
  exists ex_cycle, c, c'. split; [exact ex_cycle_closed|]. split; auto. split; auto. split; auto.
  vm_compute in E. inversion E as [EC]. rewrite <- EC in E'. vm_compute in E'. inversion E'. reflexivity.
Qed.
Print Assumptions C34_stale_answer_refuted.

Example C34_example : closed_rules ex_cycle /\ good_limit (limit ex_cycle) /\
  exists c c' c'', cycles_new ex_cycle = Ok c /\ cycle_free c = Ok (false, c') /\
  cycle_participants c true = Ok [mkRule 0 [1] hd0; mkRule 1 [0] hd0] /\
  rewrite_cycles c = Ok c'' /\ rules (cy_grammar c'') = [mkRule 0 [2] hd0; mkRule 3 [0; 0] hd0].
Proof.
  split; [exact ex_cycle_closed|]. split; [exact I|]. do 3 eexists. split; [vm_compute; reflexivity|].
  split; [vm_compute; reflexivity|]. split; [vm_compute; reflexivity|]. split; vm_compute; reflexivity.
Qed.

(** ** C35.  Roots are not renamed: root B of  A ::= B ; B ::= A | x  loses its language. *)
Theorem C35_refuted : exists g c c' R w, closed_rules g /\ limit g = None /\
  cycles_new g = Ok c /\ rewrite_cycles c = Ok c' /\
  In R (roots g) /\ roots (cy_grammar c') = roots g /\
  language (prods g) R w /\ ~ derives (prods (cy_grammar c')) [R] w.
Proof.
  exists ex_cycle. do 2 eexists. exists 1, [2]. split; [exact ex_cycle_closed|]. split; [reflexivity|].
  split; [vm_compute; reflexivity|]. split; [vm_compute; reflexivity|]. split; [simpl; auto|].
  split; [reflexivity|]. split.
  - split; [apply derives_rule; exists (mkRule 1 [2] hd0); simpl; auto|].
    constructor; auto. intros r [x [Hx [H _]]]. simpl in Hx. destruct Hx as [<-|[<-|[<-|[<-|[]]]]]; discriminate.
  - intros H. apply derives_single_inv in H. destruct H as [H|[r [[x [Hx [H _]]] _]]]; [discriminate|].
    simpl in Hx. destruct Hx as [<-|[<-|[]]]; discriminate.
Qed.
Print Assumptions C35_refuted.

(** What holds: there is one symbol [r s] for each cycle, namely the left-hand side of its first
    rule, such that after rewriting [r s] derives the terminal strings that [s] derived.  A root
    that is on no cycle, or is the first on its cycle, keeps its language.
    Missing: the other roots. *)
Theorem C35_renamed_partial : forall g, closed_rules g -> good_limit (limit g) ->
  exists c c' r, cycles_new g = Ok c /\ rewrite_cycles c = Ok c' /\
  let g' := cy_grammar c' in
  (forall s, ~ unit_derives (prods g) s s -> r s = s) /\
  (forall s, unit_derives (prods g) s s -> exists before x after, rules g = before ++ x :: after /\
     lhs x = r s /\ same_cycle (prods g) s (lhs x) /\ on_cycle (prods g) (lhs x) (rhs x) /\
     forall y, In y before -> on_cycle (prods g) (lhs y) (rhs y) -> ~ same_cycle (prods g) s (lhs y)) /\
  (forall s w, s < num_syms g -> Forall (fun a => a < num_syms g /\ terminal (prods g) a) w ->
     (derives (prods g') [r s] w <-> derives (prods g) [s] w)) /\
  roots g' = roots g /\ wroots g' = wroots g.
Proof.
  intros g HC HG. destruct (rewrite_cycles_spec g HC HG) as [c [c' [r [E [E' RW]]]]].
  exists c, c', r. split; auto. split; auto. intros g'. split; [apply (rw_id _ _ _ RW)|]. split; [|split].
  - intros s Hs. destruct (rw_first _ _ _ RW s Hs) as [pre [x [post [H1 [H2 [H3 [H4 H5]]]]]]].
    exists pre, x, post. split; auto. split; auto. rewrite H3. split; auto. split; auto. rewrite <- H3. auto.
  - intros s w Hs Hw. destruct (rw_repr _ _ _ RW) as [V [RP [_ [_ [_ [HD _]]]]]]. fold g' in RP.
    rewrite (represents_derives _ _ _ (rp_rep _ _ _ RP)).
    + change [r s] with (map r [s]). apply HD. eapply Forall_impl; [|exact Hw]. intros a [_ HT] HU.
      apply Operators_Properties.clos_trans_t1n in HU. destruct HU as [y [HP _]|y z [HP _] _]; eapply HT; eauto.
    + constructor; auto. pose proof (rw_lt _ _ _ RW s Hs). lia.
    + eapply Forall_impl; [|exact Hw]. intros a [Ha _]. simpl. lia.
  - split; [apply (rw_roots _ _ _ RW)|apply (rw_wroots _ _ _ RW)].
Qed.
Print Assumptions C35_renamed_partial.

(** A root that is on no cycle keeps its language. *)
Theorem C35_root_partial : forall g, closed_rules g -> good_limit (limit g) ->
  exists c c', cycles_new g = Ok c /\ rewrite_cycles c = Ok c' /\
  forall R w, R < num_syms g -> ~ unit_derives (prods g) R R ->
    Forall (fun a => a < num_syms g /\ terminal (prods g) a) w ->
    (derives (prods (cy_grammar c')) [R] w <-> derives (prods g) [R] w).
Proof.
  intros g HC HG. destruct (C35_renamed_partial g HC HG) as [c [c' [r [E [E' [H1 [_ [H3 _]]]]]]]].
  exists c, c'. split; auto. split; auto. intros R w HR HN HW. rewrite <- (H3 R w HR HW), (H1 R HN). reflexivity.
Qed.
Print Assumptions C35_root_partial.

(** When no rule is longer than the limit, the rules are: in order, those not on a cycle that have no replaced symbol; then, in order, the
    others not on a cycle with their symbols replaced. *)
Theorem C35_rules_partial : forall g, closed_rules g -> good_limit (limit g) ->
  (forall l x, limit g = Some l -> In x (rules g) -> length (rhs x) <= l) ->
  exists c c' r (keep changed : rule -> bool), cycles_new g = Ok c /\ rewrite_cycles c = Ok c' /\
  (forall s, ~ unit_derives (prods g) s s -> r s = s) /\
  (forall s, unit_derives (prods g) s s -> same_cycle (prods g) s (r s)) /\
  (forall s s', same_cycle (prods g) s s' -> r s = r s') /\
  (forall x, In x (rules g) -> (keep x = true <-> ~ on_cycle (prods g) (lhs x) (rhs x))) /\
  (forall x, changed x = true <-> r (lhs x) <> lhs x \/ exists s, In s (rhs x) /\ r s <> s) /\
  rules (cy_grammar c') = filter (fun x => keep x && negb (changed x)) (rules g) ++
    map (fun x => mkRule (r (lhs x)) (map r (rhs x)) (hist x)) (filter (fun x => keep x && changed x) (rules g)).
Proof.
  intros g HC HG HL. destruct (rewrite_cycles_spec g HC HG) as [c [c' [r [E [E' RW]]]]].
  destruct (rw_rules _ _ _ RW HL) as [keep [K1 K2]]. exists c, c', r, keep, (moved r).
  split; auto. split; auto. split; [apply (rw_id _ _ _ RW)|]. split.
  { intros s Hs. destruct (rw_first _ _ _ RW s Hs) as [pre [x [post [_ [_ [_ [H4 _]]]]]]]. exact H4. }
  split; [apply (rw_same _ _ _ RW)|]. split; auto. split; [|exact K2].
  intros x. unfold moved. rewrite orb_true_iff, existsb_exists, negb_true_iff, Nat.eqb_neq. split; (intros [H|[s [H1 H2]]]; [left; exact H|right; exists s; split; auto]).
  - apply negb_true_iff, Nat.eqb_neq in H2. exact H2.
  - apply negb_true_iff, Nat.eqb_neq. exact H2.
Qed.
Print Assumptions C35_rules_partial.

(** S ::= a B ; A ::= B | b ; B ::= A ; T ::= b.  Symbols S = 0, A = 1, B = 2, a = 3, b = 4, T = 5. *)
Example C35_rules_example : let g := mkCfg (mkSrc 6 (repeat None 6))
    [mkRule 0 [3; 2] hd0; mkRule 1 [2] hd0; mkRule 1 [4] hd0; mkRule 2 [1] hd0; mkRule 5 [4] hd0] [0] [] None in
  closed_rules g /\ limit g = None /\ exists c c', cycles_new g = Ok c /\ rewrite_cycles c = Ok c' /\
    map (fun x => (lhs x, rhs x)) (rules (cy_grammar c')) = [(1, [4]); (5, [4]); (0, [3; 1])].
Proof.
  intros g. split; [|split; [reflexivity|]].
  - intros x Hx. simpl in Hx. repeat (destruct Hx as [<-|Hx]; [unfold num_syms; simpl; split; [lia|repeat constructor; lia]|]). destruct Hx.
  - do 2 eexists. split; [vm_compute; reflexivity|]. split; [vm_compute; reflexivity|]. reflexivity.
Qed.

(** When every symbol is productive, no nonterminal loses all of its rules, and the languages are
    the same also in the sense of the rewritten grammar's own terminals. *)
Theorem C35_language_partial : forall g, closed_rules g -> good_limit (limit g) ->
  (forall s, s < num_syms g -> productive (prods g) s) ->
  exists c c' r, cycles_new g = Ok c /\ rewrite_cycles c = Ok c' /\
  (forall s, ~ unit_derives (prods g) s s -> r s = s) /\
  (forall s, unit_derives (prods g) s s -> same_cycle (prods g) s (r s)) /\
  forall s w, s < num_syms g -> (language (prods (cy_grammar c')) (r s) w <-> language (prods g) s w).
Proof.
  intros g HC HG HPr. destruct (rewrite_cycles_spec g HC HG) as [c [c' [r [E [E' RW]]]]].
  exists c, c', r. split; auto. split; auto. split; [apply (rw_id _ _ _ RW)|]. split.
  { intros s Hs. destruct (rw_first _ _ _ RW s Hs) as [pre [x [post [_ [_ [_ [H4 _]]]]]]]. exact H4. }
  destruct (rw_repr _ _ _ RW) as [V [RP [HV [_ [HSnd [HD _]]]]]]. set (g' := cy_grammar c') in *.
  assert (HNC : forall a, terminal (prods g) a -> ~ unit_derives (prods g) a a).
  { intros a HT HU. apply Operators_Properties.clos_trans_t1n in HU.
    destruct HU as [y [HP _]|y z [HP _] _]; eapply HT; eauto. }
  assert (Hidem : forall s, r (r s) = r s).
  { intros s. destruct (rewrite_cycles_dec g HC s) as [HU|HU].
    - destruct (rw_first _ _ _ RW s HU) as [pre [x [post [_ [_ [_ [H4 _]]]]]]]. symmetry. apply (rw_same _ _ _ RW); auto.
    - rewrite !(rw_id _ _ _ RW); auto. rewrite (rw_id _ _ _ RW); auto. }
  assert (HTV : forall b, b < num_syms g -> r b = b -> terminal V b -> terminal (prods g) b).
  { intros b Hb HI HT q HP. destruct (HPr b Hb) as [w [HDw HTw]].
    assert (HX : derives V (map r [b]) w).
    { apply HD; auto. eapply Forall_impl; [|exact HTw]. auto. }
    simpl in HX. rewrite HI in HX. apply derives_single_inv in HX. destruct HX as [->|[q' [HQ _]]].
    - inversion HTw; subst. eapply H1; eauto.
    - eapply HT; eauto. }
  assert (HTP : forall a, terminal (prods g) a -> terminal V a).
  { intros a HT q HP. apply HV in HP. destruct HP as [x [Hx [_ [Ha _]]]].
    destruct (rewrite_cycles_dec g HC (lhs x)) as [HU|HU].
    - destruct (rw_first _ _ _ RW _ HU) as [pre [y [post [_ [_ [_ [[_ H4] _]]]]]]]. rewrite <- Ha in H4.
      apply Operators_Properties.clos_trans_t1n in H4. destruct H4 as [z [HP _]|z z' [HP _] _]; eapply HT; eauto.
    - rewrite (rw_id _ _ _ RW) in Ha by auto. apply (HT (rhs x)). exists x; auto. }
  intros s w Hs. rewrite (represents_language _ _ _ (rp_rep _ _ _ RP)) by (pose proof (rw_lt _ _ _ RW s Hs); lia).
  unfold language. split.
  - intros [H1 H2].
    assert (HF : Forall (fun a => a < num_syms g /\ r a = a) w).
    { eapply derives_Forall; [|exact H1|].
      - intros A q HQ _. apply HV in HQ. destruct HQ as [x [Hx [_ [_ ->]]]]. destruct (HC x Hx) as [_ Hr].
        apply Forall_forall. intros a Ha. apply in_map_iff in Ha. destruct Ha as [b [<- Hb]].
        rewrite Forall_forall in Hr. split; [apply (rw_lt _ _ _ RW); auto|auto].
      - constructor; auto. split; [apply (rw_lt _ _ _ RW); auto|auto]. }
    assert (HT : Forall (terminal (prods g)) w).
    { rewrite Forall_forall in *. intros a Ha. destruct (HF a Ha). apply HTV; auto. }
    split; auto. change [s] with ([s]). change [r s] with (map r [s]) in H1. apply HD in H1; auto.
    eapply Forall_impl; [|exact HT]. auto.
  - intros [H1 H2]. split.
    + change [r s] with (map r [s]). apply HD; auto. eapply Forall_impl; [|exact H2]. auto.
    + eapply Forall_impl; [|exact H2]. auto.
Qed.
Print Assumptions C35_language_partial.

(** Otherwise a cycle without exit leaves a symbol without rules:  S ::= A | x ; A ::= B ; B ::= A. *)
Example C35_dead_cycle :
  let g := mkCfg (mkSrc 4 (repeat None 4))
             [mkRule 0 [1] hd0; mkRule 0 [3] hd0; mkRule 1 [2] hd0; mkRule 2 [1] hd0] [0] [] None in
  exists c c', cycles_new g = Ok c /\ rewrite_cycles c = Ok c' /\
  language (prods (cy_grammar c')) 0 [1] /\ ~ terminal (prods g) 1.
Proof.
  intros g. do 2 eexists. split; [vm_compute; reflexivity|]. split; [vm_compute; reflexivity|]. split.
  - split; [apply derives_rule; exists (mkRule 0 [1] hd0); simpl; auto|]. constructor; auto.
    intros r [x [Hx [H _]]]. simpl in Hx. destruct Hx as [<-|[<-|[]]]; discriminate.
  - intros H. apply (H [2]). exists (mkRule 1 [2] hd0). simpl; auto.
Qed.

Example C35_example : closed_rules ex_cycle /\ good_limit (limit ex_cycle) /\
  In 3 (roots ex_cycle) /\ language (prods ex_cycle) 3 [2; 2].
Proof.
  split; [exact ex_cycle_closed|]. split; [exact I|]. split; [simpl; auto 8|]. split.
  - apply derives_rule_then with [0; 1]; [exists (mkRule 3 [0; 1] hd0); simpl; auto 8|].
    assert (H1 : derives (prods ex_cycle) [1] [2]) by (apply derives_rule; exists (mkRule 1 [2] hd0); simpl; auto 8).
    apply (derives_app _ [0] [1] [2] [2]); auto.
    apply derives_rule_then with [1]; auto. exists (mkRule 0 [1] hd0); simpl; auto 8.
  - assert (HT : terminal (prods ex_cycle) 2); [|repeat constructor; auto].
    intros r [x [Hx [H _]]]. simpl in Hx. destruct Hx as [<-|[<-|[<-|[<-|[]]]]]; discriminate.
Qed.

(** ** C36 *)

Lemma recursive_iff : forall P A r, recursive P A r <-> exists s, In s r /\ reaches P s A.
Proof.
  intros P A r. split.
  - intros [u [v H]]. revert u v H. induction r as [|s r IH]; intros u v H.
    + apply derives_nil_inv in H. destruct u; discriminate.
    + apply (derives_app_inv P [s] r) in H. destruct H as [w1 [w2 [E [H1 H2]]]].
      assert (HI : In A (w1 ++ w2)) by (rewrite <- E; apply in_or_app; right; left; auto).
      apply in_app_or in HI. destruct HI as [HI|HI]; apply in_split in HI; destruct HI as [x [y ->]].
      * exists s. split; [left; auto|]. exists x, y; auto.
      * destruct (IH _ _ H2) as [s' [? ?]]. exists s'. split; [right; auto|auto].
  - intros [s [Hs [u [v H]]]]. apply in_split in Hs. destruct Hs as [x [y ->]].
    exists (x ++ u), (v ++ y).
    replace ((x ++ u) ++ A :: v ++ y) with (x ++ (u ++ A :: v) ++ y) by (rewrite <- !app_assoc; reflexivity).
    apply derives_app; [constructor|]. change (s :: y) with ([s] ++ y). apply derives_app; [auto|constructor].
Qed.

Theorem C36_recursive : forall g, closed_rules g ->
  exists l, recursive_rules g = Ok l /\ (exists f, map fst l = filter f (rules g)) /\
  forall x, In x (rules g) -> ((exists k, In (x, k) l) <-> recursive (prods g) (lhs x) (rhs x)).
Proof.
  intros g HC. unfold recursive_rules. destruct (reachability_spec g HC) as [m [E [HS HB]]]. rewrite E. cbn [bind].
  destruct (recursive_from_spec g m HC HS HB (rules g)) as [l [El [Fl [_ Ml]]]]; auto.
  exists l. split; auto. split; auto. intros x Hx. rewrite recursive_iff. auto.
Qed.
Print Assumptions C36_recursive.

(** The flags tell in which right-hand-side position a symbol reaches the left-hand side: the
    first, the last, one in between. *)
Theorem C36_positions : forall g, closed_rules g ->
  exists l, recursive_rules g = Ok l /\
  forall x k, In (x, k) l -> In x (rules g) /\
    (rk_left k = true <-> exists s t, rhs x = s :: t /\ reaches (prods g) s (lhs x)) /\
    (rk_right k = true <-> exists s t, rhs x = t ++ [s] /\ reaches (prods g) s (lhs x)) /\
    (rk_middle k = true <-> exists a t s u b, rhs x = a :: t ++ s :: u ++ [b] /\ reaches (prods g) s (lhs x)).
Proof.
  intros g HC. unfold recursive_rules. destruct (reachability_spec g HC) as [m [E [HS HB]]]. rewrite E. cbn [bind].
  destruct (recursive_from_spec g m HC HS HB (rules g)) as [l [El [_ [Hl _]]]]; auto.
  exists l. split; auto. intros x k Hk. destruct (Hl x k Hk) as [Hx Ek]. split; auto.
  destruct (rule_recursion_spec g m x HC HS HB Hx) as [k' [Ek' H]]. rewrite Ek in Ek'. inversion Ek'; subst k'. tauto.
Qed.
Print Assumptions C36_positions.

(** A rule that starts with its left-hand side is always reported as left. *)
Theorem C36_direct_left : forall g x t, closed_rules g -> In x (rules g) -> rhs x = lhs x :: t ->
  exists l k, recursive_rules g = Ok l /\ In (x, k) l /\ rk_left k = true.
Proof.
  intros g x t HC Hx HR. destruct (C36_recursive g HC) as [l [E [_ M]]].
  destruct (C36_positions g HC) as [l' [E' M']]. rewrite E in E'. inversion E'; subst l'.
  assert (HRr : recursive (prods g) (lhs x) (rhs x)) by (exists [], t; rewrite HR; constructor).
  apply (M x Hx) in HRr. destruct HRr as [k Hk]. exists l, k. split; auto. split; auto.
  apply (M' x k Hk). exists (lhs x), t. split; auto. exists [], []. constructor.
Qed.
Print Assumptions C36_direct_left.

(** Left is not exact: a rule with the flag that is not left-recursive. *)
Theorem C36_left_sound_refuted : exists g l x k, closed_rules g /\ recursive_rules g = Ok l /\
  In (x, k) l /\ rk_left k = true /\ ~ left_recursive (prods g) (lhs x) (rhs x).
Proof.
  set (g := mkCfg (mkSrc 4 (repeat None 4)) [mkRule 0 [1; 2] hd0; mkRule 1 [3; 0] hd0] [0] [] None).
  exists g. eexists. exists (mkRule 0 [1; 2] hd0). eexists. split; [closed_tac|]. split; [vm_compute; reflexivity|].
  split; [left; reflexivity|]. split; [reflexivity|]. intros [v H]. simpl in H.
  assert (HX : forall u w, derives (prods g) u w -> hd 9 u = 1 \/ hd 9 u = 3 -> hd 9 w = 1 \/ hd 9 w = 3).
  { induction 1 as [|u A v' r w HP HD IH]; auto. intros Hh. apply IH. destruct u as [|b u]; simpl in *; auto.
    destruct HP as [x [Hx [H1 H2]]]. simpl in Hx. destruct Hx as [<-|[<-|[]]]; simpl in *; subst; simpl; auto.
    }
  apply HX in H; simpl in *; lia.
Qed.
Print Assumptions C36_left_sound_refuted.

(** And a left-recursive rule, through a nullable symbol, without the flag. *)
Theorem C36_left_complete_refuted : exists g l x k, closed_rules g /\ recursive_rules g = Ok l /\
  In (x, k) l /\ left_recursive (prods g) (lhs x) (rhs x) /\ rk_left k = false.
Proof.
  set (g := mkCfg (mkSrc 2 (repeat None 2)) [mkRule 0 [1; 0] hd0; mkRule 1 [] hd0] [0] [] None).
  exists g. eexists. exists (mkRule 0 [1; 0] hd0). eexists. split; [closed_tac|]. split; [vm_compute; reflexivity|].
  split; [left; reflexivity|]. split; [|reflexivity]. exists []. simpl.
  apply (derives_step (prods g) [] 1 [0] []); [exists (mkRule 1 [] hd0); simpl; auto|constructor].
Qed.
Print Assumptions C36_left_complete_refuted.

(** What holds: every left-recursive rule whose first symbol does not derive the empty string is reported as left. *)
Theorem C36_left_complete_partial : forall g, closed_rules g ->
  exists l, recursive_rules g = Ok l /\
  forall x, In x (rules g) -> (forall s t, rhs x = s :: t -> ~ nullable (prods g) s) ->
    left_recursive (prods g) (lhs x) (rhs x) -> exists k, In (x, k) l /\ rk_left k = true.
Proof.
  intros g HC. destruct (C36_recursive g HC) as [l [E [_ M]]].
  destruct (C36_positions g HC) as [l' [E' M']]. rewrite E in E'. inversion E'; subst l'.
  exists l. split; auto. intros x Hx HN [v H].
  assert (HRr : recursive (prods g) (lhs x) (rhs x)) by (exists [], v; auto).
  apply (M x Hx) in HRr. destruct HRr as [k Hk]. exists k. split; auto. apply (M' x k Hk).
  destruct (rhs x) as [|s t].
  - apply derives_nil_inv in H. discriminate.
  - exists s, t. split; auto. apply (derives_app_inv _ [s] t) in H. destruct H as [w1 [w2 [Ew [H1 H2]]]].
    destruct w1 as [|a w1]; [destruct (HN s t eq_refl H1)|]. simpl in Ew. inversion Ew; subst. exists [], w1; auto.
Qed.
Print Assumptions C36_left_complete_partial.

(** E ::= E + E | ( E ) | - E | n      E + ( ) - n = 0 .. 5 *)
Definition ex_rec : cfg :=
  mkCfg (mkSrc 6 (repeat None 6))
        [mkRule 0 [0; 1; 0] hd0; mkRule 0 [2; 0; 3] hd0; mkRule 0 [4; 0] hd0; mkRule 0 [5] hd0] [0] [] None.
Example C36_example : closed_rules ex_rec /\
  recursive_rules ex_rec = Ok [(mkRule 0 [0; 1; 0] hd0, mkRec true false true);
                               (mkRule 0 [2; 0; 3] hd0, mkRec false true false);
                               (mkRule 0 [4; 0] hd0, mkRec false false true)].
Proof. split; [closed_tac|vm_compute; reflexivity]. Qed.
