(** Property C124: the size of a grammar prepared for a parser. *)

From Coq Require Import List Arith NArith Bool Lia.
From Verif Require Import Base ListFacts Spec SpecClassify GrammarFacts SymbolModel HistoryModel CfgModel View SetView
  BitSetModel ClosureModel SetProof MatrixModel MatrixProof ClassifyModel UsefulProof ElimModel ElimProof CfgProof CfgProof2
  CyclesProof PipeProof PropsGrammar PropsElim PropsClassify PropsPipe PropsElimSize.
Import ListNotations.
Local Notation length := List.length.

Lemma sum_app : forall a b, list_sum (a ++ b) = list_sum a + list_sum b.
Proof. induction a; intros b; simpl; auto. unfold list_sum in *. rewrite IHa. lia. Qed.

Lemma sum_cons : forall a b, list_sum (a :: b) = a + list_sum b.
Proof. reflexivity. Qed.

Lemma wrap_one_size : forall g i g', good_limit (limit g) -> wrap_one g i = Ok g' ->
  pairs g' = pairs g + 2 /\ num_syms g' + beyond g' = num_syms g + beyond g + 4 /\ limit g' = limit g.
Proof.
  intros g i g' HG E. unfold wrap_one in E. unfold next_sym in E. cbn [src limit rules roots wroots] in E.
  unfold add_rule, add_rule_parts, add_rule_fuel in E. cbn [limit rhs length] in E.
  unfold pairs, beyond, num_syms.
  destruct (limit g) as [[|[|[|[|l]]]]|] eqn:EL; simpl in HG; try lia; cbn in E; injection E as <-;
    cbn [rules push_rule set_rules src limit num]; rewrite !map_app, !sum_app, ?map_app, ?sum_app;
    cbn -[list_sum Nat.max]; rewrite !sum_cons; cbn; repeat split; try lia.
Qed.

Lemma wrap_input_size : forall g g', good_limit (limit g) -> wrap_input g = Ok g' ->
  pairs g' = pairs g + 2 * length (roots g) /\
  num_syms g' + beyond g' = num_syms g + beyond g + 4 * length (roots g).
Proof.
  intros g g' HG E. unfold wrap_input in E.
  assert (HX : forall l h h', good_limit (limit h) -> fold_res wrap_one l h = Ok h' ->
    pairs h' = pairs h + 2 * length l /\ num_syms h' + beyond h' = num_syms h + beyond h + 4 * length l).
  { induction l as [|x l IH]; intros h h' HL X; cbn [fold_res length] in *; [injection X as <-; lia|].
    destruct (wrap_one h x) as [h1| |] eqn:Y; try discriminate. cbn [bind] in X.
    destruct (wrap_one_size _ _ _ HL Y) as [A [B C]]. destruct (IH h1 h') as [P Q]; auto; [rewrite C; exact HL|]. lia. }
  apply HX in E; [exact E | exact HG].
Qed.

Lemma add_within_syms : forall l h h', good_limit (limit h) -> (forall k x, limit h = Some k -> In x l -> length (rhs x) <= k) ->
  fold_res add_rule l h = Ok h' -> num_syms h' = num_syms h.
Proof.
  induction l as [|x l IH]; intros h h' HG HL E; cbn [fold_res] in E; [injection E as <-; reflexivity|].
  destruct (add_rule_spec h x HG) as [k [c [Ea [Hk Hc]]]]. rewrite Ea in E. cbn [bind] in E.
  apply IH in E; [|exact HG|intros k0 y H1 H2; apply (HL k0 y H1); right; exact H2]. rewrite E.
  destruct Hc as [[-> _]|[l2 [E2 [Hlt _]]]].
  - simpl in Hk. unfold num_syms. cbn [added src num]. lia.
  - pose proof (HL l2 x E2 (or_introl eq_refl)). lia.
Qed.

Lemma rewrite_cycles_syms : forall g c c', closed_rules g -> good_limit (limit g) -> within_limit g ->
  cycles_new g = Ok c -> rewrite_cycles c = Ok c' -> num_syms (cy_grammar c') = num_syms g.
Proof.
  intros g c c' HC HG WL E E'. destruct (cycles_new_spec g HC) as [m [E0 [HS HB]]]. rewrite E0 in E. injection E as <-.
  destruct (cycle_free_spec g m HC HS HB) as [b [EF _]]. unfold rewrite_cycles in E'. rewrite EF in E'. cbn [bind] in E'.
  destruct b; [injection E' as <-; reflexivity|]. cbn [cy_unit cy_grammar cy_free] in E'.
  destruct (fold_res (rewrite_scan m) (rules g) (fun _ => None, [])) as [[t kept]| |] eqn:ES; try discriminate. cbn [bind] in E'.
  match type of E' with bind ?x _ = _ => destruct x as [g'| |] eqn:EA; try discriminate end. cbn [bind] in E'. injection E' as <-. cbn [cy_grammar].
  apply add_within_syms in EA; [exact EA|exact HG|].
  intros k x Hk Hx. apply in_map_iff in Hx. destruct Hx as [y [<- Hy]]. apply filter_In in Hy. destruct Hy as [Hy _].
  apply scan_kept in ES. subst kept. cbn [app] in Hy. apply filter_In in Hy. destruct Hy as [Hy _].
  unfold rewrite_rule. destruct (translate t (lhs y)). cbn [fst rhs]. rewrite map_length. exact (WL k y Hk Hy).
Qed.

Lemma filter_two : forall (A : Type) (f h : A -> bool) l, length (filter (fun x => f x && negb (h x)) l) + length (filter (fun x => f x && h x) l) <= length l.
Proof. intros A f h. induction l as [|x l IH]; simpl; auto. destruct (f x), (h x); simpl; lia. Qed.

(** The prepared grammar has at most three rules for each pair of neighbours, and six for each root.
    It has one symbol more for each symbol beyond the second of a rule and four more for each root. *)
Theorem C124_linear : forall g g', closed_rules g -> Forall (fun s => s < num_syms g) (roots g) -> good_limit (limit g) ->
  prepare g = Ok g' ->
  length (rules g') <= 3 * pairs g + 6 * length (roots g) /\
  num_syms g' = num_syms g + beyond g + 4 * length (roots g).
Proof.
  intros g g' HC HR HG E. unfold prepare in E.
  destruct (C18_wrap_input g HC HR HG) as [g1 [E1 [R1 [_ _]]]].
  destruct (wrap_input_fresh g g1 HC HR HG E1) as [L1 [HC1 [N1 HF1]]].
  destruct (wrap_input_size g g1 HG E1) as [P1 B1]. rewrite E1 in E. cbn [bind] in E.
  destruct (eliminate_nulling g1) as [[g2 res2]| |] eqn:E2; try discriminate. cbn [bind] in E.
  destruct (C120_linear g1 g2 res2 HC1 E2) as [P2 [_ [B2 _]]].
  destruct (elim_inv g1 g2 res2 HC1 E2) as [g1b [p [q EL]]].
  destruct (C14_no_empty_rules g1 g2 res2 HC1 E2) as [SH2 _].
  destruct (el_roots _ _ _ _ _ _ EL) as [RO2 [WR2 LI2]].
  pose proof (g1_closed g1 g1b g2 res2 p q HC1 EL) as HCB.
  assert (N2 : num_syms g2 = num_syms g1b) by (unfold num_syms; rewrite (el_src _ _ _ _ _ _ EL); reflexivity).
  assert (HC2 : closed_rules g2).
  { intros x Hx. rewrite N2. destruct (el_cases _ _ _ _ _ _ EL) as [[_ Eg]|[ER _]]; [subst g2; apply HCB; exact Hx|].
    rewrite ER in Hx. apply filter_In in Hx. destruct Hx as [Hx _]. unfold pre_rules in Hx. apply filter_In in Hx.
    destruct Hx as [Hx _]. apply in_app_or in Hx. destruct Hx as [Hx|Hx]; [apply HCB; exact Hx|].
    apply in_flat_map in Hx. destruct Hx as [y [Hy Hx]]. exact (works_closed g1b p y HCB Hy x Hx). }
  assert (HG2 : good_limit (limit g2)) by (rewrite LI2; simpl; lia).
  assert (WL : within_limit g2).
  { intros l x HL Hx. rewrite LI2 in HL. injection HL as <-. rewrite Forall_forall in SH2. apply SH2; exact Hx. }
  destruct (rewrite_cycles_spec g2 HC2 HG2) as [c [c' [r [E3 [E3' RW]]]]].
  rewrite E3 in E. cbn [bind] in E. rewrite E3' in E. cbn [bind] in E.
  pose proof (rewrite_cycles_syms g2 c c' HC2 HG2 WL E3 E3') as N3.
  set (g3 := cy_grammar c') in *.
  destruct (rw_rules _ _ _ RW WL) as [keep [_ K2]]. fold g3 in K2.
  assert (P3 : length (rules g3) <= length (rules g2)).
  { rewrite K2, app_length, map_length. apply filter_two. }
  assert (HC3 : closed_rules g3) by (destruct (rw_repr _ _ _ RW) as [V [RP _]]; exact (rp_closed _ _ _ RP)).
  pose proof (rw_roots _ _ _ RW) as RO3. fold g3 in RO3.
  assert (HR3 : Forall (fun s => s < num_syms g3) (roots g3)).
  { rewrite RO3, RO2. apply Forall_forall. intros R HRR. rewrite R1 in HRR. apply in_map_iff in HRR. destruct HRR as [W [<- HW]].
    destruct (HF1 W HW) as [H1 _]. lia. }
  destruct (C32_rules_kept g3 HC3 HR3) as [b4 [g4 [E4 [_ [[f4 F4] EG4]]]]].
  destruct (make_proper_keeps g3 HC3 HR3) as [b4' [g4' [E4' [HC4 [RO4 [_ [N4 _]]]]]]]. rewrite E4 in E4'. injection E4' as <- <-.
  rewrite E4 in E. cbn [bind] in E.
  assert (HR4 : Forall (fun s => s < num_syms g4) (roots g4)) by (rewrite RO4, N4; exact HR3).
  destruct (C32_rules_kept g4 HC4 HR4) as [b5 [g5 [E5 [_ [[f5 F5] EG5]]]]].
  destruct (make_proper_keeps g4 HC4 HR4) as [b5' [g5' [E5' [HC5 [RO5 [_ [N5 _]]]]]]]. rewrite E5 in E5'. injection E5' as <- <-.
  rewrite E5 in E. cbn [bind] in E. injection E as <-.
  pose proof (filter_le _ f4 (rules g3)) as Q4. rewrite <- F4 in Q4.
  pose proof (filter_le _ f5 (rules g4)) as Q5. rewrite <- F5 in Q5.
  split; lia.
Qed.
Print Assumptions C124_linear.

(** S ::= A A A A ;  A ::= a | S | ;   and a wrapped root: six pairs or less.  A is taken in place of S. *)
Example C124_non_vacuous :
  let g := mkCfg (mkSrc 3 (repeat None 3)) [mkRule 0 [1; 1; 1; 1] (history_new 0); mkRule 1 [2] (history_new 1);
                                            mkRule 1 [0] (history_new 2); mkRule 1 [] (history_new 3)] [0] [] None in
  closed_rules g /\ Forall (fun s => s < num_syms g) (roots g) /\ good_limit (limit g) /\ pairs g = 6 /\ beyond g = 2 /\
  exists g', prepare g = Ok g' /\ length (rules g') = 7 /\ num_syms g' = 9.
Proof.
  cbn zeta. split; [|split; [repeat constructor|split; [exact I|split; [reflexivity|split; [reflexivity|]]]]].
  - intros x [<-|[<-|[<-|[<-|[]]]]]; (split; [unfold num_syms; simpl; lia | repeat constructor; unfold num_syms; simpl; lia]).
  - eexists. split; [vm_compute; reflexivity|]. split; reflexivity.
Qed.
