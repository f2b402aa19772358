(** Properties C100 and C101: the passes one after another. *)

From Coq Require Import List Arith Bool Lia Relations String.
From Verif Require Import Base ListFacts Spec SpecClassify SpecRemap GrammarFacts SymbolModel HistoryModel CfgModel View SetView
  BitSetModel ClosureModel SetProof MatrixModel MatrixProof ClassifyModel UsefulProof ElimModel ElimProof CfgProof CfgProof2
  CyclesProof PipeProof RemapModel RemapProof RemapProof2 OpsModel PropsGrammar PropsElim PropsClassify PropsRemap PropsOps.
Import ListNotations.
Local Open Scope string_scope.
Local Open Scope list_scope.
Local Notation length := List.length.

(** A program that prepares a grammar for a parser: it calls wrap_input,
    binarize_and_eliminate_nulling_rules, Cycles::rewrite_cycles and, two times, make_proper. *)
Definition prepare (g : cfg) : res cfg :=
  do g1 <- wrap_input g;
  do (g2, _) <- eliminate_nulling g1;
  do c <- cycles_new g2;
  do c' <- rewrite_cycles c;
  do (_, g4) <- make_proper (cy_grammar c');
  do (_, g5) <- make_proper g4;
  Ok g5.

(** The symbols of input strings: terminals of the original grammar and the start and end markers. *)
Definition input_symbol (g g' : cfg) (a : nat) : Prop :=
  (a < num_syms g /\ terminal (prods g) a) \/
  exists W, In W (wroots g') /\ (a = wr_start W \/ a = wr_end W).

(** ** C100 *)

Lemma make_proper_keeps : forall g, closed_rules g -> Forall (fun s => s < num_syms g) (roots g) ->
  exists b g', make_proper g = Ok (b, g') /\ closed_rules g' /\ roots g' = roots g /\ wroots g' = wroots g /\ num_syms g' = num_syms g /\
    limit g' = limit g /\ src g' = src g /\
    (forall x, In x (rules g') -> In x (rules g)) /\
    (forall R w, In R (roots g) -> Forall (terminal (prods g)) w -> (derives (prods g') [R] w <-> derives (prods g) [R] w)).
Proof.
  intros g HC HR. destruct (C32_make_proper g HC HR) as [b [g' [E [H1 [H2 [_ [_ H3]]]]]]].
  destruct (C32_rules_kept g HC HR) as [b2 [g2 [E2 [K1 [_ K2]]]]]. rewrite E in E2. injection E2 as <- <-.
  exists b, g'. split; auto.
  assert (HI : forall x, In x (rules g') -> In x (rules g)) by (intros x Hx; apply K1 in Hx; tauto).
  split; [intros x Hx; rewrite H2; apply HC; auto|]. split; auto. split; [rewrite K2; reflexivity|]. split; auto.
  split; [rewrite K2; reflexivity|]. split; [rewrite K2; reflexivity|]. split; auto.
  intros R w HRR HT. destruct (H3 R HRR) as [H4 _]. specialize (H4 w). unfold language_over, language in H4. tauto.
Qed.

Lemma sub_terminal : forall g g', (forall x, In x (rules g') -> In x (rules g)) -> forall a, terminal (prods g) a -> terminal (prods g') a.
Proof. intros g g' H a HT r [x [Hx [<- <-]]]. apply (HT (rhs x)). exists x. auto. Qed.

Lemma sub_cycle_free : forall g g', (forall x, In x (rules g') -> In x (rules g)) -> cycle_free_grammar (prods g) -> cycle_free_grammar (prods g').
Proof.
  intros g g' H HF A HU. apply (HF A).
  assert (HX : forall a b, unit_derives (prods g') a b -> unit_derives (prods g) a b).
  { intros a b HD. induction HD as [a b [[x [Hx [HL HR]]] HN]|a b c _ IH1 _ IH2].
    - apply t_step. split; auto. exists x. split; [apply H; exact Hx|]. split; assumption.
    - eapply t_trans; eauto. }
  exact (HX A A HU).
Qed.

Lemma prepare_spec : forall g, closed_rules g -> Forall (fun s => s < num_syms g) (roots g) -> good_limit (limit g) ->
  exists g1 g', wrap_input g = Ok g1 /\ prepare g = Ok g' /\
    roots g' = roots g1 /\ wroots g' = wroots g1 /\ closed_rules g' /\ num_syms g1 <= num_syms g' /\ limit g' = Some 2 /\
    (forall R w, In R (roots g1) -> w <> [] -> Forall (fun a => a < num_syms g1 /\ terminal (prods g1) a) w ->
       (derives (prods g') [R] w <-> derives (prods g1) [R] w)) /\
    (forall a, a < num_syms g1 -> terminal (prods g1) a -> terminal (prods g') a) /\
    Forall (fun x => 1 <= length (rhs x) <= 2) (rules g') /\
    cycle_free_grammar (prods g') /\
    (forall x, In x (rules g') -> contributes (prods g') (roots g') (lhs x) (rhs x)).
Proof.
  intros g HC HR HG. destruct (C18_wrap_input g HC HR HG) as [g1 [E1 [R1 [_ _]]]].
  destruct (wrap_input_fresh g g1 HC HR HG E1) as [L1 [HC1 [N1 HF1]]].
  destruct (C13_total g1 HC1) as [g2 [res2 E2]].
  destruct (elim_inv g1 g2 res2 HC1 E2) as [g1b [p [q EL]]].
  pose proof (C13_language g1 g2 res2 HC1 E2) as LNG2.
  destruct (C14_no_empty_rules g1 g2 res2 HC1 E2) as [SH2 _].
  destruct (el_roots _ _ _ _ _ _ EL) as [RO2 [WR2 LI2]].
  pose proof (g1_num g1 g1b g2 res2 p q HC1 EL) as NB.
  pose proof (g1_closed g1 g1b g2 res2 p q HC1 EL) as HCB.
  assert (N2 : num_syms g2 = num_syms g1b) by (unfold num_syms; rewrite (el_src _ _ _ _ _ _ EL); reflexivity).
  assert (HC2 : closed_rules g2).
  { intros x Hx. rewrite N2. destruct (el_cases _ _ _ _ _ _ EL) as [[_ Eg]|[ER _]]; [subst g2; apply HCB; exact Hx|].
    rewrite ER in Hx. apply filter_In in Hx. destruct Hx as [Hx _]. unfold pre_rules in Hx. apply filter_In in Hx.
    destruct Hx as [Hx _]. apply in_app_or in Hx. destruct Hx as [Hx|Hx]; [apply HCB; exact Hx|].
    apply in_flat_map in Hx. destruct Hx as [y [Hy Hx]]. exact (works_closed g1b p y HCB Hy x Hx). }
  pose proof (elim_syms g1 g1b g2 res2 p q EL) as SY2.
  assert (T2 : forall a, a < num_syms g1 -> terminal (prods g1) a -> terminal (prods g2) a).
  { intros a Ha HT r [x [Hx [HL HRr]]]. destruct (SY2 x Hx) as [[H|[y [Hy H]]] _]; [lia|].
    apply (HT (rhs y)). exists y. split; auto. split; [congruence|reflexivity]. }
  assert (RC2 : forall R, In R (roots g1) -> R < num_syms g1 /\ ~ unit_derives (prods g2) R R).
  { intros R HRR. rewrite R1 in HRR. apply in_map_iff in HRR. destruct HRR as [W [<- HW]].
    destruct (HF1 W HW) as [H1 [_ [_ H2]]]. split; auto. apply not_in_rhs_no_cycle. intros x Hx HX.
    destruct (SY2 x Hx) as [_ HS]. destruct (HS _ HX) as [H|[y [Hy H]]]; [lia|]. exact (H2 y Hy H). }
  assert (HG2 : good_limit (limit g2)) by (rewrite LI2; simpl; lia).
  destruct (rewrite_cycles_spec g2 HC2 HG2) as [c [c' [r [E3 [E3' RW]]]]].
  set (g3 := cy_grammar c') in *.
  assert (WL : within_limit g2).
  { intros l x HL Hx. rewrite LI2 in HL. injection HL as <-. rewrite Forall_forall in SH2. apply SH2; exact Hx. }
  destruct (rw_rules _ _ _ RW WL) as [keep [K1 K2]].
  assert (IN3 : forall x, In x (rules g3) -> exists y, In y (rules g2) /\ lhs x = r (lhs y) /\ rhs x = map r (rhs y)).
  { intros x Hx. rewrite K2 in Hx. apply in_app_or in Hx. destruct Hx as [Hx|Hx].
    - apply filter_In in Hx. destruct Hx as [Hx Hk]. apply andb_true_iff in Hk. destruct Hk as [_ Hk]. apply negb_true_iff in Hk.
      exists x. split; auto. unfold moved in Hk. apply orb_false_iff in Hk. destruct Hk as [Hk1 Hk2].
      apply negb_false_iff, Nat.eqb_eq in Hk1. split; [auto|].
      clear -Hk2. induction (rhs x) as [|s l IH]; simpl in *; auto. apply orb_false_iff in Hk2. destruct Hk2 as [H1 H2].
      apply negb_false_iff, Nat.eqb_eq in H1. rewrite H1, <- IH; auto.
    - apply in_map_iff in Hx. destruct Hx as [y [<- Hy]]. apply filter_In in Hy. exists y. split; [tauto|]. split; reflexivity. }
  assert (HC3 : closed_rules g3).
  { destruct (rw_repr _ _ _ RW) as [V [RP _]]. exact (rp_closed _ _ _ RP). }
  pose proof (rw_num _ _ _ RW) as N3. pose proof (rw_roots _ _ _ RW) as RO3. pose proof (rw_wroots _ _ _ RW) as WR3. fold g3 in N3, RO3, WR3.
  assert (SH3 : Forall (fun x => 1 <= length (rhs x) <= 2) (rules g3)).
  { apply Forall_forall. intros x Hx. destruct (IN3 x Hx) as [y [Hy [_ ->]]]. rewrite map_length. rewrite Forall_forall in SH2. auto. }
  assert (T3 : forall a, terminal (prods g2) a -> terminal (prods g3) a).
  { intros a HT w [x [Hx [HL _]]]. destruct (IN3 x Hx) as [y [Hy [HL2 _]]]. rewrite HL in HL2.
    destruct (rewrite_cycles_dec g2 HC2 (lhs y)) as [HU|HU].
    - destruct (rw_first _ _ _ RW _ HU) as [pre [z [post [_ [_ [_ [[_ H4] _]]]]]]]. rewrite <- HL2 in H4.
      apply Operators_Properties.clos_trans_t1n in H4. destruct H4 as [z' [HP _]|z' z'' [HP _] _]; eapply HT; eauto.
    - rewrite (rw_id _ _ _ RW) in HL2 by auto. apply (HT (rhs y)). exists y. auto. }
  destruct (C35_root_partial g2 HC2 HG2) as [c2 [c2' [X1 [X2 LNG3]]]]. rewrite E3 in X1. injection X1 as <-. rewrite E3' in X2. injection X2 as <-.
  fold g3 in LNG3.
  destruct (C34_rewritten g2 HC2 HG2) as [c3 [c3' [X3 [X4 [CF3 _]]]]]. rewrite E3 in X3. injection X3 as <-. rewrite E3' in X4. injection X4 as <-.
  fold g3 in CF3.
  assert (HR3 : Forall (fun s => s < num_syms g3) (roots g3)).
  { rewrite RO3, RO2. apply Forall_forall. intros R HRR. destruct (RC2 R HRR). lia. }
  destruct (make_proper_keeps g3 HC3 HR3) as [b4 [g4 [E4 [HC4 [RO4 [WR4 [N4 [LI4 [_ [IN4 LNG4]]]]]]]]]].
  assert (HR4 : Forall (fun s => s < num_syms g4) (roots g4)) by (rewrite RO4, N4; exact HR3).
  destruct (make_proper_keeps g4 HC4 HR4) as [b5 [g5 [E5 [HC5 [RO5 [WR5 [N5 [LI5 [_ [IN5 LNG5]]]]]]]]]].
  destruct (C33_two_passes_partial g3 HC3 HR3) as [y1 [y2 [y3 [y4 [Y1 [Y2 [Y3 _]]]]]]].
  rewrite E4 in Y1. injection Y1 as <- <-. rewrite E5 in Y2. injection Y2 as <- <-.
  pose proof (sub_terminal g3 g4 IN4) as T4. pose proof (sub_terminal g4 g5 IN5) as T5.
  exists g1, g5. split; auto. split.
  { unfold prepare. rewrite E1. cbn [bind]. rewrite E2. cbn [bind]. rewrite E3. cbn [bind]. rewrite E3'. cbn [bind]. fold g3. rewrite E4. cbn [bind].
    rewrite E5. reflexivity. }
  split; [congruence|]. split; [congruence|]. split; auto. split; [lia|].
  split; [rewrite LI5, LI4; rewrite (rw_limit _ _ _ RW); exact LI2|].
  split; [|split; [|split; [|split]]].
  - intros R w HRR Hne HT. destruct (RC2 R HRR) as [HRn HRc].
    assert (F2 : Forall (fun a => a < num_syms g2 /\ terminal (prods g2) a) w).
    { eapply Forall_impl; [|exact HT]. intros a [Ha Hb]. split; [lia|]. apply T2; auto. }
    assert (F3 : Forall (terminal (prods g3)) w) by (eapply Forall_impl; [|exact F2]; intros a [_ Hb]; auto).
    assert (F4 : Forall (terminal (prods g4)) w) by (eapply Forall_impl; [|exact F3]; auto).
    rewrite (LNG5 R w); [|rewrite RO4, RO3, RO2; exact HRR|exact F4].
    rewrite (LNG4 R w); [|rewrite RO3, RO2; exact HRR|exact F3].
    rewrite (LNG3 R w); [|lia|exact HRc|exact F2].
    apply LNG2; auto.
  - intros a Ha HT. apply T5, T4, T3, T2; auto.
  - apply Forall_forall. intros x Hx. rewrite Forall_forall in SH3. apply SH3. auto.
  - apply (sub_cycle_free g4 g5 IN5). apply (sub_cycle_free g3 g4 IN4). exact CF3.
  - intros x Hx. exact (proj2 (Y3 x Hx)).
Qed.

Theorem C100_prepared : forall g, closed_rules g -> Forall (fun s => s < num_syms g) (roots g) -> good_limit (limit g) ->
  exists g', prepare g = Ok g' /\
  (* a wrapped root for each root *)
  roots g' = map wr_root (wroots g') /\ map wr_inner (wroots g') = roots g /\
  (forall W, In W (wroots g') ->
     NoDup [wr_root W; wr_start W; wr_end W] /\
     num_syms g <= wr_root W < num_syms g' /\ num_syms g <= wr_start W < num_syms g' /\ num_syms g <= wr_end W < num_syms g' /\
     (* which derives the inputs of the root between the markers, the empty one too *)
     forall w, Forall (input_symbol g g') w ->
       (derives (prods g') [wr_root W] w <-> exists v, language (prods g) (wr_inner W) v /\ w = wr_start W :: v ++ [wr_end W])) /\
  (* input symbols are terminals *)
  (forall a, input_symbol g g' a -> terminal (prods g') a) /\
  (* what parsers ask for *)
  closed_rules g' /\
  Forall (fun x => 1 <= length (rhs x) <= 2) (rules g') /\
  (forall s, ~ nullable (prods g') s) /\
  cycle_free_grammar (prods g') /\
  (forall x, In x (rules g') -> contributes (prods g') (roots g') (lhs x) (rhs x)).
Proof.
  intros g HC HR HG. destruct (prepare_spec g HC HR HG) as [g1 [g' [E1 [E [RO [WR [HC' [HN [_ [HL [HT [HS [HF HU]]]]]]]]]]]]].
  destruct (C18_wrap_input g HC HR HG) as [g1' [E1' [R1 [R2 [R3 R4]]]]]. rewrite E1 in E1'. injection E1' as <-.
  destruct (wrap_input_fresh g g1 HC HR HG E1) as [L1 [HC1 [N1 HF1]]].
  assert (IS : forall a, input_symbol g g' a -> a < num_syms g1 /\ terminal (prods g1) a).
  { intros a [[Ha Hb]|[W [HW Ha]]].
    - split; [lia|]. assert (X : language (prods g) a [a]) by (split; [constructor|repeat constructor; exact Hb]).
      apply R4 in X; [|exact Ha]. destruct X as [_ X]. inversion X; auto.
    - rewrite WR in HW. destruct (R3 W HW) as [_ [_ [_ [_ [T1 [T2 _]]]]]]. destruct (HF1 W HW) as [_ [B1 [B2 _]]].
      destruct Ha as [-> | ->]; auto. }
  assert (NN : forall s, ~ nullable (prods g') s).
  { intros s HX. unfold nullable in HX.
    assert (NE : forall u w, derives (prods g') u w -> u <> [] -> w <> []).
    { induction 1 as [u|u A v r w HP HD IH]; auto. intros _. apply IH. destruct HP as [x [Hx [_ <-]]].
      rewrite Forall_forall in HS. specialize (HS x Hx). intros X. apply app_eq_nil in X. destruct X as [_ X]. apply app_eq_nil in X. destruct X as [X _]. rewrite X in HS. simpl in HS. lia. }
    refine (NE _ _ HX _ eq_refl). intros X. discriminate X. }
  exists g'. split; auto. split; [congruence|]. split; [congruence|]. split.
  - intros W HW. rewrite WR in HW. destruct (R3 W HW) as [ND [B1 [B2 [B3 [T1 [T2 LG]]]]]]. destruct (HF1 W HW) as [C1 [C2 [C3 _]]].
    split; auto. split; [lia|]. split; [lia|]. split; [lia|]. intros w Hw.
    destruct w as [|a w].
    + split; [intros HD; destruct (NN _ HD)|intros [v [_ X]]; discriminate X].
    + rewrite HL; [|rewrite R1; apply in_map; exact HW|discriminate|eapply Forall_impl; [|exact Hw]; exact IS].
      rewrite <- LG. unfold language. split; [|tauto]. intros HD. split; auto.
      eapply Forall_impl; [|exact Hw]. intros x Hx. apply IS; exact Hx.
  - split; [intros a Ha; destruct (IS a Ha); apply HT; auto|]. auto 10.
Qed.
Print Assumptions C100_prepared.

(** L ::= L I |  ;  I ::= P | x ;  P ::= I ;  U ::= U .      L I P x U = 0 1 2 3 4.   root L *)
Definition ex_pipe : cfg :=
  mkCfg (mkSrc 5 (repeat None 5))
        [mkRule 0 [0; 1] hd0; mkRule 0 [] hd0; mkRule 1 [2] hd0; mkRule 1 [3] hd0; mkRule 2 [1] hd0; mkRule 4 [4] hd0]
        [0] [] None.

Example C100_example : closed_rules ex_pipe /\ Forall (fun s => s < num_syms ex_pipe) (roots ex_pipe) /\ good_limit (limit ex_pipe) /\
  exists g', prepare ex_pipe = Ok g' /\ wroots g' = [mkWrapped 6 0 7 5] /\
  map (fun x => (lhs x, rhs x)) (rules g') =
    [(0, [0; 1]); (1, [3]); (8, [6; 0]); (5, [8; 7]); (0, [1]); (8, [6])].
Proof.
  split; [closed_tac|]. split; [repeat constructor|]. split; [exact I|].
  eexists. split; [vm_compute; reflexivity|]. split; vm_compute; reflexivity.
Qed.

(** ** C101 *)

Lemma prepare_steps : forall g g' debug, prepare g = Ok g' ->
  fold_res (op_step debug) [OpWrap; OpEliminate; OpRewriteCycles; OpMakeProper; OpMakeProper] g = Ok g'.
Proof.
  intros g g' debug E. unfold prepare in E. cbn [fold_res op_step].
  destruct (wrap_input g) as [g1| |]; cbn [bind] in *; try discriminate.
  destruct (eliminate_nulling g1) as [[g2 n]| |]; cbn [bind] in *; try discriminate.
  destruct (cycles_new g2) as [c| |]; cbn [bind] in *; try discriminate.
  destruct (rewrite_cycles c) as [c'| |]; cbn [bind] in *; try discriminate.
  destruct (make_proper (cy_grammar c')) as [[b4 g4]| |]; cbn [bind] in *; try discriminate.
  destruct (make_proper g4) as [[b5 g5]| |]; cbn [bind] in *; try discriminate. exact E.
Qed.

Lemma prepare_closed : forall g g', closed g -> names_wf g -> prepare g = Ok g' -> closed g' /\ names_wf g'.
Proof.
  intros g g' HC HN E. apply prepare_steps with (debug := false) in E.
  assert (HX : forall ops g g', Forall (fun o => In o [OpWrap; OpEliminate; OpRewriteCycles; OpMakeProper]) ops ->
    closed g -> names_wf g -> fold_res (op_step false) ops g = Ok g' -> closed g' /\ names_wf g').
  { clear. induction ops as [|o ops IH]; intros g g' HO HC HN E; cbn [fold_res] in E.
    - injection E as <-. auto.
    - inversion HO as [|o' l Ho HO']; subst o' l. destruct (op_step false g o) as [g1| |] eqn:E1; cbn [bind] in E; try discriminate.
      destruct (C12_step false g o g1 HC HN) as [HC1 [HN1 [[l [L1 L2]] _]]]; auto.
      + destruct Ho as [<-|[<-|[<-|[<-|[]]]]]; reflexivity.
      + intros s Hs. destruct Ho as [<-|[<-|[<-|[<-|[]]]]]; destruct Hs.
      + apply (IH g1 g'); auto. unfold names_wf in *. rewrite L1, app_length. lia. }
  apply (HX [OpWrap; OpEliminate; OpRewriteCycles; OpMakeProper; OpMakeProper] g g'); auto.
  repeat (constructor; [simpl; tauto|]). constructor.
Qed.

(** When the wrapped roots are still in rules, the symbols can be renumbered in any way, and the mapping tells which
    inputs are accepted. *)
Theorem C101_renumbered_partial : forall g g' ops, closed g -> names_wf g -> good_limit (limit g) ->
  prepare g = Ok g' -> used_roots g' -> rules g' <> [] ->
  exists r, remap_run ops g' = Ok r /\
  let g'' := rm_grammar r in let m := rm_mapping r in
  (* which are the wrapped roots now *)
  Forall2 (fun W W' => internal_of m (wr_root W) = Some (wr_root W') /\ internal_of m (wr_inner W) = Some (wr_inner W') /\
                       internal_of m (wr_start W) = Some (wr_start W') /\ internal_of m (wr_end W) = Some (wr_end W'))
          (wroots g') (wroots g'') /\
  (* [w] is the renumbered string [y] *)
  forall W W' w y, In W (wroots g') -> internal_of m (wr_root W) = Some (wr_root W') -> Forall (input_symbol g g') w ->
    Forall2 (fun a b => internal_of m a = Some b) w y ->
    (language (prods g'') (wr_root W') y <-> exists v, language (prods g) (wr_inner W) v /\ w = wr_start W :: v ++ [wr_end W]).
Proof.
  intros g g' ops HC HN HG E HU HNE. destruct (prepare_closed g g' HC HN E) as [HC' HN'].
  destruct HC as [HC [HR HWR]]. destruct (prepare_spec g HC HR HG) as [g1 [g2 [_ [E2 [_ [_ [_ [_ [HLim [_ [_ [HSh _]]]]]]]]]]]].
  rewrite E in E2. injection E2 as <-.
  destruct (C100_prepared g HC HR HG) as [g2 [E2 [_ [_ [HW [HT _]]]]]]. rewrite E in E2. injection E2 as <-.
  assert (HF : fits g').
  { unfold fits. rewrite HLim. split; [lia|]. intros x Hx. rewrite Forall_forall in HSh. apply HSh; exact Hx. }
  destruct (C39_returns g' ops HC' HF HN' HU HNE) as [r Er]. exists r. split; auto. cbn zeta.
  destruct (C39_mapping g' ops r HC' HF HN' Er) as [HInv [_ [_ [_ HF2]]]]. split.
  - clear -HF2. induction HF2 as [|W W' l l' [H1 [H2 [H3 H4]]] _ IH]; constructor; auto.
  - intros W W' w y HWi HM Hw HF2'. destruct (HW W HWi) as [_ [_ [_ [_ HD]]]]. rewrite <- (HD w Hw).
    assert (HO : occurs (prods g') (wr_root W)).
    { destruct HU as [_ HU]. rewrite Forall_forall in HU. apply HU; exact HWi. }
    destruct (C39_language g' ops r HC' HF HN' Er _ HO) as [s [Hs HL]]. rewrite HM in Hs. injection Hs as <-. rewrite HL. split.
    + intros [w' [[HD' _] HF3]]. assert (HE : w' = w).
      { clear -HInv HF2' HF3. revert w HF2'. induction HF3 as [|a b l l' Ha _ IH]; intros w HF2; inversion HF2 as [|a' b' w1 l1 Hb HF4]; subst; auto.
        f_equal; [|apply IH; exact HF4]. apply HInv in Ha. apply HInv in Hb. congruence. }
      subst w'. exact HD'.
    + intros HD'. exists w. split; auto. split; auto. eapply Forall_impl; [|exact Hw]. exact HT.
Qed.
Print Assumptions C101_renumbered_partial.

(** Enough: there is a root, each root has a string, and is in a rule of the prepared grammar.  The other symbols of the wrapped
    roots are then in rules. *)
Theorem C101_sentences_partial : forall g g' ops, closed g -> names_wf g -> good_limit (limit g) ->
  prepare g = Ok g' -> roots g <> [] -> Forall (fun R => productive (prods g) R /\ occurs (prods g') R) (roots g) ->
  used_roots g' /\ rules g' <> [] /\
  exists r, remap_run ops g' = Ok r /\
  let g'' := rm_grammar r in let m := rm_mapping r in
  Forall2 (fun W W' => internal_of m (wr_root W) = Some (wr_root W') /\ internal_of m (wr_inner W) = Some (wr_inner W') /\
                       internal_of m (wr_start W) = Some (wr_start W') /\ internal_of m (wr_end W) = Some (wr_end W'))
          (wroots g') (wroots g'') /\
  forall W W' w y, In W (wroots g') -> internal_of m (wr_root W) = Some (wr_root W') -> Forall (input_symbol g g') w ->
    Forall2 (fun a b => internal_of m a = Some b) w y ->
    (language (prods g'') (wr_root W') y <-> exists v, language (prods g) (wr_inner W) v /\ w = wr_start W :: v ++ [wr_end W]).
Proof.
  intros g g' ops HC HN HG E HNR HF.
  assert (HU : used_roots g').
  { destruct HC as [HC [HR HWR]]. destruct (C100_prepared g HC HR HG) as [g2 [E2 [RO [WR [HW _]]]]]. rewrite E in E2. injection E2 as <-.
    assert (OC : forall A w, derives (prods g') [A] w -> Forall (fun s => s = A \/ occurs (prods g') s) w).
    { intros A w D. apply (derives_Forall (prods g') (fun s => s = A \/ occurs (prods g') s)) with (u := [A]); [|exact D|constructor; auto].
      intros B r HB _. apply Forall_forall. intros s Hs. right. exists B, r. auto. }
    assert (K : forall W, In W (wroots g') -> occurs (prods g') (wr_start W) /\ occurs (prods g') (wr_inner W) /\
      occurs (prods g') (wr_end W) /\ occurs (prods g') (wr_root W)).
    { intros W HI. destruct (HW W HI) as [ND [_ [_ [_ HD]]]].
      assert (HIn : In (wr_inner W) (roots g)) by (rewrite <- WR; apply in_map; exact HI).
      rewrite Forall_forall in HF, HR. destruct (HF _ HIn) as [[v [DV TV]] OI].
      assert (DW : derives (prods g') [wr_root W] (wr_start W :: v ++ [wr_end W])).
      { apply HD; [|exists v; split; [split; auto|reflexivity]]. constructor; [right; exists W; auto|]. apply Forall_app. split; [|constructor; [right; exists W; auto|constructor]].
        assert (BV : Forall (fun s => s < num_syms g) v).
        { apply (derives_Forall (prods g) (fun s => s < num_syms g)) with (u := [wr_inner W]); [|exact DV|constructor; auto].
          intros A r [x [Hx [_ <-]]] _. apply (HC x Hx). }
        clear -TV BV. induction TV as [|a v Ha _ IH]; constructor; inversion BV; subst; [left; auto|auto]. }
      pose proof (OC _ _ DW) as O. inversion O as [|? ? O1 O2]; subst. apply Forall_app in O2. destruct O2 as [_ O2]. inversion O2 as [|? ? O3 _]; subst.
      inversion ND as [|? ? N1 N2]; subst. split; [destruct O1 as [O1|O1]; [exfalso; apply N1; left; exact O1|exact O1]|]. split; [exact OI|].
      split; [destruct O3 as [O3|O3]; [exfalso; apply N1; right; left; exact O3|exact O3]|].
      destruct (derives_single_inv _ _ _ DW) as [X|[r [X _]]]; [|exists (wr_root W), r; auto].
      exfalso. injection X as X _. apply N1. left. auto. }
    split.
    - rewrite RO. apply Forall_forall. intros R HRi. apply in_map_iff in HRi. destruct HRi as [W [<- HI]]. apply (K W HI).
    - apply Forall_forall. exact K. }
  assert (HNE : rules g' <> []).
  { destruct (roots g) as [|R l]; [congruence|]. inversion HF as [|? ? [_ [A [r [[x [Hx _]] _]]]] _]; subst. intros X. rewrite X in Hx. destruct Hx. }
  split; [exact HU|]. split; [exact HNE|]. exact (C101_renumbered_partial g g' ops HC HN HG E HU HNE).
Qed.
Print Assumptions C101_sentences_partial.

(** I ::= P | x ;  P ::= I .      P I x = 0 1 2.   root P.  The cycle is rewritten to I, and the wrapped root still names P,
    which is in no rule.  Removing unused symbols leaves it outside of the grammar. *)
Definition ex_lost : cfg :=
  mkCfg (mkSrc 3 (repeat None 3)) [mkRule 1 [0] hd0; mkRule 1 [2] hd0; mkRule 0 [1] hd0] [0] [] None.

Theorem C101_lost_root_refuted : exists g g' r W, closed g /\ names_wf g /\ good_limit (limit g) /\
  (forall s, s < num_syms g -> productive (prods g) s) /\
  prepare g = Ok g' /\ remap_run [RemoveUnused] g' = Ok r /\ wroots (rm_grammar r) = [W] /\
  num_syms (rm_grammar r) <= wr_inner W /\
  remap_run [RemoveUnused; RemoveUnused] g' = Panic.
Proof.
  exists ex_lost. do 3 eexists.
  split; [split; [closed_tac|split; repeat constructor]|]. split; [reflexivity|]. split; [exact I|]. split.
  { intros s Hs. unfold num_syms in Hs; simpl in Hs. exists [2].
    assert (HT : terminal (prods ex_lost) 2).
    { intros q [x [Hx [HL _]]]. simpl in Hx. destruct Hx as [<-|[<-|[<-|[]]]]; discriminate HL. }
    assert (H1 : derives (prods ex_lost) [1] [2]) by (apply derives_rule; exists (mkRule 1 [2] hd0); simpl; auto).
    split; [|repeat constructor; exact HT]. destruct s as [|[|[|s]]]; [|exact H1|constructor|lia].
    apply (derives_step _ [] 0 [] [1]); [exists (mkRule 0 [1] hd0); simpl; auto|]. exact H1. }
  split; [vm_compute; reflexivity|]. split; [vm_compute; reflexivity|]. split; [vm_compute; reflexivity|].
  split; [vm_compute; lia|vm_compute; reflexivity].
Qed.
Print Assumptions C101_lost_root_refuted.

(** A root without strings: all rules go, and renumbering panics. *)
Theorem C101_no_rules_refuted : exists g g', closed g /\ names_wf g /\ good_limit (limit g) /\ rules g <> [] /\
  prepare g = Ok g' /\ rules g' = [] /\ remap_run [RemoveUnused] g' = Panic.
Proof.
  exists (mkCfg (mkSrc 1 [None]) [mkRule 0 [0] hd0] [0] [] None). eexists.
  split; [split; [closed_tac|split; repeat constructor]|]. split; [reflexivity|]. split; [exact I|]. split; [discriminate|].
  split; [vm_compute; reflexivity|]. split; vm_compute; reflexivity.
Qed.
Print Assumptions C101_no_rules_refuted.

Example C101_example : exists g' r, prepare ex_pipe = Ok g' /\ used_roots g' /\ rules g' <> [] /\
  remap_run [RemoveUnused] g' = Ok r /\ num_syms (rm_grammar r) = 7.
Proof.
  do 2 eexists. split; [vm_compute; reflexivity|]. split; [|split; [discriminate|split; [vm_compute; reflexivity|reflexivity]]].
  split.
  - constructor; [|constructor]. exists 5, [8; 7]. split; [|auto]. eexists. split; [do 3 right; left; reflexivity|]. auto.
  - constructor; [|constructor]. split; [|split; [|split]].
    + exists 8, [6; 0]. split; [|simpl; auto]. eexists. split; [do 2 right; left; reflexivity|]. auto.
    + exists 8, [6; 0]. split; [|simpl; auto]. eexists. split; [do 2 right; left; reflexivity|]. auto.
    + exists 5, [8; 7]. split; [|simpl; auto]. eexists. split; [do 3 right; left; reflexivity|]. auto.
    + exists 5, [8; 7]. split; [|simpl; auto]. eexists. split; [do 3 right; left; reflexivity|]. auto.
Qed.

Example C101_sentences_example : closed ex_pipe /\ names_wf ex_pipe /\ good_limit (limit ex_pipe) /\ roots ex_pipe <> [] /\
  exists g', prepare ex_pipe = Ok g' /\ Forall (fun R => productive (prods ex_pipe) R /\ occurs (prods g') R) (roots ex_pipe).
Proof.
  split; [split; [closed_tac|split; repeat constructor]|]. split; [reflexivity|]. split; [exact I|]. split; [discriminate|].
  eexists. split; [vm_compute; reflexivity|]. constructor; [|constructor]. split.
  - exists []. split; [|constructor]. apply derives_rule. exists (mkRule 0 [] hd0). simpl. auto.
  - exists 8, [6; 0]. split; [|simpl; auto]. eexists. split; [do 2 right; left; reflexivity|]. auto.
Qed.
