(** Lemmas for PropsPipe: which symbols are in the rules that the passes make. *)

From Coq Require Import List Arith Bool Lia Relations String.
From Verif Require Import Base ListFacts Spec SpecClassify GrammarFacts SymbolModel HistoryModel CfgModel View
  BitSetModel ClosureModel SetView SetProof ElimModel ElimProof CfgProof CfgProof2.
Import ListNotations.
Local Open Scope string_scope.
Local Open Scope list_scope.
Local Notation length := List.length.

Lemma chain_syms : forall r l p s w c, chain r l p s w c ->
  forall x, In x c -> (lhs x = lhs r \/ s <= lhs x) /\ forall a, In a (rhs x) -> In a w \/ s <= a.
Proof.
  induction 1; intros x Hx.
  - destruct Hx as [<-|[]]. cbn [lhs rhs]. split; auto.
  - destruct Hx as [<-|Hx].
    + cbn [lhs rhs]. split; [right; lia|]. intros a Ha. left. rewrite <- (firstn_skipn l w). apply in_or_app; auto.
    + destruct (IHchain x Hx) as [H1 H2]. split; [destruct H1; [left; auto|right; lia]|].
      intros a Ha. destruct (H2 a Ha) as [[<-|H3]|H3]; [right; lia| |right; lia].
      left. rewrite <- (firstn_skipn l w). apply in_or_app; auto.
Qed.

Lemma add_rule_syms : forall g r g', good_limit (limit g) -> add_rule g r = Ok g' ->
  limit g' = limit g /\ num_syms g <= num_syms g' /\ roots g' = roots g /\ wroots g' = wroots g /\
  forall x, In x (rules g') -> In x (rules g) \/
    ((lhs x = lhs r \/ num_syms g <= lhs x) /\ forall a, In a (rhs x) -> In a (rhs r) \/ num_syms g <= a).
Proof.
  intros g r g' HG E. destruct (add_rule_spec g r HG) as [k [c [E' [_ HC]]]]. rewrite E in E'. injection E' as ->.
  split; auto. split; [unfold num_syms; cbn; lia|]. split; auto. split; auto.
  intros x Hx. cbn [rules added] in Hx. apply in_app_or in Hx. destruct Hx as [Hx|Hx]; [left; exact Hx|]. right.
  destruct HC as [[-> _]|[l [_ [_ HC]]]].
  - destruct Hx as [<-|[]]. split; auto.
  - exact (chain_syms _ _ _ _ _ _ HC x Hx).
Qed.

Lemma add_rules_syms : forall n rs g g', good_limit (limit g) -> n <= num_syms g -> fold_res add_rule rs g = Ok g' ->
  forall x, In x (rules g') -> In x (rules g) \/
    ((n <= lhs x \/ exists y, In y rs /\ lhs x = lhs y) /\
     forall a, In a (rhs x) -> n <= a \/ exists y, In y rs /\ In a (rhs y)).
Proof.
  induction rs as [|r rs IH]; intros g g' HG Hn E x Hx; cbn [fold_res] in E.
  - injection E as <-. auto.
  - destruct (add_rule g r) as [g1| |] eqn:E1; cbn [bind] in E; try discriminate.
    destruct (add_rule_syms g r g1 HG E1) as [L1 [N1 [_ [_ S1]]]].
    destruct (IH g1 g' ltac:(rewrite L1; exact HG) ltac:(lia) E x Hx) as [H|[H1 H2]].
    + destruct (S1 x H) as [H'|[H1 H2]]; [left; exact H'|]. right. split.
      * destruct H1 as [H1|H1]; [right; exists r; split; [left|]; auto|left; lia].
      * intros a Ha. destruct (H2 a Ha); [right; exists r; split; [left|]; auto|left; lia].
    + right. split.
      * destruct H1 as [H1|[y [Hy H1]]]; [auto|]. right. exists y. split; [right|]; auto.
      * intros a Ha. destruct (H2 a Ha) as [H3|[y [Hy H3]]]; [auto|]. right. exists y. split; [right|]; auto.
Qed.

Lemma limit_syms : forall g l g', good_limit l -> limit_rhs_len g l = Ok g' ->
  forall x, In x (rules g') ->
    (num_syms g <= lhs x \/ exists y, In y (rules g) /\ lhs x = lhs y) /\
    forall a, In a (rhs x) -> num_syms g <= a \/ exists y, In y (rules g) /\ In a (rhs y).
Proof.
  intros g l g' HG E x Hx. unfold limit_rhs_len in E.
  destruct (add_rules_syms (num_syms g) (rules g) (mkCfg (src g) [] (roots g) (wroots g) l) g' HG (le_n _) E x Hx) as [[]|H]. exact H.
Qed.

(** The symbols of the grammar without nulling rules. *)
Lemma elim_syms : forall g g1 g' result p q, eliminated g g1 g' result p q ->
  forall x, In x (rules g') ->
    (num_syms g <= lhs x \/ exists y, In y (rules g) /\ lhs x = lhs y) /\
    forall a, In a (rhs x) -> num_syms g <= a \/ exists y, In y (rules g) /\ In a (rhs y).
Proof.
  intros g g1 g' result p q EL x Hx. pose proof (limit_syms g (Some 2) g1 (le_n 2) (el_limit _ _ _ _ _ _ EL)) as HS.
  assert (HI : exists y, In y (rules g1) /\ lhs x = lhs y /\ forall a, In a (rhs x) -> In a (rhs y)).
  { destruct (el_cases _ _ _ _ _ _ EL) as [[_ ->]|[ER _]]; [exists x; auto|].
    rewrite ER in Hx. apply filter_In in Hx. destruct Hx as [Hx _]. unfold pre_rules in Hx. apply filter_In in Hx.
    destruct Hx as [Hx _]. apply in_app_or in Hx. destruct Hx as [Hx|Hx]; [exists x; auto|].
    apply in_flat_map in Hx. destruct Hx as [y [Hy Hx]]. exists y. split; auto.
    destruct (works_In p y x Hx) as [HL [a [b [HR HC]]]]. split; auto. rewrite HR.
    destruct HC as [[_ [_ [_ [H|H]]]]|[[_ [_ [H _]]]|[_ [_ [H _]]]]]; rewrite H; simpl; tauto. }
  destruct HI as [y [Hy [HL HR]]]. destruct (HS y Hy) as [H1 H2]. split.
  - rewrite HL. exact H1.
  - intros a Ha. apply H2, HR, Ha.
Qed.

(** A symbol that is in no right-hand side is on no cycle. *)
Lemma not_in_rhs_no_cycle : forall g s, (forall x, In x (rules g) -> ~ In s (rhs x)) -> ~ unit_derives (prods g) s s.
Proof.
  intros g s H HU. apply Operators_Properties.clos_trans_tn1 in HU.
  assert (HX : exists y, prods g y [s]) by (inversion HU; subst; match goal with H : unit_step _ _ _ |- _ => destruct H end; eauto).
  destruct HX as [y [x [Hx [_ HR]]]]. apply (H x Hx). rewrite HR. left; reflexivity.
Qed.

(** The wrapped roots are in no right-hand side. *)
Lemma wrap_one_fresh : forall n0 g inner g', good_limit (limit g) -> n0 <= num_syms g -> inner < n0 ->
  closed_rules g -> wrap_one g inner = Ok g' ->
  (forall R, In R (roots g) -> n0 <= R < num_syms g /\ forall x, In x (rules g) -> ~ In R (rhs x)) ->
  limit g' = limit g /\ n0 <= num_syms g' /\
  (forall R, In R (roots g') -> n0 <= R < num_syms g' /\ forall x, In x (rules g') -> ~ In R (rhs x)).
Proof.
  intros n0 g inner g' HG Hn Hi HC E HR. unfold wrap_one in E.
  assert (NS : forall g n s g1, next_sym g n = (s, g1) ->
            s = num_syms g /\ num_syms g1 = S (num_syms g) /\ rules g1 = rules g /\ roots g1 = roots g /\ limit g1 = limit g).
  { clear. intros g n s g1 E. unfold next_sym, src_next in E. injection E as <- <-. unfold num_syms; cbn. repeat split; lia. }
  destruct (next_sym g (nm "root")) as [root g1] eqn:E1.
  destruct (next_sym g1 (nm "start_of_input")) as [soi g2] eqn:E2.
  destruct (next_sym g2 (nm "end_of_input")) as [eoi g3] eqn:E3.
  apply NS in E1. apply NS in E2. apply NS in E3.
  destruct E1 as [A1 [B1 [C1 [D1 F1]]]], E2 as [A2 [B2 [C2 [D2 F2]]]], E3 as [A3 [B3 [C3 [D3 F3]]]].
  destruct (add_rule g3 (mkRule root [soi; inner; eoi] (process_root (RRule root)))) as [g4| |] eqn:E4; cbn [bind] in E; try discriminate.
  destruct (add_rule_syms g3 _ g4 ltac:(rewrite F3, F2, F1; exact HG) E4) as [L4 [N4 [R4 [W4 S4]]]]. cbn [lhs rhs] in S4.
  injection E as <-. cbn [limit roots rules]. split; [congruence|].
  split; [unfold num_syms in *; cbn [src]; lia|].
  intros R HI. rewrite R4, D3, D2, D1 in HI. apply in_app_or in HI.
  assert (HB : n0 <= R < num_syms g \/ R = root).
  { destruct HI as [HI|[<-|[]]]; [left; apply HR; exact HI|right; reflexivity]. }
  split; [unfold num_syms in *; cbn [src]; lia|].
  intros x Hx HRx. destruct (S4 x Hx) as [Hx'|[_ HS]].
  - rewrite C3, C2, C1 in Hx'. destruct HI as [HI|[<-|[]]].
    + exact (proj2 (HR R HI) x Hx' HRx).
    + destruct (HC x Hx') as [_ HF]. rewrite Forall_forall in HF. specialize (HF _ HRx). lia.
  - destruct (HS R HRx) as [[<-|[<-|[<-|[]]]]|H]; lia.
Qed.

Lemma wrap_fold_fresh : forall P n0 l done g Cs g',
  good_limit (limit g) -> Forall (fun s => s < n0) l -> n0 <= num_syms g -> wrap_inv P n0 done g Cs ->
  fold_res wrap_one l g = Ok g' ->
  (forall R, In R (roots g) -> n0 <= R < num_syms g /\ forall x, In x (rules g) -> ~ In R (rhs x)) ->
  forall R, In R (roots g') -> n0 <= R < num_syms g' /\ forall x, In x (rules g') -> ~ In R (rhs x).
Proof.
  intros P n0. induction l as [|a l IH]; intros done g Cs g' HG HF Hn HI E HR; cbn [fold_res] in E.
  - injection E as <-. exact HR.
  - inversion HF as [|a' l' Ha Hl]; subst a' l'.
    destruct (wrap_one_inv P n0 done g Cs a HG Ha Hn HI) as [g1 [C1 [E1 [I1 [N1 L1]]]]]. rewrite E1 in E. cbn [bind] in E.
    destruct (wrap_one_fresh n0 g a g1 HG Hn Ha (rp_closed _ _ _ (wi_repr _ _ _ _ _ HI)) E1 HR) as [_ [_ HR1]].
    apply (IH (done ++ [a]) g1 C1 g'); auto. rewrite L1. exact HG.
Qed.

Lemma wrap_input_fresh : forall g g', closed_rules g -> Forall (fun s => s < num_syms g) (roots g) -> good_limit (limit g) ->
  wrap_input g = Ok g' ->
  limit g' = limit g /\ closed_rules g' /\ num_syms g <= num_syms g' /\
  forall W, In W (wroots g') ->
    wr_root W < num_syms g' /\ wr_start W < num_syms g' /\ wr_end W < num_syms g' /\
    forall x, In x (rules g') -> ~ In (wr_root W) (rhs x).
Proof.
  intros g g' HC HR HG E. destruct (wrap_input_inv g HC HR HG) as [g2 [Cs [E2 [WI HL]]]].
  rewrite E in E2. injection E2 as <-. split; auto. split; [exact (rp_closed _ _ _ (wi_repr _ _ _ _ _ WI))|].
  assert (HN : num_syms g <= num_syms g').
  { destruct (wroots g') as [|W l] eqn:EW.
    - pose proof (wi_inner _ _ _ _ _ WI) as HI. rewrite EW in HI. unfold wrap_input in E. rewrite <- HI in E.
      injection E as <-. unfold num_syms; cbn; lia.
    - assert (HW : In (wr_root W) (flat_map wsyms (wroots g'))) by (rewrite EW; left; reflexivity).
      apply (wi_fresh _ _ _ _ _ WI) in HW. lia. }
  split; auto. intros W HW.
  assert (HF : forall s, In s (wsyms W) -> s < num_syms g').
  { intros s Hs. assert (In s (flat_map wsyms (wroots g'))) as H by (apply in_flat_map; exists W; auto).
    apply (wi_fresh _ _ _ _ _ WI) in H. lia. }
  split; [apply HF; simpl; auto|]. split; [apply HF; simpl; auto|]. split; [apply HF; simpl; auto|].
  unfold wrap_input in E.
  assert (HRR : In (wr_root W) (roots g')) by (rewrite (wi_roots _ _ _ _ _ WI); apply in_map; exact HW).
  assert (WI0 : wrap_inv (prods g) (num_syms g) [] (mkCfg (src g) (rules g) [] [] (limit g)) (fun _ => False)).
  { constructor; simpl; auto; try tauto.
    - eapply Repr_ext; [apply (closed_Repr (mkCfg (src g) (rules g) [] [] (limit g))); exact HC | |tauto].
      intros; unfold prods; simpl; tauto.
    - constructor. }
  refine (proj2 (wrap_fold_fresh (prods g) (num_syms g) (roots g) [] _ _ g' _ HR _ WI0 E _ _ HRR)); auto.
  intros R [].
Qed.
