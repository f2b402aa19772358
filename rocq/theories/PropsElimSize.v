(** Property C120: the elimination of nulling rules at most triples the binarized grammar. *)

From Coq Require Import List Arith NArith Bool Lia.
From Verif Require Import Base ListFacts Spec SetView GrammarFacts SymbolModel HistoryModel CfgModel View
  BitSetModel ClosureModel ElimModel CfgProof CfgProof2 SetProof ElimProof PropsGrammar PropsElim.
Import ListNotations.
Local Notation length := List.length.

(** The number of pairs of neighbours in right-hand sides, at least one for each rule: the number of rules of
    the binarized grammar.  The number of symbols beyond the second. *)
Definition pairs (g : cfg) : nat := list_sum (map (fun r => Nat.max 1 (length (rhs r) - 1)) (rules g)).
Definition beyond (g : cfg) : nat := list_sum (map (fun r => length (rhs r) - 2) (rules g)).

Lemma limit_pairs : forall g g1, limit_rhs_len g (Some 2) = Ok g1 -> length (rules g1) = pairs g.
Proof.
  intros g g1 E. destruct (limit_rhs_len_parts g 2 g1 (le_n 2) E) as [parts [-> HF]]. unfold pairs. clear E.
  induction HF as [|r p rs ps [H1 _] _ IH]; [reflexivity|]. cbn [List.concat map list_sum fold_right].
  rewrite app_length, IH, H1. unfold list_sum. f_equal. unfold part_count.
  destruct (length (rhs r) <=? 2) eqn:E; [apply Nat.leb_le in E; lia|]. apply Nat.leb_gt in E.
  change (2 - 1) with 1. rewrite Nat.div_1_r. lia.
Qed.

Lemma limit_syms : forall g g1, limit_rhs_len g (Some 2) = Ok g1 -> num_syms g1 = num_syms g + beyond g.
Proof.
  intros g g1 E. unfold limit_rhs_len in E. unfold beyond.
  assert (HX : forall l h h', limit h = Some 2 -> fold_res add_rule l h = Ok h' ->
    num_syms h' = num_syms h + list_sum (map (fun r => length (rhs r) - 2) l)).
  { induction l as [|r l IH]; intros h h' HL EF; cbn [fold_res map list_sum fold_right] in *.
    - injection EF as <-. lia.
    - destruct (add_rule_spec h r) as [k [c [Ea [Hk Hc]]]]; [rewrite HL; simpl; lia|].
      rewrite Ea in EF. cbn [bind] in EF. apply IH in EF; [|exact HL]. rewrite EF.
      unfold num_syms in *. cbn [added src num]. unfold list_sum.
      assert (HK : k = length (rhs r) - 2).
      { destruct Hc as [[-> H2]|[l2 [E2 [Hlt Hch]]]].
        - specialize (H2 _ HL). simpl in Hk. lia.
        - rewrite HL in E2. injection E2 as <-. apply chain_length in Hch; [|lia]. rewrite Hk in Hch.
          replace (length (rhs r) <=? 2) with false in Hch by (symmetry; apply Nat.leb_gt; lia).
          change (2 - 1) with 1 in Hch. rewrite Nat.div_1_r in Hch. lia. }
      cbn [map]. lia. }
  apply HX in E; [exact E | reflexivity].
Qed.

Lemma add_one : forall h l hi r h', limit h = None -> rule_history_rhs h l hi r = Ok h' ->
  length (rules h') = S (length (rules h)) /\ limit h' = None.
Proof.
  intros h l hi r h' HL E. unfold rule_history_rhs in E.
  destruct (add_rule_spec h (mkRule l r hi)) as [k [c [Ea [Hk Hc]]]]; [rewrite HL; simpl; auto|].
  rewrite Ea in E. injection E as <-. cbn [added rules limit]. destruct Hc as [[-> _]|[l2 [E2 _]]]; [|congruence].
  rewrite app_length. simpl. split; [lia | exact HL].
Qed.

Lemma elim_fold_size : forall p l st st', fold_res (elim_rule p) l st = Ok st' ->
  limit (fst st) = None -> limit (snd st) = None ->
  length (rules (fst st')) <= length (rules (fst st)) + 2 * length l /\
  length (rules (snd st')) <= length (rules (snd st)) + length l.
Proof.
  intros p. induction l as [|r l IH]; intros st st' E H1 H2; cbn [fold_res] in E.
  - injection E as <-. lia.
  - destruct (elim_rule p st r) as [st1| |] eqn:E1; try discriminate. cbn [bind] in E.
    assert (HS : (length (rules (fst st1)) <= length (rules (fst st)) + 2 /\ limit (fst st1) = None) /\
                 length (rules (snd st1)) <= length (rules (snd st)) + 1 /\ limit (snd st1) = None).
    { destruct st as [w0 r0]. unfold elim_rule in E1. cbn [fst snd] in *. destruct (negb _); [discriminate|].
      destruct (elim_which p r) as [[which|]| |]; try discriminate; cbn [bind] in E1; [|injection E1 as <-; cbn [fst snd]; repeat split; auto; lia].
      destruct (history_eliminate_nulling _ _ _ _) as [h| |]; try discriminate. cbn [bind] in E1.
      destruct which as [| |n].
      - destruct (range_negate RLeft) as [keep| |]; try discriminate. cbn [bind] in E1.
        destruct (rule_history_rhs w0 (lhs r) h _) as [w1| |] eqn:Ea; try discriminate. cbn [bind] in E1. injection E1 as <-. cbn [fst snd].
        destruct (add_one _ _ _ _ _ H1 Ea) as [A1 A2]. repeat split; auto; lia.
      - destruct (range_negate RRight) as [keep| |]; try discriminate. cbn [bind] in E1.
        destruct (rule_history_rhs w0 (lhs r) h _) as [w1| |] eqn:Ea; try discriminate. cbn [bind] in E1. injection E1 as <-. cbn [fst snd].
        destruct (add_one _ _ _ _ _ H1 Ea) as [A1 A2]. repeat split; auto; lia.
      - destruct (n =? 2).
        + destruct (rule_history_rhs w0 (lhs r) h (firstn 1 (rhs r))) as [w1| |] eqn:Ea; try discriminate. cbn [bind] in E1.
          destruct (rule_history_rhs w1 (lhs r) h (firstn 1 (skipn 1 (rhs r)))) as [w2| |] eqn:Eb; try discriminate. cbn [bind] in E1.
          destruct (rule_history_rhs r0 (lhs r) h _) as [r1| |] eqn:Ec; try discriminate. cbn [bind] in E1. injection E1 as <-. cbn [fst snd].
          destruct (add_one _ _ _ _ _ H1 Ea) as [A1 A2]. destruct (add_one _ _ _ _ _ A2 Eb) as [B1 B2].
          destruct (add_one _ _ _ _ _ H2 Ec) as [C1 C2]. repeat split; auto; lia.
        + cbn [bind] in E1. destruct (rule_history_rhs r0 (lhs r) h _) as [r1| |] eqn:Ec; try discriminate. cbn [bind] in E1. injection E1 as <-. cbn [fst snd].
          destruct (add_one _ _ _ _ _ H2 Ec) as [C1 C2]. repeat split; auto; lia. }
    destruct HS as [[A1 A2] [B1 B2]]. destruct (IH _ _ E A2 B2). cbn [length]. lia.
Qed.

Lemma filter_le : forall (A : Type) (f : A -> bool) l, length (filter f l) <= length l.
Proof. intros A f. induction l; simpl; auto. destruct (f a); simpl; lia. Qed.

(** What is left has at most three rules for each rule of the binarized grammar, and what is returned at most one. *)
Theorem C120_linear : forall g g' result, closed_rules g -> eliminate_nulling g = Ok (g', result) ->
  length (rules g') <= 3 * pairs g /\ length (rules result) <= pairs g /\
  num_syms g' = num_syms g + beyond g /\ num_syms result = num_syms g'.
Proof.
  intros g g' result HC E.
  unfold eliminate_nulling in E. destruct (limit_rhs_len g (Some 2)) as [g1| |] eqn:E1; try discriminate. cbn [bind] in E.
  pose proof (limit_pairs _ _ E1) as HP. pose proof (limit_syms _ _ E1) as HN.
  destruct (nulling_symbols g1) as [nl| |]; try discriminate. cbn [bind] in E.
  destruct (rhs_closure_for_all g1 nl) as [p| |]; try discriminate. cbn [bind] in E.
  destruct (length (bs_iter p) =? 0).
  { injection E as <- <-. rewrite <- HP, <- HN. cbn [cfg_with_source rules length src num]. unfold num_syms. cbn [cfg_with_source src]. repeat split; lia. }
  destruct (fold_res (elim_rule p) (rules g1) (cfg_new, cfg_with_source (src g1))) as [[work result1]| |] eqn:EF; try discriminate.
  cbn [bind] in E. destruct (elim_fold_size _ _ _ _ EF eq_refl eq_refl) as [S1 S2]. cbn [fst snd cfg_new cfg_with_source rules length] in S1, S2.
  destruct (bs_terminal _) as [t| |]; try discriminate. cbn [bind] in E.
  destruct (bs_subtract_productive result1 t) as [q| |]; try discriminate. cbn [bind] in E.
  destruct (rhs_closure_for_all _ q) as [pr| |]; try discriminate. cbn [bind] in E. injection E as <- <-.
  split; [|split; [lia|split]].
  - unfold cfg_retain at 1. cbn [set_rules rules].
    eapply Nat.le_trans; [apply filter_le|]. unfold cfg_retain. cbn [set_rules rules]. eapply Nat.le_trans; [apply filter_le|].
    unfold cfg_extend. cbn [set_rules rules]. rewrite app_length. lia.
  - unfold num_syms in *. cbn [cfg_retain cfg_extend set_rules src]. exact HN.
  - assert (HS : forall l st st', fold_res (elim_rule p) l st = Ok st' -> limit (snd st) = None -> num_syms (snd st') = num_syms (snd st)).
    { induction l as [|r l IH]; intros st st' X HL; cbn [fold_res] in X; [injection X as <-; reflexivity|].
      destruct (elim_rule p st r) as [st1| |] eqn:Y; try discriminate. cbn [bind] in X.
      assert (Z : num_syms (snd st1) = num_syms (snd st) /\ limit (snd st1) = None).
      { assert (AO : forall h l0 hi r0 h', limit h = None -> rule_history_rhs h l0 hi r0 = Ok h' -> num_syms h' = num_syms h /\ limit h' = None).
        { intros h l0 hi r0 h' HH EE. unfold rule_history_rhs in EE.
          destruct (add_rule_spec h (mkRule l0 r0 hi)) as [k [c [Ea [Hk Hc]]]]; [rewrite HH; simpl; auto|].
          rewrite Ea in EE. injection EE as <-. destruct Hc as [[-> _]|[l2 [E2 _]]]; [|congruence]. simpl in Hk.
          unfold num_syms. cbn [added src num limit]. split; [lia | exact HH]. }
        destruct st as [w0 r0]. unfold elim_rule in Y. cbn [fst snd] in *. destruct (negb _); [discriminate|].
        destruct (elim_which p r) as [[which|]| |]; try discriminate; cbn [bind] in Y; [|injection Y as <-; auto].
        destruct (history_eliminate_nulling _ _ _ _) as [h| |]; try discriminate. cbn [bind] in Y.
        destruct which as [| |n].
        - destruct (range_negate RLeft) as [keep| |]; try discriminate. cbn [bind] in Y.
          destruct (rule_history_rhs w0 (lhs r) h _) as [w1| |]; try discriminate. injection Y as <-. auto.
        - destruct (range_negate RRight) as [keep| |]; try discriminate. cbn [bind] in Y.
          destruct (rule_history_rhs w0 (lhs r) h _) as [w1| |]; try discriminate. injection Y as <-. auto.
        - match type of Y with bind ?x _ = _ => destruct x as [w1| |]; try discriminate end. cbn [bind] in Y.
          destruct (rule_history_rhs r0 (lhs r) h _) as [r1| |] eqn:Ec; try discriminate. injection Y as <-. cbn [snd]. eapply AO; eauto. }
      destruct Z as [Z1 Z2]. rewrite (IH _ _ X Z2). exact Z1. }
    specialize (HS _ _ _ EF eq_refl). cbn [snd] in HS. rewrite HS. reflexivity.
Qed.
Print Assumptions C120_linear.

(** S ::= A A A A ;  A ::= a | ;   Four rules of a pair or less have two rules with a part removed each, or none. *)
Example C120_non_vacuous :
  let g := mkCfg (mkSrc 3 (repeat None 3)) [mkRule 0 [1; 1; 1; 1] (history_new 0); mkRule 1 [2] (history_new 1); mkRule 1 [] (history_new 2)] [0] [] None in
  closed_rules g /\ pairs g = 5 /\ beyond g = 2 /\
  exists g' result, eliminate_nulling g = Ok (g', result) /\ length (rules g') = 10 /\ length (rules result) = 4.
Proof.
  cbn zeta. split; [|split; [reflexivity|split; [reflexivity|]]].
  - intros x [<-|[<-|[<-|[]]]]; (split; [unfold num_syms; simpl; lia | repeat constructor; unfold num_syms; simpl; lia]).
  - do 2 eexists. split; [vm_compute; reflexivity|]. split; reflexivity.
Qed.
