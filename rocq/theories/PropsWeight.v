(** Property C118: the weights given to rules. *)

From Coq Require Import List Arith NArith ZArith QArith Qabs Bool Lia Lqa SpecFloat.
From Verif Require Import Base ListFacts SymbolModel HistoryModel CfgModel View CfgProof FloatModel SpecFloats FloatProof FloatProof2
  PropsGrammar PropsGen.
Import ListNotations.
Local Close Scope Q_scope.
Local Open Scope nat_scope.
Local Notation length := List.length.

Lemma part_weight : forall r l p top, h_weight (part_hist r l p top) = h_weight (hist r).
Proof.
  intros. unfold part_hist. destruct (_ || _); auto. unfold history_binarize.
  destruct (if top then _ else _) as [[d0 d1] d2]. reflexivity.
Qed.

Lemma chain_weights : forall r l p s w c, chain r l p s w c ->
  exists c0 x, c = c0 ++ [x] /\ lhs x = lhs r /\ h_weight (hist x) = h_weight (hist r) /\
    Forall (fun y => s <= lhs y /\ h_weight (hist y) = h_weight (hist r)) c0.
Proof.
  intros r l p s w c H. induction H as [p s w Hw Hl|p s w c Hl _ [c0 [x [-> [A [B C]]]]]].
  - exists [], (mkRule (lhs r) w (part_hist r l p true)). cbn [lhs hist]. rewrite part_weight. auto.
  - exists (mkRule s (firstn l w) (part_hist r l p false) :: c0), x. split; auto. split; auto. split; auto. constructor.
    + cbn [lhs hist]. rewrite part_weight. auto.
    + eapply Forall_impl; [|exact C]. cbn beta. intros y [Y1 Y2]. split; [lia|auto].
Qed.

Lemma add_weights : forall g r g', good_limit (limit g) -> add_rule g r = Ok g' ->
  exists c0 x, rules g' = rules g ++ c0 ++ [x] /\ lhs x = lhs r /\ h_weight (hist x) = h_weight (hist r) /\
    Forall (fun y => num_syms g <= lhs y /\ h_weight (hist y) = h_weight (hist r)) c0 /\
    limit g' = limit g /\ num_syms g <= num_syms g'.
Proof.
  intros g r g' HL E. destruct (add_rule_spec g r HL) as [k [c [E' [_ Hc]]]]. rewrite E in E'. injection E' as ->.
  unfold num_syms. cbn [added rules limit src CfgModel.num]. destruct Hc as [[-> _]|[l [_ [_ Hc]]]].
  - exists [], r. split; auto. split; auto. split; auto. split; auto. split; auto. lia.
  - apply chain_weights in Hc. destruct Hc as [c0 [x [-> [A [B C]]]]]. exists c0, x. split; auto. split; auto. split; auto. split; auto. split; auto. lia.
Qed.

(** ** C118.  A rule declared with a weight gets it in thousandths, in all the parts that it is split into. *)
Theorem C118_declared_partial : forall b b' l r w, b_lhs b = Some l -> good_limit (limit (b_cfg b)) -> is_f64 w ->
  builder_call b (BRhsLinked r (LWeight w)) = Ok b' ->
  exists n parts, in_thousandths w n /\ rules (b_cfg b') = rules (b_cfg b) ++ parts /\
    (exists x, In x parts /\ lhs x = l) /\ forall x, In x parts -> h_weight (hist x) = Some n.
Proof.
  intros b b' l r w HB HL HW E. cbn [builder_call] in E. rewrite HB in E. cbn [process_linked bind] in E.
  unfold builder_rhs_with_history in E. rewrite HB in E.
  match type of E with context [add_rule ?g ?x] => destruct (add_rule g x) as [g'| |] eqn:EA; cbn [bind] in E; try discriminate end.
  injection E as <-. apply add_weights in EA; auto. cbn [lhs hist h_weight] in EA. destruct EA as [c0 [x [E1 [E2 [E3 [E4 _]]]]]].
  exists (f64_to_u32 (f64_mul w (f64_of 1000))), (c0 ++ [x]). split; [apply kept_thousandths; auto|]. split; auto. split.
  - exists x. split; auto. apply in_elt.
  - intros y Hy. apply in_app_or in Hy. destruct Hy as [Hy|[<-|[]]]; auto. rewrite Forall_forall in E4. apply (E4 y Hy).
Qed.
Print Assumptions C118_declared_partial.

(** The weights of the productions of a symbol, in order, stay when rules are split. *)
Theorem C118_split_partial : forall g lim g', good_limit lim -> (forall r, In r (rules g) -> lhs r < num_syms g) ->
  limit_rhs_len g lim = Ok g' -> forall A, A < num_syms g ->
  map (fun r => h_weight (hist r)) (productions_of g' A) = map (fun r => h_weight (hist r)) (productions_of g A).
Proof.
  intros g lim g' HL HC E A HA. unfold productions_of.
  assert (HF : forall l h h', limit h = lim -> num_syms g <= num_syms h -> fold_res add_rule l h = Ok h' ->
    map (fun r => h_weight (hist r)) (filter (fun r => lhs r =? A) (rules h')) =
    map (fun r => h_weight (hist r)) (filter (fun r => lhs r =? A) (rules h ++ l))).
  { induction l as [|r l IH]; intros h h' Hh Hn EF; cbn [fold_res] in EF.
    - injection EF as <-. rewrite app_nil_r. auto.
    - destruct (add_rule h r) as [h1| |] eqn:EA; cbn [bind] in EF; try discriminate.
      destruct (add_weights h r h1 ltac:(rewrite Hh; auto) EA) as [c0 [x [E1 [E2 [E3 [E4 [E5 E6]]]]]]].
      rewrite (IH h1 h') by (auto; try lia; congruence). rewrite E1. rewrite !filter_app, !map_app. rewrite <- app_assoc. f_equal.
      assert (H0 : filter (fun r => lhs r =? A) c0 = []).
      { clear -E4 Hn HA. induction E4 as [|y c0 [Hy _] _ IH]; cbn [filter]; auto. destruct (Nat.eqb_spec (lhs y) A); [lia|auto]. }
      rewrite H0. cbn [app filter]. rewrite E2. destruct (lhs r =? A); cbn [map app]; [rewrite E3; auto|auto]. }
  unfold limit_rhs_len in E. apply HF in E; [exact E|reflexivity|unfold num_syms; cbn [src]; apply le_n].
Qed.
Print Assumptions C118_split_partial.

(** Used in random generation, the weight differs from the given one by less than a thousandth. *)
Theorem C118_used_partial : forall w n r, is_f64 w -> (0 <= fval w)%Q -> (1000 * fval w < 4294967295)%Q -> w <> S754_infinity false ->
  in_thousandths w n -> h_weight (hist r) = Some n ->
  (Qabs (weight_of r - fval w) < 1 # 1000)%Q /\
  ((exists k, 1000 * fval w == inject_Z k)%Q -> (weight_of r == fval w)%Q).
Proof.
  intros w n r HW H0 HM HI HT HR. unfold weight_of. rewrite HR.
  assert (D : (inject_Z (Z.of_N n) / 1000 == inject_Z (Z.of_N n) * (1 # 1000))%Q) by field. rewrite D.
  assert (HZ : (fval w == 0)%Q -> n = 0%N -> (Qabs (inject_Z (Z.of_N n) * (1 # 1000) - fval w) < 1 # 1000)%Q /\
    ((exists k, 1000 * fval w == inject_Z k)%Q -> (inject_Z (Z.of_N n) * (1 # 1000) == fval w)%Q)).
  { intros E ->. change (inject_Z (Z.of_N 0)) with 0%Q. split; [apply Qabs_Qlt_condition; split; lra|intros; lra]. }
  destruct w as [s|s| |s m e]; cbn [in_thousandths] in HT.
  - apply HZ; auto. reflexivity.
  - destruct s; [apply HZ; auto; reflexivity|congruence].
  - apply HZ; auto. reflexivity.
  - destruct s.
    + exfalso. cbn [fval] in H0. pose proof (p2_pos e). assert (inject_Z (Zneg m) * p2 e < inject_Z 0 * p2 e)%Q by (apply inject_lt_mult; lia).
      change (inject_Z 0) with 0%Q in *. lra.
    + destruct HT as [_ HT]. destruct (HT HM) as [T1 T2]. set (x := fval (S754_finite false m e)) in *. clearbody x. split.
      * apply Qabs_Qlt_condition. split; lra.
      * intros [k Hk]. rewrite Hk in T1, T2. assert (Z.of_N n = k).
        { assert (k < Z.of_N n + 1)%Z by (rewrite Zlt_Qlt, inject_Z_plus; change (inject_Z 1) with 1%Q; lra).
          assert (Z.of_N n < k + 1)%Z by (rewrite Zlt_Qlt, inject_Z_plus; change (inject_Z 1) with 1%Q; lra). lia. }
        rewrite H. lra.
Qed.
Print Assumptions C118_used_partial.

(** A weight that is not exactly a number of thousandths as a floating-point number may lose a thousandth: the weight 1.001, that
    is the floating-point number next to it, is kept as 1000 thousandths. *)
Theorem C118_three_decimals_refuted : exists w b b', is_f64 w /\ (Qabs (fval w - (1001 # 1000)) <= p2 (-53))%Q /\
  builder_call b (BRhsLinked [1] (LWeight w)) = Ok b' /\
  exists x, rules (b_cfg b') = [x] /\ h_weight (hist x) = Some 1000%N.
Proof.
  exists (S754_finite false 4508103226997866 (-52)), (mkBuilder (Some 0) None (mkCfg (mkSrc 2 [None; None]) [] [] [] None)).
  eexists. split; [reflexivity|]. split; [vm_compute; discriminate|]. split; [vm_compute; reflexivity|]. eexists. split; reflexivity.
Qed.
Print Assumptions C118_three_decimals_refuted.

Example C118_example :
  map (fun w => f64_to_u32 (f64_mul w (f64_of 1000)))
    [f64_of 3; f64_div (f64_of 1) (f64_of 2); f64_of 5000000; S754_nan; S754_infinity false; S754_finite true 1 0; f64_div (f64_of 1) (f64_of 3000)] =
  [3000; 500; 4294967295; 0; 4294967295; 0; 0]%N /\
  Forall is_f64 [f64_of 3; f64_div (f64_of 1) (f64_of 2); f64_of 5000000; S754_nan; S754_infinity false; f64_div (f64_of 1) (f64_of 3000)] /\
  exists g', limit_rhs_len (mkCfg (mkSrc 5 (repeat None 5)) [mkRule 0 [1; 2; 3; 4] (with_weight 7); mkRule 0 [1] (with_weight 8)] [] [] None) (Some 2) = Ok g' /\
    map (fun r => h_weight (hist r)) (productions_of g' 0) = [Some 7; Some 8]%N.
Proof. split; [vm_compute; reflexivity|]. split; [repeat constructor|]. eexists. split; vm_compute; reflexivity. Qed.
