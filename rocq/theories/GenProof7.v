(** The totals asked for, and the source of bytes. *)

From Coq Require Import List Arith NArith ZArith QArith Qabs Bool Lia Lqa SpecFloat.
From Verif Require Import Base ListFacts Spec SpecGen LoopModel LoopFacts HistoryModel SymbolModel CfgModel View
  FloatModel SpecFloats FloatProof FloatProof2 GenModel GenProof GenProof3.
Import ListNotations.
Local Close Scope Q_scope.
Local Open Scope nat_scope.
Local Notation length := List.length.

Lemma before_zero_or : forall rs i, (weight_before (map exact_weight rs) i == 0)%Q \/ (1 # 1000 <= weight_before (map exact_weight rs) i)%Q.
Proof.
  induction rs as [|r rs IH]; intros [|i]; cbn [map weight_before]; try (left; reflexivity).
  assert (HE : (exact_weight r == 0)%Q \/ (1 # 1000 <= exact_weight r)%Q).
  { unfold exact_weight. destruct (milli r) as [|p]; [left; reflexivity|]. right. apply Qle_shift_div_l; [lra|].
    setoid_replace ((1 # 1000) * 1000)%Q with (inject_Z 1) by reflexivity. rewrite <- Zle_Qle. lia. }
  destruct HE, (IH i); [left|right|right|right]; lra.
Qed.

Lemma tot_moderate : forall rs, u32_weights rs -> (Z.of_nat (length rs) <= 2 ^ 50)%Z -> moderate (tot rs).
Proof.
  intros rs HU HB. destruct (tot_inv rs HU HB (length rs) (le_n _)) as [K N S E]. rewrite firstn_all in *. split; auto.
  destruct (eps_bound _ K) as [E0 E1]. destruct (before_zero_or rs (length rs)) as [Z|Z]; set (s := weight_before _ _) in *; clearbody s.
  - rewrite Z in E. assert (E' : (Qabs (fval (tot rs) - 0) <= 0)%Q) by (eapply Qle_trans; [exact E|]; lra).
    rewrite abs_bounds in E'. split; [left; lra|]. apply Qle_trans with 0%Q; [lra|vm_compute; discriminate].
  - set (e := (inject_Z (Z.of_nat (length rs)) * p2 (-52))%Q) in *.
    assert (HSE : (s * e <= s * (1 # 4))%Q) by (rewrite !(Qmult_comm s); apply Qmult_le_compat_r; lra).
    rewrite abs_bounds in E. split.
    + right. apply Qle_trans with (1 # 2000)%Q; [vm_compute; discriminate|lra].
    + assert (SB : (s <= p2 73)%Q).
      { eapply Qle_trans; [apply S|]. apply Qle_trans with (inject_Z (2 ^ 50) * p2 23)%Q; [apply inject_le_mult; lia|vm_compute; discriminate]. }
      apply Qle_trans with (2 * p2 73)%Q; [lra|vm_compute; discriminate].
Qed.

Lemma alts_length : forall g A, length (alts g A) <= length (rules g).
Proof.
  intros. unfold alts. generalize (rules g). intros l. induction l as [|x l IH]; simpl; auto.
  destruct (lhs x =? A); simpl; lia.
Qed.

Lemma asked_moderate : forall g q, u32_weights (rules g) -> (Z.of_nat (length (rules g)) <= 2 ^ 50)%Z -> asked g q -> moderate q.
Proof.
  intros g q HU HB [A [w [Hw ->]]]. assert (HN : alts g A <> []) by (intros E; rewrite weighted_get, E in Hw; discriminate).
  rewrite (weighted_some g A HN) in Hw. injection Hw as <-. apply tot_moderate.
  - intros r Hr. apply HU. unfold alts in Hr. apply filter_In in Hr. apply Hr.
  - pose proof (alts_length g A). lia.
Qed.

(** * The source of bytes *)
Definition pushed_or_ahead (s : byte_source) : list N := bytes_pushed s ++ bytes_ahead s.

Lemma bytes_value : forall b q, (b < 256)%N -> moderate q ->
  let v := f64_div (f64_mul (f64_of b) q) (f64_of 255) in let x := (inject_Z (Z.of_N b) / 255 * fval q)%Q in
  num v /\ (Qabs (fval v - x) <= x * p2 (-51))%Q.
Proof.
  intros b q Hb [Nq [Zq Uq]] v x. pose proof (num_nonneg q Nq) as Q0.
  destruct (of_val b) as [B1 B2]; [eapply N.lt_trans; [exact Hb|reflexivity]|].
  destruct (of_val 255) as [C1 C2]; [reflexivity|]. change (inject_Z (Z.of_N 255)) with 255%Q in C2.
  assert (ZC : b = 0%N \/ (fval q == 0)%Q \/ (b <> 0%N /\ (p2 (-100) <= fval q)%Q)) by (destruct b; destruct Zq; auto; right; right; split; auto; discriminate).
  assert (ZV : f64_mul (f64_of b) q = S754_zero false -> (x == 0)%Q -> num v /\ (Qabs (fval v - x) <= x * p2 (-51))%Q).
  { intros E X. unfold v. rewrite E. split; [reflexivity|]. change (fval (f64_div (S754_zero false) (f64_of 255))) with 0%Q.
    rewrite X. vm_compute. discriminate. }
  destruct ZC as [->|[Z|[NB NQ]]].
  - apply ZV; [|unfold x; change (inject_Z (Z.of_N 0)) with 0%Q; field].
    destruct (num_finite q Nq) as [->|(m & e & -> & HBD)]; reflexivity.
  - apply ZV; [|unfold x; rewrite Z; field]. destruct (num_finite q Nq) as [->|(m & e & -> & HBD)].
    + destruct (num_finite _ B1) as [->|(m2 & e2 & -> & _)]; reflexivity.
    + exfalso. cbn [fval] in Z. pose proof (p2_pos e). assert (0 < inject_Z (Zpos m) * p2 e)%Q; [|lra].
      setoid_replace 0%Q with (inject_Z 0 * p2 e)%Q by (change (inject_Z 0) with 0%Q; ring). apply inject_lt_mult. lia.
  - assert (BB : (1 <= inject_Z (Z.of_N b))%Q) by (change 1%Q with (inject_Z 1); rewrite <- Zle_Qle; lia).
    assert (BU : (inject_Z (Z.of_N b) <= 255)%Q) by (change 255%Q with (inject_Z 255); rewrite <- Zle_Qle; lia).
    set (bq := inject_Z (Z.of_N b)) in *.
    assert (Y0 : (p2 (-100) <= bq * fval q)%Q).
    { eapply Qle_trans; [exact NQ|]. setoid_replace (fval q) with (1 * fval q)%Q at 1 by ring. apply Qmult_le_compat_r; auto. }
    assert (Y1 : (bq * fval q <= 255 * p2 100)%Q).
    { apply Qle_trans with (255 * fval q)%Q; [apply Qmult_le_compat_r; auto|]. rewrite !(Qmult_comm 255). apply Qmult_le_compat_r; lra. }
    set (y := (bq * fval q)%Q) in *.
    assert (R1 : rounds y (f64_mul (f64_of b) q)).
    { apply rounds_eq with (fval (f64_of b) * fval q)%Q; [rewrite B2; reflexivity|]. apply mul_rounds; auto.
      - left. rewrite B2. apply Qle_trans with 1%Q; [vm_compute; discriminate|auto].
      - rewrite B2. eapply Qle_lt_trans; [exact Y1|]. reflexivity. }
    pose proof (r_err _ _ R1) as E1. pose proof (r_num _ _ R1) as N1. set (f1 := f64_mul (f64_of b) q) in *.
    assert (E1' : (Qabs (fval f1 - y) <= y * u)%Q).
    { apply E1. eapply Qle_trans; [|exact Y0]. vm_compute. discriminate. }
    destruct u_facts as (U0 & U1 & U2). rewrite abs_bounds in E1'.
    assert (Y00 : (0 < y)%Q) by (eapply Qlt_le_trans; [|exact Y0]; reflexivity).
    assert (YU : (y * u <= y * (1 # 1000))%Q) by (rewrite !(Qmult_comm y); apply Qmult_le_compat_r; lra).
    assert (F0 : (y * (999 # 1000) <= fval f1 /\ fval f1 <= y * (1001 # 1000))%Q) by lra.
    assert (R2 : rounds (fval f1 / 255) v).
    { apply rounds_eq with (fval f1 / fval (f64_of 255))%Q; [rewrite C2; reflexivity|]. apply div_rounds; auto.
      - right. rewrite C2. apply Qle_shift_div_l; [reflexivity|]. apply Qle_trans with (p2 (-100) * (999 # 1000))%Q; [vm_compute; discriminate|lra].
      - rewrite C2. apply Qlt_shift_div_r; [reflexivity|]. apply Qle_lt_trans with (255 * p2 100 * (1001 # 1000))%Q; [lra|reflexivity]. }
    split; [apply R2|]. pose proof (r_err _ _ R2) as E2. fold u in E2.
    assert (E2' : (Qabs (fval v - fval f1 / 255) <= fval f1 / 255 * u)%Q).
    { apply E2. apply Qle_shift_div_l; [reflexivity|]. apply Qle_trans with (p2 (-100) * (999 # 1000))%Q; [vm_compute; discriminate|lra]. }
    rewrite abs_bounds in E2'. apply abs_bounds.
    assert (XY : (x == y / 255)%Q) by (unfold x, y; fold bq; field). rewrite XY.
    assert (U4 : (p2 (-51) == 4 * u)%Q) by reflexivity. rewrite U4.
    assert (D : forall z, (z / 255 == z * (1 # 255))%Q) by (intros; field). rewrite D in *.
    assert (FU : (fval f1 * (1 # 255) * u <= y * (1 # 255) * u * (1001 # 1000))%Q).
    { setoid_replace (y * (1 # 255) * u * (1001 # 1000))%Q with ((y * (1001 # 1000)) * ((1 # 255) * u))%Q by ring.
      setoid_replace (fval f1 * (1 # 255) * u)%Q with (fval f1 * ((1 # 255) * u))%Q by ring. apply Qmult_le_compat_r; [apply F0|lra]. }
    assert (YU0 : (0 <= y * u)%Q) by (apply Qmult_le_0_compat; lra).
    setoid_replace (y * (1 # 255) * u * (1001 # 1000))%Q with (y * u * (1001 # 255000))%Q in FU by ring.
    setoid_replace (y * (1 # 255) * (4 * u))%Q with (y * u * (4 # 255))%Q by ring. lra.
Qed.
