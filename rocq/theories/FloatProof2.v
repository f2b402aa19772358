(** Sums of weights, conversion to integers, and the sign of results, for FloatModel.v. *)

From Coq Require Import List ZArith NArith QArith Qpower Qabs Qround Lia Lqa Bool SpecFloat.
From Verif Require Import FloatModel SpecFloats FloatProof.
Import ListNotations.
Local Open Scope Z_scope.

(** * Numbers that are neither negative nor NaN *)
Definition nn (f : f64) : Prop :=
  match f with
  | S754_zero s | S754_infinity s | S754_finite s _ _ => s = false
  | S754_nan => False
  end.

Lemma num_nn : forall f, num f -> nn f.
Proof. intros f H. destruct (num_finite f H) as [->|(m & e & -> & _)]; reflexivity. Qed.

Lemma shr_1_nonneg : forall r, 0 <= shr_m r -> 0 <= shr_m (shr_1 r).
Proof. intros [[|[p|p|]|p] r s] H; cbn in *; lia. Qed.
Lemma iter_nonneg : forall p r, 0 <= shr_m r -> 0 <= shr_m (iter_pos shr_1 p r).
Proof. induction p; intros r H; cbn [iter_pos]; auto using shr_1_nonneg. Qed.
Lemma shr_nonneg : forall r e n, 0 <= shr_m r -> 0 <= shr_m (fst (shr r e n)).
Proof. intros r e [|p|p] H; cbn [shr fst]; auto. apply iter_nonneg. auto. Qed.

Lemma bra_nn : forall m e l, 0 <= m -> nn (binary_round_aux 53 1024 false m e l).
Proof.
  intros m e l Hm. unfold binary_round_aux, shr_fexp at 1.
  destruct (shr (shr_record_of_loc m l) e _) as [r e'] eqn:E1.
  assert (H1 : 0 <= shr_m r).
  { change r with (fst (r, e')). rewrite <- E1. apply shr_nonneg. rewrite (proj1 (rec_of_loc m l)). auto. }
  set (k := round_nearest_even (shr_m r) (loc_of_shr_record r)).
  assert (H2 : 0 <= k) by (unfold k, round_nearest_even; destruct (loc_of_shr_record r) as [|[]]; [lia|destruct (Z.even (shr_m r)); lia|lia|lia]).
  clearbody k. unfold shr_fexp. destruct (shr (shr_record_of_loc k loc_Exact) e' _) as [r2 e2] eqn:E2.
  assert (H3 : 0 <= shr_m r2) by (change r2 with (fst (r2, e2)); rewrite <- E2; apply shr_nonneg; auto).
  destruct (shr_m r2); [reflexivity| |lia]. destruct (_ <=? _); reflexivity.
Qed.

Lemma nn_add : forall a b, nn a -> nn b -> nn (f64_add a b).
Proof.
  intros a b Ha Hb. unfold f64_add.
  destruct a as [s|s| |s m e], b as [s'|s'| |s' m' e']; cbn [nn] in Ha, Hb; try tauto; subst; try reflexivity.
  cbn [SFadd cond_Zopp]. set (z := _ + _). assert (0 < z) by (unfold z; lia). destruct z as [|p|p]; try lia.
  cbn [binary_normalize]. unfold binary_round. destruct (shl_align _ _ _). apply bra_nn. lia.
Qed.

Lemma nn_of : forall n, nn (f64_of n).
Proof.
  intros [|p]; [reflexivity|]. unfold f64_of. cbn [Z.of_N binary_normalize]. unfold binary_round. destruct (shl_align _ _ _).
  apply bra_nn. lia.
Qed.

Lemma nn_div : forall a m e, nn a -> nn (f64_div a (S754_finite false m e)).
Proof.
  intros [s|s| |s m' e'] m e Ha; cbn [nn] in Ha; try tauto; subst; try reflexivity.
  unfold f64_div. cbn [SFdiv xorb]. unfold SFdiv_core_binary.
  match goal with |- context [Z.div_eucl ?n _] => set (z := n) end.
  assert (Z0 : 0 <= z) by (unfold z; destruct (e' - e - _); [lia|rewrite Z.shiftl_nonneg; lia|lia]). clearbody z.
  pose proof (Z_div_mod z (Zpos m) ltac:(lia)) as DM. destruct (Z.div_eucl z (Zpos m)) as [q r]. destruct DM as [D1 D2].
  apply bra_nn. nia.
Qed.

Lemma nn_div_of : forall n, nn (f64_div (f64_of n) (f64_of 1000)).
Proof. intros n. change (f64_of 1000) with (S754_finite false 8796093022208000 (-43)). apply nn_div. apply nn_of. Qed.

Lemma cmp_nn : forall a v, nn a -> f64_cmp a v = None -> v = S754_nan.
Proof. intros [s|s| |s m e] [s'|s'| |s' m' e'] Ha H; cbn [nn] in Ha; try tauto; try discriminate. Qed.

(** * Weights in thousandths *)
Definition thousandths (n : N) : f64 := f64_div (f64_of n) (f64_of 1000).

Lemma p2_23 : forall n, (n < 2 ^ 32)%N -> (inject_Z (Z.of_N n) / 1000 <= p2 23)%Q.
Proof.
  intros n H. apply Qle_shift_div_r; [lra|]. rewrite (p2_Z 23) by lia. change 1000%Q with (inject_Z 1000). rewrite <- inject_Z_mult, <- Zle_Qle.
  assert (Z.of_N n < 2 ^ 32) by lia. lia.
Qed.

Definition u : Q := p2 (-53).

Lemma thousandths_spec : forall n, (n < 2 ^ 32)%N -> let x := (inject_Z (Z.of_N n) / 1000)%Q in
  num (thousandths n) /\ (Qabs (fval (thousandths n) - x) <= x * u)%Q /\
  ((x == 0)%Q /\ (fval (thousandths n) == 0)%Q \/ (p2 (-20) <= fval (thousandths n))%Q) /\ (fval (thousandths n) <= p2 23)%Q.
Proof.
  intros n H x. destruct (of_val n) as [A1 A2]; [apply N.lt_trans with (2 ^ 32)%N; [auto|reflexivity]|].
  destruct (of_val 1000) as [B1 B2]; [reflexivity|]. change (inject_Z (Z.of_N 1000)) with 1000%Q in B2.
  assert (HX : (fval (f64_of n) / fval (f64_of 1000) == x)%Q) by (rewrite A2, B2; reflexivity).
  assert (XU : (x <= p2 23)%Q) by (apply p2_23; auto).
  assert (XL : (fval (f64_of n) == 0)%Q \/ (p2 (-20) <= x)%Q).
  { destruct n as [|p]; [left; reflexivity|right]. unfold x. apply Qle_shift_div_l; [lra|]. apply Qle_trans with 1%Q; [vm_compute; discriminate|].
    change 1%Q with (inject_Z 1). rewrite <- Zle_Qle. lia. }
  assert (HR : rounds x (thousandths n)).
  { apply rounds_eq with (fval (f64_of n) / fval (f64_of 1000))%Q; [exact HX|]. apply div_rounds; auto.
    - rewrite B2. lra.
    - destruct XL as [XL|XL]; [left; auto|right]. rewrite HX. apply Qle_trans with (p2 (-20)); [apply p2_le; lia|auto].
    - rewrite HX. apply Qle_lt_trans with (p2 23); [auto|]. vm_compute. reflexivity. }
  split; [apply HR|].
  assert (UP : (fval (thousandths n) <= p2 23)%Q).
  { apply (r_high _ _ HR); auto. exists 1, 23. split; [lia|]. split; [lia|]. ring. }
  destruct XL as [XL|XL].
  - assert (HZ : (x == 0)%Q) by (rewrite <- HX, XL; unfold Qdiv; ring).
    assert (R0 : rep 0) by (exists 0, 0; repeat split; lia).
    assert (E : (fval (thousandths n) == 0)%Q) by (apply Qle_antisym; [apply (r_high _ _ HR)|apply (r_low _ _ HR)]; auto; lra).
    split; [|split; [left; auto|auto]]. rewrite E, HZ. vm_compute. discriminate.
  - split; [|split; [right|auto]].
    + apply (r_err _ _ HR). apply Qle_trans with (p2 (-20)); [apply p2_le; lia|auto].
    + apply (r_low _ _ HR); auto. exists 1, (-20). split; [lia|]. split; [lia|]. ring.
Qed.

(** The float [t] is the sum of [k] weights; the exact sum is [s]. *)
Record sum_inv (k : Z) (t : f64) (s : Q) : Prop := {
  si_k : 0 <= k <= 2 ^ 50;
  si_num : num t;
  si_s : (0 <= s /\ s <= inject_Z k * p2 23)%Q;
  si_err : (Qabs (fval t - s) <= s * (inject_Z k * p2 (-52)))%Q
}.

Lemma u_facts : (0 < u /\ p2 (-52) == 2 * u /\ u <= 1 # 1000)%Q.
Proof. split; [|split]; vm_compute; try reflexivity; discriminate. Qed.

Lemma eps_bound : forall k, 0 <= k <= 2 ^ 50 -> (0 <= inject_Z k * p2 (-52) /\ inject_Z k * p2 (-52) <= 1 # 4)%Q.
Proof.
  intros k Hk. split.
  - apply Qmult_le_0_compat; [change 0%Q with (inject_Z 0); rewrite <- Zle_Qle; lia|vm_compute; discriminate].
  - apply Qle_trans with (inject_Z (2 ^ 50) * p2 (-52))%Q; [apply inject_le_mult; lia|]. vm_compute. discriminate.
Qed.

Lemma abs_bounds : forall a b, (Qabs a <= b <-> -b <= a /\ a <= b)%Q.
Proof. intros a b. apply Qabs_Qle_condition. Qed.

Lemma sum_step : forall k t s n, sum_inv k t s -> k < 2 ^ 50 -> (n < 2 ^ 32)%N ->
  sum_inv (k + 1) (f64_add t (thousandths n)) (s + inject_Z (Z.of_N n) / 1000) /\ (fval t <= fval (f64_add t (thousandths n)))%Q.
Proof.
  intros k t s n [K T S E] Hk Hn. destruct (thousandths_spec n Hn) as (W1 & W2 & W3 & W4). set (w := (inject_Z (Z.of_N n) / 1000)%Q) in *.
  set (b := thousandths n) in *. destruct u_facts as (U0 & U1 & U2). destruct (eps_bound k K) as [EP0 EP1].
  set (e := (inject_Z k * p2 (-52))%Q) in *.
  assert (EK : (inject_Z (k + 1) * p2 (-52) == e + 2 * u)%Q) by (unfold e; rewrite inject_Z_plus, <- U1; change (inject_Z 1) with 1%Q; ring).
  assert (W0 : (0 <= w)%Q).
  { unfold w. apply Qle_shift_div_l; [lra|]. setoid_replace (0 * 1000)%Q with (inject_Z 0) by reflexivity. rewrite <- Zle_Qle. lia. }
  assert (WU : (w <= p2 23)%Q) by (apply p2_23; auto).
  destruct S as [S0 S1]. rewrite abs_bounds in E, W2.
  pose proof (num_nonneg t T) as TN. pose proof (num_nonneg b W1) as BN.
  assert (SB : (inject_Z k * p2 23 <= p2 80)%Q).
  { apply Qle_trans with (inject_Z (2 ^ 50) * p2 23)%Q; [apply inject_le_mult; lia|]. rewrite inject_pow by lia. apply p2_le. lia. }
  assert (SE : (0 <= s * e /\ s * e <= s)%Q).
  { split; [apply Qmult_le_0_compat; auto|]. setoid_replace s with (s * 1)%Q at 2 by ring. rewrite !(Qmult_comm s). apply Qmult_le_compat_r; lra. }
  assert (TB : (fval t + fval b < p2 999)%Q).
  { assert (p2 23 <= p2 80)%Q by (apply p2_le; lia). assert (3 * p2 80 < p2 999)%Q by (vm_compute; reflexivity). lra. }
  pose proof (add_rounds t b T W1 TB) as HR. set (y := f64_add t b) in *.
  assert (MON : (fval t <= fval y)%Q) by (apply (r_low _ _ HR); [apply num_rep; auto|lra]).
  split; auto. constructor.
  - lia.
  - apply HR.
  - rewrite inject_Z_plus. change (inject_Z 1) with 1%Q. split; lra.
  - rewrite EK, abs_bounds.
    assert (WEU : (0 <= w * u)%Q) by (apply Qmult_le_0_compat; lra).
    assert (SU : (0 <= s * u)%Q) by (apply Qmult_le_0_compat; lra).
    assert (WE : (0 <= w * e)%Q) by (apply Qmult_le_0_compat; lra).
    assert (XX : ((fval t == 0)%Q /\ (s == 0)%Q) \/ (fval b == 0)%Q \/ 1 <= k).
    { destruct (Z.eq_dec k 0) as [K0|K0]; [left|right; right; lia].
      assert (s == 0)%Q by (apply Qle_antisym; [rewrite K0 in S1; unfold inject_Z in S1; lra|auto]). split; [|auto]. rewrite H in *. lra. }
    destruct XX as [[XT XS]|[XB|XK]].
    + assert (EY : (fval y == fval b)%Q).
      { apply Qle_antisym; [apply (r_high _ _ HR)|apply (r_low _ _ HR)]; try (apply num_rep; auto); lra. }
      rewrite EY, XS. split; lra.
    + assert (EY : (fval y == fval t)%Q).
      { apply Qle_antisym; [apply (r_high _ _ HR)|apply (r_low _ _ HR)]; try (apply num_rep; auto); lra. }
      assert (w == 0)%Q by (destruct W3 as [[W3 _]|W3]; [auto|pose proof (p2_pos (-20)); lra]). rewrite EY, H. split; lra.
    + destruct W3 as [[W3 W3']|W3].
      * assert (EY : (fval y == fval t)%Q).
        { apply Qle_antisym; [apply (r_high _ _ HR)|apply (r_low _ _ HR)]; try (apply num_rep; auto); lra. }
        rewrite EY, W3. split; lra.
      * assert (HE : (Qabs (fval y - (fval t + fval b)) <= (fval t + fval b) * u)%Q).
        { apply (r_err _ _ HR). apply Qle_trans with (p2 (-20)); [apply p2_le; lia|lra]. }
        rewrite abs_bounds in HE.
        assert (E2U : (2 * u <= e)%Q).
        { unfold e. rewrite <- U1. setoid_replace (p2 (-52)) with (inject_Z 1 * p2 (-52))%Q at 1 by (unfold inject_Z; ring). apply inject_le_mult. auto. }
        set (tv := fval t) in *. set (bv := fval b) in *. set (yv := fval y) in *. clearbody tv bv yv.
        assert (T1 : (tv * u <= (s + s * e) * u)%Q) by (apply Qmult_le_compat_r; lra).
        assert (T3 : (bv * u <= (w + w * u) * u)%Q) by (apply Qmult_le_compat_r; lra).
        assert (SEU : (s * e * u <= s * u)%Q) by (apply Qmult_le_compat_r; lra).
        assert (WUU : (w * u * u <= w * u)%Q).
        { setoid_replace (w * u)%Q with (w * u * 1)%Q at 2 by ring. rewrite !(Qmult_comm (w * u)). apply Qmult_le_compat_r; lra. }
        assert (WEU2 : (w * (2 * u) <= w * e)%Q) by (rewrite !(Qmult_comm w); apply Qmult_le_compat_r; lra).
        split; lra.
Qed.

(** * Conversion to an integer *)
Lemma shiftl_val : forall m e, (inject_Z (Z.shiftl m e) <= inject_Z m * p2 e)%Q /\ (inject_Z m * p2 e < inject_Z (Z.shiftl m e + 1))%Q.
Proof.
  intros m e. destruct (Z.le_gt_cases 0 e) as [H|H].
  - rewrite Z.shiftl_mul_pow2 by auto. rewrite inject_Z_plus, inject_Z_mult, <- p2_Z by auto. change (inject_Z 1) with 1%Q. split; lra.
  - replace e with (- - e) at 1 4 by lia. rewrite Z.shiftl_opp_r, Z.shiftr_div_pow2 by lia. set (d := 2 ^ (- e)).
    assert (D : 0 < d) by (apply Z.pow_pos_nonneg; lia).
    assert (DQ : (p2 (- e) == inject_Z d)%Q) by (apply p2_Z; lia).
    assert (EM : (inject_Z m == inject_Z m * p2 e * inject_Z d)%Q).
    { rewrite <- DQ, <- Qmult_assoc, <- p2_plus. replace (e + - e) with 0 by lia. rewrite p2_0. ring. }
    assert (DP : (0 < inject_Z d)%Q) by (change 0%Q with (inject_Z 0); rewrite <- Zlt_Qlt; auto).
    pose proof (Z.div_mod m d ltac:(lia)) as DM. pose proof (Z.mod_pos_bound m d D) as MB. split.
    + apply Qmult_le_r with (inject_Z d); auto. rewrite <- EM, <- inject_Z_mult, <- Zle_Qle. nia.
    + apply Qmult_lt_r with (inject_Z d); auto. rewrite <- EM, <- inject_Z_mult, <- Zlt_Qlt. nia.
Qed.

Lemma to_u32_num : forall f, num f -> let n := inject_Z (Z.of_N (f64_to_u32 f)) in
  (fval f < inject_Z 4294967296 -> n <= fval f /\ fval f < n + 1)%Q /\
  (inject_Z 4294967295 <= fval f -> f64_to_u32 f = 4294967295%N)%Q.
Proof.
  intros f H. destruct (num_finite f H) as [->|(m & e & -> & HB)].
  - cbn [fval f64_to_u32]. split; [intros; split; [apply Qle_refl|reflexivity]|]. intros X. exfalso. vm_compute in X. apply X. reflexivity.
  - cbn [fval f64_to_u32]. destruct (shiftl_val (Zpos m) e) as [A B]. set (z := Z.shiftl (Z.pos m) e) in *.
    assert (Z0 : 0 <= z) by (unfold z; rewrite Z.shiftl_nonneg; lia). clearbody z. set (x := (inject_Z (Z.pos m) * p2 e)%Q) in *. clearbody x.
    split.
    + intros HX. assert (z < 4294967296) by (rewrite Zlt_Qlt; lra).
      replace (Z.of_N (N.min 4294967295 (Z.to_N z))) with z by lia. rewrite inject_Z_plus in B. change (inject_Z 1) with 1%Q in B. auto.
    + intros HX. assert (4294967295 < z + 1) by (rewrite Zlt_Qlt; lra). lia.
Qed.

(** [w * 1000.0] as an integer *)
Lemma milli_spec : forall m e, bounded 53 1024 m e = true ->
  let x := (1000 * (inject_Z (Zpos m) * p2 e))%Q in let n := f64_to_u32 (f64_mul (S754_finite false m e) (f64_of 1000)) in
  ((inject_Z 4294967295 <= x)%Q -> n = 4294967295%N) /\
  ((x < inject_Z 4294967295)%Q -> (x - 1 < inject_Z (Z.of_N n) /\ inject_Z (Z.of_N n) < x + 1)%Q).
Proof.
  intros m e HB x n. destruct (of_val 1000) as [B1 B2]; [reflexivity|]. change (inject_Z (Z.of_N 1000)) with 1000%Q in B2.
  set (f := f64_mul (S754_finite false m e) (f64_of 1000)) in *.
  assert (HP : (fval (S754_finite false m e) * fval (f64_of 1000) == x)%Q) by (rewrite B2; cbn [fval]; unfold x; ring).
  assert (R1 : forall k, 0 <= k < 2 ^ 53 -> rep (inject_Z k)) by (intros k Hk; exists k, 0; split; [auto|split; [lia|rewrite p2_0; ring]]).
  destruct (Qlt_le_dec x (p2 999)) as [Hlt|Hge].
  - assert (HR : rounds x f).
    { apply rounds_eq with (1 := HP). apply mul_rounds; auto.
      - right. rewrite B2. vm_compute. discriminate.
      - rewrite HP. auto. }
    destruct (to_u32_num f (r_num _ _ HR)) as [T1 T2]. split.
    + intros HX. apply T2. apply (r_low _ _ HR); auto. apply R1. lia.
    + intros HX. assert (FU : (fval f <= inject_Z 4294967295)%Q) by (apply (r_high _ _ HR); [apply R1; lia|lra]).
      assert (FU2 : (fval f < inject_Z 4294967296)%Q) by (apply Qle_lt_trans with (1 := FU); reflexivity).
      destruct (T1 FU2) as [N1 N2]. fold n in N1, N2.
      assert (X0 : (0 <= x)%Q).
      { unfold x. apply Qmult_le_0_compat; [lra|]. apply Qmult_le_0_compat; [unfold Qle; simpl; lia|apply Qlt_le_weak, p2_pos]. }
      pose proof (Qfloor_le x) as F1. pose proof (Qlt_floor x) as F2. pose proof (Qle_ceiling x) as C1. pose proof (Qceiling_lt x) as C2.
      assert (FB : 0 <= Qfloor x < 2 ^ 53).
      { split; [change 0 with (Qfloor 0); apply Qfloor_resp_le; auto|]. assert (Qfloor x < 4294967295) by (rewrite Zlt_Qlt; lra). lia. }
      assert (CB : 0 <= Qceiling x < 2 ^ 53).
      { assert (Qceiling x - 1 < 4294967295) by (rewrite Zlt_Qlt; lra). split; [|lia]. rewrite Zle_Qle. change (inject_Z 0) with 0%Q. lra. }
      assert (L : (inject_Z (Qfloor x) <= fval f)%Q) by (apply (r_low _ _ HR); auto).
      assert (U : (fval f <= inject_Z (Qceiling x))%Q) by (apply (r_high _ _ HR); auto).
      assert (NF : Qfloor x < Z.of_N n + 1) by (rewrite Zlt_Qlt, inject_Z_plus; change (inject_Z 1) with 1%Q; lra).
      assert (NC : Z.of_N n <= Qceiling x) by (rewrite Zle_Qle; lra).
      rewrite inject_Z_plus in F2. unfold Z.sub in C2. rewrite inject_Z_plus in C2. change (inject_Z (-(1))) with (- (1))%Q in C2. change (inject_Z 1) with 1%Q in F2.
      assert (NF' : (inject_Z (Qfloor x) <= inject_Z (Z.of_N n))%Q) by (rewrite <- Zle_Qle; lia).
      assert (NC' : (inject_Z (Z.of_N n) <= inject_Z (Qceiling x))%Q) by (rewrite <- Zle_Qle; lia).
      split; lra.
  - assert (BIG : (inject_Z 4294967295 <= p2 999)%Q) by (vm_compute; discriminate). split; [intros _|intros HX; lra].
    unfold n, f, f64_mul. change (f64_of 1000) with (S754_finite false 8796093022208000 (-43)). cbn [SFmul xorb].
    set (mm := (m * 8796093022208000)%positive). set (ee := e + -43).
    assert (IL : in_loc x (Zpos mm) ee loc_Exact).
    { cbn [in_loc]. unfold x, mm, ee. rewrite p2_plus, Pos2Z.inj_mul, inject_Z_mult.
      setoid_replace 1000%Q with (inject_Z 8796093022208000 * p2 (-43))%Q by reflexivity. ring. }
    assert (DG : 53 <= Zdigits2 (Zpos mm)).
    { assert (G : 2 ^ 52 <= Zpos mm) by (unfold mm; lia). pose proof (digits_ge _ 52 ltac:(lia) G). lia. }
    destruct (bra_spec x (Zpos mm) ee loc_Exact ltac:(lia) IL) as (k & k' & B); [rewrite fex_eq; lia|]. cbn zeta in B.
    destruct B as (K & [X1 X2] & HK & HE & N1 & N2 & XD & B). set (d := Zdigits2 (Zpos mm)) in *.
    assert (DD : 999 < d + ee) by (apply p2_lt_inv; lra).
    destruct B as [[HN HV]|[-> _]]; [|reflexivity].
    apply (to_u32_num _ HN). rewrite HV. set (e1 := fex (d + ee)) in *. assert (E1 : 900 <= e1) by (unfold e1; rewrite fex_eq; lia).
    assert (K52 : 2 ^ 52 <= k) by (apply N2; lia). assert (KK : k <= k') by (destruct HK as [->|[-> _]]; lia).
    apply Qle_trans with (inject_Z 1 * p2 e1)%Q; [|apply inject_le_mult; lia].
    apply Qle_trans with (p2 900); [vm_compute; discriminate|]. change (inject_Z 1) with 1%Q. rewrite Qmult_1_l. apply p2_le. auto.
Qed.

(** * A weight in thousandths *)
Lemma round_negative : forall a b c, f64_to_u32 (binary_round_aux 53 1024 true a b c) = 0%N.
Proof.
  intros a b c. unfold binary_round_aux. destruct (shr_fexp _ _ _ _ _) as [r1 e1]. destruct (shr_fexp _ _ _ e1 _) as [r2 e2].
  destruct (shr_m r2) as [|p|p]; try reflexivity. destruct (Zle_bool e2 _); reflexivity.
Qed.

Theorem kept_thousandths : forall w, valid_binary 53 1024 w = true -> in_thousandths w (f64_to_u32 (f64_mul w (f64_of 1000))).
Proof.
  intros w HV. change (f64_of 1000) with (S754_finite false 8796093022208000 (-43)). destruct w as [s|s| |s m e]; try (destruct s; reflexivity); try reflexivity.
  destruct s.
  - cbn [in_thousandths]. unfold f64_mul. cbn [SFmul xorb]. apply round_negative.
  - cbn [in_thousandths]. change (S754_finite false 8796093022208000 (-43)) with (f64_of 1000).
    change 4294967295%Q with (inject_Z 4294967295). apply milli_spec. exact HV.
Qed.
