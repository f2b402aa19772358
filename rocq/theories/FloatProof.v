(** Facts about rounding, for FloatModel.v; integers and rationals only. *)

From Coq Require Import ZArith NArith QArith Qpower Qabs Lia Lqa Bool SpecFloat.
From Verif Require Import FloatModel SpecFloats.
Local Open Scope Z_scope.

Lemma p2_pos : forall e, (0 < p2 e)%Q.
Proof. intros e. unfold p2. apply Qpower_0_lt. reflexivity. Qed.
Lemma p2_plus : forall a b, (p2 (a + b) == p2 a * p2 b)%Q.
Proof. intros. unfold p2. apply Qpower_plus. discriminate. Qed.
Lemma p2_Z : forall k, 0 <= k -> (p2 k == inject_Z (2 ^ k))%Q.
Proof. intros k Hk. unfold p2. rewrite Zpower_Qpower by auto. reflexivity. Qed.
Lemma p2_succ : forall e, (p2 (e + 1) == 2 * p2 e)%Q.
Proof. intros. rewrite p2_plus. rewrite (p2_Z 1) by lia. change (inject_Z (2 ^ 1)) with 2%Q. lra. Qed.
Lemma p2_0 : (p2 0 == 1)%Q.
Proof. reflexivity. Qed.
Lemma p2_split : forall a b, a <= b -> (p2 b == inject_Z (2 ^ (b - a)) * p2 a)%Q.
Proof. intros a b H. rewrite <- p2_Z by lia. rewrite <- p2_plus. replace (b - a + a) with b by lia. reflexivity. Qed.
Lemma p2_le : forall a b, a <= b -> (p2 a <= p2 b)%Q.
Proof.
  intros a b H. rewrite (p2_split a b H). pose proof (p2_pos a).
  assert (1 <= inject_Z (2 ^ (b - a)))%Q.
  { change 1%Q with (inject_Z 1). rewrite <- Zle_Qle. pose proof (Z.pow_pos_nonneg 2 (b - a)). lia. }
  setoid_replace (p2 a) with (1 * p2 a)%Q at 1 by ring. apply Qmult_le_compat_r; lra.
Qed.
Lemma p2_lt_inv : forall a b, (p2 a < p2 b)%Q -> a < b.
Proof. intros a b H. destruct (Z_lt_ge_dec a b); auto. pose proof (p2_le b a ltac:(lia)). lra. Qed.

Lemma inject_le_mult : forall a b e, a <= b -> (inject_Z a * p2 e <= inject_Z b * p2 e)%Q.
Proof. intros a b e H. pose proof (p2_pos e). apply Qmult_le_compat_r; [rewrite <- Zle_Qle; auto|lra]. Qed.
Lemma inject_le_inv : forall a b e, (inject_Z a * p2 e <= inject_Z b * p2 e)%Q -> a <= b.
Proof. intros a b e H. pose proof (p2_pos e). apply Qmult_le_r in H; auto. rewrite <- Zle_Qle in H. auto. Qed.
Lemma inject_lt_inv : forall a b e, (inject_Z a * p2 e < inject_Z b * p2 e)%Q -> a < b.
Proof. intros a b e H. pose proof (p2_pos e). apply Qmult_lt_r in H; auto. rewrite <- Zlt_Qlt in H. auto. Qed.
Lemma inject_lt_mult : forall a b e, a < b -> (inject_Z a * p2 e < inject_Z b * p2 e)%Q.
Proof. intros a b e H. pose proof (p2_pos e). apply Qmult_lt_compat_r; [auto|rewrite <- Zlt_Qlt; auto]. Qed.
Lemma inject_pow : forall k e, 0 <= k -> (inject_Z (2 ^ k) * p2 e == p2 (k + e))%Q.
Proof. intros. rewrite p2_plus, <- p2_Z by auto. reflexivity. Qed.

(** * Digits *)
Lemma digits_pos : forall p, 2 ^ (Zpos (digits2_pos p) - 1) <= Zpos p < 2 ^ Zpos (digits2_pos p).
Proof.
  induction p as [p IH|p IH|]; simpl digits2_pos; [| |simpl; lia];
    rewrite Pos2Z.inj_succ; replace (Z.succ (Z.pos (digits2_pos p)) - 1) with (Z.succ (Z.pos (digits2_pos p) - 1)) by lia;
    rewrite !Z.pow_succ_r by lia; lia.
Qed.
Lemma digits_spec : forall m, 0 < m -> 1 <= Zdigits2 m /\ 2 ^ (Zdigits2 m - 1) <= m < 2 ^ Zdigits2 m.
Proof. intros [|p|p] H; try lia. simpl Zdigits2. pose proof (digits_pos p). lia. Qed.
Lemma pow2_lt : forall a b, 0 <= b -> 2 ^ a < 2 ^ b -> a < b.
Proof. intros a b Hb H. destruct (Z_lt_ge_dec a b); auto. pose proof (Z.pow_le_mono_r 2 b a). lia. Qed.
Lemma digits_range : forall m d, 0 < m -> 1 <= d -> 2 ^ (d - 1) <= m < 2 ^ d -> Zdigits2 m = d.
Proof.
  intros m d Hm Hd H. destruct (digits_spec m Hm) as [D1 D2].
  assert (Zdigits2 m - 1 < d) by (apply pow2_lt; lia). assert (d - 1 < Zdigits2 m) by (apply pow2_lt; lia). lia.
Qed.
Lemma digits_ge : forall m k, 0 <= k -> 2 ^ k <= m -> k < Zdigits2 m.
Proof. intros m k Hk H. pose proof (Z.pow_pos_nonneg 2 k). destruct (digits_spec m ltac:(lia)) as [D1 D2]. apply pow2_lt; lia. Qed.
Lemma digits_le : forall m k, 0 < m -> 0 <= k -> m < 2 ^ k -> Zdigits2 m <= k.
Proof. intros m k Hm Hk H. destruct (digits_spec m ltac:(lia)) as [D1 D2]. assert (Zdigits2 m - 1 < k) by (apply pow2_lt; lia). lia. Qed.

(** * Shifting to the right *)
Definition in_loc (x : Q) (m e : Z) (l : location) : Prop :=
  match l with
  | loc_Exact => (x == inject_Z m * p2 e)%Q
  | loc_Inexact Lt => (inject_Z m * p2 e < x /\ x < (inject_Z m + (1 # 2)) * p2 e)%Q
  | loc_Inexact Eq => (x == (inject_Z m + (1 # 2)) * p2 e)%Q
  | loc_Inexact Gt => ((inject_Z m + (1 # 2)) * p2 e < x /\ x < (inject_Z m + 1) * p2 e)%Q
  end.
Definition rec_at (x : Q) (r : shr_record) (e : Z) : Prop := in_loc x (shr_m r) e (loc_of_shr_record r).

Lemma rec_of_loc : forall m l, shr_m (shr_record_of_loc m l) = m /\ loc_of_shr_record (shr_record_of_loc m l) = l.
Proof. intros m [|[]]; split; reflexivity. Qed.

Lemma shr_1_at : forall x r e, 0 <= shr_m r -> rec_at x r e ->
  rec_at x (shr_1 r) (e + 1) /\ shr_m (shr_1 r) = shr_m r / 2.
Proof.
  intros x [m r s] e Hm H. unfold rec_at in *. cbn [shr_m] in *. pose proof (p2_pos e) as U. pose proof (p2_succ e) as U2.
  assert (EI : forall p, (inject_Z (Zpos p~1) == 2 * inject_Z (Zpos p) + 1)%Q).
  { intros p. rewrite Pos2Z.inj_xI, inject_Z_plus, inject_Z_mult. reflexivity. }
  assert (EO : forall p, (inject_Z (Zpos p~0) == 2 * inject_Z (Zpos p))%Q).
  { intros p. rewrite Pos2Z.inj_xO, inject_Z_mult. reflexivity. }
  assert (E1 : (inject_Z 1 == 1)%Q) by reflexivity. assert (E0 : (inject_Z 0 == 0)%Q) by reflexivity.
  assert (R2 : forall a b, (a == b)%Q -> (a * p2 (e + 1) == 2 * b * p2 e)%Q) by (intros a b Hab; rewrite Hab, U2; ring).
  destruct m as [|[p|p|]|p]; [| | | |lia].
  - split; [|reflexivity]. destruct r, s; cbn [shr_1 shr_m loc_of_shr_record in_loc orb] in *;
      repeat match goal with H : _ /\ _ |- _ => destruct H end; repeat split; rewrite ?U2, ?E0 in *; lra.
  - split; [|cbn [shr_1 shr_m]; rewrite Pos2Z.inj_xI; apply Z.div_unique with 1; lia].
    specialize (EI p). destruct r, s; cbn [shr_1 shr_m loc_of_shr_record in_loc orb] in *;
      repeat match goal with H : _ /\ _ |- _ => destruct H end; repeat split; rewrite ?U2, ?EI in *; lra.
  - split; [|cbn [shr_1 shr_m]; rewrite Pos2Z.inj_xO; apply Z.div_unique with 0; lia].
    specialize (EO p). destruct r, s; cbn [shr_1 shr_m loc_of_shr_record in_loc orb] in *;
      repeat match goal with H : _ /\ _ |- _ => destruct H end; repeat split; rewrite ?U2, ?EO in *; lra.
  - split; [|reflexivity]. destruct r, s; cbn [shr_1 shr_m loc_of_shr_record in_loc orb] in *;
      repeat match goal with H : _ /\ _ |- _ => destruct H end; repeat split; rewrite ?U2, ?E0, ?E1 in *; lra.
Qed.

Lemma iter_at : forall p x r e, 0 <= shr_m r -> rec_at x r e ->
  rec_at x (iter_pos shr_1 p r) (e + Zpos p) /\ shr_m (iter_pos shr_1 p r) = shr_m r / 2 ^ Zpos p.
Proof.
  induction p as [p IH|p IH|]; intros x r e Hm H; cbn [iter_pos].
  - destruct (shr_1_at x r e Hm H) as [A B]. assert (0 <= shr_m (shr_1 r)) by (rewrite B; apply Z.div_pos; lia).
    destruct (IH _ _ _ H0 A) as [A1 B1]. assert (0 <= shr_m (iter_pos shr_1 p (shr_1 r))) by (rewrite B1; apply Z.div_pos; lia).
    destruct (IH _ _ _ H1 A1) as [A2 B2]. split.
    + replace (e + Z.pos p~1) with (e + 1 + Z.pos p + Z.pos p) by lia. exact A2.
    + rewrite B2, B1, B. rewrite !Z.div_div by lia. f_equal. rewrite Pos2Z.inj_xI.
      replace (2 * Z.pos p + 1) with (1 + Z.pos p + Z.pos p) by lia. rewrite !Z.pow_add_r by lia. lia.
  - destruct (IH _ _ _ Hm H) as [A1 B1]. assert (0 <= shr_m (iter_pos shr_1 p r)) by (rewrite B1; apply Z.div_pos; lia).
    destruct (IH _ _ _ H0 A1) as [A2 B2]. split.
    + replace (e + Z.pos p~0) with (e + Z.pos p + Z.pos p) by lia. exact A2.
    + rewrite B2, B1. rewrite !Z.div_div by lia. replace (Z.pos p~0) with (Z.pos p + Z.pos p) by lia.
      rewrite !Z.pow_add_r by lia. reflexivity.
  - destruct (shr_1_at x r e Hm H) as [A B]. split; [exact A|exact B].
Qed.

Lemma shr_at : forall x r e n, 0 <= shr_m r -> 0 <= n -> rec_at x r e ->
  snd (shr r e n) = e + n /\ rec_at x (fst (shr r e n)) (e + n) /\ shr_m (fst (shr r e n)) = shr_m r / 2 ^ n.
Proof.
  intros x r e [|p|p] Hm Hn H; [| |lia]; cbn [shr fst snd].
  - rewrite Z.add_0_r, Z.pow_0_r, Z.div_1_r. auto.
  - destruct (iter_at p x r e Hm H). auto.
Qed.

(** * Rounding *)
Notation fex := (fexp 53 1024).
Notation bra := (binary_round_aux 53 1024 false).

Lemma fex_eq : forall n, fex n = Z.max (n - 53) (-1074).
Proof. reflexivity. Qed.

Lemma rne_spec : forall x k e l, in_loc x k e l -> let k' := round_nearest_even k l in
  ((inject_Z k * p2 e <= x)%Q /\ (x < (inject_Z k + 1) * p2 e)%Q) /\
  (k' = k \/ (k' = k + 1 /\ (inject_Z k * p2 e < x)%Q)) /\
  (2 * Qabs (inject_Z k' * p2 e - x) <= p2 e)%Q.
Proof.
  intros x k e l H k'. pose proof (p2_pos e) as U.
  assert (EK : (inject_Z (k + 1) == inject_Z k + 1)%Q) by (rewrite inject_Z_plus; reflexivity).
  assert (AB : forall a, (-(p2 e) <= 2 * a)%Q -> (2 * a <= p2 e)%Q -> (2 * Qabs a <= p2 e)%Q).
  { intros a H1 H2. apply Qabs_case; intros; lra. }
  destruct l as [|[]]; cbn [in_loc round_nearest_even] in *.
  - subst k'. split; [lra|]. split; [auto|]. apply AB; lra.
  - subst k'. split; [lra|]. destruct (Z.even k); (split; [solve [auto|right; split; [auto|lra]]|]); apply AB; rewrite ?EK; lra.
  - subst k'. split; [lra|]. split; [auto|]. apply AB; lra.
  - subst k'. split; [lra|]. split; [right; split; [auto|lra]|]. apply AB; rewrite ?EK; lra.
Qed.

Lemma exact_shr : forall m e, 0 <= m -> fex (Zdigits2 m + e) <= e -> shr_fexp 53 1024 m e loc_Exact = (shr_record_of_loc m loc_Exact, e).
Proof.
  intros m e Hm H. unfold shr_fexp. destruct (fex (Zdigits2 m + e) - e) eqn:E; cbn [shr]; auto. lia.
Qed.

(** The result of a rounding to nearest of the positive number [x] *)
Lemma bra_spec : forall x m e l, 0 < m -> in_loc x m e l -> e <= fex (Zdigits2 m + e) ->
  exists k k', let e1 := fex (Zdigits2 m + e) in
  0 <= k < 2 ^ 53 /\ ((inject_Z k * p2 e1 <= x)%Q /\ (x < (inject_Z k + 1) * p2 e1)%Q) /\
  (k' = k \/ (k' = k + 1 /\ (inject_Z k * p2 e1 < x)%Q)) /\
  (2 * Qabs (inject_Z k' * p2 e1 - x) <= p2 e1)%Q /\
  (-1074 < e1 -> 2 ^ 52 <= k) /\ (-1021 <= Zdigits2 m + e -> 2 ^ 52 <= k) /\
  (x < p2 (Zdigits2 m + e))%Q /\
  ((num (bra m e l) /\ (fval (bra m e l) == inject_Z k' * p2 e1)%Q) \/
   (bra m e l = S754_infinity false /\ 1000 < Zdigits2 m + e)).
Proof.
  intros x m e l Hm HL He. set (d := Zdigits2 m) in *. destruct (digits_spec m Hm) as [D1 D2]. fold d in D1, D2.
  set (e1 := fex (d + e)) in *. destruct (rec_of_loc m l) as [R1 R2].
  destruct (shr_at x (shr_record_of_loc m l) e (e1 - e)) as [S1 [S2 S3]]; [rewrite R1; lia|lia|unfold rec_at; rewrite R1, R2; auto|].
  set (f := bra m e l) in *. assert (Hf : f = bra m e l) by reflexivity. clearbody f.
  unfold binary_round_aux in Hf. unfold shr_fexp at 1 in Hf. fold d in Hf. fold e1 in Hf.
  destruct (shr (shr_record_of_loc m l) e (e1 - e)) as [r e'] eqn:ES. cbn [fst snd] in *.
  replace (e + (e1 - e)) with e1 in * by lia. subst e'. rewrite R1 in S3. set (k := m / 2 ^ (e1 - e)) in *.
  unfold rec_at in S2. destruct (rne_spec x (shr_m r) e1 _ S2) as [P1 [P2 P3]].
  set (k' := round_nearest_even (shr_m r) (loc_of_shr_record r)) in *. clearbody k'. rewrite S3 in *.
  assert (HP : 0 < 2 ^ (e1 - e)) by (apply Z.pow_pos_nonneg; lia).
  assert (K0 : 0 <= k) by (apply Z.div_pos; lia).
  assert (EF : e1 = Z.max (d + e - 53) (-1074)) by reflexivity.
  assert (K1 : k < 2 ^ 53).
  { apply Z.div_lt_upper_bound; auto. rewrite <- Z.pow_add_r by lia. apply Z.lt_le_trans with (2 ^ d); [lia|]. apply Z.pow_le_mono_r; lia. }
  assert (K2 : -1021 <= d + e -> 2 ^ 52 <= k).
  { intros HN. apply Z.div_le_lower_bound; auto. rewrite <- Z.pow_add_r by lia. replace (e1 - e + 52) with (d - 1) by lia. lia. }
  assert (K3 : (x < p2 (d + e))%Q).
  { assert (HX : (x < (inject_Z m + 1) * p2 e)%Q).
    { destruct (rne_spec x m e l HL) as [[_ X] _]. exact X. }
    assert (HZ : (inject_Z m + 1 == inject_Z (m + 1))%Q) by (rewrite inject_Z_plus; reflexivity). rewrite HZ in HX.
    eapply Qlt_le_trans; [exact HX|]. rewrite <- inject_pow by lia. apply inject_le_mult. lia. }
  assert (K4 : 0 <= k' <= 2 ^ 53) by (destruct P2 as [->|[-> _]]; lia).
  assert (K5 : k <= k') by (destruct P2 as [->|[-> _]]; lia).
  exists k, k'. split; [lia|]. split; [auto|]. split; [auto|]. split; [auto|].
  split; [intros; apply K2; lia|]. split; [auto|]. split; [auto|].
  clear P1 P2 P3 ES S2 HL. clearbody k.
  destruct (Z.eq_dec k' (2 ^ 53)) as [->|NE].
  - unfold shr_fexp in Hf. change (Zdigits2 (2 ^ 53)) with 54 in Hf. replace (fex (54 + e1) - e1) with 1 in Hf by (rewrite fex_eq; lia).
    cbn [shr] in Hf. replace (shr_m (iter_pos shr_1 1 (shr_record_of_loc (2 ^ 53) loc_Exact))) with (Zpos (2 ^ 52)%positive) in Hf by reflexivity.
    destruct (Z.leb_spec (e1 + 1) (1024 - 53)) as [EB|EB]; [|right; split; [auto|lia]]. left. subst f. split.
    + cbn [num]. unfold bounded, canonical_mantissa. rewrite andb_true_iff. split.
      * change (Z.pos (digits2_pos (2 ^ 52))) with 53. apply Zeq_is_eq_bool. rewrite fex_eq. lia.
      * apply Z.leb_le. lia.
    + cbn [fval cond_Zopp]. rewrite p2_succ. change (inject_Z (2 ^ 53)) with (2 * inject_Z (Z.pos (2 ^ 52)))%Q. ring.
  - assert (HD : fex (Zdigits2 k' + e1) <= e1).
    { rewrite fex_eq. destruct (Z.eq_dec k' 0) as [->|N0]; [cbn [Zdigits2]; lia|].
      pose proof (digits_le k' 53 ltac:(lia) ltac:(lia) ltac:(lia)). lia. }
    rewrite exact_shr in Hf by (auto; lia). cbn [shr_record_of_loc shr_m] in Hf. destruct k' as [|p|p]; [| |lia].
    + left. subst f. split; [reflexivity|]. cbn [fval]. unfold inject_Z. ring.
    + destruct (Z.leb_spec e1 (1024 - 53)) as [EB|EB]; [|right; split; [auto|lia]]. left. subst f. split; [|reflexivity].
      cbn [num]. unfold bounded, canonical_mantissa. rewrite andb_true_iff. split; [|apply Z.leb_le; lia].
      apply Zeq_is_eq_bool. change (Z.pos (digits2_pos p)) with (Zdigits2 (Z.pos p)). apply Z.le_antisymm; [exact HD|].
      destruct (Z.le_gt_cases (-1021) (d + e)) as [N|N].
      * specialize (K2 N). assert (HK : 2 ^ 52 <= Z.pos p) by lia. pose proof (digits_ge (Z.pos p) 52 ltac:(lia) HK). rewrite fex_eq. lia.
      * rewrite fex_eq. lia.
Qed.

(** * Rounding of the exact result *)
Definition rep (r : Q) : Prop := exists m e, 0 <= m < 2 ^ 53 /\ -1074 <= e /\ (r == inject_Z m * p2 e)%Q.

Record rounds (x : Q) (f : f64) : Prop := {
  r_num : num f;
  r_low : forall r, rep r -> (r <= x)%Q -> (r <= fval f)%Q;
  r_high : forall r, rep r -> (x <= r)%Q -> (fval f <= r)%Q;
  r_err : (p2 (-1022) <= x)%Q -> (Qabs (fval f - x) <= x * p2 (-53))%Q
}.

Lemma rounds_eq : forall x y f, (x == y)%Q -> rounds x f -> rounds y f.
Proof.
  intros x y f E [A B C D]. constructor; auto.
  - intros r R H. apply B; auto. rewrite E. auto.
  - intros r R H. apply C; auto. rewrite E. auto.
  - intros H. rewrite <- E in H |- *. auto.
Qed.

Lemma rounds_exact : forall f, num f -> rounds (fval f) f.
Proof.
  intros f H. constructor; auto. intros P. setoid_replace (fval f - fval f)%Q with 0%Q by ring.
  change (Qabs 0) with 0%Q. pose proof (p2_pos (-1022)). pose proof (p2_pos (-53)). apply Qmult_le_0_compat; lra.
Qed.

Lemma bra_rounds : forall x m e l, 0 < m -> in_loc x m e l -> e <= fex (Zdigits2 m + e) -> (x < p2 999)%Q ->
  rounds x (bra m e l).
Proof.
  intros x m e l Hm HL He Hx. destruct (digits_spec m Hm) as [D1 D2].
  assert (HB : Zdigits2 m + e <= 1000).
  { destruct (rne_spec x m e l HL) as [[HX _] _]. assert (H : (p2 (Zdigits2 m - 1 + e) < p2 999)%Q).
    { eapply Qle_lt_trans; [|exact Hx]. eapply Qle_trans; [|exact HX]. rewrite <- inject_pow by lia. apply inject_le_mult. lia. }
    apply p2_lt_inv in H. lia. }
  destruct (bra_spec x m e l Hm HL He) as (k & k' & B). cbn zeta in B. set (e1 := fex (Zdigits2 m + e)) in *.
  destruct B as (K & [X1 X2] & HK & HE & N1 & N2 & XD & [[HN HV]|[_ HV]]); [|lia]. pose proof (p2_pos e1) as U1.
  assert (E1 : -1074 <= e1) by (unfold e1; rewrite fex_eq; lia).
  assert (EK : (inject_Z k + 1 == inject_Z (k + 1))%Q) by (rewrite inject_Z_plus; reflexivity). rewrite EK in X2.
  assert (LE : k <= k') by (destruct HK as [->|[-> _]]; lia).
  assert (SM : forall a ea, 0 <= a < 2 ^ 53 -> -1074 <= ea -> ea < e1 -> (inject_Z a * p2 ea < inject_Z k * p2 e1)%Q).
  { intros a ea Ha Hea Hlt. eapply Qlt_le_trans with (p2 (53 + ea)).
    - rewrite <- inject_pow by lia. apply inject_lt_mult. lia.
    - eapply Qle_trans with (p2 (52 + e1)); [apply p2_le; lia|]. rewrite <- inject_pow by lia. apply inject_le_mult. apply N1. lia. }
  assert (UP : forall a ea, e1 <= ea -> (inject_Z a * p2 ea == inject_Z (a * 2 ^ (ea - e1)) * p2 e1)%Q).
  { intros a ea Hle. rewrite (p2_split e1 ea Hle), inject_Z_mult. ring. }
  constructor; auto.
  - intros r (a & ea & Ha & Hea & Hr) Hle. rewrite HV, Hr in *. destruct (Z.le_gt_cases e1 ea) as [C|C].
    + rewrite (UP a ea C) in *. apply inject_le_mult.
      assert (a * 2 ^ (ea - e1) < k + 1) by (apply inject_lt_inv with e1; eapply Qle_lt_trans; eauto). lia.
    + apply Qlt_le_weak. eapply Qlt_le_trans; [apply SM; auto|]. apply inject_le_mult. auto.
  - intros r (a & ea & Ha & Hea & Hr) Hle. rewrite HV, Hr in *. destruct (Z.le_gt_cases e1 ea) as [C|C].
    + rewrite (UP a ea C) in *. apply inject_le_mult. destruct HK as [->|[-> HS]].
      * apply inject_le_inv with e1. lra.
      * assert (k < a * 2 ^ (ea - e1)) by (apply inject_lt_inv with e1; lra). lia.
    + exfalso. pose proof (SM a ea Ha Hea C). lra.
  - intros Hlow. assert (HD : -1022 < Zdigits2 m + e) by (apply p2_lt_inv; lra).
    assert (K52 : 2 ^ 52 <= k) by (apply N2; lia). rewrite HV.
    assert (HH : (p2 e1 == 2 * (inject_Z (2 ^ 52) * p2 e1 * p2 (-53)))%Q).
    { rewrite inject_pow by lia. rewrite <- p2_plus. rewrite <- p2_succ. replace (52 + e1 + -53 + 1) with e1 by lia. reflexivity. }
    assert (HG : (inject_Z (2 ^ 52) * p2 e1 * p2 (-53) <= x * p2 (-53))%Q).
    { apply Qmult_le_compat_r; [|apply Qlt_le_weak; apply p2_pos]. eapply Qle_trans; [apply inject_le_mult; exact K52|auto]. }
    lra.
Qed.

Lemma shl_fst : forall m e e', e' <= e -> Zpos (fst (shl_align m e e')) = Zpos m * 2 ^ (e - e').
Proof.
  intros m e e' H. unfold shl_align. destruct (e' - e) eqn:E; [|lia|].
  - replace (e - e') with 0 by lia. cbn [fst]. lia.
  - replace (e - e') with (Z.pos p) by lia. cbn [fst]. rewrite shift_pos_correct. rewrite Z.pow_pos_fold. lia.
Qed.

Lemma binary_round_rounds : forall m e x, (x == inject_Z (Zpos m) * p2 e)%Q -> (x < p2 999)%Q ->
  rounds x (binary_round 53 1024 false m e).
Proof.
  intros m e x Hx Hlt. unfold binary_round. set (fe := fex (Z.pos (digits2_pos m) + e)).
  destruct (Z.le_gt_cases e fe) as [C|C].
  - replace (shl_align m e fe) with (m, e) by (unfold shl_align; destruct (fe - e) eqn:E; auto; lia).
    apply bra_rounds; auto; lia.
  - pose proof (shl_fst m e fe ltac:(lia)) as F. destruct (shl_align m e fe) as [mz ez] eqn:E. cbn [fst] in F.
    assert (ez = fe) by (unfold shl_align in E; destruct (fe - e) eqn:E2; inversion E; lia). subst ez.
    apply bra_rounds; auto; try lia.
    + cbn [in_loc]. rewrite Hx, F, inject_Z_mult. rewrite (p2_split fe e) by lia. ring.
    + assert (HD : Zdigits2 (Z.pos mz) = Zdigits2 (Z.pos m) + (e - fe)).
      { destruct (digits_spec (Z.pos m) ltac:(lia)) as [D1 D2]. apply digits_range; [lia|lia|]. rewrite F.
        replace (Zdigits2 (Z.pos m) + (e - fe) - 1) with (Zdigits2 (Z.pos m) - 1 + (e - fe)) by lia.
        rewrite !Z.pow_add_r by lia. pose proof (Z.pow_pos_nonneg 2 (e - fe)). split; [apply Z.mul_le_mono_nonneg_r|apply Z.mul_lt_mono_pos_r]; lia. }
      rewrite HD. replace (Zdigits2 (Z.pos m) + (e - fe) + fe) with (Zdigits2 (Z.pos m) + e) by lia. cbn [Zdigits2]. fold fe. lia.
Qed.

Lemma num_finite : forall f, num f -> f = S754_zero false \/ exists m e, f = S754_finite false m e /\ bounded 53 1024 m e = true.
Proof. intros [s|s| |[] m e] H; cbn [num] in H; try tauto; subst; eauto. Qed.

Lemma bounded_spec : forall m e, bounded 53 1024 m e = true -> fex (Zdigits2 (Zpos m) + e) = e /\ e <= 971 /\ -1074 <= e /\ Zpos m < 2 ^ 53 /\
  (-1074 < e -> 2 ^ 52 <= Zpos m).
Proof.
  intros m e H. unfold bounded, canonical_mantissa in H. rewrite andb_true_iff in H. destruct H as [A B].
  apply Zeq_bool_eq in A. apply Z.leb_le in B. change (Z.pos (digits2_pos m)) with (Zdigits2 (Z.pos m)) in A.
  destruct (digits_spec (Zpos m) ltac:(lia)) as [D1 D2]. set (d := Zdigits2 (Z.pos m)) in *. rewrite fex_eq in A.
  split; [rewrite fex_eq; lia|]. split; [lia|]. split; [lia|]. split.
  - apply Z.lt_le_trans with (2 ^ d); [lia|]. apply Z.pow_le_mono_r; lia.
  - intros HE. replace 52 with (d - 1) by lia. lia.
Qed.

Lemma num_nonneg : forall f, num f -> (0 <= fval f)%Q.
Proof.
  intros f H. destruct (num_finite f H) as [->|(m & e & -> & _)]; cbn [fval]; [lra|].
  apply Qmult_le_0_compat; [unfold Qle; simpl; lia|apply Qlt_le_weak, p2_pos].
Qed.

Lemma num_rep : forall f, num f -> rep (fval f).
Proof.
  intros f H. destruct (num_finite f H) as [->|(m & e & -> & HB)].
  - exists 0, 0. cbn [fval]. repeat split; try lia.
  - destruct (bounded_spec m e HB) as (_ & _ & H1 & H2 & _). exists (Zpos m), e. split; [lia|]. split; [lia|]. reflexivity.
Qed.

Lemma num_normal : forall m e, bounded 53 1024 m e = true -> (p2 (-1022) <= inject_Z (Zpos m) * p2 e)%Q -> 2 ^ 52 <= Zpos m.
Proof.
  intros m e HB HP. destruct (bounded_spec m e HB) as (A & B & C & D & E). destruct (Z.eq_dec e (-1074)) as [->|N]; [|apply E; lia].
  destruct (Z.le_gt_cases (2 ^ 52) (Zpos m)) as [L|L]; auto. exfalso.
  assert (X : (inject_Z (Z.pos m) * p2 (-1074) < inject_Z (2 ^ 52) * p2 (-1074))%Q) by (apply inject_lt_mult; auto).
  rewrite inject_pow in X by lia. change (52 + -1074) with (-1022) in X. lra.
Qed.

(** * The operations *)
Lemma add_rounds : forall a b, num a -> num b -> (fval a + fval b < p2 999)%Q -> rounds (fval a + fval b) (f64_add a b).
Proof.
  intros a b Ha Hb Hlt.
  destruct (num_finite a Ha) as [->|(m & e & -> & HB)]; destruct (num_finite b Hb) as [->|(m2 & e2 & -> & HB2)].
  - apply rounds_eq with (fval (S754_zero false)); [cbn [fval]; ring|]. apply rounds_exact; auto.
  - apply rounds_eq with (fval (S754_finite false m2 e2)); [cbn [fval]; ring|]. apply rounds_exact; auto.
  - apply rounds_eq with (fval (S754_finite false m e)); [cbn [fval]; ring|]. apply rounds_exact; auto.
  - unfold f64_add. cbn [SFadd cond_Zopp]. set (ez := Z.min e e2).
    pose proof (shl_fst m e ez ltac:(lia)) as F1. pose proof (shl_fst m2 e2 ez ltac:(lia)) as F2.
    set (s := Z.pos (fst (shl_align m e ez)) + Z.pos (fst (shl_align m2 e2 ez))) in *.
    assert (HS : (fval (S754_finite false m e) + fval (S754_finite false m2 e2) == inject_Z s * p2 ez)%Q).
    { unfold s. rewrite inject_Z_plus, F1, F2, !inject_Z_mult. cbn [fval]. rewrite (p2_split ez e), (p2_split ez e2) by lia. ring. }
    destruct s as [|p|p] eqn:ES; [unfold s in ES; lia| |unfold s in ES; lia].
    cbn [binary_normalize]. apply binary_round_rounds; auto.
Qed.

Lemma mul_rounds : forall a b, num a -> num b -> (p2 (-1022) <= fval a)%Q \/ (p2 (-1022) <= fval b)%Q -> (fval a * fval b < p2 999)%Q ->
  rounds (fval a * fval b) (f64_mul a b).
Proof.
  intros a b Ha Hb HN Hlt.
  destruct (num_finite a Ha) as [->|(m & e & -> & HB)]; destruct (num_finite b Hb) as [->|(m2 & e2 & -> & HB2)].
  - apply rounds_eq with (fval (S754_zero false)); [cbn [fval]; ring|]. apply rounds_exact; auto.
  - apply rounds_eq with (fval (S754_zero false)); [cbn [fval]; ring|]. apply rounds_exact; reflexivity.
  - apply rounds_eq with (fval (S754_zero false)); [cbn [fval]; ring|]. apply rounds_exact; reflexivity.
  - unfold f64_mul. cbn [SFmul xorb]. apply bra_rounds; auto; try lia.
    + cbn [in_loc fval]. rewrite p2_plus, Pos2Z.inj_mul, inject_Z_mult. ring.
    + assert (G : 2 ^ 52 <= Z.pos (m * m2)).
      { rewrite Pos2Z.inj_mul. destruct HN as [HN|HN]; cbn [fval] in HN; apply num_normal in HN; auto; nia. }
      pose proof (digits_ge _ 52 ltac:(lia) G). rewrite fex_eq. lia.
Qed.

Lemma new_loc_at : forall (n d q r e : Z) x, 0 < d -> 0 <= r < d -> n = d * q + r ->
  (x == (inject_Z n / inject_Z d) * p2 e)%Q -> in_loc x q e (new_location d r).
Proof.
  intros n d q r e x Hd Hr Hn Hx. pose proof (p2_pos e) as U. set (t := (inject_Z r / inject_Z d)%Q).
  assert (DP : (0 < inject_Z d)%Q) by (change 0%Q with (inject_Z 0); rewrite <- Zlt_Qlt; auto).
  assert (HX : (x == (inject_Z q + t) * p2 e)%Q).
  { rewrite Hx, Hn, inject_Z_plus, inject_Z_mult. unfold t. field. lra. }
  assert (T1 : (t < 1)%Q).
  { unfold t. apply Qlt_shift_div_r; auto. setoid_replace (1 * inject_Z d)%Q with (inject_Z d) by ring. rewrite <- Zlt_Qlt. lia. }
  assert (HH : forall c, ((2 * r) ?= d) = c -> match c with Eq => (t == 1 # 2)%Q | Lt => (t < 1 # 2)%Q | Gt => (1 # 2 < t)%Q end).
  { intros c Hc. assert (HT : (t * inject_Z d == inject_Z r)%Q) by (unfold t; field; lra).
    assert (H2 : (inject_Z (2 * r) == 2 * inject_Z r)%Q) by (rewrite inject_Z_mult; reflexivity).
    destruct c.
    - apply Z.compare_eq in Hc. assert (HQ : (inject_Z (2 * r) == inject_Z d)%Q) by (rewrite Hc; reflexivity).
      unfold t. setoid_replace (inject_Z d) with (2 * inject_Z r)%Q by (rewrite <- HQ, H2; reflexivity). field.
      intros HZ. rewrite H2 in HQ. lra.
    - apply -> Z.compare_lt_iff in Hc. rewrite Zlt_Qlt in Hc. rewrite H2 in Hc. unfold t. apply Qlt_shift_div_r; auto. lra.
    - apply -> Z.compare_gt_iff in Hc. rewrite Zlt_Qlt in Hc. rewrite H2 in Hc. unfold t. apply Qlt_shift_div_l; auto. lra. }
  assert (R0 : r <> 0 -> (0 < t)%Q).
  { intros N. unfold t. apply Qlt_shift_div_l; auto. setoid_replace (0 * inject_Z d)%Q with (inject_Z 0) by (unfold inject_Z; ring). rewrite <- Zlt_Qlt. lia. }
  assert (Z0 : r = 0 -> (t == 0)%Q).
  { intros ->. unfold t. field. lra. }
  clearbody t.
  assert (M : forall a b, (a < b)%Q -> (a * p2 e < b * p2 e)%Q) by (intros a b Hab; apply Qmult_lt_compat_r; auto).
  assert (FIN : forall c, (2 * r ?= d) = c -> r <> 0 -> in_loc x q e (loc_Inexact c)).
  { intros c Hc N. specialize (HH c Hc). specialize (R0 N). destruct c; cbn [in_loc]; rewrite HX.
    - rewrite HH. reflexivity.
    - split; apply M; lra.
    - split; apply M; lra. }
  unfold new_location. destruct (Z.even d) eqn:EV.
  - unfold new_location_even. destruct (Zeq_bool r 0) eqn:E0.
    + apply Zeq_bool_eq in E0. cbn [in_loc]. rewrite HX, (Z0 E0). ring.
    + apply Zeq_bool_neq in E0. apply FIN; auto.
  - unfold new_location_odd. destruct (Zeq_bool r 0) eqn:E0.
    + apply Zeq_bool_eq in E0. cbn [in_loc]. rewrite HX, (Z0 E0). ring.
    + apply Zeq_bool_neq in E0. destruct (2 * r + 1 ?= d) eqn:EC.
      * apply FIN; auto. apply Z.compare_eq in EC. apply Z.compare_lt_iff. lia.
      * apply FIN; auto. apply -> Z.compare_lt_iff in EC. apply Z.compare_lt_iff. lia.
      * apply FIN; auto. apply -> Z.compare_gt_iff in EC. apply Z.compare_gt_iff.
        assert (2 * r <> d). { intros HE. rewrite <- HE, Z.even_mul in EV. discriminate. } lia.
Qed.

Lemma div_rounds : forall a b, num a -> num b -> (0 < fval b)%Q -> (fval a == 0)%Q \/ (p2 (-1000) <= fval a / fval b)%Q ->
  (fval a / fval b < p2 999)%Q -> rounds (fval a / fval b) (f64_div a b).
Proof.
  intros a b Ha Hb HP HN Hlt.
  destruct (num_finite b Hb) as [->|(m2 & e2 & -> & HB2)]; [cbn [fval] in HP; lra|].
  destruct (num_finite a Ha) as [->|(m & e & -> & HB)].
  - apply rounds_eq with (fval (S754_zero false)); [cbn [fval]; unfold Qdiv; ring|]. apply rounds_exact; reflexivity.
  - set (x := (fval (S754_finite false m e) / fval (S754_finite false m2 e2))%Q) in *.
    assert (P1 : (0 < inject_Z (Zpos m))%Q) by (unfold Qlt; simpl; lia). assert (P2 : (0 < inject_Z (Zpos m2))%Q) by (unfold Qlt; simpl; lia).
    pose proof (p2_pos e) as U1. pose proof (p2_pos e2) as U2.
    assert (N1 : (p2 (-1000) <= x)%Q).
    { destruct HN as [HN|HN]; auto. cbn [fval] in HN. exfalso. pose proof (Qmult_lt_0_compat _ _ P1 U1). lra. }
    unfold f64_div. cbn [SFdiv xorb]. unfold SFdiv_core_binary.
    destruct (digits_spec (Zpos m) ltac:(lia)) as [D1 D1']. destruct (digits_spec (Zpos m2) ltac:(lia)) as [D2 D2'].
    set (d1 := Zdigits2 (Zpos m)) in *. set (d2 := Zdigits2 (Zpos m2)) in *.
    set (e' := Z.min (fex (d1 + e - (d2 + e2))) (e - e2)). set (s := e - e2 - e').
    assert (S0 : 0 <= s) by lia.
    replace (match s with 0 => Z.pos m | Z.pos _ => Z.shiftl (Z.pos m) s | Z.neg _ => 0 end) with (Z.pos m * 2 ^ s)
      by (destruct s eqn:ES; [lia|rewrite Z.shiftl_mul_pow2 by lia; reflexivity|lia]).
    set (n := Z.pos m * 2 ^ s).
    pose proof (Z_div_mod n (Zpos m2) ltac:(lia)) as DM. destruct (Z.div_eucl n (Zpos m2)) as [q r]. destruct DM as [DM1 DM2].
    assert (HX : (x == inject_Z n / inject_Z (Zpos m2) * p2 e')%Q).
    { unfold x, n. cbn [fval]. rewrite inject_Z_mult. rewrite <- p2_Z by auto.
      assert (E : (p2 e == p2 s * p2 e' * p2 e2)%Q) by (rewrite <- !p2_plus; replace (s + e' + e2) with e by lia; reflexivity).
      rewrite E. field. split; lra. }
    assert (HXB : (x < p2 (d1 + e - (d2 + e2) + 1))%Q).
    { unfold x. cbn [fval]. pose proof (Qmult_lt_0_compat _ _ P2 U2) as PD. apply Qlt_shift_div_r; auto.
      apply Qlt_le_trans with (p2 (d1 + e)); [rewrite <- inject_pow by lia; apply inject_lt_mult; lia|].
      set (A := d1 + e - (d2 + e2) + 1). replace (d1 + e) with (A + (d2 - 1 + e2)) by lia. rewrite p2_plus.
      apply Qmult_le_l; [apply p2_pos|].
      rewrite <- inject_pow by lia. apply inject_le_mult. lia. }
    assert (HD : -1000 < d1 + e - (d2 + e2) + 1) by (apply p2_lt_inv; lra).
    assert (SE : d2 - d1 + 53 <= s) by (unfold s, e'; rewrite fex_eq; lia).
    assert (G : 2 ^ (d2 + 52) <= n).
    { unfold n. apply Z.le_trans with (2 ^ (d1 - 1) * 2 ^ s).
      - rewrite <- Z.pow_add_r by lia. apply Z.pow_le_mono_r; lia.
      - apply Z.mul_le_mono_nonneg_r; lia. }
    assert (GQ : 2 ^ 52 <= q).
    { destruct (Z.le_gt_cases (2 ^ 52) q) as [L|L]; auto. exfalso. rewrite Z.pow_add_r in G by lia. nia. }
    apply bra_rounds; auto; try lia.
    + apply new_loc_at with n; auto; lia.
    + pose proof (digits_ge q 52 ltac:(lia) GQ). rewrite fex_eq. lia.
Qed.

Lemma of_val : forall n, (n < 2 ^ 53)%N -> num (f64_of n) /\ (fval (f64_of n) == inject_Z (Z.of_N n))%Q.
Proof.
  intros [|p] H; unfold f64_of; cbn [Z.of_N binary_normalize]; [split; reflexivity|].
  assert (HP : Zpos p < 2 ^ 53) by (change (2 ^ 53) with (Z.of_N (2 ^ 53)); change (Zpos p) with (Z.of_N (Npos p)); lia).
  assert (R : rep (inject_Z (Zpos p))).
  { exists (Zpos p), 0. split; [lia|]. split; [lia|]. rewrite p2_0. ring. }
  assert (HR : rounds (inject_Z (Zpos p)) (binary_round 53 1024 false p 0)).
  { apply binary_round_rounds; [rewrite p2_0; ring|]. apply Qlt_le_trans with (inject_Z (2 ^ 53)); [rewrite <- Zlt_Qlt; auto|].
    rewrite <- p2_Z by lia. apply p2_le. lia. }
  split; [apply HR|]. apply Qle_antisym; [apply (r_high _ _ HR)|apply (r_low _ _ HR)]; auto; lra.
Qed.

(** * Comparison *)
Lemma cmp_val : forall a b, num a -> num b -> f64_cmp a b = Some (Qcompare (fval a) (fval b)).
Proof.
  assert (LT : forall x y, (x < y)%Q -> Qcompare x y = Lt) by (intros x y H; apply Qlt_alt; auto).
  assert (GT : forall x y, (y < x)%Q -> Qcompare x y = Gt) by (intros x y H; apply Qgt_alt; auto).
  assert (SM : forall m e m' e', bounded 53 1024 m e = true -> bounded 53 1024 m' e' = true -> e < e' ->
             (inject_Z (Zpos m) * p2 e < inject_Z (Zpos m') * p2 e')%Q).
  { intros m e m' e' B1 B2 Hlt. destruct (bounded_spec m e B1) as (_ & _ & A1 & A2 & _). destruct (bounded_spec m' e' B2) as (_ & _ & _ & _ & A3).
    apply Qlt_le_trans with (p2 (53 + e)); [rewrite <- inject_pow by lia; apply inject_lt_mult; auto|].
    apply Qle_trans with (p2 (52 + e')); [apply p2_le; lia|]. rewrite <- inject_pow by lia. apply inject_le_mult. apply A3. lia. }
  assert (PP : forall m e, (0 < inject_Z (Zpos m) * p2 e)%Q).
  { intros m e. apply Qmult_lt_0_compat; [unfold Qlt; simpl; lia|apply p2_pos]. }
  intros a b Ha Hb.
  destruct (num_finite a Ha) as [->|(m & e & -> & HB)]; destruct (num_finite b Hb) as [->|(m2 & e2 & -> & HB2)]; unfold f64_cmp; cbn [SFcompare fval].
  - reflexivity.
  - rewrite LT; auto.
  - rewrite GT; auto.
  - f_equal. destruct (Z.compare_spec e e2) as [->|H|H].
    + pose proof (p2_pos e2). change (Pos.compare_cont Eq m m2) with (Z.pos m ?= Z.pos m2).
      destruct (Z.compare_spec (Zpos m) (Zpos m2)) as [E|L|L]; symmetry.
      * rewrite E. apply Qeq_alt. reflexivity.
      * apply LT. apply inject_lt_mult. auto.
      * apply GT. apply inject_lt_mult. auto.
    + rewrite LT; auto.
    + rewrite GT; auto.
Qed.
