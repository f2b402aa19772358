(** The source of bytes: how many bytes choose a production (C121). *)

From Coq Require Import List Arith NArith ZArith QArith Qabs Qround Bool Lia Lqa SpecFloat.
From Verif Require Import Base ListFacts Spec SpecGen LoopModel LoopFacts HistoryModel SymbolModel CfgModel View
  FloatModel SpecFloats FloatProof FloatProof2 GenModel GenProof GenProof3 GenProof7 PropsGen PropsBytes.
Import ListNotations.
Local Close Scope Q_scope.
Local Open Scope nat_scope.
Local Notation length := List.length.

(** * Whole numbers in an interval *)
Definition qn (k : nat) : Q := inject_Z (Z.of_nat k).
Lemma qn_le : forall a b, a <= b <-> (qn a <= qn b)%Q.
Proof. intros. unfold qn. rewrite <- Zle_Qle. lia. Qed.
Lemma qn_lt : forall a b, a < b <-> (qn a < qn b)%Q.
Proof. intros. unfold qn. rewrite <- Zlt_Qlt. lia. Qed.
Lemma qn_plus : forall a b, (qn (a + b) == qn a + qn b)%Q.
Proof. intros. unfold qn. rewrite Nat2Z.inj_add, inject_Z_plus. reflexivity. Qed.

Lemma ceil_nat : forall x, (0 <= x)%Q -> exists k, (x <= qn k)%Q /\ (qn k < x + 1)%Q.
Proof.
  intros x Hx. exists (Z.to_nat (Qceiling x)). pose proof (Qle_ceiling x) as H1. pose proof (Qceiling_lt x) as H2.
  assert (0 <= Qceiling x)%Z. { rewrite Zle_Qle. change (inject_Z 0) with 0%Q. lra. }
  unfold qn. rewrite Z2Nat.id by auto. split; auto.
  assert (E : (inject_Z (Qceiling x - 1) == inject_Z (Qceiling x) - 1)%Q) by (unfold Z.sub; rewrite inject_Z_plus; reflexivity).
  lra.
Qed.
Lemma floor_nat : forall x, (0 <= x)%Q -> exists k, (qn k <= x)%Q /\ (x < qn k + 1)%Q.
Proof.
  intros x Hx. destruct (ceil_nat x Hx) as [k [H1 H2]]. destruct (Qeq_dec x (qn k)) as [E|E].
  - exists k. split; lra.
  - destruct k as [|k].
    + exfalso. apply E. change (qn 0) with 0%Q in *. lra.
    + exists k. assert (Q : (qn (S k) == qn k + 1)%Q) by (replace (S k) with (k + 1) by lia; rewrite qn_plus; reflexivity).
      rewrite Q in *. split; lra.
Qed.

Lemma count_upper : forall l (x y : Q), NoDup l -> (0 <= y)%Q -> (x <= y)%Q ->
  (forall k, In k l -> (x <= qn k)%Q /\ (qn k <= y)%Q) -> (qn (length l) <= y - x + 1)%Q.
Proof.
  intros l x y HN Hy Hxy HI. destruct (floor_nat y Hy) as [b [B1 B2]].
  destruct (Qlt_le_dec x 0) as [Hx|Hx].
  - assert (HL : length l <= length (seq 0 (b + 1))).
    { apply NoDup_incl_length; auto. intros k Hk. apply in_seq. destruct (HI k Hk) as [_ H]. enough (k < b + 1) by lia.
      apply qn_lt. rewrite qn_plus. change (qn 1) with 1%Q. lra. }
    rewrite seq_length in HL. apply qn_le in HL. rewrite qn_plus in HL. change (qn 1) with 1%Q in HL. lra.
  - destruct (ceil_nat x Hx) as [a [A1 A2]].
    assert (HL : length l <= length (seq a (b + 1 - a))).
    { apply NoDup_incl_length; auto. intros k Hk. apply in_seq. destruct (HI k Hk) as [H0 H].
      assert (k < b + 1) by (apply qn_lt; rewrite qn_plus; change (qn 1) with 1%Q; lra).
      assert (a < k + 1) by (apply qn_lt; rewrite qn_plus; change (qn 1) with 1%Q; lra). lia. }
    rewrite seq_length in HL. destruct (Nat.le_gt_cases a (b + 1)) as [Hab|Hab].
    + assert (HL' : length l + a <= b + 1) by lia. apply qn_le in HL'. rewrite !qn_plus in HL'. change (qn 1) with 1%Q in HL'. lra.
    + replace (b + 1 - a) with 0 in HL by lia. assert (length l = 0) as -> by lia. change (qn 0) with 0%Q. lra.
Qed.

Lemma count_lower : forall l (x y : Q), (0 <= x)%Q -> (0 <= y)%Q ->
  (forall k, (x < qn k)%Q -> (qn k < y)%Q -> In k l) -> (y - x - 1 <= qn (length l))%Q.
Proof.
  intros l x y Hx Hy HI. destruct (floor_nat x Hx) as [a [A1 A2]]. destruct (ceil_nat y Hy) as [b [B1 B2]].
  destruct (Nat.le_gt_cases (a + 1) b) as [Hab|Hab].
  - assert (HL : length (seq (a + 1) (b - (a + 1))) <= length l).
    { apply NoDup_incl_length; [apply seq_NoDup|]. intros k Hk. apply in_seq in Hk.
      assert (K1 : a + 1 <= k) by lia. assert (K2 : k + 1 <= b) by lia. apply qn_le in K1, K2. rewrite qn_plus in K1, K2.
      change (qn 1) with 1%Q in K1, K2. apply HI; lra. }
    rewrite seq_length in HL. assert (HL' : b <= length l + (a + 1)) by lia. apply qn_le in HL'. rewrite !qn_plus in HL'.
    change (qn 1) with 1%Q in HL'. lra.
  - assert (HL : b <= a) by lia. apply qn_le in HL. assert (0 <= qn (length l))%Q by (change 0%Q with (qn 0); apply qn_le; lia). lra.
Qed.

(** * The production that a byte chooses *)

(** A source that goes on with the byte [b] chooses the [i]th production of the symbol, and uses up this byte only. *)
Definition chooses (g : cfg) (A : nat) (b : nat) (i : nat) : Prop :=
  exists r, nth_error (productions_of g A) i = Some r /\
  forall s, byte_at (to_come s) 0 = N.of_nat b ->
    exists s', pick_rhs bytes_generate (weighted g) A s = Ok (rhs r, s') /\ to_come s' = tl (to_come s).

Section Fair.
  Context (g : cfg) (A : nat).
  Hypothesis HF : weights_fit g.
  Hypothesis HL : (Z.of_nat (length (rules g)) <= 2 ^ 30)%Z.
  Local Notation ws := (map exact_weight (alts g A)).
  Local Notation n := (length (alts g A)).
  Local Notation W := (weight_before ws n).
  Hypothesis Hn : 2 <= n.
  Hypothesis HW : (0 < W)%Q.

  Local Notation q := (tot (alts g A)).
  Local Notation val b := (fval (scaled_byte (N.of_nat b) q)).

  Let HU : u32_weights (alts g A) := fit_alts g A HF.
  Lemma few : (Z.of_nat n <= 2 ^ 30)%Z.
  Proof. clear - HL. pose proof (alts_length g A). lia. Qed.
  Lemma few50 : (Z.of_nat n <= 2 ^ 50)%Z.
  Proof. clear - HL. pose proof few. lia. Qed.

  Definition eps : Q := p2 (-22).
  Lemma from_close : forall i, i <= n -> (Qabs (from g A i - weight_before ws i) <= W * eps)%Q.
  Proof.
    clear Hn HW. intros i Hi. eapply Qle_trans; [apply (from_near g A HU few50 i Hi)|].
    pose proof (before_mono _ (weights_nonneg (alts g A)) i n Hi) as HM.
    pose proof (before_mono _ (weights_nonneg (alts g A)) 0 i (Nat.le_0_l i)) as H0. rewrite before_0 in H0.
    assert (HE : (inject_Z (Z.of_nat i) * p2 (-52) <= eps)%Q).
    { apply Qle_trans with (inject_Z (2 ^ 30) * p2 (-52))%Q; [|vm_compute; discriminate]. apply Qmult_le_compat_r; [|vm_compute; discriminate].
      rewrite <- Zle_Qle. pose proof few. lia. }
    assert (HE0 : (0 <= inject_Z (Z.of_nat i) * p2 (-52))%Q).
    { apply Qmult_le_0_compat; [|vm_compute; discriminate]. change 0%Q with (inject_Z 0). rewrite <- Zle_Qle. lia. }
    apply Qle_trans with (W * (inject_Z (Z.of_nat i) * p2 (-52)))%Q; [apply Qmult_le_compat_r; auto|].
    rewrite !(Qmult_comm W). apply Qmult_le_compat_r; auto. lra.
  Qed.

  Lemma q_from : (fval q == from g A n)%Q.
  Proof. clear. unfold from. rewrite firstn_all. reflexivity. Qed.

  Lemma val_close : forall b, b <= 255 -> (Qabs (val b - qn b / 255 * W) <= W * (eps * (3 # 2)))%Q.
  Proof.
    clear Hn. intros b Hb. destruct (bytes_value (N.of_nat b) q) as [_ HV]; [lia|apply tot_moderate; [apply HU|apply few50]|].
    fold (scaled_byte (N.of_nat b) q) in HV. rewrite nat_N_Z in HV. fold (qn b) in HV.
    pose proof (from_close n (le_n _)) as HQ. rewrite <- q_from in HQ. rewrite abs_bounds in *.
    assert (B0 : (0 <= qn b)%Q) by (change 0%Q with (qn 0); apply qn_le; lia).
    assert (B1 : (qn b <= 255)%Q) by (change 255%Q with (qn 255); apply qn_le; lia).
    set (t := (qn b / 255)%Q) in *. assert (T : (t == qn b * (1 # 255))%Q) by (unfold t; field). assert (T0 : (0 <= t <= 1)%Q) by lra.
    clearbody t. set (f := fval q) in *. clearbody f. set (v := val b) in *. clearbody v. set (w := W) in *. clearbody w.
    assert (EP : (0 < eps /\ p2 (-51) <= eps * (1 # 4) /\ p2 (-51) > 0 /\ eps <= 1 # 4)%Q) by (vm_compute; repeat split; discriminate).
    destruct EP as (E1 & E2 & E2' & E3). set (e := eps) in *. clearbody e. set (d := p2 (-51)) in *. clearbody d.
    assert (WE : (w * e <= w * (1 # 4))%Q) by (rewrite !(Qmult_comm w); apply Qmult_le_compat_r; lra).
    assert (WE0 : (0 <= w * e)%Q) by (apply Qmult_le_0_compat; lra).
    assert (F2 : (0 <= f <= w * (5 # 4))%Q) by lra.
    assert (TF : (t * (f - w) <= w * e /\ - (w * e) <= t * (f - w))%Q).
    { assert (TWE : (t * (w * e) <= 1 * (w * e))%Q) by (apply Qmult_le_compat_r; lra).
      assert (P1 : (t * (f - w) <= t * (w * e))%Q) by (rewrite !(Qmult_comm t); apply Qmult_le_compat_r; lra).
      assert (P2 : (t * - (w * e) <= t * (f - w))%Q) by (rewrite !(Qmult_comm t); apply Qmult_le_compat_r; lra). lra. }
    assert (TD : (t * f * d <= w * e * (5 # 16))%Q).
    { apply Qle_trans with (w * (5 # 4) * d)%Q.
      - apply Qmult_le_compat_r; [|lra]. apply Qle_trans with (1 * f)%Q; [apply Qmult_le_compat_r; lra|lra].
      - setoid_replace (w * e * (5 # 16))%Q with (w * (5 # 4) * (e * (1 # 4)))%Q by ring. rewrite !(Qmult_comm (w * (5 # 4))).
        apply Qmult_le_compat_r; lra. }
    assert (TX : (t * f == t * w + t * (f - w))%Q) by ring.
    assert (WX : (w * (e * (3 # 2)) == w * e * (3 # 2))%Q) by ring. rewrite WX. lra.
  Qed.

  (** Each byte chooses a production. *)
  Lemma byte_pick : forall b, b <= 255 -> exists i, i < n /\ chooses g A b i /\
    (i = 0 \/ (from g A i <= val b)%Q) /\ (i + 1 < n -> (val b <= from g A (i + 1))%Q).
  Proof.
    clear HW. intros b Hb.
    destruct (generate_step (mkBytes [N.of_nat b] []) q) as [s0 [E0 _]].
    destruct (pick_position bytes_generate g A HU few50 (mkBytes [N.of_nat b] []) Hn) as [_ [_ HP]]. rewrite E0 in HP.
    change (byte_at (to_come (mkBytes [N.of_nat b] [])) 0) with (N.of_nat b) in *.
    destruct (bytes_value (N.of_nat b) q) as [VN _]; [lia|apply tot_moderate; [apply HU|apply few50]|].
    fold (scaled_byte (N.of_nat b) q) in VN. destruct (HP VN) as [i [r [Hr [HP' [P1 [P2 _]]]]]].
    exists i. split; [apply nth_error_Some; congruence|]. split; auto.
    exists r. split; [exact Hr|]. intros s Es. destruct (generate_step s q) as [s' [E1 T1]]. rewrite Es in E1.
    exists s'. split; auto. clear HP. unfold pick_rhs in *. 
    assert (HN : alts g A <> []) by (clear - Hn; destruct (alts g A); simpl in *; [lia|congruence]).
    rewrite (weighted_some g A HN) in *. change (wl_total (fold_left weigh (alts g A) (mkWlist f64_zero []))) with q in *.
    destruct (Nat.eqb_spec (length (wl_rhs (fold_left weigh (alts g A) (mkWlist f64_zero [])))) 1) as [E|_].
    { rewrite weigh_length in E. lia. }
    rewrite E0 in HP'. rewrite E1. cbn [bind] in *.
    destruct (search_index (scaled_byte (N.of_nat b) q) (wl_rhs (fold_left weigh (alts g A) (mkWlist f64_zero [])))) as [k| |]; cbn [bind] in *; try discriminate.
    destruct (get_ix (wl_rhs (fold_left weigh (alts g A) (mkWlist f64_zero []))) (k - 1)) as [w| |]; cbn [bind] in *; try discriminate.
    congruence.
  Qed.

  Lemma val_lt : forall a b, a < b -> b <= 255 -> (val a < val b)%Q.
  Proof.
    clear Hn. intros a b Hab Hb. pose proof (val_close a ltac:(lia)) as HA. pose proof (val_close b Hb) as HBB. rewrite abs_bounds in *.
    assert (H1 : (qn a + 1 <= qn b)%Q) by (change 1%Q with (qn 1); rewrite <- qn_plus; apply qn_le; lia).
    assert (D : forall z, (z / 255 * W == z * (W * (1 # 255)))%Q) by (intros; field). rewrite !D in *.
    assert (HM : ((qn a + 1) * (W * (1 # 255)) <= qn b * (W * (1 # 255)))%Q) by (apply Qmult_le_compat_r; [auto|lra]).
    assert (HE : (W * (eps * (3 # 2)) <= W * (1 # 1000))%Q).
    { rewrite !(Qmult_comm W). apply Qmult_le_compat_r; [vm_compute; discriminate|lra]. } lra.
  Qed.

  Lemma chooses_one : NoDup (map rhs (productions_of g A)) -> forall b i j, chooses g A b i -> chooses g A b j -> i = j.
  Proof.
    clear. intros HN b i j [r [Hr Cr]] [x [Hx Cx]].
    destruct (Cr (mkBytes [N.of_nat b] []) eq_refl) as [s1 [E1 _]]. destruct (Cx (mkBytes [N.of_nat b] []) eq_refl) as [s2 [E2 _]].
    assert (E : rhs r = rhs x) by congruence. apply (proj1 (NoDup_nth_error _) HN).
    - rewrite map_length. apply nth_error_Some. congruence.
    - rewrite (map_nth_error rhs i _ Hr), (map_nth_error rhs j _ Hx), E. reflexivity.
  Qed.

  (** A byte between the boundaries chooses the production, and a byte that chooses it is between them. *)
  Lemma pick_between : NoDup (map rhs (productions_of g A)) -> forall i b, i < n -> b <= 255 ->
    let x := (weight_before ws i * 255 / W)%Q in let y := (weight_before ws (i + 1) * 255 / W)%Q in
    (chooses g A b i -> (x - (1 # 4000) <= qn b /\ qn b <= y + (1 # 4000))%Q) /\
    ((x + (1 # 4000) < qn b)%Q -> (qn b < y - (1 # 4000))%Q -> chooses g A b i).
  Proof.
    intros HN i b Hi Hb x y. destruct (byte_pick b Hb) as [j [Hj [Cj [P1 P2]]]].
    pose proof (val_close b Hb) as HV. rewrite abs_bounds in HV.
    assert (FC : forall k, k <= n -> (weight_before ws k - W * eps <= from g A k /\ from g A k <= weight_before ws k + W * eps)%Q).
    { intros k Hk. pose proof (from_close k Hk) as F. rewrite abs_bounds in F. lra. }
    assert (B0 : (0 <= qn b)%Q) by (change 0%Q with (qn 0); apply qn_le; lia).
    assert (B1 : (qn b <= 255)%Q) by (change 255%Q with (qn 255); apply qn_le; lia).
    assert (D : (qn b / 255 * W == qn b * W * (1 # 255))%Q) by field. rewrite D in HV.
    assert (E0 : (0 < eps)%Q) by reflexivity. assert (E1 : (eps * 765 <= 1 # 4000)%Q) by (vm_compute; discriminate).
    assert (WE : (W * eps * 765 <= W * (1 # 4000))%Q).
    { rewrite <- Qmult_assoc, !(Qmult_comm W). apply Qmult_le_compat_r; lra. }
    assert (X : (x * W == weight_before ws i * 255)%Q) by (unfold x; field; lra).
    assert (Y : (y * W == weight_before ws (i + 1) * 255)%Q) by (unfold y; field; lra).
    assert (LE : forall u v, (u * W <= v * W)%Q -> (u <= v)%Q) by (intros u v; apply Qmult_le_r; lra).
    assert (LT : forall u v, (u < v)%Q -> (u * W < v * W)%Q) by (intros u v; apply Qmult_lt_r; lra).
    assert (WX : (W * (eps * (3 # 2)) == W * eps * (3 # 2))%Q) by ring. rewrite WX in HV.
    clearbody x y.
    assert (Last : i + 1 = n -> (weight_before ws (i + 1) == W)%Q) by (intros ->; reflexivity).
    split.
    - intros C. assert (j = i) by (apply (chooses_one HN b); auto). subst j. split; apply LE.
      + destruct P1 as [->|P1].
        * rewrite before_0 in X. assert (0 <= qn b * W)%Q by (apply Qmult_le_0_compat; lra). lra.
        * pose proof (FC i ltac:(lia)). lra.
      + destruct (Nat.eq_dec (i + 1) n) as [E|E].
        * specialize (Last E). assert (qn b * W <= 255 * W)%Q by (apply Qmult_le_compat_r; lra). lra.
        * pose proof (P2 ltac:(lia)). pose proof (FC (i + 1) ltac:(lia)). lra.
    - intros H1 H2. apply LT in H1, H2. assert (j = i); [|subst; auto].
      destruct (Nat.lt_trichotomy j i) as [Hlt|[He|Hgt]]; auto; exfalso.
      + assert (j + 1 <= i) as Hji by lia. pose proof (from_mono g A HU few50 _ _ Hji). pose proof (P2 ltac:(lia)). pose proof (FC i ltac:(lia)). lra.
      + assert (i + 1 <= j) as Hji by lia. pose proof (from_mono g A HU few50 _ _ Hji). destruct P1 as [P1|P1]; [lia|]. pose proof (FC (i + 1) ltac:(lia)). lra.
  Qed.
End Fair.

Lemma sublist_of : forall (P : nat -> Prop) l, NoDup l -> (forall b, In b l -> P b \/ ~ P b) ->
  exists bs, NoDup bs /\ forall b, In b bs <-> In b l /\ P b.
Proof.
  intros P. induction l as [|a l IH]; intros HN HD.
  - exists []. split; [constructor|]. simpl. tauto.
  - inversion HN as [|? ? H1 H2]; subst. destruct IH as [bs [B1 B2]]; auto; [intros b Hb; apply HD; right; auto|].
    destruct (HD a (or_introl eq_refl)) as [Ha|Ha].
    + exists (a :: bs). split; [constructor; auto; rewrite B2; tauto|]. intros b. simpl. rewrite B2. intuition (subst; auto).
    + exists bs. split; auto. intros b. simpl. rewrite B2. intuition (subst; auto; tauto).
Qed.

(** * C121 *)

(** The numbers of bytes that choose the productions are in proportion to the weights, up to about one byte each. *)
Theorem C121_share : forall g A i r,
  weights_fit g -> (Z.of_nat (length (rules g)) <= 2 ^ 30)%Z ->
  let ws := map weight_of (productions_of g A) in let total := weight_before ws (length ws) in
  2 <= length ws -> (0 < total)%Q -> NoDup (map rhs (productions_of g A)) ->
  nth_error (productions_of g A) i = Some r ->
  exists bs, NoDup bs /\ (forall b, In b bs <-> b <= 255 /\ chooses g A b i) /\
    (Qabs (inject_Z (Z.of_nat (length bs)) - 255 * weight_of r / total) <= 1001 # 1000)%Q.
Proof.
  intros g A i r HF HL ws total Hn HW HN Hr. unfold ws in Hn. rewrite map_length in Hn. change (productions_of g A) with (alts g A) in *.
  assert (ET : (weight_before (map exact_weight (alts g A)) (length (alts g A)) == total)%Q).
  { unfold total, ws. rewrite map_length. apply before_ext. }
  assert (HW' : (0 < weight_before (map exact_weight (alts g A)) (length (alts g A)))%Q) by lra.
  assert (Hi : i < length (alts g A)) by (apply nth_error_Some; congruence).
  pose proof (pick_between g A HF HL Hn HW' HN i) as HP.
  destruct (sublist_of (fun b => chooses g A b i) (seq 0 256)) as [bs [B1 B2]]; [apply seq_NoDup| |].
  { intros b Hb. apply in_seq in Hb. destruct (byte_pick g A HF HL Hn b ltac:(lia)) as [j [_ [Cj _]]].
    destruct (Nat.eq_dec j i) as [->|E]; [left; auto|right]. intros C. apply E. eapply chooses_one; eauto. }
  assert (B3 : forall b, In b bs <-> b <= 255 /\ chooses g A b i).
  { intros b. rewrite B2, in_seq. intuition lia. }
  exists bs. split; auto. split; auto. fold (qn (length bs)).
  set (x := (weight_before (map exact_weight (alts g A)) i * 255 / weight_before (map exact_weight (alts g A)) (length (alts g A)))%Q) in *.
  set (y := (weight_before (map exact_weight (alts g A)) (i + 1) * 255 / weight_before (map exact_weight (alts g A)) (length (alts g A)))%Q) in *.
  assert (XY : (y - x == 255 * weight_of r / total)%Q).
  { unfold x, y. replace (i + 1) with (S i) by lia. rewrite (before_S _ i _ (map_nth_error exact_weight i _ Hr)), weight_of_rule, ET. field. lra. }
  pose proof (weights_nonneg (alts g A)) as WN.
  assert (X0 : (0 <= x)%Q).
  { unfold x. apply Qle_shift_div_l; [auto|]. pose proof (before_mono _ WN 0 i ltac:(lia)) as H. rewrite before_0 in H. lra. }
  assert (YX : (x <= y)%Q).
  { unfold x, y. apply Qmult_le_compat_r; [|apply Qinv_le_0_compat; lra]. pose proof (before_mono _ WN i (i + 1) ltac:(lia)). lra. }
  assert (Y1 : (y <= 255)%Q).
  { unfold y. apply Qle_shift_div_r; [auto|]. pose proof (before_mono _ WN (i + 1) (length (alts g A)) ltac:(lia)). lra. }
  rewrite <- XY. apply abs_bounds. clearbody x y.
  assert (HUp : (qn (length bs) <= (y + (1 # 4000)) - (x - (1 # 4000)) + 1)%Q).
  { apply count_upper; auto; [lra|lra|]. intros k Hk. apply B3 in Hk. destruct Hk as [K1 K2]. apply HP; auto. }
  destruct (Qlt_le_dec y (1 # 4000)) as [Hy|Hy].
  - assert (0 <= qn (length bs))%Q by (change 0%Q with (qn 0); apply qn_le; lia). split; lra.
  - assert (HLo : ((y - (1 # 4000)) - (x + (1 # 4000)) - 1 <= qn (length bs))%Q).
    { apply count_lower; [lra|lra|]. intros k K1 K2.
      assert (k <= 255) by (apply qn_le; change (qn 255) with 255%Q; lra).
      apply B3. split; auto. apply HP; auto. }
    split; lra.
Qed.
Print Assumptions C121_share.

(** Every byte chooses a production; a larger byte chooses the same or a later one. *)
Theorem C121_order : forall g A,
  weights_fit g -> (Z.of_nat (length (rules g)) <= 2 ^ 30)%Z ->
  let ws := map weight_of (productions_of g A) in
  2 <= length ws -> (0 < weight_before ws (length ws))%Q ->
  forall a b, a <= b -> b <= 255 -> exists i j, i <= j /\ chooses g A a i /\ chooses g A b j.
Proof.
  intros g A HF HL ws Hn HW a b Hab Hb. unfold ws in *. rewrite map_length in *. change (productions_of g A) with (alts g A) in *.
  rewrite <- before_ext in HW.
  destruct (byte_pick g A HF HL Hn a ltac:(lia)) as [i [Hi [Ci [I1 I2]]]]. destruct (byte_pick g A HF HL Hn b Hb) as [j [Hj [Cj [J1 J2]]]].
  destruct (Nat.eq_dec a b) as [<-|E]; [exists i, i; auto|].
  exists i, j. split; auto. destruct (Nat.le_gt_cases i j) as [|G]; auto. exfalso.
  pose proof (val_lt g A HF HL HW a b ltac:(lia) Hb) as VL. assert (j + 1 <= i) as Hji by lia.
  pose proof (from_mono g A (fit_alts g A HF) (few50 g A HL) _ _ Hji). pose proof (J2 ltac:(lia)). destruct I1 as [I1|I1]; [lia|lra].
Qed.
Print Assumptions C121_order.

(** The weights 0.5 and 1.5: the bytes up to 63 choose the first production; these are 64 bytes, a quarter of 255 is 63.75. *)
Example C121_example :
  let g := ex_weights 500 1500 in
  weights_fit g /\ NoDup (map rhs (productions_of g 0)) /\
  (0 < weight_before (map weight_of (productions_of g 0)) 2)%Q /\
  length (filter (fun b => match pick_rhs bytes_generate (weighted g) 0 (bytes_new [N.of_nat b]) with Ok ([1], _) => true | _ => false end) (seq 0 256)) = 64 /\
  pick_rhs bytes_generate (weighted g) 0 (bytes_new [63%N]) = Ok ([1], mkBytes [] []) /\
  pick_rhs bytes_generate (weighted g) 0 (bytes_new [64%N]) = Ok ([2], mkBytes [] []).
Proof.
  split; [intros r w [<-|[<-|[]]] H; injection H as <-; reflexivity|]. split.
  { repeat constructor; simpl; intuition discriminate. }
  split; [vm_compute; reflexivity|]. vm_compute. auto.
Qed.

(** The weights 1, 0.001 and 1: no byte chooses the second production, so there are sentences that the source of bytes never generates. *)
Example C121_missed :
  let g := mkCfg (mkSrc 4 []) [mkRule 0 [1] (with_weight 1000); mkRule 0 [2] (with_weight 1); mkRule 0 [3] (with_weight 1000)] [] [] None in
  weights_fit g /\ language (prods g) 0 [2] /\
  forall b, b <= 255 -> exists x s, pick_rhs bytes_generate (weighted g) 0 (bytes_new [N.of_nat b]) = Ok (x, s) /\ x <> [2].
Proof.
  cbn zeta. split; [intros r w [<-|[<-|[<-|[]]]] H; injection H as <-; reflexivity|]. split.
  - split.
    + apply (derives_step _ [] 0 [] [2]); [exists (mkRule 0 [2] (with_weight 1)); simpl; auto|]. constructor.
    + constructor; [|constructor]. intros r [x [Hx [H _]]]. simpl in Hx. destruct Hx as [<-|[<-|[<-|[]]]]; discriminate.
  - intros b Hb. set (g := mkCfg _ _ _ _ _).
    assert (HT : forallb (fun b => match pick_rhs bytes_generate (weighted g) 0 (bytes_new [N.of_nat b]) with Ok (x, _) => negb (match x with [2] => true | _ => false end) | _ => false end) (seq 0 256) = true) by (vm_compute; reflexivity).
    rewrite forallb_forall in HT. specialize (HT b ltac:(apply in_seq; lia)). cbn beta in HT.
    destruct (pick_rhs bytes_generate (weighted g) 0 (bytes_new [N.of_nat b])) as [[x s]| |]; try discriminate.
    exists x, s. split; auto. intros ->. discriminate.
Qed.
