(** Property C95: bytes as a source of random values. *)

From Coq Require Import List Arith NArith ZArith QArith Qabs Bool Lia Lqa SpecFloat.
From Verif Require Import Base ListFacts FloatModel SpecFloats FloatProof FloatProof2 GenModel GenProof7.
Import ListNotations.
Local Close Scope Q_scope.
Local Open Scope nat_scope.
Local Notation length := List.length.

(** The values of a number of calls of [generate] with the given limits. *)
Fixpoint generates (s : byte_source) (limits : list f64) : res (list f64 * byte_source) :=
  match limits with
  | [] => Ok ([], s)
  | x :: limits' => do (v, s1) <- bytes_generate s x; do (l, s2) <- generates s1 limits'; Ok (v :: l, s2)
  end.

(** The bytes in the order in which they are used. *)
Definition to_come (s : byte_source) : list N := bytes_pushed s ++ bytes_ahead s.
(** The [k]th of the bytes, 0 after the last one. *)
Definition byte_at (l : list N) (k : nat) : N := nth k l 0%N.

Definition scaled_byte (b : N) (x : f64) : f64 := f64_div (f64_mul (f64_of b) x) (f64_of 255).
Lemma generate_step : forall s x, exists s', bytes_generate s x = Ok (scaled_byte (byte_at (to_come s) 0) x, s') /\
  to_come s' = tl (to_come s).
Proof.
  intros [a p] x. unfold bytes_generate, next_byte, to_come, byte_at. cbn [bytes_pushed bytes_ahead]. destruct p as [|b p]; cbn [app].
  - destruct a as [|b a]; eexists; split; reflexivity.
  - eexists. split; reflexivity.
Qed.

Lemma byte_tl : forall l k, byte_at (tl l) k = byte_at l (S k).
Proof. intros [|b l] k; cbn; [destruct k; reflexivity|reflexivity]. Qed.

Lemma byte_small : forall l k, Forall (fun b => (b <= 255)%N) l -> (byte_at l k < 256)%N.
Proof.
  intros l k H. unfold byte_at. destruct (nth_in_or_default k l 0%N) as [HI|E]; [|rewrite E; lia].
  rewrite Forall_forall in H. specialize (H _ HI). cbn beta in H. lia.
Qed.

Lemma generates_nth : forall limits s, exists vs s', generates s limits = Ok (vs, s') /\ length vs = length limits /\
  forall k x, nth_error limits k = Some x -> nth_error vs k = Some (scaled_byte (byte_at (to_come s) k) x).
Proof.
  induction limits as [|x limits IH]; intros s; cbn [generates].
  - exists [], s. split; auto. split; auto. intros [|k] y H; discriminate.
  - destruct (generate_step s x) as [s1 [E1 T1]]. rewrite E1. cbn [bind]. destruct (IH s1) as [vs [s2 [E2 [L2 H2]]]]. rewrite E2. cbn [bind].
    eexists. exists s2. split; [reflexivity|]. split; [cbn; congruence|]. intros [|k] y H; cbn [nth_error] in *.
    + injection H as <-. reflexivity.
    + rewrite (H2 k y H). rewrite T1, byte_tl. reflexivity.
Qed.

(** ** C95.  The values are the bytes in order, scaled to the limits, up to rounding: a limit is a number that is neither very
    large nor very small, or zero, like all sums of weights; the relative error is at most 2^-51. *)
Theorem C95_in_order_partial : forall s limits, Forall (fun b => (b <= 255)%N) (to_come s) -> Forall moderate limits ->
  exists vs s', generates s limits = Ok (vs, s') /\ length vs = length limits /\
  forall k x, nth_error limits k = Some x -> exists v, nth_error vs k = Some v /\ num v /\
    let exact := (inject_Z (Z.of_N (byte_at (to_come s) k)) / 255 * fval x)%Q in
    (Qabs (fval v - exact) <= exact * p2 (-51))%Q.
Proof.
  intros s limits HS HL. destruct (generates_nth limits s) as [vs [s' [E [L H]]]]. exists vs, s'. split; auto. split; auto.
  intros k x Hx. exists (scaled_byte (byte_at (to_come s) k) x). split; auto.
  apply bytes_value; [apply byte_small; auto|]. rewrite Forall_forall in HL. apply HL. eapply nth_error_In; eauto.
Qed.
Print Assumptions C95_in_order_partial.

(** They are at least 0; below the limit for other bytes than 255; and at most one part in 2^51 above it. *)
Theorem C95_range_partial : forall s limits, Forall (fun b => (b <= 255)%N) (to_come s) -> Forall moderate limits ->
  exists vs s', generates s limits = Ok (vs, s') /\
  forall k x, nth_error limits k = Some x -> exists v, nth_error vs k = Some v /\ (0 <= fval v)%Q /\
    (byte_at (to_come s) k <> 255%N -> (fval v <= fval x)%Q /\ ((0 < fval x)%Q -> (fval v < fval x)%Q)) /\
    (fval v <= fval x * (1 + p2 (-51)))%Q.
Proof.
  intros s limits HS HL. destruct (C95_in_order_partial s limits HS HL) as [vs [s' [E [_ H]]]]. exists vs, s'. split; auto.
  intros k x Hx. destruct (H k x Hx) as [v [V1 [V2 V3]]]. exists v. split; auto. cbn zeta in V3. pose proof (byte_small (to_come s) k HS) as HB.
  assert (HM : moderate x) by (rewrite Forall_forall in HL; apply HL; eapply nth_error_In; eauto).
  pose proof (num_nonneg x (proj1 HM)) as X0. pose proof (num_nonneg v V2) as V0. split; auto.
  set (b := byte_at (to_come s) k) in *. set (q := inject_Z (Z.of_N b)) in *. set (e := p2 (-51)) in *.
  assert (E0 : (0 < e /\ e <= 1 # 10000)%Q) by (split; [reflexivity|vm_compute; discriminate]).
  assert (QB : (0 <= q /\ q <= 255)%Q).
  { split; [change 0%Q with (inject_Z 0)|change 255%Q with (inject_Z 255)]; unfold q; rewrite <- Zle_Qle; lia. }
  rewrite abs_bounds in V3. set (f := fval x) in *. clearbody f.
  assert (XE : (q / 255 * f == q * f * (1 # 255))%Q) by field. rewrite XE in V3.
  assert (QF : (q * f <= 255 * f)%Q) by (apply Qmult_le_compat_r; lra).
  assert (QF0 : (0 <= q * f)%Q) by (apply Qmult_le_0_compat; lra).
  set (y := (q * f)%Q) in *.
  assert (YE : (y * (1 # 255) * e <= f * e)%Q) by (apply Qmult_le_compat_r; lra). split; [|lra].
  intros HN. assert (HQ : (q <= 254)%Q) by (change 254%Q with (inject_Z 254); unfold q; rewrite <- Zle_Qle; lia).
  assert (Q2 : (y <= 254 * f)%Q) by (apply Qmult_le_compat_r; lra). assert (FE : (f * e <= f * (1 # 10000))%Q) by (rewrite !(Qmult_comm f); apply Qmult_le_compat_r; lra).
  split; [lra|]. intros; lra.
Qed.
Print Assumptions C95_range_partial.

(** The byte 255 can give a value above the limit: here the limit is 1.5 + 2^-45. *)
Theorem C95_range_refuted : exists x v s', num x /\ (fval x == (3 # 2) + p2 (-45))%Q /\
  bytes_generate (bytes_new [255%N]) x = Ok (v, s') /\ num v /\ (fval x < fval v)%Q.
Proof.
  exists (S754_finite false 6755399441055872 (-52)). eexists. eexists. split; [reflexivity|]. split; [reflexivity|].
  split; [vm_compute; reflexivity|]. split; reflexivity.
Qed.
Print Assumptions C95_range_refuted.

Lemma mutate_spec : forall n a s acc, mutate_bytes n a s acc =
  (mkBytes (skipn n (bytes_ahead s)) (bytes_pushed s),
   acc ++ map (fun k => mix (N.lxor (byte_at (bytes_ahead s) k) (N.modulo a 256))) (seq 0 n)).
Proof.
  induction n as [|n IH]; intros a [l p] acc; cbn [mutate_bytes].
  - cbn. rewrite app_nil_r. reflexivity.
  - unfold next_byte. cbn [bytes_ahead bytes_pushed]. destruct l as [|b l].
    + rewrite IH. cbn [bytes_ahead bytes_pushed skipn]. rewrite !skipn_nil. f_equal. rewrite <- app_assoc. f_equal. cbn [seq map app]. f_equal.
      rewrite <- seq_shift, map_map. apply map_ext. intros k. unfold byte_at. destruct k; reflexivity.
    + rewrite IH. cbn [bytes_ahead bytes_pushed skipn]. f_equal. rewrite <- app_assoc. f_equal. cbn [seq map app]. f_equal.
      rewrite <- seq_shift, map_map. reflexivity.
Qed.

(** Starting attempt [a] takes [a / 256 + 1] of the bytes that were not taken so far, 0 standing for missing ones, and puts their
    mixtures with [a] before everything else. *)
Theorem C95_attempt : forall s a, let n := N.to_nat (a / 256 + 1) in
  to_come (bytes_mutate_start s a) =
    map (fun k => mix (N.lxor (byte_at (bytes_ahead s) k) (a mod 256))) (seq 0 n) ++ bytes_pushed s ++ skipn n (bytes_ahead s).
Proof.
  intros s a n. unfold bytes_mutate_start. rewrite mutate_spec. unfold to_come. cbn [bytes_pushed bytes_ahead app].
  replace (S (N.to_nat (a / 256))) with n by (unfold n; rewrite N2Nat.inj_add; change (N.to_nat 1) with 1; lia).
  rewrite <- app_assoc. reflexivity.
Qed.
Print Assumptions C95_attempt.

Lemma lxor_byte : forall x y, (x < 256 -> y < 256 -> N.lxor x y < 256)%N.
Proof.
  intros x y Hx Hy. destruct (N.eq_dec (N.lxor x y) 0) as [->|Hn]; [lia|]. apply N.log2_lt_pow2 with (b := 8%N); [lia|].
  eapply N.le_lt_trans; [apply N.log2_lxor|].
  apply N.max_lub_lt; (match goal with |- (N.log2 ?z < 8)%N => destruct (N.eq_dec z 0) as [->|]; [cbn; lia|apply N.log2_lt_pow2; [lia|assumption]] end).
Qed.

Lemma bytes_all : forall P : N -> bool, forallb (fun b => P (N.of_nat b)) (seq 0 256) = true -> forall b, (b < 256)%N -> P b = true.
Proof.
  intros P HT b Hb. rewrite forallb_forall in HT. specialize (HT (N.to_nat b) ltac:(apply in_seq; lia)). cbn beta in HT. rewrite N2Nat.id in HT. exact HT.
Qed.

(** The other byte with the same mixture. *)
Definition partner (b : N) : N :=
  match find (fun c => negb (N.eqb (N.of_nat c) b) && N.eqb (mix (N.of_nat c)) (mix b)) (seq 0 256) with Some c => N.of_nat c | None => b end.

Lemma mixed_byte : forall b c, (b < 256)%N -> (c < 256)%N -> mix b = mix c -> c = b \/ c = partner b.
Proof.
  intros b c Hb Hc EM.
  assert (HT : forallb (fun b => (fun b => let p := partner b in forallb (fun c => (fun c => negb (N.eqb (mix b) (mix c)) || N.eqb c b || N.eqb c p) (N.of_nat c)) (seq 0 256)) (N.of_nat b)) (seq 0 256) = true)
    by (vm_compute; reflexivity).
  pose proof (bytes_all _ HT b Hb) as H1. cbv zeta beta in H1. pose proof (bytes_all (fun c => negb (N.eqb (mix b) (mix c)) || N.eqb c b || N.eqb c (partner b)) H1 c Hc) as H2. cbv beta in H2.
  rewrite EM, N.eqb_refl in H2. cbn [negb orb] in H2. apply orb_true_iff in H2. destruct H2 as [H2|H2]; apply N.eqb_eq in H2; auto.
Qed.

(** Of the first 256 attempts at most two start with the same value. *)
Theorem C95_attempts_differ_partial : forall s a1 a2 a3, (a1 < 256)%N -> (a2 < 256)%N -> (a3 < 256)%N ->
  Forall (fun b => (b <= 255)%N) (bytes_ahead s) ->
  let first a := byte_at (to_come (bytes_mutate_start s a)) 0 in
  first a1 = first a2 -> first a2 = first a3 -> a1 = a2 \/ a2 = a3 \/ a1 = a3.
Proof.
  intros s a1 a2 a3 H1 H2 H3 HB first. unfold first. rewrite !C95_attempt. rewrite !N.div_small, !N.mod_small by auto.
  change (N.to_nat (0 + 1)) with 1. cbn [seq map app].
  set (b := byte_at (bytes_ahead s) 0). assert (Hb : (b < 256)%N). { unfold b, byte_at. destruct HB; cbn; lia. }
  unfold byte_at. cbn [nth]. intros E1 E2.
  assert (HC : forall x y, N.lxor b x = N.lxor b y -> x = y).
  { intros x y E. apply (f_equal (N.lxor b)) in E. rewrite <- !N.lxor_assoc, !N.lxor_nilpotent, !N.lxor_0_l in E. exact E. }
  pose proof (mixed_byte _ _ (lxor_byte b a2 Hb H2) (lxor_byte b a1 Hb H1) (eq_sym E1)) as M1.
  pose proof (mixed_byte _ _ (lxor_byte b a2 Hb H2) (lxor_byte b a3 Hb H3) E2) as M3.
  destruct M1 as [M1|M1]; [left; apply HC; auto|]. destruct M3 as [M3|M3]; [right; left; symmetry; apply HC; auto|].
  right; right. apply HC. congruence.
Qed.
Print Assumptions C95_attempts_differ_partial.

(** But two different attempts may be the same in all that follows. *)
Theorem C95_attempts_refuted : forall l, bytes_mutate_start (bytes_new (0%N :: l)) 0 = bytes_mutate_start (bytes_new (0%N :: l)) 78.
Proof. intros l. reflexivity. Qed.
Print Assumptions C95_attempts_refuted.

Example C95_example : exists vs s', generates (bytes_mutate_start (bytes_new [10; 20; 255]%N) 1) (map f64_of [255; 510; 510; 7]%N) = Ok (vs, s') /\
  to_come (bytes_mutate_start (bytes_new [10; 20; 255]%N) 1) = [241; 20; 255]%N /\
  map fval vs = map fval (map f64_of [241; 40; 510; 0]%N) /\ Forall moderate (map f64_of [255; 510; 510; 7]%N).
Proof.
  eexists. eexists. split; [vm_compute; reflexivity|]. split; [vm_compute; reflexivity|]. split; [vm_compute; reflexivity|].
  repeat constructor; try reflexivity; try (right; vm_compute; discriminate); vm_compute; discriminate.
Qed.

Example C95_long_example : to_come (bytes_mutate_start (bytes_mutate_start (bytes_new [10; 20; 255]%N) 1) 256) =
  [mix 20; mix 255; mix 11]%N.
Proof. reflexivity. Qed.
