(** Weighted choice: which production a value picks; every sentence can be generated. *)

From Coq Require Import List Arith NArith ZArith QArith Qabs Qround Bool Lia Lqa SpecFloat.
From Verif Require Import Base ListFacts Spec SpecGen GrammarFacts LoopModel LoopFacts HistoryModel CfgModel View
  BitSetModel SetView SetProof SetsModel SetsProof LRProof FloatModel SpecFloats FloatProof FloatProof2 GenModel GenProof.
Import ListNotations.
Local Close Scope Q_scope.
Local Open Scope nat_scope.
Local Notation length := List.length.

(** * Sums of weights *)
Lemma before_0 : forall l, weight_before l 0 = 0%Q.
Proof. destruct l; auto. Qed.
Lemma before_S : forall l i w, nth_error l i = Some w -> (weight_before l (S i) == weight_before l i + w)%Q.
Proof.
  induction l as [|x l IH]; intros [|i] w H; simpl in H; try discriminate.
  - injection H as ->. cbn [weight_before]. rewrite before_0. lra.
  - specialize (IH i w H). change (weight_before (x :: l) (S (S i))) with (x + weight_before l (S i))%Q.
    change (weight_before (x :: l) (S i)) with (x + weight_before l i)%Q. lra.
Qed.
Lemma before_app : forall l x i, i <= length l -> (weight_before (l ++ x) i == weight_before l i)%Q.
Proof.
  induction l as [|w l IH]; intros x [|i] Hi; simpl in *; try lia; try lra.
  - rewrite before_0. lra.
  - rewrite IH by lia. lra.
Qed.

Lemma before_mono : forall l, Forall (fun w => 0 <= w)%Q l -> forall i j, i <= j -> (weight_before l i <= weight_before l j)%Q.
Proof.
  induction 1 as [|w l Hw Hl IH]; intros i j Hij.
  - destruct i, j; simpl; lra.
  - destruct i as [|i], j as [|j]; try lia; cbn [weight_before]; try lra.
    + pose proof (IH 0 j (Nat.le_0_l j)) as H0. rewrite before_0 in H0. lra.
    + assert (i <= j) as Hij' by lia. pose proof (IH i j Hij'). lra.
Qed.

Lemma before_all : forall l i, length l <= i -> (weight_before l i == weight_before l (length l))%Q.
Proof.
  induction l as [|w l IH]; intros [|i] Hi; simpl in *; try lia; try lra. rewrite (IH i) by lia. lra.
Qed.

(** * The weighted list of some productions *)

(** The weight of a rule *)
Definition milli (r : rule) : N := match h_weight (hist r) with Some w => w | None => 1000%N end.
Definition exact_weight (r : rule) : Q := (inject_Z (Z.of_N (milli r)) / 1000)%Q.

Lemma rule_weight_eq : forall r, rule_weight r = thousandths (milli r).
Proof. reflexivity. Qed.

Lemma exact_nonneg : forall r, (0 <= exact_weight r)%Q.
Proof.
  intros r. unfold exact_weight. apply Qle_shift_div_l; [lra|]. setoid_replace (0 * 1000)%Q with (inject_Z 0) by reflexivity.
  rewrite <- Zle_Qle. lia.
Qed.
Lemma weights_nonneg : forall rs, Forall (fun w => 0 <= w)%Q (map exact_weight rs).
Proof. intros. apply Forall_map, Forall_forall. intros. apply exact_nonneg. Qed.

Local Notation w0 := (mkWlist f64_zero []).
Definition tot (rs : list rule) : f64 := wl_total (fold_left weigh rs w0).

Lemma tot_snoc : forall l r, tot (l ++ [r]) = f64_add (tot l) (rule_weight r).
Proof. intros. unfold tot. rewrite fold_left_app. reflexivity. Qed.

Lemma weigh_length : forall rs, length (wl_rhs (fold_left weigh rs w0)) = length rs.
Proof. intros. rewrite <- (map_length wr_rhs), weigh_rhs. apply map_length. Qed.

Lemma weigh_nth : forall rs i r, nth_error rs i = Some r ->
  nth_error (wl_rhs (fold_left weigh rs w0)) i = Some (mkWrhs (tot (firstn i rs)) (rhs r)).
Proof.
  induction rs as [|x rs IH] using rev_ind; intros i r H; [destruct i; discriminate|].
  rewrite fold_left_app. cbn [fold_left weigh wl_rhs]. pose proof (weigh_length rs) as WL.
  assert (Hi : i < length (rs ++ [x])) by (apply nth_error_Some; congruence). rewrite app_length in Hi. cbn [length] in Hi.
  destruct (Nat.eq_dec i (length rs)) as [->|N].
  - rewrite nth_error_app2, Nat.sub_diag in H by lia. injection H as <-.
    rewrite nth_error_app2, WL, Nat.sub_diag by lia. rewrite firstn_app, Nat.sub_diag, firstn_all. cbn [firstn nth_error]. rewrite app_nil_r. reflexivity.
  - rewrite nth_error_app1 in H by lia. rewrite nth_error_app1 by lia. rewrite (IH i r H). rewrite firstn_app.
    replace (i - length rs) with 0 by lia. cbn [firstn]. rewrite app_nil_r. reflexivity.
Qed.

Lemma firstn_snoc : forall {A} (l : list A) i x, nth_error l i = Some x -> firstn (S i) l = firstn i l ++ [x].
Proof. induction l as [|y l IH]; intros [|i] x H; try discriminate; simpl in *; [congruence|]. f_equal. auto. Qed.

(** The weights fit in 32 bits, and there are not too many rules. *)
Definition u32_weights (rs : list rule) : Prop := forall r, In r rs -> (milli r < 2 ^ 32)%N.

Lemma tot_inv : forall rs, u32_weights rs -> (Z.of_nat (length rs) <= 2 ^ 50)%Z -> forall i, i <= length rs ->
  sum_inv (Z.of_nat i) (tot (firstn i rs)) (weight_before (map exact_weight rs) i).
Proof.
  intros rs HU HB. induction i as [|i IH]; intros Hi.
  - constructor; [lia|reflexivity| |].
    + rewrite before_0. split; [lra|]. vm_compute. discriminate.
    + rewrite before_0. vm_compute. discriminate.
  - destruct (nth_error rs i) as [r|] eqn:Er; [|apply nth_error_None in Er; lia].
    rewrite (firstn_snoc rs i r Er), tot_snoc, rule_weight_eq.
    assert (HM : (milli r < 2 ^ 32)%N) by (apply HU; eapply nth_error_In; eauto).
    destruct (sum_step (Z.of_nat i) (tot (firstn i rs)) _ (milli r) (IH ltac:(lia)) ltac:(lia) HM) as [[A B C D] _].
    rewrite Nat2Z.inj_succ. unfold Z.succ. pose proof (before_S _ i _ (map_nth_error exact_weight i rs Er)) as HS.
    constructor; auto; [rewrite HS; auto|rewrite HS; auto].
Qed.

Lemma tot_mono : forall rs, u32_weights rs -> (Z.of_nat (length rs) <= 2 ^ 50)%Z -> forall i j, i <= j ->
  (fval (tot (firstn i rs)) <= fval (tot (firstn j rs)))%Q.
Proof.
  intros rs HU HB i j Hij. induction Hij as [|j Hij IH]; [lra|]. eapply Qle_trans; [exact IH|].
  destruct (nth_error rs j) as [r|] eqn:Er.
  - rewrite (firstn_snoc rs j r Er), tot_snoc, rule_weight_eq. assert (j < length rs) by (apply nth_error_Some; congruence).
    assert (HM : (milli r < 2 ^ 32)%N) by (apply HU; eapply nth_error_In; eauto).
    apply (sum_step (Z.of_nat j) (tot (firstn j rs)) _ (milli r) (tot_inv rs HU HB j ltac:(lia)) ltac:(lia) HM).
  - apply nth_error_None in Er. rewrite !firstn_all2 by lia. lra.
Qed.

(** * The binary search *)
Section Search.
  Context (l : list weighted_rhs) (v : f64) (from : nat -> Q).
  Hypothesis Hv : num v.
  Hypothesis Hfrom : forall i x, nth_error l i = Some x -> num (wr_from x) /\ (fval (wr_from x) == from i)%Q.
  Hypothesis Hmono : forall i j, i <= j -> (from i <= from j)%Q.

  Lemma compare_spec : forall i x, nth_error l i = Some x -> exists c, compare_weight x v = Ok c /\
    match c with Eq => (from i == fval v)%Q | Lt => (from i < fval v)%Q | Gt => (fval v < from i)%Q end.
  Proof.
    intros i x Hx. destruct (Hfrom i x Hx) as [H1 H2]. unfold compare_weight. rewrite (cmp_val _ _ H1 Hv).
    eexists. split; [reflexivity|]. destruct (Qcompare_spec (fval (wr_from x)) (fval v)); lra.
  Qed.

  Lemma search_base_spec : forall fuel size base, size <= fuel -> 1 <= size -> base + size <= length l ->
    (base = 0 \/ (from base <= fval v)%Q) -> (forall i, base + size <= i -> i < length l -> (fval v < from i)%Q) ->
    exists b, search_base v l fuel size base = Ok b /\
    b < length l /\ (b = 0 \/ (from b <= fval v)%Q) /\ forall i, b < i -> i < length l -> (fval v < from i)%Q.
  Proof.
    induction fuel as [|fuel IH]; intros size base Hf H1 Hl HB HA; cbn [search_base]; [lia|].
    destruct (Nat.ltb_spec 1 size) as [Hs|Hs].
    - pose proof (Nat.div2_odd size) as HD. assert (Hh : Nat.div2 size <= size - 1 /\ 1 <= Nat.div2 size).
      { destruct (Nat.odd size); simpl Nat.b2n in HD; lia. }
      set (half := Nat.div2 size) in *. unfold get_ix.
      destruct (nth_error l (base + half)) as [x|] eqn:Ex; [|apply nth_error_None in Ex; lia]. cbn [bind].
      destruct (compare_spec _ _ Ex) as [c [-> Hc]]. cbn [bind].
      destruct c; apply IH; try lia; auto.
      + right. lra.
      + intros i Hi1 Hi2. apply HA; lia.
      + right. lra.
      + intros i Hi1 Hi2. apply HA; lia.
      + intros i Hi1 Hi2. assert (Hi : base + half <= i) by lia. specialize (Hmono _ _ Hi). lra.
    - assert (size = 1) by lia. subst size. exists base. split; auto. split; [lia|]. split; auto. intros i Hi1 Hi2. apply HA; lia.
  Qed.

  (** The picked position *)
  Lemma search_spec : 1 <= length l -> exists b, search_index v l = Ok b /\ let i := b - 1 in
    i < length l /\ (i = 0 \/ (from i <= fval v)%Q) /\ (forall j, i + 1 < j -> j < length l -> (fval v < from j)%Q) /\
    (i + 1 < length l -> (fval v <= from (i + 1)%nat)%Q).
  Proof.
    intros HL. cbn zeta.
    assert (EI : search_index v l = do base <- search_base v l (length l) (length l) 0; do w <- get_ix l base;
                                    do c <- compare_weight w v; Ok (match c with Lt => base + 1 | _ => base end)).
    { unfold search_index. destruct l; [simpl in HL; lia|reflexivity]. }
    rewrite EI. destruct (search_base_spec (length l) (length l) 0) as [b [-> [B1 [B2 B3]]]]; try lia; auto. cbn [bind]. unfold get_ix.
    destruct (nth_error l b) as [x|] eqn:Ex; [|apply nth_error_None in Ex; lia]. cbn [bind].
    destruct (compare_spec _ _ Ex) as [c [-> Hc]]. cbn [bind]. eexists. split; [reflexivity|]. destruct c.
    - split; [lia|]. split; [|split].
      + destruct (Nat.eq_dec b 0); [left; lia|]. right. assert (b - 1 <= b) as Hb by lia. specialize (Hmono _ _ Hb). lra.
      + intros j Hj1 Hj2. apply B3; lia.
      + intros Hj. destruct (Nat.eq_dec b 0) as [E|E].
        * assert (fval v < from (b - 1 + 1)%nat)%Q by (apply B3; lia). lra.
        * replace (b - 1 + 1) with b by lia. lra.
    - replace (b + 1 - 1) with b by lia. split; auto. split; auto. split.
      + intros j Hj1 Hj2. apply B3; lia.
      + intros Hj. assert (fval v < from (b + 1)%nat)%Q by (apply B3; lia). lra.
    - destruct B2 as [B2|B2]; [|lra]. split; [lia|]. split; [left; lia|]. split.
      + intros j Hj1 Hj2. apply B3; lia.
      + intros Hj. assert (fval v < from (b - 1 + 1)%nat)%Q by (apply B3; lia). lra.
  Qed.
End Search.

(** * The choice *)

(** [q] is the sum of [i] weights, computed with rounding errors; [s] is the exact sum. *)
Definition near (i : nat) (q s : Q) : Prop := (Qabs (q - s) <= s * (inject_Z (Z.of_nat i) * p2 (-52)))%Q.

Lemma weighted_some : forall g A, alts g A <> [] -> map_get (weighted g) A = Some (fold_left weigh (alts g A) w0).
Proof. intros g A HN. rewrite weighted_get. destruct (alts g A); [congruence|auto]. Qed.

Section Pick.
  Context {R : Type} (generate : R -> f64 -> res (f64 * R)).
  Context (g : cfg) (A : nat).
  Hypothesis HU : u32_weights (alts g A).
  Hypothesis HB : (Z.of_nat (length (alts g A)) <= 2 ^ 50)%Z.
  Local Notation ws := (map exact_weight (alts g A)).
  Local Notation n := (length (alts g A)).

  Definition from (i : nat) : Q := fval (tot (firstn i (alts g A))).
  Lemma from_near : forall i, i <= n -> near i (from i) (weight_before ws i).
  Proof. intros i Hi. apply (tot_inv _ HU HB i Hi). Qed.
  Lemma from_mono : forall i j, i <= j -> (from i <= from j)%Q.
  Proof. intros. apply tot_mono; auto. Qed.

  Lemma pick_one : n = 1 -> forall r, In r (alts g A) -> forall rng, pick_rhs generate (weighted g) A rng = Ok (rhs r, rng).
  Proof.
    intros E1 r Hr rng. unfold pick_rhs. rewrite weighted_some by (destruct (alts g A); simpl in *; [lia|congruence]).
    pose proof (weigh_length (alts g A)) as WL. rewrite WL, E1. cbn [Nat.eqb].
    apply In_nth_error in Hr. destruct Hr as [i Hi]. assert (i < n) by (apply nth_error_Some; congruence). assert (i = 0) by lia. subst.
    unfold get_ix. rewrite (weigh_nth _ 0 r Hi). reflexivity.
  Qed.

  Theorem pick_position : forall rng, 2 <= n -> let q := tot (alts g A) in
    num q /\ (fval q == from n)%Q /\
    match generate rng q with
    | Ok (v, rng') => num v -> exists i r, nth_error (alts g A) i = Some r /\ pick_rhs generate (weighted g) A rng = Ok (rhs r, rng') /\
        (i = 0 \/ (from i <= fval v)%Q) /\ (i + 1 < n -> (fval v <= from (i + 1))%Q) /\
        (forall j, i + 1 < j -> j < n -> (fval v < from j)%Q)
    | Panic => pick_rhs generate (weighted g) A rng = Panic
    | OutOfFuel => pick_rhs generate (weighted g) A rng = OutOfFuel
    end.
  Proof.
    intros rng Hn q. unfold pick_rhs. pose proof (weigh_length (alts g A)) as WL.
    assert (HN : alts g A <> []) by (destruct (alts g A); simpl in *; [lia|congruence]).
    assert (HQ : from n = fval q) by (unfold from, q; rewrite firstn_all; reflexivity).
    split; [unfold q; rewrite <- (firstn_all (alts g A)); apply (tot_inv _ HU HB n); lia|]. split; [rewrite HQ; reflexivity|].
    rewrite (weighted_some g A HN). change (wl_total (fold_left weigh (alts g A) w0)) with q. set (w := fold_left weigh (alts g A) w0) in *.
    destruct (Nat.eqb_spec (length (wl_rhs w)) 1) as [E|_]; [lia|].
    destruct (generate rng q) as [[v rng']| |]; cbn [bind]; auto. intros Hv.
    destruct (search_spec (wl_rhs w) v from Hv) as [b [-> [S1 [S2 [S3 S4]]]]].
    - intros i x Hx. assert (Hi : i < n) by (rewrite <- WL; apply nth_error_Some; congruence).
      destruct (nth_error (alts g A) i) as [r|] eqn:Er; [|apply nth_error_None in Er; lia].
      unfold w in Hx. rewrite (weigh_nth _ i r Er) in Hx. injection Hx as <-. cbn [wr_from]. split; [|reflexivity].
      apply (tot_inv _ HU HB i); lia.
    - apply from_mono.
    - lia.
    - cbn [bind]. set (i := b - 1) in *. rewrite WL in *.
      destruct (nth_error (alts g A) i) as [r|] eqn:Er; [|apply nth_error_None in Er; lia].
      exists i, r. split; auto. split; [|auto].
      unfold get_ix, w. rewrite (weigh_nth _ i r Er). reflexivity.
  Qed.

  (** A value strictly between two positions picks the production between them. *)
  Theorem pick_inside : forall rng i r, nth_error (alts g A) i = Some r ->
    (n <> 1 -> exists v rng', generate rng (tot (alts g A)) = Ok (v, rng') /\ num v /\ (from i < fval v)%Q /\ (fval v < from (i + 1))%Q) ->
    exists rng', pick_rhs generate (weighted g) A rng = Ok (rhs r, rng') /\ (n = 1 -> rng' = rng) /\
      (n <> 1 -> exists v, generate rng (tot (alts g A)) = Ok (v, rng')).
  Proof.
    intros rng i r Hr HG. assert (Hi : i < n) by (apply nth_error_Some; congruence).
    destruct (Nat.eq_dec n 1) as [E1|E1].
    - exists rng. split; [apply pick_one; auto; eapply nth_error_In; eauto|]. split; [auto|congruence].
    - destruct (pick_position rng) as [_ [_ HP]]; [lia|]. destruct (HG E1) as [v [rng' [Eg [Vn [V1 V2]]]]]. rewrite Eg in HP.
      destruct (HP Vn) as [j [r' [Hr' [HP' [P1 [P2 P3]]]]]]. assert (j = i).
      { destruct (Nat.lt_trichotomy j i) as [Hlt|[He|Hgt]]; auto; exfalso.
        - assert (j + 1 <= i) as Hji by lia. pose proof (from_mono _ _ Hji). assert (fval v <= from (j + 1))%Q by (apply P2; lia). lra.
        - assert (i + 1 <= j) as Hji by lia. pose proof (from_mono _ _ Hji). destruct P1 as [P1|P1]; [lia|lra]. }
      subst. exists rng'. split; [congruence|]. split; [congruence|]. eauto.
  Qed.
End Pick.

(** * Every sentence *)

(** A source that returns the given values, as long as they are in the range from 0 up to the given limit, without the limit *)
Definition in_range (v limit : f64) : bool :=
  match f64_cmp f64_zero v, f64_cmp v limit with
  | Some Lt, Some Lt | Some Eq, Some Lt => true
  | _, _ => false
  end.
Definition given (l : list f64) (limit : f64) : res (f64 * list f64) :=
  match l with
  | [] => Panic
  | v :: l' => if in_range v limit then Ok (v, l') else Panic
  end.

(** A float in an interval that is not too short *)
Lemma float_between : forall a b, (0 <= a)%Q -> (a + p2 (-11) <= b)%Q -> (b <= p2 41)%Q ->
  exists v, num v /\ (a < fval v)%Q /\ (fval v < b)%Q.
Proof.
  intros a b Ha Hab Hb. set (k := (Qfloor (a * p2 12) + 1)%Z).
  pose proof (Qfloor_le (a * p2 12)) as F1. pose proof (Qlt_floor (a * p2 12)) as F2. fold k in F2.
  assert (P12 : (p2 12 == 4096)%Q) by reflexivity. assert (PM : (p2 (-12) == 1 # 4096)%Q) by reflexivity. assert (PN : (p2 (-11) == 1 # 2048)%Q) by reflexivity.
  assert (P41 : (p2 41 == inject_Z (2 ^ 41))%Q) by reflexivity.
  assert (KU : (inject_Z k <= a * p2 12 + 1)%Q) by (unfold k; rewrite inject_Z_plus; change (inject_Z 1) with 1%Q; lra).
  assert (F0 : (0 <= Qfloor (a * p2 12))%Z).
  { change 0%Z with (Qfloor 0). apply Qfloor_resp_le. rewrite P12. lra. }
  assert (K0 : (0 < k)%Z) by (unfold k; lia).
  assert (KB : (k < 2 ^ 53)%Z).
  { rewrite Zlt_Qlt. rewrite P12, P41, PN in *. apply Qle_lt_trans with (inject_Z (2 ^ 41) * 4096 - 1)%Q; [|reflexivity]. lra. }
  destruct k as [|p|p]; try lia. set (x := (inject_Z (Zpos p) * p2 (-12))%Q).
  assert (XA : (a < x)%Q) by (unfold x; rewrite P12, PM in *; lra).
  assert (XB : (x < b)%Q) by (unfold x; rewrite P12, PM, PN in *; lra).
  assert (RX : rounds x (binary_round 53 1024 false p (-12))).
  { apply binary_round_rounds; [reflexivity|]. apply Qlt_trans with b; [auto|]. apply Qle_lt_trans with (p2 41); [auto|reflexivity]. }
  assert (RP : rep x) by (exists (Zpos p), (-12)%Z; split; [lia|split; [lia|reflexivity]]).
  assert (EX : (fval (binary_round 53 1024 false p (-12)) == x)%Q).
  { apply Qle_antisym; [apply (r_high _ _ RX)|apply (r_low _ _ RX)]; auto; lra. }
  eexists. split; [apply RX|]. rewrite EX. auto.
Qed.

Section All.
  Context (g : cfg).
  Hypothesis HC : closed_rules g.
  Hypothesis HW : forall r, In r (rules g) -> (0 < milli r)%N.
  Hypothesis HU : u32_weights (rules g).
  Hypothesis HB : forall A, let n := length (alts g A) in
    (weight_before (map exact_weight (alts g A)) n * inject_Z (Z.of_nat n) <= inject_Z (2 ^ 40))%Q.
  Context (ts : bitset).
  Hypothesis Hts : terminal_symbols g = Ok ts.
  Context (mutate_start : list f64 -> N -> list f64) (tc : nat -> option nat) (limit : option limits).
  Local Notation to_char := (fun s (r : list f64) => (tc s, r)).
  Local Notation step := (gen_step given mutate_start to_char (weighted g) ts [] limit).

  Definition within (n : nat) : Prop :=
    match limit with Some lim => (N.of_nat n <= terminals lim)%N | None => True end.

  Lemma alts_rules : forall A r, In r (alts g A) -> In r (rules g).
  Proof. intros A r H. apply filter_In in H. apply H. Qed.

  Lemma exact_pos : forall A r, In r (alts g A) -> (1 # 1000 <= exact_weight r)%Q.
  Proof.
    intros A r H. apply alts_rules, HW in H. unfold exact_weight. apply Qle_shift_div_l; [lra|].
    setoid_replace ((1 # 1000) * 1000)%Q with (inject_Z 1) by reflexivity. rewrite <- Zle_Qle. lia.
  Qed.

  Lemma total_ge : forall A i, i <= length (alts g A) -> (inject_Z (Z.of_nat i) * (1 # 1000) <= weight_before (map exact_weight (alts g A)) i)%Q.
  Proof.
    intros A. induction i as [|i IH]; intros Hi; [rewrite before_0; vm_compute; discriminate|].
    destruct (nth_error (alts g A) i) as [r|] eqn:Er; [|apply nth_error_None in Er; lia].
    rewrite (before_S _ i _ (map_nth_error exact_weight i _ Er)). rewrite Nat2Z.inj_succ. unfold Z.succ. rewrite inject_Z_plus. change (inject_Z 1) with 1%Q.
    pose proof (exact_pos A r (nth_error_In _ _ Er)). specialize (IH ltac:(lia)). lra.
  Qed.

  Lemma alts_bound : forall A, (Z.of_nat (length (alts g A)) <= 2 ^ 25)%Z.
  Proof.
    intros A. pose proof (total_ge A _ (Nat.le_refl _)) as HT. pose proof (HB A) as HX. cbn zeta in HX. set (k := Z.of_nat (length (alts g A))) in *.
    assert (K0 : (0 <= k)%Z) by lia. set (S := weight_before (map exact_weight (alts g A)) (length (alts g A))) in *. clearbody S.
    assert (HK : (inject_Z k * (1 # 1000) * inject_Z k <= inject_Z (2 ^ 40))%Q).
    { eapply Qle_trans; [|exact HX]. apply Qmult_le_compat_r; auto. change 0%Q with (inject_Z 0). rewrite <- Zle_Qle. auto. }
    assert (HZ : (k * k <= 1000 * 2 ^ 40)%Z).
    { rewrite Zle_Qle, !inject_Z_mult. change (inject_Z 1000) with 1000%Q. lra. }
    nia.
  Qed.

  Lemma pick_any : forall A r, prods g A r -> exists c, forall rest,
    pick_rhs given (weighted g) A (c ++ rest) = Ok (r, rest).
  Proof.
    intros A r HP. apply alts_In in HP. apply in_map_iff in HP. destruct HP as [x [<- HP]].
    assert (HUA : u32_weights (alts g A)) by (intros y Hy; apply HU; eapply alts_rules; eauto).
    pose proof (alts_bound A) as LB. assert (HBA : (Z.of_nat (length (alts g A)) <= 2 ^ 50)%Z) by lia.
    apply In_nth_error in HP. destruct HP as [i Hi].
    assert (Hil : i < length (alts g A)) by (apply nth_error_Some; congruence).
    destruct (Nat.eq_dec (length (alts g A)) 1) as [E1|E1].
    - exists []. intros rest. apply pick_one; auto. eapply nth_error_In; eauto.
    - pose proof (HB A) as HX. cbn zeta in HX. set (n := length (alts g A)) in *. set (ws := map exact_weight (alts g A)) in *.
      pose proof (from_mono g A HUA HBA) as FM. pose proof (from_near g A HUA HBA) as FN.
      assert (HM : forall a b, a <= b -> (weight_before ws a <= weight_before ws b)%Q)
        by (intros; apply before_mono; auto; apply weights_nonneg).
      assert (H0 : forall j, (0 <= weight_before ws j)%Q) by (intros j; pose proof (HM 0 j (Nat.le_0_l j)) as H; rewrite before_0 in H; auto).
      set (e := p2 (-52)). assert (EE : (inject_Z (2 ^ 40) * e == 1 # 4096)%Q) by reflexivity.
      assert (ERR : forall j, j <= n -> (Qabs (from g A j - weight_before ws j) <= 1 # 4096)%Q).
      { intros j Hj. eapply Qle_trans; [apply FN; auto|]. fold ws e.
        apply Qle_trans with (weight_before ws n * (inject_Z (Z.of_nat n) * e))%Q.
        - assert (inject_Z (Z.of_nat j) * e <= inject_Z (Z.of_nat n) * e)%Q by (unfold e; apply inject_le_mult; lia).
          assert (0 <= inject_Z (Z.of_nat j) * e)%Q.
          { apply Qmult_le_0_compat; [change 0%Q with (inject_Z 0); rewrite <- Zle_Qle; lia|vm_compute; discriminate]. }
          pose proof (HM j n Hj). pose proof (H0 j). apply Qle_trans with (weight_before ws n * (inject_Z (Z.of_nat j) * e))%Q.
          + apply Qmult_le_compat_r; auto.
          + rewrite !(Qmult_comm (weight_before ws n)). apply Qmult_le_compat_r; auto.
        - setoid_replace (weight_before ws n * (inject_Z (Z.of_nat n) * e))%Q with (weight_before ws n * inject_Z (Z.of_nat n) * e)%Q by ring.
          rewrite <- EE. apply Qmult_le_compat_r; auto. vm_compute. discriminate. }
      assert (Hw : nth_error ws i = Some (exact_weight x)) by (apply map_nth_error; auto).
      pose proof (before_S ws i _ Hw) as HS. pose proof (exact_pos A x (nth_error_In _ _ Hi)) as HE.
      pose proof (ERR i ltac:(lia)) as E0. pose proof (ERR (S i) ltac:(lia)) as ES. rewrite abs_bounds in E0, ES.
      assert (TB : (weight_before ws n <= inject_Z (2 ^ 40))%Q).
      { eapply Qle_trans; [|exact HX]. setoid_replace (weight_before ws n) with (weight_before ws n * 1)%Q at 1 by ring.
        rewrite !(Qmult_comm (weight_before ws n)). apply Qmult_le_compat_r; auto. change 1%Q with (inject_Z 1). rewrite <- Zle_Qle. lia. }
      assert (P11 : (p2 (-11) == 1 # 2048)%Q) by reflexivity.
      destruct (float_between (from g A i) (from g A (S i))) as [v [V0 [V1 V2]]].
      + pose proof (FM 0 i (Nat.le_0_l i)) as HF. change (from g A 0) with 0%Q in HF. auto.
      + rewrite P11. lra.
      + pose proof (HM (S i) n ltac:(lia)). apply Qle_trans with (inject_Z (2 ^ 40) + (1 # 4096))%Q; [lra|]. vm_compute. discriminate.
      + exists [v]. intros rest. cbn [app]. destruct (pick_position given g A HUA HBA (v :: rest)) as [Q1 [Q2 _]]; [unfold n in *; lia|].
        assert (VT : (fval v < fval (tot (alts g A)))%Q).
        { rewrite Q2. pose proof (FM (S i) n ltac:(lia)). fold n. lra. }
        assert (GE : given (v :: rest) (tot (alts g A)) = Ok (v, rest)).
        { cbn [given]. unfold in_range. rewrite (cmp_val f64_zero v) by (auto; reflexivity). rewrite (cmp_val v _ V0 Q1).
          rewrite (proj1 (Qlt_alt _ _) VT). change (fval f64_zero) with 0%Q. pose proof (num_nonneg v V0).
          destruct (Qcompare_spec 0 (fval v)); auto. lra. }
        destruct (pick_inside given g A HUA HBA (v :: rest) i x Hi) as [rng' [HP [_ HR]]].
        * intros _. exists v, rest. rewrite Nat.add_1_r. auto.
        * destruct (HR E1) as [v' HV]. rewrite GE in HV. injection HV as _ <-. auto.
  Qed.

  Definition kgen (W res : list nat) (rng : list f64) : @gen (list f64) := mkGen W res (chars_of tc res) rng [] [].

  Lemma generate_yields : forall u w, yields (prods g) u w -> (forall s, In s u -> s < num_syms g) -> Forall (terminal (prods g)) w ->
    exists c, forall W res rest, within (length (res ++ w)) ->
      exists n, steps step (kgen (u ++ W) res (c ++ rest)) n (kgen W (res ++ w) rest).
  Proof.
    induction 1 as [|s u w HY IH|A r u w1 w2 HP HY1 IH1 HY2 IH2]; intros Hu Hw.
    - exists []. intros W res rest _. exists 0. rewrite app_nil_r. constructor.
    - inversion Hw as [|? ? Hs Hw']; subst. destruct IH as [c IH]; auto; [intros; apply Hu; right; auto|].
      exists c. intros W res rest HL.
      destruct (IH W (res ++ [s]) rest) as [n Hn]; [rewrite <- app_assoc; auto|]. exists (S n).
      rewrite <- app_assoc in Hn. apply steps_S with (2 := Hn).
      pose proof (ts_get g HC ts Hts s) as HG. assert (Hsn : s < num_syms g) by (apply Hu; left; auto).
      unfold gen_step, kgen. cbn [g_work app]. destruct (bs_get ts s) as [[|]| |] eqn:Eb; try tauto; try lia.
      + unfold gen_terminal. cbn [g_result g_string g_rng g_back g_work g_attempts map_get].
        replace (match limit with Some lim => (terminals lim <? N.of_nat (length (res ++ [s])))%N | None => false end) with false.
        * rewrite <- chars_snoc. auto.
        * unfold within in HL. destruct limit as [lim|]; auto. symmetry. apply N.ltb_ge.
          rewrite app_length in HL |- *. cbn [length] in *. lia.
      + exfalso. destruct HG as [_ HN]. apply HN. destruct (alts g s) as [|x rs] eqn:Ex; auto. exfalso. apply (Hs (rhs x)).
        apply alts_In. rewrite Ex. left. auto.
    - apply Forall_app in Hw. destruct Hw as [Hw1 Hw2].
      assert (HPr : forall s, In s r -> s < num_syms g).
      { intros s Hs. destruct HP as [x [Hx [H1 H2]]]. destruct (HC x Hx) as [_ Hcl]. rewrite Forall_forall in Hcl.
        apply Hcl. congruence. }
      assert (HAn : A < num_syms g) by (apply Hu; left; auto).
      destruct (IH1 HPr Hw1) as [c1 I1]. destruct IH2 as [c2 I2]; auto; [intros; apply Hu; right; auto|].
      destruct (pick_any A r HP) as [c0 I0].
      exists (c0 ++ c1 ++ c2). intros W res rest HL. rewrite app_assoc in HL.
      assert (HL1 : within (length (res ++ w1))).
      { unfold within in *. destruct limit; auto. rewrite !app_length in *. lia. }
      destruct (I1 (u ++ W) res (c2 ++ rest) HL1) as [n1 S1]. destruct (I2 W (res ++ w1) rest HL) as [n2 S2].
      exists (S (n1 + n2)). apply steps_S with (s1 := kgen (r ++ u ++ W) res (c1 ++ c2 ++ rest)).
      + pose proof (ts_get g HC ts Hts A) as HG. unfold gen_step, kgen. cbn [g_work app].
        destruct (bs_get ts A) as [[|]| |] eqn:Eb; try tauto; try lia.
        * exfalso. destruct HG as [_ HG]. apply (HG r HP).
        * cbn [map_get g_rng g_result g_string g_back g_attempts]. rewrite <- !app_assoc, I0. auto.
      + rewrite (app_assoc res). eapply steps_app; eauto.
  Qed.

  Theorem generate_all : forall start w, start < num_syms g -> language (prods g) start w -> within (length w) ->
    exists c p,
      random given mutate_start to_char p g start limit c [] = Ok (Generated w (chars_of tc w)).
  Proof.
    intros start w Hs [HD HT] HL. apply derives_yields in HD.
    destruct (generate_yields [start] w HD) as [c HY]; auto; [intros s [<-|[]]; auto|].
    destruct (HY [] [] [] HL) as [n Hn]. exists c, n.
    unfold random. rewrite Hts. cbn [bind]. unfold run_loop. change (negative_map []) with (@nil (nat * list nat)).
    assert (E : iter_pow step n (kgen [start] [] c) = inr (Ok (Generated w (chars_of tc w)))).
    { rewrite (app_nil_r c) in Hn. apply (steps_result step _ _ _ _ _ Hn); [reflexivity|apply two_pow_gt]. }
    unfold kgen in E. cbn [chars_of] in E. rewrite E. auto.
  Qed.
End All.
