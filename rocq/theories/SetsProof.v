(** FIRST sets. *)

From Coq Require Import List Arith NArith Bool Lia Sorted Permutation.
From Verif Require Import Base ListFacts Spec GrammarFacts LoopModel LoopFacts HistoryModel CfgModel View
  BitSetModel SetView SetProof CfgProof2 SetsModel SpecPredict.
Import ListNotations.
Local Notation length := List.length.

(** * Maps *)
Lemma map_get_put : forall {V} (m : list (nat * V)) s v t,
  map_get (map_put m s v) t = if s =? t then Some v else map_get m t.
Proof.
  intros V m s v t. induction m as [|[k w] m IH]; cbn [map_put map_get]; auto.
  destruct (Nat.compare_spec s k) as [->|H|H]; cbn [map_get].
  - destruct (k =? t); auto.
  - destruct (s =? t); auto.
  - rewrite IH. destruct (Nat.eqb_spec k t), (Nat.eqb_spec s t); subst; auto. lia.
Qed.

Lemma map_entry_put : forall m s v t, map_entry (map_put m s v) t = if s =? t then v else map_entry m t.
Proof. intros. unfold map_entry. rewrite map_get_put. destruct (s =? t); auto. Qed.

Lemma sort_dedup_In : forall l t, In t (sort_dedup l) <-> In t l.
Proof. intros. unfold sort_dedup. rewrite dedup_In, sort_nat_In. tauto. Qed.

Lemma sort_dedup_sorted : forall l, StronglySorted lt (sort_dedup l).
Proof. intros. apply dedup_sorted, sort_nat_sorted. Qed.

(** Growing a sorted set; the size tells if it changed. *)
Lemma grow : forall v b la, StronglySorted lt (set_list v) ->
  let v' := mkSet (has_none v || b) (sort_dedup (set_list v ++ la)) in
  set_len v <= set_len v' /\
  (set_len v = set_len v' -> (b = true -> has_none v = true) /\ incl la (set_list v)).
Proof.
  intros [hn l] b la HS v'. unfold v', set_len. cbn [has_none set_list] in *.
  pose proof (sorted_lt_NoDup _ HS) as ND. pose proof (sorted_lt_NoDup _ (sort_dedup_sorted (l ++ la))) as ND'.
  assert (HI : incl l (sort_dedup (l ++ la))).
  { intros x Hx. apply sort_dedup_In, in_or_app. auto. }
  pose proof (NoDup_incl_length ND HI) as HL.
  assert (HB : Nat.b2n hn <= Nat.b2n (hn || b)) by (destruct hn, b; simpl; lia).
  split; [lia|]. intros E. assert (E1 : length (sort_dedup (l ++ la)) <= length l) by lia.
  assert (E2 : Nat.b2n hn = Nat.b2n (hn || b)) by lia. split.
  - destruct hn, b; simpl in E2; auto; discriminate.
  - pose proof (NoDup_length_incl ND E1 HI) as HI'. intros x Hx. apply HI'. apply sort_dedup_In, in_or_app. auto.
Qed.

(** Sums over symbols. *)
Fixpoint sum_below (f : nat -> nat) (n : nat) : nat :=
  match n with 0 => 0 | S n' => f n' + sum_below f n' end.

Lemma sum_le : forall f f' n, (forall i, f i <= f' i) -> sum_below f n <= sum_below f' n.
Proof. induction n; simpl; intros; auto. specialize (IHn H). specialize (H n). lia. Qed.

Lemma sum_lt : forall f f' n i, (forall i, f i <= f' i) -> i < n -> f i < f' i -> sum_below f n < sum_below f' n.
Proof.
  induction n; simpl; intros i H Hi Hlt; [lia|]. pose proof (sum_le f f' n H). pose proof (H n).
  destruct (Nat.eq_dec i n) as [->|]; [lia|]. specialize (IHn i H). lia.
Qed.

Lemma sum_bound : forall f n k, (forall i, i < n -> f i <= k) -> sum_below f n <= n * k.
Proof. induction n; simpl; intros k H; auto. pose proof (H n). specialize (IHn k). 
  assert (sum_below f n <= n * k) by (apply IHn; intros; apply H; lia). lia. Qed.

Lemma sorted_below : forall l n, StronglySorted lt l -> (forall x, In x l -> x < n) -> length l <= n.
Proof.
  intros l n HS H. replace n with (length (seq 0 n)) by apply seq_length.
  apply NoDup_incl_length; [apply sorted_lt_NoDup; auto|]. intros x Hx. apply in_seq. specialize (H x Hx). lia.
Qed.

Lemma fuel_enough : forall n k, k <= n * (n + 1) -> (N.of_nat k < 2 ^ N.of_nat (2 * n + 2))%N.
Proof.
  intros n k H. assert (HX : k < 2 ^ (2 * n + 2)).
  { assert (HY : n < 2 ^ n) by (apply Nat.pow_gt_lin_r; lia).
    replace (2 * n + 2) with ((n + 1) + (n + 1)) by lia. rewrite Nat.pow_add_r.
    assert (HZ : n + 1 <= 2 ^ n) by lia. rewrite !Nat.pow_add_r. cbn [Nat.pow].
    assert (n * (n + 1) <= 2 ^ n * 2 ^ n) by (apply Nat.mul_le_mono; lia).
    set (p := 2 ^ n) in *. assert (1 <= p * p) by (destruct p; lia). nia. }
  replace (2 ^ N.of_nat (2 * n + 2))%N with (N.of_nat (2 ^ (2 * n + 2))) by (rewrite Nat2N.inj_pow; reflexivity).
  lia.
Qed.

(** * The symbols collected for a string *)
Section Collect.
  Context (T : nat -> Prop) (V : nat -> set_val).

  Fixpoint col_first (u : list nat) (t : nat) : Prop :=
    match u with
    | [] => False
    | s :: u' => (T s /\ t = s) \/
                 (~ T s /\ (In t (set_list (V s)) \/ (has_none (V s) = true /\ col_first u' t)))
    end.

  Definition col_none (u : list nat) : Prop := Forall (fun s => ~ T s /\ has_none (V s) = true) u.

  Lemma col_first_app : forall u v t, col_first (u ++ v) t <-> col_first u t \/ (col_none u /\ col_first v t).
  Proof.
    unfold col_none. induction u as [|s u IH]; intros v t; cbn [app col_first].
    - split; auto. intros [[]|[_ ?]]; auto.
    - rewrite IH. split.
      + intros [H|[HT [H|[HN [H|[HF H]]]]]]; auto 6.
      + intros [[H|[HT [H|[HN H]]]]|[HF H]]; auto 6. inversion HF as [|? ? [A B] C]; subst. auto 8.
  Qed.
End Collect.

(** Two valuations with the same sets. *)
Definition same_sets (V V' : nat -> set_val) : Prop :=
  forall s, has_none (V s) = has_none (V' s) /\ forall t, In t (set_list (V s)) <-> In t (set_list (V' s)).

Lemma same_sets_refl : forall V, same_sets V V.
Proof. intros V s; split; auto; tauto. Qed.
Lemma same_sets_trans : forall V1 V2 V3, same_sets V1 V2 -> same_sets V2 V3 -> same_sets V1 V3.
Proof. intros V1 V2 V3 H1 H2 s. destruct (H1 s), (H2 s). split; [congruence|]. intros t. rewrite H0. auto. Qed.
Lemma same_sets_sym : forall V1 V2, same_sets V1 V2 -> same_sets V2 V1.
Proof. intros V1 V2 H s. destruct (H s). split; auto. intros t. symmetry. auto. Qed.

Lemma col_first_same : forall T V V' u t, same_sets V V' -> col_first T V u t -> col_first T V' u t.
Proof.
  intros T V V' u t H. induction u as [|s u IH]; cbn [col_first]; auto. destruct (H s) as [E1 E2].
  intros [X|[HT [X|[HN X]]]]; auto.
  - right; split; auto. left. apply E2; auto.
  - right; split; auto. right. split; [congruence|auto].
Qed.
Lemma col_none_same : forall T V V' u, same_sets V V' -> col_none T V u -> col_none T V' u.
Proof.
  intros T V V' u H. apply Forall_impl. intros s [A B]. destruct (H s) as [E _]. split; auto. congruence.
Qed.

Lemma first_set_collect_spec : forall b m u la, Forall (fun s => s < length b) u -> StronglySorted lt la ->
  exists v, first_set_collect b m la u = Ok v /\
  (forall t, In t (set_list v) <-> In t la \/ col_first (member b) (map_entry m) u t) /\
  (has_none v = true <-> col_none (member b) (map_entry m) u).
Proof.
  intros b m u. unfold col_none. induction u as [|s u IH]; intros la HU HL; cbn [first_set_collect col_first].
  - eexists; split; [reflexivity|]. cbn [set_list has_none]. split; [tauto|]. split; auto.
  - inversion HU as [|? ? Hs HU']; subst. destruct (bs_get_ok b s Hs) as [x [E HB]]. rewrite E. cbn [bind].
    destruct x.
    + eexists; split; [reflexivity|]. cbn [set_list has_none]. split.
      * intros t. rewrite sort_dedup_In, in_app_iff. simpl. assert (member b s) by (apply HB; auto). split.
        -- intros [H1|[<-|[]]]; auto.
        -- intros [H1|[[_ ->]|[H1 _]]]; auto; tauto.
      * split; [discriminate|]. intros X. inversion X as [|? ? [HN _] _]; subst. exfalso. apply HN, HB; auto.
    + assert (HN : ~ member b s) by (rewrite <- HB; discriminate).
      destruct (map_get m s) as [v|] eqn:EG.
      * assert (EV : map_entry m s = v) by (unfold map_entry; rewrite EG; auto).
        destruct (has_none v) eqn:EN.
        -- destruct (IH (sort_dedup (la ++ set_list v)) HU' (sort_dedup_sorted _)) as [w [EW [W1 W2]]].
           exists w. split; auto. rewrite EV, EN. split.
           ++ intros t. rewrite W1, sort_dedup_In, in_app_iff. tauto.
           ++ rewrite W2. split.
              ** intros X. constructor; auto. rewrite EV. auto.
              ** intros X. inversion X; auto.
        -- eexists; split; [reflexivity|]. cbn [set_list has_none]. rewrite EV, EN. split.
           ++ intros t. rewrite sort_dedup_In, in_app_iff. split; [tauto|].
              intros [H|[[H _]|[_ [H|[H _]]]]]; auto; [tauto|discriminate].
           ++ split; [discriminate|]. intros X. inversion X as [|? ? [_ Y] _]; subst. congruence.
      * assert (EV : map_entry m s = set_new) by (unfold map_entry; rewrite EG; auto).
        eexists; split; [reflexivity|]. cbn [set_list has_none]. rewrite EV. cbn [set_new has_none set_list]. split.
        -- intros t. split; auto. intros [H|[[H _]|[_ [H|[H _]]]]]; auto; [tauto|destruct H|discriminate].
        -- split; [discriminate|]. intros X. inversion X as [|? ? [_ Y] _]; subst. rewrite EV in Y. discriminate.
Qed.

(** * The fixed point *)
Section First.
  Context (g : cfg) (b : bitset).
  Context (HC : closed_rules g) (LB : length b = num_syms g).
  Context (HB : forall s, member b s <-> s < num_syms g /\ terminal (prods g) s).
  Let n := num_syms g.
  Let P := prods g.

  Record first_inv (m : set_map) : Prop := {
    fi_sorted : forall s, StronglySorted lt (set_list (map_entry m s));
    fi_sound : forall s t, In t (set_list (map_entry m s)) -> t < n /\ begins P [s] t;
    fi_null : forall s, has_none (map_entry m s) = true -> nullable P s;
    fi_keys : forall s, map_get m s <> None -> nonterminal P s
  }.

  Lemma rhs_below : forall x, In x (rules g) -> Forall (fun s => s < n) (rhs x).
  Proof. intros x Hx. apply (HC x Hx). Qed.

  Lemma col_none_sound : forall m u, first_inv m -> col_none (member b) (map_entry m) u -> derives P u [].
  Proof.
    intros m u I H. induction H as [|s u [_ HN] _ IH]; [constructor|].
    apply (derives_cons P s u [] []); auto. apply (fi_null _ I); auto.
  Qed.

  Lemma col_first_sound : forall m u t, first_inv m -> Forall (fun s => s < n) u ->
    col_first (member b) (map_entry m) u t -> t < n /\ begins P u t.
  Proof.
    intros m u t I HU. induction u as [|s u IH]; cbn [col_first]; [tauto|].
    inversion HU as [|? ? Hs HU']; subst. intros [[HT ->]|[_ [Hi|[HN Hc]]]].
    - apply HB in HT. destruct HT as [_ HT]. split; auto. split; auto. exists u. constructor.
    - destruct (fi_sound _ I _ _ Hi) as [A [B [v D]]]. split; auto. split; auto.
      exists (v ++ u). apply (derives_cons P s u (t :: v) u); auto. constructor.
    - destruct (IH HU' Hc) as [A [B [v D]]]. split; auto. split; auto. exists v.
      apply (derives_cons P s u [] (t :: v)); auto. apply (fi_null _ I); auto.
  Qed.

  Definition total (m : set_map) : nat := sum_below (fun s => set_len (map_entry m s)) n.

  (** The sets contain what the rule collects. *)
  Definition rule_closed (V : nat -> set_val) (x : rule) : Prop :=
    (forall t, col_first (member b) V (rhs x) t -> In t (set_list (V (lhs x)))) /\
    (col_none (member b) V (rhs x) -> has_none (V (lhs x)) = true).

  Lemma rule_closed_same : forall V V' x, same_sets V V' -> rule_closed V x -> rule_closed V' x.
  Proof.
    intros V V' x H [A B]. pose proof (same_sets_sym _ _ H) as H'. destruct (H (lhs x)) as [E1 E2]. split.
    - intros t Ht. apply E2, A. eapply col_first_same; eauto.
    - intros Ht. rewrite <- E1. apply B. eapply col_none_same; eauto.
  Qed.

  Lemma process_spec : forall m ch x, In x (rules g) -> first_inv m ->
    exists m' ch', first_process_rule b (m, ch) x = Ok (m', ch') /\ first_inv m' /\
      map_get m' (lhs x) <> None /\ (forall s, map_get m s <> None -> map_get m' s <> None) /\
      total m <= total m' /\
      (ch' = false -> ch = false /\ same_sets (map_entry m) (map_entry m') /\ rule_closed (map_entry m') x) /\
      (ch' = true -> ch = true \/ total m < total m').
  Proof.
    intros m ch x Hx I. pose proof (rhs_below x Hx) as HR.
    destruct (first_set_collect_spec b m (rhs x) []) as [v [E [V1 V2]]]; [rewrite LB; auto|constructor|].
    unfold first_process_rule. rewrite E. cbn [bind].
    pose proof (grow (map_entry m (lhs x)) (has_none v) (set_list v) (fi_sorted _ I (lhs x))) as [G1 G2].
    set (new := mkSet _ _) in *. do 2 eexists. split; [reflexivity|].
    assert (HL : lhs x < n) by (apply (HC x Hx)).
    assert (HP : P (lhs x) (rhs x)) by (exists x; auto).
    assert (Hle : forall s, set_len (map_entry m s) <= set_len (map_entry (map_put m (lhs x) new) s)).
    { intros s. rewrite map_entry_put. destruct (Nat.eqb_spec (lhs x) s); subst; auto. }
    split; [constructor|split; [|split; [|split; [|split]]]].
    - intros s. rewrite map_entry_put. destruct (lhs x =? s); [apply sort_dedup_sorted|apply (fi_sorted _ I)].
    - intros s t. rewrite map_entry_put. destruct (Nat.eqb_spec (lhs x) s) as [<-|]; [|apply (fi_sound _ I)].
      unfold new. cbn [set_list]. rewrite sort_dedup_In, in_app_iff, V1. intros [H|[[]|H]]; [apply (fi_sound _ I); auto|].
      destruct (col_first_sound _ _ _ I HR H) as [A [B [w D]]]. split; auto. split; auto. exists w.
      eapply derives_rule_then; eauto.
    - intros s. rewrite map_entry_put. destruct (Nat.eqb_spec (lhs x) s) as [<-|]; [|apply (fi_null _ I)].
      unfold new. cbn [has_none]. rewrite orb_true_iff. intros [H|H]; [apply (fi_null _ I); auto|].
      apply V2 in H. eapply derives_rule_then; [exact HP|]. eapply col_none_sound; eauto.
    - intros s. rewrite map_get_put. destruct (Nat.eqb_spec (lhs x) s) as [<-|]; [|apply (fi_keys _ I)].
      intros _. exists (rhs x); auto.
    - rewrite map_get_put, Nat.eqb_refl. discriminate.
    - intros s Hs. rewrite map_get_put. destruct (lhs x =? s); [discriminate|auto].
    - apply sum_le. exact Hle.
    - rewrite orb_false_iff, negb_false_iff, Nat.eqb_eq. intros [-> EL]. split; auto.
      destruct (G2 EL) as [N1 N2].
      assert (HS : same_sets (map_entry m) (map_entry (map_put m (lhs x) new))).
      { intros s. rewrite map_entry_put. destruct (Nat.eqb_spec (lhs x) s) as [<-|]; [|split; auto; tauto].
        unfold new. cbn [has_none set_list]. split.
        - destruct (has_none (map_entry m (lhs x))) eqn:EH, (has_none v) eqn:EV; simpl; auto.
        - intros t. rewrite sort_dedup_In, in_app_iff. split; auto. intros [H|H]; auto. }
      split; auto. apply (rule_closed_same _ _ _ HS). split.
      + intros t Ht. apply N2. apply V1. auto.
      + intros Ht. apply N1, V2; auto.
    - rewrite orb_true_iff, negb_true_iff, Nat.eqb_neq. intros [H|H]; auto. right.
      apply sum_lt with (lhs x); auto. rewrite map_entry_put, Nat.eqb_refl. fold new in H. lia.
  Qed.

  Lemma pass_spec : forall l m ch, incl l (rules g) -> first_inv m ->
    exists m' ch', fold_res (first_process_rule b) l (m, ch) = Ok (m', ch') /\ first_inv m' /\
      (forall x, In x l -> map_get m' (lhs x) <> None) /\ (forall s, map_get m s <> None -> map_get m' s <> None) /\
      total m <= total m' /\
      (ch' = false -> ch = false /\ same_sets (map_entry m) (map_entry m') /\
                      forall x, In x l -> rule_closed (map_entry m') x) /\
      (ch' = true -> ch = true \/ total m < total m').
  Proof.
    induction l as [|x l IH]; intros m ch Hl I; cbn [fold_res].
    - exists m, ch. split; auto. split; auto. split; [intros x []|]. split; auto. split; auto. split; auto.
      intros ->. split; auto. split; [apply same_sets_refl|]. intros x [].
    - destruct (process_spec m ch x) as [m1 [ch1 [E1 [I1 [K1 [K2 [L1 [F1 T1]]]]]]]]; auto; [apply Hl; left; auto|].
      rewrite E1. cbn [bind].
      destruct (IH m1 ch1) as [m2 [ch2 [E2 [I2 [K3 [K4 [L2 [F2 T2]]]]]]]]; auto; [intros y Hy; apply Hl; right; auto|].
      exists m2, ch2. split; auto. split; auto. split; [|split; [|split; [|split]]].
      + intros y [<-|Hy]; auto.
      + auto.
      + lia.
      + intros E. destruct (F2 E) as [-> [S2 R2]]. destruct (F1 eq_refl) as [-> [S1 R1]]. split; auto.
        split; [eapply same_sets_trans; eauto|]. intros y [<-|Hy]; auto.
        eapply rule_closed_same; eauto.
      + intros E. destruct (T2 E) as [->|H]; [|right; lia]. destruct (T1 eq_refl); [auto|right; lia].
  Qed.

  Lemma total_bound : forall m, first_inv m -> total m <= n * (n + 1).
  Proof.
    intros m I. apply sum_bound. intros s _. unfold set_len.
    assert (length (set_list (map_entry m s)) <= n).
    { apply sorted_below; [apply (fi_sorted _ I)|]. intros x Hx. apply (fi_sound _ I _ _ Hx). }
    destruct (has_none _); simpl; lia.
  Qed.

  Lemma first_inv_nil : first_inv [].
  Proof. constructor; intros s; unfold map_entry; simpl; intros; try discriminate; try tauto; constructor. Qed.

  (** A map closed under all rules has all terminals of FIRST. *)
  Section Complete.
    Context (m : set_map) (HR : forall x, In x (rules g) -> rule_closed (map_entry m) x).

    Lemma complete : forall u w, yields P u w ->
      (w = [] -> col_none (member b) (map_entry m) u) /\
      (forall t v, w = t :: v -> t < n -> terminal P t -> col_first (member b) (map_entry m) u t).
    Proof.
      assert (HNT : forall A r, P A r -> ~ member b A).
      { intros A r HP X. apply HB in X. destruct X as [_ X]. eapply X; eauto. }
      intros u w H. induction H as [|s u w H IH|A r u w1 w2 HP H1 IH1 H2 IH2].
      - split; [constructor|]. intros; discriminate.
      - split; [discriminate|]. intros t v E Ht HT. injection E as -> ->. cbn [col_first]. left. split; auto. apply HB; auto.
      - destruct IH1 as [A1 A2], IH2 as [B1 B2]. pose proof (HNT _ _ HP) as HN.
        destruct HP as [x [Hx [<- <-]]]. destruct (HR x Hx) as [C1 C2]. split.
        + intros E. apply app_eq_nil in E. destruct E as [-> ->]. constructor; [|apply B1; auto]. split; auto.
        + intros t v E Ht HT. cbn [col_first]. right. split; auto. destruct w1 as [|a w1].
          * right. split; [apply C2; auto|]. apply (B2 t v); auto.
          * left. injection E as -> _. apply C1. apply (A2 t w1); auto.
    Qed.
  End Complete.

  Lemma first_fix_exact : forall m, first_inv m -> (forall x, In x (rules g) -> rule_closed (map_entry m) x) ->
    forall A, nonterminal P A ->
      (forall t, In t (set_list (map_entry m A)) <-> begins P [A] t) /\
      (has_none (map_entry m A) = true <-> nullable P A).
  Proof.
    intros m I HR A [r HA].
    assert (HN : ~ member b A).
    { intros X. apply HB in X. destruct X as [_ X]. eapply X; eauto. }
    split.
    - intros t. split; [intros H; apply (fi_sound _ I); auto|]. intros [HT [v D]].
      assert (Ht : t < n).
      { assert (HF : Forall (fun s => s < n) (t :: v)).
        { eapply derives_Forall; [|exact D|].
          - intros B q [x [Hx [<- <-]]] _. apply rhs_below; auto.
          - constructor; auto. destruct HA as [x [Hx [<- _]]]. apply (HC x Hx). }
        inversion HF; auto. }
      apply derives_yields in D. destruct (complete m HR _ _ D) as [_ H]. specialize (H t v eq_refl Ht HT).
      cbn [col_first] in H. destruct H as [[H _]|[_ [H|[_ []]]]]; [tauto|auto].
    - split; [apply (fi_null _ I)|]. intros D. apply derives_yields in D. destruct (complete m HR _ _ D) as [H _].
      specialize (H eq_refl). inversion H as [|? ? [_ X] _]; auto.
  Qed.

  Lemma first_loop_spec : exists m, run_loop (first_step b (rules g)) (2 * n + 2) [] = Ok m /\ first_inv m /\
    (forall s, map_get m s <> None <-> nonterminal P s) /\
    (forall x, In x (rules g) -> rule_closed (map_entry m) x).
  Proof.
    destruct (iter_pow_ends (first_step b (rules g)) first_inv (fun m => N.of_nat (n * (n + 1) - total m)))
      with (p := 2 * n + 2) (s := @nil (nat * set_val)) as [m [r [I [E1 E2]]]].
    - intros m m' I E. unfold first_step in E.
      destruct (pass_spec (rules g) m false) as [m1 [ch1 [E1 [I1 [_ [_ [L1 [_ T1]]]]]]]]; auto; [apply incl_refl|].
      rewrite E1 in E. destruct ch1; [|discriminate]. injection E as <-. split; auto.
      destruct (T1 eq_refl) as [H|H]; [discriminate|]. pose proof (total_bound _ I1). lia.
    - apply first_inv_nil.
    - apply fuel_enough. lia.
    - unfold run_loop. rewrite E2. unfold first_step in E1.
      destruct (pass_spec (rules g) m false) as [m1 [ch1 [E3 [I1 [K1 [_ [_ [F1 _]]]]]]]]; auto; [apply incl_refl|].
      rewrite E3 in E1. destruct ch1; [discriminate|]. injection E1 as <-. exists m1. split; auto. split; auto.
      destruct (F1 eq_refl) as [_ [_ R]]. split; auto. intros s. split; [apply (fi_keys _ I1)|].
      intros [r' [x [Hx [<- _]]]]. apply K1; auto.
  Qed.
End First.

Theorem first_sets_spec : forall g, closed_rules g -> exists f, first_sets_new g = Ok f /\
  (forall s, s < num_syms g -> (member (fs_terminal_set f) s <-> terminal (prods g) s)) /\
  length (fs_terminal_set f) = num_syms g /\
  (forall A, map_get (fs_map f) A <> None <-> nonterminal (prods g) A) /\
  forall A v, map_get (fs_map f) A = Some v ->
    StronglySorted lt (set_list v) /\
    (forall t, In t (set_list v) <-> begins (prods g) [A] t) /\
    (has_none v = true <-> nullable (prods g) A).
Proof.
  intros g HC. destruct (bs_terminal_spec g HC) as [b [E [L M]]].
  destruct (first_loop_spec g b HC L M) as [m [EM [I [K R]]]].
  exists (mkFirst m b). unfold first_sets_new, terminal_symbols. rewrite E. cbn [bind]. rewrite EM. cbn [bind fs_map fs_terminal_set].
  split; auto. split; [intros s Hs; rewrite M; tauto|]. split; auto. split; auto.
  intros A v EV. assert (HA : nonterminal (prods g) A) by (apply K; congruence).
  assert (EE : map_entry m A = v) by (unfold map_entry; rewrite EV; auto).
  destruct (first_fix_exact g b HC M m I R A HA) as [X Y]. rewrite EE in X, Y.
  split; [rewrite <- EE; apply (fi_sorted _ _ I)|]. auto.
Qed.
