(** The closure with values. *)

From Coq Require Import List Arith NArith Bool Lia.
From Verif Require Import Base Spec SetView ListFacts SymbolModel LoopModel LoopFacts CfgModel View
  BitSetModel ClosureModel SetProof.
Import ListNotations.
Local Notation length := List.length.

Fixpoint sum_of (v : list (option N)) (r : list nat) : option N :=
  match r with
  | [] => Some 0%N
  | s :: r' => match value_of v s, sum_of v r' with
               | Some c, Some d => Some (c + d)%N
               | _, _ => None
               end
  end.

Lemma get_ix_ok : forall {A} (l : list A) i x, get_ix l i = Ok x <-> nth_error l i = Some x.
Proof. intros. unfold get_ix. destruct (nth_error l i); split; intros; congruence. Qed.

Lemma get_value : forall v s x, get_ix v s = Ok x -> value_of v s = x.
Proof. intros. apply get_ix_ok in H. unfold value_of. rewrite H. auto. Qed.

Lemma get_value_lt : forall (v : list (option N)) s, s < length v -> get_ix v s = Ok (value_of v s).
Proof.
  intros. unfold get_ix, value_of. destruct (nth_error v s) eqn:E; auto.
  apply nth_error_None in E. lia.
Qed.

Lemma value_upd : forall (v : list (option N)) s x t, s < length v ->
  value_of (upd v s x) t = if s =? t then x else value_of v t.
Proof.
  intros. unfold value_of. rewrite nth_error_upd.
  destruct (Nat.eqb_spec s t); auto. subst. apply Nat.ltb_lt in H. simpl. rewrite ?H. auto.
Qed.

(** * Sums *)

Lemma sum_values_ok : forall v r acc m, sum_values true v acc r = Ok m ->
  m = option_map (N.add acc) (sum_of v r).
Proof.
  induction r; simpl; intros.
  - inversion H. f_equal. lia.
  - apply bind_ok in H. destruct H as [x [E H]]. apply get_value in E. rewrite E.
    destruct x as [c|]; [|inversion H; auto]. apply bind_ok in H. destruct H as [acc' [E' H]].
    unfold add_u32 in E'. destruct (acc + c <=? u32_max)%N; [|discriminate]. inversion E'; subst acc'.
    apply IHr in H. subst. destruct (sum_of v r); simpl; f_equal. lia.
Qed.

Lemma sum_values_debug : forall v r acc m, sum_values true v acc r = Ok m ->
  sum_values false v acc r = Ok m.
Proof.
  induction r; simpl; intros; auto.
  apply bind_ok in H. destruct H as [x [E H]]. rewrite E. simpl.
  destruct x as [c|]; auto. apply bind_ok in H. destruct H as [acc' [E' H]].
  unfold add_u32 in *. destruct (acc + c <=? u32_max)%N; [|discriminate]. inversion E'; subst acc'.
  simpl. auto.
Qed.

Lemma sum_values_total : forall d v r acc,
  (exists m, sum_values d v acc r = Ok m) \/ sum_values d v acc r = Panic.
Proof.
  induction r; simpl; intros; eauto.
  unfold get_ix. destruct (nth_error v a) as [[c|]|]; simpl; eauto.
  unfold add_u32. destruct (acc + c <=? u32_max)%N; simpl; auto. destruct d; simpl; auto.
Qed.

Definition fits (v : list (option N)) : Prop :=
  forall s c, value_of v s = Some c -> (c <= u32_max)%N.

Lemma sum_values_fits : forall d v r acc c, fits v -> (acc <= u32_max)%N ->
  sum_values d v acc r = Ok (Some c) -> (c <= u32_max)%N.
Proof.
  induction r; simpl; intros.
  - congruence.
  - apply bind_ok in H1. destruct H1 as [x [E H1]]. apply get_value in E.
    destruct x as [e|]; [|discriminate]. apply bind_ok in H1. destruct H1 as [acc' [E' H1]].
    eapply IHr; [| |eauto]; auto. unfold add_u32 in E'.
    destruct (acc + e <=? u32_max)%N eqn:EQ.
    + inversion E'; subst. apply N.leb_le; auto.
    + destruct d; [discriminate|]. injection E' as <-.
      assert (u32_max + 1 <> 0)%N by (unfold u32_max; lia).
      pose proof (N.mod_upper_bound (acc + e) (u32_max + 1) H2).
      set (m := ((acc + e) mod (u32_max + 1))%N) in *. idtac. apply N.lt_succ_r. rewrite <- N.add_1_r. exact H3.
Qed.

(** * Termination *)

Definition weight_of (x : option N) : N := match x with Some c => c | None => (u32_max + 1)%N end.
Definition total (v : list (option N)) : N := fold_right (fun x a => (weight_of x + a)%N) 0%N v.
Definition vmeasure (st : list (option N) * list nat) : N :=
  (total (fst st) + N.of_nat (length (snd st)))%N.

Lemma total_upd : forall v s x, s < length v -> (weight_of x < weight_of (value_of v s))%N ->
  (total (upd v s x) + 1 <= total v)%N.
Proof.
  unfold value_of. induction v; simpl; intros; [lia|]. destruct s; simpl in *.
  - lia.
  - specialize (IHv s x). assert (s < length v) by lia. specialize (IHv H1 H0). lia.
Qed.

Lemma fits_upd : forall v s c, fits v -> (c <= u32_max)%N -> s < length v -> fits (upd v s (Some c)).
Proof.
  unfold fits. intros v s c HF Hc Hs t d H. rewrite value_upd in H; auto.
  destruct (s =? t); [congruence|eauto].
Qed.

Lemma values_rule_spec : forall d l v st id v' st', fits v ->
  values_rule d l (v, st) id = Ok (v', st') ->
  exists r m, nth_error l id = Some r /\ sum_values d v 0 (rhs r) = Ok m /\
  ((v' = v /\ st' = st /\
     match m with
     | None => True
     | Some c => exists c', value_of v (lhs r) = Some c' /\ (c' <= c)%N
     end) \/
   (exists c, m = Some c /\ lhs r < length v /\ v' = upd v (lhs r) (Some c) /\ st' = lhs r :: st /\
     (c <= u32_max)%N /\ (c < weight_of (value_of v (lhs r)))%N)).
Proof.
  intros d l v st id v' st' HF H. unfold values_rule in H.
  apply bind_ok in H. destruct H as [r [Er H]]. apply get_ix_ok in Er.
  apply bind_ok in H. destruct H as [m [Em H]].
  exists r, m. split; auto. split; auto.
  destruct m as [c|]; [|left; inversion H; auto].
  apply bind_ok in H. destruct H as [cur [Ec H]].
  assert (HB : (c <= u32_max)%N) by (eapply sum_values_fits; eauto; unfold u32_max; lia).
  pose proof (get_value _ _ _ Ec) as Ev. rewrite Ev.
  destruct (match cur with Some c0 => (c0 <=? c)%N | None => false end) eqn:ES.
  - inversion H; subst v' st'. left; split; auto. split; auto.
    destruct cur as [c0|]; [|discriminate]. exists c0; split; auto. apply N.leb_le; auto.
  - apply bind_ok in H. destruct H as [v1 [E1 H]]. unfold set_ix in E1.
    destruct (lhs r <? length v) eqn:EL; [|discriminate]. apply Nat.ltb_lt in EL.
    right. exists c. inversion E1; subst v1. inversion H; subst v' st'. repeat split; auto.
    destruct cur as [c0|]; simpl; [apply N.leb_gt; auto|unfold u32_max in *; lia].
Qed.

Lemma values_rule_measure : forall d l v st id v' st', fits v ->
  values_rule d l (v, st) id = Ok (v', st') ->
  fits v' /\ length v' = length v /\ (vmeasure (v', st') <= vmeasure (v, st))%N.
Proof.
  intros d l v st id v' st' HF H.
  destruct (values_rule_spec _ _ _ _ _ _ _ HF H) as [r [m [_ [_ [[-> [-> _]]|[c [_ [HL [-> [-> [HC HW]]]]]]]]]]].
  - split; auto. split; auto. reflexivity.
  - split; [apply fits_upd; auto|]. split; [apply upd_length|].
    unfold vmeasure; simpl fst; simpl snd. pose proof (total_upd v (lhs r) (Some c) HL HW).
    cbn [length]. lia.
Qed.

Lemma values_rule_res : forall d l st id,
  (exists st', values_rule d l st id = Ok st') \/ values_rule d l st id = Panic.
Proof.
  intros d l [v st] id. unfold values_rule.
  assert (HG : forall A (l : list A) i, (exists x, get_ix l i = Ok x) \/ get_ix l i = Panic).
  { intros. unfold get_ix. destruct (nth_error l0 i); eauto. }
  destruct (HG _ l id) as [[r E]|E]; rewrite E; simpl; auto.
  destruct (sum_values_total d v (rhs r) 0) as [[m Em]|Em]; rewrite Em; simpl; auto.
  destruct m; [|eauto]. destruct (HG _ v (lhs r)) as [[o Eo]|Eo]; rewrite Eo; simpl; auto.
  destruct (match o with Some c0 => (c0 <=? n)%N | None => false end); [eauto|].
  unfold set_ix. destruct (lhs r <? length v); simpl; eauto.
Qed.

Lemma values_rules_measure : forall d l ids v st v' st', fits v ->
  fold_res (values_rule d l) ids (v, st) = Ok (v', st') ->
  fits v' /\ length v' = length v /\ (vmeasure (v', st') <= vmeasure (v, st))%N.
Proof.
  induction ids as [|id ids IH]; intros v st v' st' HF H; cbn [fold_res] in H.
  - inversion H; subst. split; auto. split; auto. reflexivity.
  - apply bind_ok in H. destruct H as [[v1 st1] [E H]].
    apply values_rule_measure in E; auto. destruct E as [F1 [L1 M1]].
    apply IH in H; auto. destruct H as [F2 [L2 M2]]. split; auto. split; [congruence|]. lia.
Qed.

Lemma values_rules_res : forall d l ids st,
  (exists st', fold_res (values_rule d l) ids st = Ok st') \/ fold_res (values_rule d l) ids st = Panic.
Proof.
  induction ids; intros; cbn [fold_res]; eauto.
  destruct (values_rule_res d l st a) as [[st' E]|E]; rewrite E; simpl; auto.
Qed.

Lemma valued_from_In : forall v i s, In s (valued_from i v) <-> exists k c, s = i + k /\ value_of v k = Some c.
Proof.
  unfold value_of. induction v; simpl; intros.
  - split; [tauto|]. intros [k [c [_ H]]]. destruct k; discriminate.
  - destruct a as [e|]; simpl; rewrite IHv; split.
    + intros [<-|[k [c [-> H]]]]; [exists 0, e|exists (S k), c]; simpl; split; auto; lia.
    + intros [[|k] [c [-> H]]]; simpl in *; [left; lia|right; exists k, c; split; auto; lia].
    + intros [k [c [-> H]]]. exists (S k), c; simpl; split; auto; lia.
    + intros [[|k] [c [-> H]]]; simpl in *; [discriminate|exists k, c; split; auto; lia].
Qed.

Lemma valued_length : forall v i, length (valued_from i v) <= length v.
Proof. induction v; simpl; intros; auto. destruct a; simpl; specialize (IHv (S i)); lia. Qed.

Lemma total_bound : forall v, fits v -> (total v <= N.of_nat (length v) * (u32_max + 1))%N.
Proof.
  induction v; intros HF; simpl total; [lia|].
  assert (fits v) by (intros s c H; apply (HF (S s) c); auto).
  specialize (IHv H). assert (weight_of a <= u32_max + 1)%N.
  { destruct a; cbn [weight_of]; [|lia]. specialize (HF 0 n eq_refl). lia. }
  cbn [length]. rewrite Nat2N.inj_succ. nia.
Qed.

Lemma start_measure : forall v, fits v ->
  (vmeasure (v, rev (valued_from 0 v)) < 2 ^ N.of_nat (35 + length v))%N.
Proof.
  intros v HF. unfold vmeasure; simpl fst; simpl snd. rewrite rev_length.
  pose proof (valued_length v 0). pose proof (total_bound v HF).
  rewrite Nat2N.inj_add, N.pow_add_r.
  assert (HP : (N.of_nat (length v) < 2 ^ N.of_nat (length v))%N) by (apply N.pow_gt_lin_r; lia).
  change (N.of_nat 35) with 35%N. change (2 ^ 35)%N with 34359738368%N.
  unfold u32_max in *. set (n := N.of_nat (length v)) in *.
  assert (N.of_nat (length (valued_from 0 v)) <= n)%N by (unfold n; lia).
  set (e := (2 ^ n)%N) in *. lia.
Qed.

(** * Release builds agree as long as nothing overflows *)

Lemma values_rule_release : forall l st id st', values_rule true l st id = Ok st' ->
  values_rule false l st id = Ok st'.
Proof.
  intros l [v stack] id st' H. unfold values_rule in *.
  apply bind_ok in H. destruct H as [r [E H]]. rewrite E. simpl.
  apply bind_ok in H. destruct H as [m [Em H]]. apply sum_values_debug in Em. rewrite Em. simpl. auto.
Qed.

Lemma values_rules_release : forall l ids st st', fold_res (values_rule true l) ids st = Ok st' ->
  fold_res (values_rule false l) ids st = Ok st'.
Proof.
  induction ids; cbn [fold_res]; intros; auto.
  apply bind_ok in H. destruct H as [x [E H]]. apply values_rule_release in E. rewrite E. simpl. auto.
Qed.

Lemma iter_release : forall l occ p st,
  match iter_pow (values_step true l occ) p st with
  | inl st' => iter_pow (values_step false l occ) p st = inl st'
  | inr (Ok v) => iter_pow (values_step false l occ) p st = inr (Ok v)
  | inr _ => True
  end.
Proof.
  induction p; simpl; intros.
  - destruct st as [v [|s stack]]; simpl; auto.
    destruct (fold_res (values_rule true l) (occ s) (v, stack)) eqn:E; auto.
    apply values_rules_release in E. rewrite E. auto.
  - pose proof (IHp st). destruct (iter_pow (values_step true l occ) p st) as [st'|[v| |]]; auto.
    + rewrite H. apply IHp.
    + rewrite H. auto.
Qed.

Opaque iter_pow.

Lemma values_end : forall d l occ v (I : list (option N) * list nat -> Prop),
  fits v ->
  I (v, rev (valued_from 0 v)) ->
  (forall st st', fits (fst st) -> I st -> values_step d l occ st = inl st' -> I st') ->
  exists r, run_loop (values_step d l occ) (35 + length v) (v, rev (valued_from 0 v)) = r /\
    ((exists v', r = Ok v' /\ length v' = length v /\ fits v' /\ I (v', [])) \/
     (r = Panic /\ exists v' s st', fits v' /\ length v' = length v /\ I (v', s :: st') /\
                     fold_res (values_rule d l) (occ s) (v', st') = Panic)).
Proof.
  intros d l occ v I HF HI HS.
  destruct (iter_pow_ends (values_step d l occ)
    (fun st => I st /\ fits (fst st) /\ length (fst st) = length v) vmeasure)
    with (p := 35 + length v) (s := (v, rev (valued_from 0 v))) as [st [r [[I1 [F1 L1]] [E1 E2]]]].
  - intros [v1 st1] st' [HI1 [HF1 HL1]] E. simpl in HF1, HL1. split.
    + split; [apply (HS (v1, st1)); auto|]. unfold values_step in E. destruct st1 as [|s st1]; [discriminate|]. cbv beta iota in E.
      destruct (fold_res (values_rule d l) (occ s) (v1, st1)) eqn:E'; inversion E; subst.
      destruct st' as [v2 st2]. pose proof (values_rules_measure _ _ _ _ _ _ _ HF1 E') as HM. clear E'. rename HM into E'. simpl. destruct E' as [? [? ?]].
      split; auto; congruence.
    + unfold values_step in E. destruct st1 as [|s st1]; [discriminate|]. cbv beta iota in E.
      destruct (fold_res (values_rule d l) (occ s) (v1, st1)) eqn:E'; inversion E; subst.
      destruct st' as [v2 st2]. pose proof (values_rules_measure _ _ _ _ _ _ _ HF1 E') as HM. clear E'. rename HM into E'. destruct E' as [? [? ?]].
      unfold vmeasure in *; simpl fst in *; simpl snd in *. cbn [length]. lia.
  - auto.
  - apply start_measure; auto.
  - exists r. split; [unfold run_loop; rewrite E2; auto|].
    destruct st as [v1 st1]. simpl in F1, L1. unfold values_step in E1. destruct st1 as [|s st1]; cbv beta iota in E1.
    + left. inversion E1; subst. eauto 6.
    + right. destruct (values_rules_res d l (occ s) (v1, st1)) as [[x E]|E]; rewrite E in E1; inversion E1; subst.
      split; auto. exists v1, s, st1. auto.
Qed.

(** The closure ends, in debug and in release builds. *)
Theorem values_terminates : forall d g v, fits v ->
  (exists v', rhs_closure_with_values d g v = Ok v') \/ rhs_closure_with_values d g v = Panic.
Proof.
  intros. destruct (values_end d (rules g) (occ_from_rules (rules g)) v (fun _ => True))
    as [r [E [[v' [-> _]]|[-> _]]]]; auto.
  - left. exists v'. exact E.
Qed.

(** * Exactness *)

Lemma forest_cons : forall P v0 s c u d,
  tree_cost P v0 s c -> forest P v0 u d -> forest P v0 (s :: u) (c + d).
Proof.
  unfold tree_cost. intros P v0 s c u d H H1. inversion H; subst.
  - inversion H5; subst. rewrite N.add_0_r. apply forest_leaf; auto.
  - inversion H7; subst. rewrite N.add_0_r. eapply forest_node; eauto.
Qed.

Lemma forest_cons_inv : forall P v0 s u x, forest P v0 (s :: u) x ->
  exists c d, x = (c + d)%N /\ tree_cost P v0 s c /\ forest P v0 u d.
Proof.
  intros P v0 s u x H. inversion H; subst; exists c, d; repeat split; auto; unfold tree_cost.
  - rewrite <- (N.add_0_r c). apply forest_leaf; auto. constructor.
  - rewrite <- (N.add_0_r c). eapply forest_node; eauto. constructor.
Qed.

(** Trees in which no symbol occurs below itself and every node costs at least the present value. *)
Inductive gforest (P : productions) (v0 v : nat -> option N) : list nat -> list nat -> N -> Prop :=
| gf_nil : forall avoid, gforest P v0 v avoid [] 0
| gf_leaf : forall avoid s u c d c',
    ~ In s avoid -> v0 s = Some c -> v s = Some c' -> (c' <= c)%N -> gforest P v0 v avoid u d ->
    gforest P v0 v avoid (s :: u) (c + d)
| gf_node : forall avoid A r u c d c',
    ~ In A avoid -> P A r -> r <> [] -> gforest P v0 v (A :: avoid) r c -> v A = Some c' -> (c' <= c)%N ->
    gforest P v0 v avoid u d -> gforest P v0 v avoid (A :: u) (c + d).

Lemma gforest_short : forall P v0 v avoid u c, gforest P v0 v avoid u c -> short_forest P v0 avoid u c.
Proof. induction 1; [constructor|eapply sf_leaf; eauto|eapply sf_node; eauto]. Qed.

Lemma gforest_lower : forall P v0 v w avoid u c,
  (forall s x, v s = Some x -> exists y, w s = Some y /\ (y <= x)%N) ->
  gforest P v0 v avoid u c -> gforest P v0 w avoid u c.
Proof.
  intros P v0 v w avoid u c HW. induction 1 as [|avoid s u c d c' Ha H0 H1 H2 _ IH|avoid A r u c d c' Ha HP Hn _ IH1 H1 H2 _ IH2].
  - constructor.
  - destruct (HW _ _ H1) as [y [Hy Hl]]. eapply gf_leaf; eauto. lia.
  - destruct (HW _ _ H1) as [y [Hy Hl]]. eapply gf_node; eauto. lia.
Qed.

Lemma gforest_avoid : forall P v0 v avoid u c A,
  gforest P v0 v avoid u c -> (forall x, v A = Some x -> (c < x)%N) ->
  forall avoid', (forall s, In s avoid' -> s = A \/ In s avoid) -> gforest P v0 v avoid' u c.
Proof.
  intros P v0 v avoid u c A. induction 1 as [|avoid s u c d c' Ha H0 H1 H2 _ IH|avoid B r u c d c' Ha HP Hn _ IH1 H1 H2 _ IH2];
    intros HA avoid' HI.
  - constructor.
  - eapply gf_leaf; eauto.
    + intros Hs. destruct (HI _ Hs) as [->|Hs']; auto. specialize (HA _ H1). lia.
    + apply IH; auto. intros x Hx. specialize (HA _ Hx). lia.
  - eapply gf_node; eauto.
    + intros Hs. destruct (HI _ Hs) as [->|Hs']; auto. specialize (HA _ H1). lia.
    + apply IH1; [intros x Hx; specialize (HA _ Hx); lia|]. intros s [<-|Hs]; [right; left; auto|].
      destruct (HI _ Hs); auto. right; right; auto.
    + apply IH2; auto. intros x Hx. specialize (HA _ Hx). lia.
Qed.

Lemma gforest_app : forall P v0 v avoid u c u' c', gforest P v0 v avoid u c -> gforest P v0 v avoid u' c' ->
  gforest P v0 v avoid (u ++ u') (c + c').
Proof.
  intros P v0 v avoid u c u' c' H H'. induction H; simpl; auto.
  - rewrite <- N.add_assoc. eapply gf_leaf; eauto.
  - rewrite <- N.add_assoc. eapply gf_node; eauto.
Qed.

Section Exact.
  Context (g : cfg) (v_init : list (option N)).
  Notation P := (prods g).
  Notation v0 := (value_of v_init).

  Lemma sum_gforest : forall v r c,
    (forall s c, value_of v s = Some c -> gforest P v0 (value_of v) [] [s] c) ->
    sum_of v r = Some c -> gforest P v0 (value_of v) [] r c.
  Proof.
    induction r; simpl; intros.
    - inversion H0. constructor.
    - destruct (value_of v a) eqn:E; [|discriminate]. destruct (sum_of v r) eqn:E2; [|discriminate].
      inversion H0; subst. change (a :: r) with ([a] ++ r). apply gforest_app; auto.
  Qed.

  Lemma sum_forest : forall v r c, (forall s c, value_of v s = Some c -> tree_cost P v0 s c) ->
    sum_of v r = Some c -> forest P v0 r c.
  Proof.
    induction r; simpl; intros.
    - inversion H0. constructor.
    - destruct (value_of v a) eqn:E; [|discriminate]. destruct (sum_of v r) eqn:E2; [|discriminate].
      inversion H0; subst. apply forest_cons; auto.
  Qed.

  Record vinv (v : list (option N)) : Prop := {
    vi_sound : forall s c, value_of v s = Some c -> tree_cost P v0 s c;
    vi_init : forall s c, v0 s = Some c -> exists c', value_of v s = Some c' /\ (c' <= c)%N;
    vi_tree : forall s c, value_of v s = Some c -> gforest P v0 (value_of v) [] [s] c
  }.

  Definition relaxed (v : list (option N)) (stack : list nat) (cur : nat) (pending : list nat) : Prop :=
    forall id r c, nth_error (rules g) id = Some r -> rhs r <> [] -> sum_of v (rhs r) = Some c ->
      (exists c', value_of v (lhs r) = Some c' /\ (c' <= c)%N) \/
      (exists s, In s (rhs r) /\ In s stack) \/ (In cur (rhs r) /\ In id pending).

  Lemma sum_of_upd : forall v s x r, s < length v -> ~ In s r -> sum_of (upd v s x) r = sum_of v r.
  Proof.
    induction r; simpl; intros; auto. rewrite value_upd; auto.
    destruct (Nat.eqb_spec s a); [subst; tauto|]. rewrite IHr; auto.
  Qed.

  Lemma values_rule_inv : forall cur v stack id pending v' stack',
    fits v -> vinv v -> relaxed v stack cur (id :: pending) ->
    (exists r, nth_error (rules g) id = Some r /\ In cur (rhs r)) ->
    values_rule true (rules g) (v, stack) id = Ok (v', stack') ->
    vinv v' /\ relaxed v' stack' cur pending.
  Proof.
    intros cur v stack id pending v' stack' HF [VS VI VT] HR [r0 [Hr0 Hin]] E.
    destruct (values_rule_spec _ _ _ _ _ _ _ HF E) as [r [m [Hr [Em H]]]].
    assert (r0 = r) by congruence. subst r0. apply sum_values_ok in Em.
    destruct H as [[-> [-> H]]|[c [-> [HL [-> [-> [HC HW]]]]]]].
    - split; [constructor; auto|]. intros id' r' c' Hr' Hne HS.
      destruct (HR id' r' c' Hr' Hne HS) as [?|[?|[H1 [<-|H2]]]]; auto.
      left. assert (r' = r) by congruence. subst r'. rewrite HS in Em. simpl in Em. subst m. simpl in H. auto.
    - assert (HS : sum_of v (rhs r) = Some c).
      { destruct (sum_of v (rhs r)); simpl in Em; [inversion Em; auto|discriminate]. }
      clear Em.
      assert (Hne : rhs r <> []) by (intros HE; rewrite HE in Hin; destruct Hin).
      assert (HDEC : forall t e, value_of v t = Some e -> exists e', value_of (upd v (lhs r) (Some c)) t = Some e' /\ (e' <= e)%N).
      { intros t e Ht. rewrite value_upd; auto. destruct (Nat.eqb_spec (lhs r) t).
        - exists c; split; auto. subst t. rewrite Ht in HW. simpl in HW. lia.
        - exists e; split; auto; lia. }
      split.
      + constructor.
        * intros t e. rewrite value_upd; auto. destruct (Nat.eqb_spec (lhs r) t); auto.
          intros HX. inversion HX; subst. unfold tree_cost. rewrite <- (N.add_0_r e).
          apply forest_node with (r := rhs r); auto.
          -- exists r; split; auto. eapply nth_error_In; eauto.
          -- eapply sum_forest; eauto.
          -- constructor.
        * intros t e Ht. destruct (VI t e Ht) as [e1 [H1 H2]]. destruct (HDEC t e1 H1) as [e2 [H3 H4]].
          exists e2; split; auto. lia.
        * intros t e. rewrite value_upd; auto. destruct (Nat.eqb_spec (lhs r) t) as [Et|Hn]; intros HX.
          -- subst t. injection HX as <-.
             set (w := value_of (upd v (lhs r) (Some c))) in *. cut (gforest P v0 w [] [lhs r] (c + 0)%N); [rewrite N.add_0_r; auto|].
             eapply gf_node with (r := rhs r) (c' := c); auto.
             ++ exists r; split; auto. eapply nth_error_In; eauto.
             ++ eapply gforest_lower; [exact HDEC|]. eapply gforest_avoid with (A := lhs r).
                ** apply sum_gforest; eauto.
                ** intros x Hx. rewrite Hx in HW. simpl in HW. exact HW.
                ** intros s [->|[]]. auto.
             ++ unfold w. rewrite value_upd, Nat.eqb_refl; auto.
             ++ lia.
             ++ constructor.
          -- eapply gforest_lower; [exact HDEC|]. auto.
      + intros id' r' c' Hr' Hne' HS'.
        destruct (in_dec Nat.eq_dec (lhs r) (rhs r')) as [Hi|Hi].
        * right; left. exists (lhs r); simpl; auto.
        * rewrite sum_of_upd in HS'; auto.
          destruct (HR id' r' c' Hr' Hne' HS') as [[e [H1 H2]]|[[s [H1 H2]]|[H1 [<-|H2]]]].
          -- left. destruct (HDEC _ _ H1) as [e' [H3 H4]]. exists e'; split; auto. lia.
          -- right; left. exists s; simpl; auto.
          -- left. assert (r' = r) by congruence. subst r'. rewrite HS in HS'. inversion HS'; subst.
             exists c'. rewrite value_upd, Nat.eqb_refl; auto. split; auto. lia.
          -- right; right; auto.
  Qed.

  Lemma values_rules_inv : forall cur ids v stack v' stack',
    fits v -> vinv v -> relaxed v stack cur ids ->
    (forall id, In id ids -> exists r, nth_error (rules g) id = Some r /\ In cur (rhs r)) ->
    fold_res (values_rule true (rules g)) ids (v, stack) = Ok (v', stack') ->
    vinv v' /\ relaxed v' stack' cur [].
  Proof.
    induction ids as [|id ids IH]; intros v stack v' stack' HF HV HR HO E; cbn [fold_res] in E.
    - inversion E; subst; auto.
    - apply bind_ok in E. destruct E as [[v1 st1] [E1 E]].
      pose proof (values_rule_measure _ _ _ _ _ _ _ HF E1) as [F1 _].
      apply values_rule_inv with (cur := cur) (pending := ids) in E1; auto; [|apply HO; simpl; auto].
      destruct E1 as [V1 R1]. eapply IH; eauto. intros. apply HO; simpl; auto.
  Qed.

  Definition Vinv (st : list (option N) * list nat) : Prop :=
    vinv (fst st) /\ relaxed (fst st) (snd st) 0 [].

  Lemma relaxed_pop : forall v s stack, relaxed v (s :: stack) 0 [] ->
    relaxed v stack s (occ_from_rules (rules g) s).
  Proof.
    intros v s stack HR id r c Hr Hne HS.
    destruct (HR id r c Hr Hne HS) as [?|[[t [H1 [<-|H2]]]|[_ []]]]; auto.
    - right; right; split; auto. apply occ_In. eauto.
    - right; left; eauto.
  Qed.

  Lemma values_step_inv : forall st st', fits (fst st) -> Vinv st ->
    values_step true (rules g) (occ_from_rules (rules g)) st = inl st' -> Vinv st'.
  Proof.
    intros [v stack] st' HF [HV HR] E. simpl in *. destruct stack as [|s stack]; [discriminate|].
    destruct (fold_res (values_rule true (rules g)) (occ_from_rules (rules g) s) (v, stack)) eqn:EF; inversion E; subst.
    destruct st' as [v' stack'].
    apply values_rules_inv with (cur := s) in EF; auto.
    - destruct EF as [V1 R1]. split; auto. intros id r c Hr Hne HS.
      destruct (R1 id r c Hr Hne HS) as [?|[?|[_ []]]]; auto.
    - apply relaxed_pop; auto.
    - intros id Hid. apply occ_In in Hid. auto.
  Qed.

  Hypothesis (HF0 : fits v_init).

  Lemma Vinv_start : Vinv (v_init, rev (valued_from 0 v_init)).
  Proof.
    split; simpl.
    - constructor.
      + intros s c H. unfold tree_cost. rewrite <- (N.add_0_r c). apply forest_leaf; auto. constructor.
      + intros s c H. exists c; split; auto; lia.
      + intros s c H. rewrite <- (N.add_0_r c). eapply gf_leaf; eauto; [lia|constructor].
    - intros id r c Hr Hne HS. right; left. destruct (rhs r) as [|a q]; [congruence|].
      simpl in HS. destruct (value_of v_init a) eqn:E; [|discriminate].
      exists a; simpl; split; auto. rewrite <- in_rev. apply valued_from_In. exists a, n; auto.
  Qed.

  Lemma Vinv_final : forall v', Vinv (v', []) -> forall s, least (tree_cost P v0 s) (value_of v' s).
  Proof.
    intros v' [[VS VI _] HR] s. simpl in *.
    assert (HX : forall u c, forest P v0 u c -> exists c', sum_of v' u = Some c' /\ (c' <= c)%N).
    { clear s. induction 1.
      - exists 0%N; simpl; split; auto; lia.
      - destruct (VI s c H) as [c' [H1 H2]]. destruct IHforest as [d' [H3 H4]].
        exists (c' + d')%N. simpl. rewrite H1, H3. split; auto. lia.
      - destruct H as [x [Hx [<- <-]]]. destruct IHforest1 as [c1 [H3 H4]]. destruct IHforest2 as [d' [H5 H6]].
        apply In_nth_error in Hx. destruct Hx as [id Hid].
        destruct (HR id x c1 Hid H0 H3) as [[c' [H7 H8]]|[[? [_ []]]|[_ []]]].
        exists (c' + d')%N. simpl. rewrite H7, H5. split; auto. lia. }
    assert (HY : forall d, tree_cost P v0 s d -> exists c', value_of v' s = Some c' /\ (c' <= d)%N).
    { intros d Hd. apply HX in Hd. destruct Hd as [c' [H1 H2]]. simpl in H1.
      destruct (value_of v' s); [|discriminate]. exists n; split; auto. inversion H1. lia. }
    unfold least. destruct (value_of v' s) eqn:E.
    - split; auto. intros d Hd. destruct (HY d Hd) as [c' [H1 H2]]. inversion H1; subst; auto.
    - intros d Hd. destruct (HY d Hd) as [c' [H1 H2]]. discriminate.
  Qed.

  Theorem values_exact : forall v', rhs_closure_with_values true g v_init = Ok v' ->
    length v' = length v_init /\ forall s, least (tree_cost P v0 s) (value_of v' s).
  Proof.
    intros v' E.
    destruct (values_end true (rules g) (occ_from_rules (rules g)) v_init Vinv) as [r [E' H]]; auto.
    - apply Vinv_start.
    - apply values_step_inv.
    - unfold rhs_closure_with_values in E. rewrite E' in E. subst r.
      destruct H as [[v1 [EQ [HL [HF HI]]]]|[EQ _]]; [|discriminate].
      inversion EQ; subst v1. split; auto. apply Vinv_final; auto.
  Qed.

  (** No sum that the code forms exceeds u32. *)
  Definition sums_fit : Prop := forall A r pre suf c, P A r -> r = pre ++ suf ->
    short_forest P v0 [] pre c -> (c <= u32_max)%N.

  Hypothesis (HC : closed_rules g) (HL0 : num_syms g <= length v_init) (HS : sums_fit).

  Lemma sum_values_no_panic : forall v r x, In x (rules g) -> length v = length v_init -> vinv v ->
    forall pre acc, rhs x = pre ++ r -> gforest P v0 (value_of v) [] pre acc -> sum_values true v acc r <> Panic.
  Proof.
    intros v r x Hx HL HV. induction r as [|s r IH]; intros pre acc ER HP; simpl; [discriminate|].
    destruct (HC x Hx) as [_ HB]. rewrite ER in HB. rewrite Forall_forall in HB.
    assert (Hs : s < length v) by (rewrite HL; eapply Nat.lt_le_trans; [apply HB, in_elt|auto]).
    rewrite get_value_lt; auto. simpl. destruct (value_of v s) as [c|] eqn:E; [|discriminate].
    assert (HP' : gforest P v0 (value_of v) [] (pre ++ [s]) (acc + c)%N).
    { apply gforest_app; auto. apply (vi_tree v HV s c E). }
    unfold add_u32.
    assert (HB2 : (acc + c <= u32_max)%N).
    { eapply HS with (A := lhs x) (r := rhs x) (suf := r); [exists x; auto| |eapply gforest_short; eauto].
      rewrite ER, <- app_assoc. auto. }
    apply N.leb_le in HB2. rewrite HB2. simpl. eapply IH; eauto. rewrite ER, <- app_assoc. auto.
  Qed.

  Lemma values_rule_no_panic : forall v stack id, length v = length v_init -> vinv v ->
    id < length (rules g) -> values_rule true (rules g) (v, stack) id <> Panic.
  Proof.
    intros v stack id HL HV Hid. unfold values_rule. unfold get_ix at 1.
    destruct (nth_error (rules g) id) as [r|] eqn:Er; [|apply nth_error_None in Er; lia].
    simpl. assert (Hr : In r (rules g)) by (eapply nth_error_In; eauto).
    pose proof (sum_values_no_panic v (rhs r) r Hr HL HV [] 0%N eq_refl (gf_nil _ _ _ _)) as HN.
    destruct (sum_values_total true v (rhs r) 0) as [[m E]|E]; [|contradiction].
    rewrite E. simpl. destruct m; [|discriminate].
    destruct (HC r Hr) as [Hl _]. rewrite get_value_lt by lia. simpl.
    destruct (match value_of v (lhs r) with Some c0 => (c0 <=? n)%N | None => false end); [discriminate|].
    unfold set_ix. replace (lhs r <? length v) with true by (symmetry; apply Nat.ltb_lt; lia).
    discriminate.
  Qed.

  Lemma values_rules_no_panic : forall cur ids v stack, fits v -> length v = length v_init -> vinv v ->
    relaxed v stack cur ids ->
    (forall id, In id ids -> exists r, nth_error (rules g) id = Some r /\ In cur (rhs r)) ->
    fold_res (values_rule true (rules g)) ids (v, stack) <> Panic.
  Proof.
    induction ids as [|id ids IH]; intros v stack HF HL HV HR HO; cbn [fold_res]; [discriminate|].
    destruct (values_rule_res true (rules g) (v, stack) id) as [[[v1 st1] E]|E].
    - rewrite E. cbn [bind]. pose proof (values_rule_measure _ _ _ _ _ _ _ HF E) as [F1 [L1 _]].
      apply values_rule_inv with (cur := cur) (pending := ids) in E; auto; [|apply HO; simpl; auto].
      destruct E as [V1 R1]. apply IH; auto; [congruence|]. intros. apply HO; simpl; auto.
    - exfalso. eapply values_rule_no_panic; [| |  |exact E]; auto.
      destruct (HO id) as [r [Hr _]]; simpl; auto. apply nth_error_Some. congruence.
  Qed.

  Theorem values_no_panic : exists v', rhs_closure_with_values true g v_init = Ok v'.
  Proof.
    destruct (values_end true (rules g) (occ_from_rules (rules g)) v_init Vinv) as [r [E H]]; auto.
    - apply Vinv_start.
    - apply values_step_inv.
    - destruct H as [[v1 [EQ _]]|[EQ [v' [s [st' [HF [HL [HI HP]]]]]]]].
      + exists v1. unfold rhs_closure_with_values. congruence.
      + exfalso. destruct HI as [HV HR]. simpl in *.
        eapply values_rules_no_panic; [| | | |  |exact HP]; auto.
        * apply relaxed_pop; auto.
        * intros id Hid. apply occ_In in Hid. auto.
  Qed.
End Exact.

Lemma values_fit : forall d g v v', fits v -> rhs_closure_with_values d g v = Ok v' -> fits v'.
Proof.
  intros d g v v' HF E. unfold rhs_closure_with_values in E.
  destruct (values_end d (rules g) (occ_from_rules (rules g)) v (fun _ => True)) as [r [E' H]]; auto.
  rewrite E' in E. subst r. destruct H as [[v1 [EQ [_ [HB _]]]]|[EQ _]]; [|discriminate].
  injection EQ as <-. auto.
Qed.

Lemma values_len : forall d g v v', fits v -> rhs_closure_with_values d g v = Ok v' -> length v' = length v.
Proof.
  intros d g v v' HF E. unfold rhs_closure_with_values in E.
  destruct (values_end d (rules g) (occ_from_rules (rules g)) v (fun _ => True)) as [r [E' H]]; auto.
  rewrite E' in E. subst r. destruct H as [[v1 [EQ [HL _]]]|[EQ _]]; [|discriminate].
  injection EQ as <-. auto.
Qed.

Theorem values_release : forall g v v', rhs_closure_with_values true g v = Ok v' ->
  rhs_closure_with_values false g v = Ok v'.
Proof.
  intros g v v' H. unfold rhs_closure_with_values, run_loop in *.
  pose proof (iter_release (rules g) (occ_from_rules (rules g)) (35 + length v) (v, rev (valued_from 0 v))).
  destruct (iter_pow (values_step true (rules g) (occ_from_rules (rules g))) (35 + length v)
              (v, rev (valued_from 0 v))) as [st'|r]; [discriminate|]. subst r. rewrite H0. auto.
Qed.
