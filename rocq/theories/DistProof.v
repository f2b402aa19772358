(** Distances: every reported value is realized. *)

From Coq Require Import List Arith NArith Bool Lia.
From Verif Require Import Base Spec SetView SpecDist GrammarFacts ListFacts LoopModel LoopFacts SymbolModel
  CfgModel View BitSetModel ClosureModel SetProof ValueProof DistModel LengthProof.
Import ListNotations.
Local Notation length := List.length.

Lemma set_min_at_spec : forall v i new v' b, set_min_at v i new = Ok (v', b) ->
  i < length v /\ length v' = length v /\
  (forall s, s <> i -> value_of v' s = value_of v s) /\
  exists c, value_of v' i = Some c /\ (c <= new)%N /\ (c = new \/ value_of v i = Some c) /\
    (forall x, value_of v i = Some x -> (c <= x)%N) /\
    (b = true -> c = new /\ (c < weight_of (value_of v i) \/ value_of v i = None)%N) /\ (b = false -> v' = v).
Proof.
  intros v i new v' b H. unfold set_min_at in H. apply bind_ok in H. destruct H as [c [E H]]. apply get_ix_ok in E.
  assert (Hi : i < length v) by (apply nth_error_Some; congruence). injection H as <- <-.
  split; auto. split; [apply upd_length|]. split.
  - intros s Hs. rewrite value_upd by auto. destruct (Nat.eqb_spec i s); congruence.
  - rewrite value_upd, Nat.eqb_refl by auto. assert (EV : value_of v i = c) by (unfold value_of; rewrite E; auto).
    rewrite EV. destruct c as [x|]; cbn [set_min].
    + destruct (N.ltb_spec new x); cbn [fst snd].
      * exists new. split; auto. split; [lia|]. split; auto. split; [intros y X; injection X as <-; lia|].
        split; [|discriminate]. intros _. split; auto.
      * exists x. split; auto. split; [lia|]. split; auto. split; [intros y X; injection X as <-; lia|].
        split; [discriminate|]. intros _. apply nth_error_ext. intros j. rewrite nth_error_upd.
        destruct (Nat.eqb_spec i j); auto. subst j. apply Nat.ltb_lt in Hi. simpl. rewrite Hi. congruence.
    + exists new. split; auto. split; [lia|]. split; auto. split; [discriminate|]. split; [|discriminate]. auto.
Qed.

Lemma set_min_at_In : forall v i new v' b s c, set_min_at v i new = Ok (v', b) ->
  value_of v' s = Some c -> value_of v s = Some c \/ (s = i /\ c = new).
Proof.
  intros v i new v' b s c H E. destruct (set_min_at_spec _ _ _ _ _ H) as [_ [_ [H1 [x [E1 [_ [H2 _]]]]]]].
  destruct (Nat.eq_dec s i) as [->|Hn]; [|left; rewrite <- H1; auto].
  rewrite E in E1. injection E1 as <-. destruct H2; auto.
Qed.

Lemma fwd_dots : forall (r : list nat) k s, nth_error r k = Some s ->
  rev (combine (seq 0 (S k)) (firstn (S k) r)) = (k, s) :: rev (combine (seq 0 k) (firstn k r)).
Proof.
  intros r k s H. assert (Hk : k < length r) by (apply nth_error_Some; congruence).
  assert (E : firstn (S k) r = firstn k r ++ [s]).
  { clear Hk. revert r H. induction k as [|k IH]; intros [|a r] H; try discriminate.
    - injection H as ->. reflexivity.
    - simpl in H. simpl. f_equal. apply IH. auto. }
  rewrite E, seq_S. simpl plus.
  assert (HC : forall (l1 l2 : list nat) x y, length l1 = length l2 -> combine (l1 ++ [x]) (l2 ++ [y]) = combine l1 l2 ++ [(x, y)]).
  { induction l1 as [|a l1 IH]; intros [|b l2] x y HL; try discriminate; simpl; auto. f_equal. apply IH. auto. }
  rewrite HC, rev_app_distr; auto. rewrite seq_length, firstn_length. lia.
Qed.

Section Sound.
  Context (debug : bool) (g : cfg) (ML : nat -> N -> Prop) (B A : bool -> nat -> N -> Prop) (D : nat -> nat -> N -> Prop)
          (F : bool -> bool -> nat -> nat -> N -> Prop).

  Record dinv (m : min_dist) : Prop := {
    di_len : forall s c, value_of (md_min_length m) s = Some c -> ML s c;
    di_bf : forall s c, value_of (md_fwd_before m) s = Some c -> B false s c;
    di_bb : forall s c, value_of (md_bwd_before m) s = Some c -> B true s c;
    di_af : forall s c, value_of (md_fwd_after m) s = Some c -> A false s c;
    di_ab : forall s c, value_of (md_bwd_after m) s = Some c -> A true s c;
    di_dist : forall i row d c, nth_error (md_distances m) i = Some row -> value_of row d = Some c -> D i d c
  }.

  (** What the abstract facts must satisfy; [imm] tells the targets' own rules from the others. *)
  Hypothesis HFD : forall rev imm i d c, F rev imm i d c -> D i d c.
  Hypothesis HFA : forall imm i r d s c, nth_error (rules g) i = Some r -> nth_error (rhs r) d = Some s ->
    F false imm i (S d) c -> A false s c.
  Hypothesis HFL : forall imm i r d s c x y, nth_error (rules g) i = Some r -> nth_error (rhs r) d = Some s ->
    F false imm i (S d) c -> ML s x -> add_u32 debug c x = Ok y -> F false imm i d y.
  Hypothesis HFB : forall imm i r d s c x, nth_error (rules g) i = Some r -> nth_error (rhs r) d = Some s ->
    F false imm i (S d) c -> B false s x -> F false imm i d x.
  Hypothesis HBA : forall imm i r d s c, nth_error (rules g) i = Some r -> nth_error (rhs r) d = Some s ->
    F true imm i d c -> A true s c.
  Hypothesis HBL : forall imm i r d s c x y, nth_error (rules g) i = Some r -> nth_error (rhs r) d = Some s ->
    F true imm i d c -> ML s x -> add_u32 debug c x = Ok y -> F true imm i (S d) y.
  Hypothesis HBB : forall imm i r d s c x, nth_error (rules g) i = Some r -> nth_error (rhs r) d = Some s ->
    F true imm i d c -> B true s x -> F true imm i (S d) x.
  Hypothesis HIF : forall i r c, nth_error (rules g) i = Some r -> F false true i 0 c -> B false (lhs r) c.
  Hypothesis HIB : forall i r c, nth_error (rules g) i = Some r -> F true true i (length (rhs r)) c -> B true (lhs r) c.
  Hypothesis HTF : forall i r c, nth_error (rules g) i = Some r -> A false (lhs r) c -> F false false i (length (rhs r)) c.
  Hypothesis HTB : forall i r c, nth_error (rules g) i = Some r -> A true (lhs r) c -> F true false i 0 c.

  Lemma set_distance_inv : forall m i d c m' b, dinv m -> D i d c ->
    set_distance m i d c = Ok (m', b) -> dinv m'.
  Proof.
    intros m i d c m' b HI HD H. unfold set_distance in H. apply bind_ok in H. destruct H as [row [ER H]].
    apply get_ix_ok in ER. apply bind_ok in H. destruct H as [[row' b'] [E H]]. injection H as <- <-.
    destruct HI. constructor; cbn; auto. intros j row0 d0 c0 Hj Hd. rewrite nth_error_upd in Hj.
    destruct (Nat.eqb_spec i j) as [->|Hn]; simpl in Hj.
    - destruct (j <? length (md_distances m)); [|discriminate]. injection Hj as <-.
      destruct (set_min_at_In _ _ _ _ _ _ _ E Hd) as [X|[-> ->]]; eauto.
    - eauto.
  Qed.

  Lemma update_sym_inv : forall m cur s rv m' cur', dinv m -> A rv s cur ->
    update_sym_distance debug m cur s rv = Ok (m', cur') ->
    dinv m' /\ ((exists x, ML s x /\ add_u32 debug cur x = Ok cur') \/ B rv s cur').
  Proof.
    intros m cur s rv m' cur' HI HA H. unfold update_sym_distance in H. apply bind_ok in H.
    destruct H as [[after' b] [E H]]. apply bind_ok in H. destruct H as [x [EX H]].
    destruct x as [x|]; [|discriminate]. apply bind_ok in H. destruct H as [c1 [EC H]].
    apply bind_ok in H. destruct H as [bf [EB H]]. injection H as <- <-.
    apply get_value in EX, EB. assert (HX : ML s x).
    { destruct HI. apply di_len0. destruct rv; exact EX. }
    split.
    - destruct HI. destruct rv; constructor; cbn; auto; intros t c Ht;
        destruct (set_min_at_In _ _ _ _ _ _ _ E Ht) as [X|[-> ->]]; auto.
    - destruct bf as [y|]; [|left; exists x; auto].
      assert (HY : B rv s y) by (destruct HI; destruct rv; auto).
      destruct (N.min_spec c1 y) as [[_ ->]|[_ ->]]; auto. left. exists x; auto.
  Qed.

  Lemma update_fwd_inv : forall i r imm, nth_error (rules g) i = Some r ->
    forall k m cur m' cur', k <= length (rhs r) -> dinv m -> F false imm i k cur ->
    update_dots debug m cur (rev (combine (seq 0 k) (firstn k (rhs r)))) i false = Ok (m', cur') ->
    dinv m' /\ F false imm i 0 cur'.
  Proof.
    intros i r imm Hr. induction k as [|k IH]; intros m cur m' cur' Hk HI HF H.
    - cbn in H. injection H as <- <-. auto.
    - destruct (nth_error (rhs r) k) as [s|] eqn:Es; [|apply nth_error_None in Es; lia].
      rewrite (fwd_dots _ _ _ Es) in H. cbn [update_dots] in H. apply bind_ok in H. destruct H as [[m1 b1] [E1 H]].
      rewrite Nat.add_1_r in E1. apply set_distance_inv in E1; eauto. apply bind_ok in H. destruct H as [[m2 c2] [E2 H]].
      apply update_sym_inv in E2; eauto. destruct E2 as [I2 HC]. eapply IH; [lia|exact I2| |exact H].
      destruct HC as [[x [HX EA]]|HB]; eauto.
  Qed.

  (** The backward pass writes [sh] positions too low when it starts at the dot [sh]. *)
  Lemma update_bwd_inv : forall i r imm sh, nth_error (rules g) i = Some r ->
    (forall d c, sh <= d -> F true imm i d c -> D i (d - sh) c) ->
    forall u pre m cur m' cur', rhs r = pre ++ u -> sh <= length pre -> dinv m -> F true imm i (length pre) cur ->
    update_dots debug m cur (combine (seq (length pre - sh) (length u)) u) i true = Ok (m', cur') ->
    dinv m' /\ F true imm i (length (rhs r)) cur'.
  Proof.
    intros i r imm sh Hr HSH. induction u as [|s u IH]; intros pre m cur m' cur' ER HP HI HF H.
    - cbn in H. injection H as <- <-. rewrite app_nil_r in ER. rewrite ER. auto.
    - cbn [length seq combine update_dots] in H. apply bind_ok in H. destruct H as [[m1 b1] [E1 H]].
      apply set_distance_inv in E1; eauto. apply bind_ok in H. destruct H as [[m2 c2] [E2 H]].
      assert (Es : nth_error (rhs r) (length pre) = Some s) by (rewrite ER, nth_error_app2, Nat.sub_diag; auto).
      apply update_sym_inv in E2; eauto. destruct E2 as [I2 HC].
      apply (IH (pre ++ [s]) m2 c2); auto.
      + rewrite <- app_assoc. auto.
      + rewrite app_length. lia.
      + rewrite app_length, Nat.add_1_r. destruct HC as [[x [HX EA]]|HB]; eauto.
      + rewrite app_length, Nat.add_1_r, Nat.sub_succ_l by auto. auto.
  Qed.

  Lemma update_rule_fwd : forall i r imm k m cur m' cur' b, nth_error (rules g) i = Some r ->
    k <= length (rhs r) -> dinv m -> F false imm i k cur ->
    update_rule_distances debug m cur (firstn k (rhs r)) i false = Ok (m', cur', b) ->
    dinv m' /\ F false imm i 0 cur'.
  Proof.
    intros i r imm k m cur m' cur' b Hr Hk HI HF H. unfold update_rule_distances in H. apply bind_ok in H.
    destruct H as [[m1 c1] [E1 H]]. rewrite firstn_length, Nat.min_l in E1 by auto.
    apply update_fwd_inv with (r := r) (imm := imm) in E1; auto. destruct E1 as [I1 F1].
    apply bind_ok in H. destruct H as [[m2 b2] [E2 H]]. injection H as <- <- <-.
    split; auto. eapply set_distance_inv; [exact I1| |exact E2]. eauto.
  Qed.

  Lemma update_rule_bwd : forall i r imm sh m cur m' cur' b, nth_error (rules g) i = Some r ->
    (forall d c, sh <= d -> F true imm i d c -> D i (d - sh) c) ->
    sh <= length (rhs r) -> dinv m -> F true imm i sh cur ->
    update_rule_distances debug m cur (skipn sh (rhs r)) i true = Ok (m', cur', b) ->
    dinv m' /\ F true imm i (length (rhs r)) cur'.
  Proof.
    intros i r imm sh m cur m' cur' b Hr HSH HL HI HF H. unfold update_rule_distances in H. apply bind_ok in H.
    destruct H as [[m1 c1] [E1 H]].
    assert (EF : length (firstn sh (rhs r)) = sh) by (rewrite firstn_length; lia).
    replace (seq 0 _) with (seq (length (firstn sh (rhs r)) - sh) (length (skipn sh (rhs r)))) in E1
      by (rewrite EF, Nat.sub_diag; auto).
    apply (update_bwd_inv i r imm sh Hr HSH (skipn sh (rhs r)) (firstn sh (rhs r))) in E1; auto.
    - destruct E1 as [I1 F1]. apply bind_ok in H. destruct H as [[m2 b2] [E2 H]]. injection H as <- <- <-.
      split; auto. eapply set_distance_inv; [exact I1| |exact E2]. rewrite skipn_length. apply HSH; auto.
    - rewrite firstn_skipn. auto.
    - lia.
    - rewrite EF. auto.
  Qed.

  Lemma process_dot_inv : forall i r p d m m', nth_error (rules g) i = Some r -> dinv m ->
    (includes_forward d = true -> p <= length (rhs r) -> F false true i p 0) ->
    (includes_backward d = true -> p <= length (rhs r) ->
       F true true i p 0 /\ forall d c, p <= d -> F true true i d c -> D i (d - p) c) ->
    immediate_process_dot debug m i r p d = Ok m' -> dinv m'.
  Proof.
    intros i r p d m m' Hr HI HT1 HT2 H. unfold immediate_process_dot in H. apply bind_ok in H.
    destruct H as [m1 [E1 H]].
    assert (I1 : dinv m1).
    { destruct (includes_forward d); [|injection E1 as <-; auto].
      destruct (p <=? length (rhs r)) eqn:EL; [|discriminate]. apply Nat.leb_le in EL.
      apply bind_ok in E1. destruct E1 as [[[m2 c2] b2] [E2 E1]].
      apply update_rule_fwd with (r := r) (imm := true) in E2; auto. destruct E2 as [I2 F2].
      apply bind_ok in E1. destruct E1 as [[bf b3] [E3 E1]]. injection E1 as <-.
      destruct I2. constructor; cbn; auto. intros s c Hs.
      destruct (set_min_at_In _ _ _ _ _ _ _ E3 Hs) as [X|[-> ->]]; eauto. }
    destruct (includes_backward d); [|injection H as <-; auto].
    destruct (p <=? length (rhs r)) eqn:EL; [|discriminate]. apply Nat.leb_le in EL.
    destruct (HT2 eq_refl EL) as [F0 HSH].
    apply bind_ok in H. destruct H as [[[m2 c2] b2] [E2 H]].
    apply update_rule_bwd with (r := r) (imm := true) in E2; auto. destruct E2 as [I2 F2].
    apply bind_ok in H. destruct H as [[bf b3] [E3 H]]. injection H as <-.
    destruct I2. constructor; cbn; auto. intros s c Hs.
    destruct (set_min_at_In _ _ _ _ _ _ _ E3 Hs) as [X|[-> ->]]; eauto.
  Qed.

  Lemma transitive_rule_inv : forall m ch i r m' ch', nth_error (rules g) i = Some r -> dinv m ->
    transitive_rule debug (m, ch) (i, r) = Ok (m', ch') -> dinv m'.
  Proof.
    intros m ch i r m' ch' Hr HI H. unfold transitive_rule in H. apply bind_ok in H. destruct H as [x [EX H]].
    apply get_value in EX. apply bind_ok in H. destruct H as [[m1 c1] [E1 H]].
    assert (I1 : dinv m1).
    { destruct x as [x|]; [|injection E1 as <- <-; auto]. apply bind_ok in E1. destruct E1 as [[[m2 c2] b2] [E2 E1]].
      injection E1 as <- <-. rewrite <- (firstn_all (rhs r)) in E2.
      apply update_rule_fwd with (r := r) (imm := false) in E2; auto; [apply E2|]. apply HTF; auto. apply (di_af m HI); auto. }
    apply bind_ok in H. destruct H as [y [EY H]]. apply get_value in EY.
    destruct y as [y|]; [|injection H as <- <-; auto]. apply bind_ok in H. destruct H as [[[m2 c2] b2] [E2 H]].
    injection H as <- <-. change (rhs r) with (skipn 0 (rhs r)) in E2.
    apply update_rule_bwd with (r := r) (imm := false) in E2; auto; [apply E2| |lia|].
    - intros d c _ X. rewrite Nat.sub_0_r. eauto.
    - eapply HTB; eauto. apply (di_ab m1 I1); auto.
  Qed.
End Sound.

Lemma fold_enum : forall {St : Type} (f : St -> nat * rule -> res St) (I : St -> Prop) l,
  (forall i r a a', nth_error l i = Some r -> I a -> f a (i, r) = Ok a' -> I a') ->
  forall a a', I a -> fold_res f (combine (seq 0 (length l)) l) a = Ok a' -> I a'.
Proof.
  intros St f I l H.
  assert (HG : forall u k, (forall j r, nth_error u j = Some r -> nth_error l (k + j) = Some r) ->
    forall a a', I a -> fold_res f (combine (seq k (length u)) u) a = Ok a' -> I a').
  { induction u as [|r u IH]; intros k HU a a' Ha E; cbn [length seq combine fold_res] in E.
    - injection E as <-. auto.
    - apply bind_ok in E. destruct E as [a1 [E1 E]]. apply (IH (S k)) with (a := a1); auto.
      + intros j r' Hj. replace (S k + j) with (k + S j) by lia. apply HU. auto.
      + eapply H; [|exact Ha|exact E1]. specialize (HU 0 r eq_refl). rewrite Nat.add_0_r in HU. auto. }
  intros a a'. apply (HG l 0). auto.
Qed.

Lemma span_In : forall skip dots i q, In q (binary_search_span skip dots i) -> In q dots /\ fst q = i.
Proof.
  intros skip dots i q H. unfold binary_search_span in H.
  set (k := Nat.min _ _) in H. clearbody k.
  assert (H' : In q (filter (fun d => fst d =? i) dots)).
  { rewrite <- (firstn_skipn k). apply in_or_app. auto. }
  apply filter_In in H'. destruct H' as [H1 H2]. apply Nat.eqb_eq in H2. auto.
Qed.

(** * All values fit u32 *)
Definition small (c : N) : Prop := (c <= u32_max)%N.
Definition sinv : min_dist -> Prop :=
  dinv (fun _ => small) (fun _ _ => small) (fun _ _ => small) (fun _ _ => small).

Lemma add_small : forall debug a b c, add_u32 debug a b = Ok c -> small c.
Proof.
  intros debug a b c H. unfold add_u32 in H. destruct (a + b <=? u32_max)%N eqn:E.
  - injection H as <-. apply N.leb_le. auto.
  - destruct debug; [discriminate|]. injection H as <-. unfold small.
    assert (HN : (u32_max + 1 <> 0)%N) by (unfold u32_max; lia).
    pose proof (N.mod_upper_bound (a + b) (u32_max + 1) HN) as HB. apply N.lt_succ_r. rewrite <- N.add_1_r. exact HB.
Qed.

Lemma update_dots_small : forall debug l m cur idx rv m' cur', sinv m -> small cur ->
  update_dots debug m cur l idx rv = Ok (m', cur') -> sinv m' /\ small cur'.
Proof.
  induction l as [|[d s] l IH]; intros m cur idx rv m' cur' HI HC E; cbn [update_dots] in E.
  - injection E as <- <-. auto.
  - apply bind_ok in E. destruct E as [[m1 b1] [E1 E]]. apply bind_ok in E. destruct E as [[m2 c2] [E2 E]].
    eapply set_distance_inv in E1; [|exact HI|exact HC].
    eapply update_sym_inv in E2; [|exact E1|exact HC]. destruct E2 as [I2 HX].
    apply IH in E; auto. destruct HX as [[x [_ EA]]|HX]; auto. eapply add_small; eauto.
Qed.

Lemma update_rule_small : forall debug m cur u idx rv m' cur' b, sinv m -> small cur ->
  update_rule_distances debug m cur u idx rv = Ok (m', cur', b) -> sinv m' /\ small cur'.
Proof.
  intros debug m cur u idx rv m' cur' b HI HC E. unfold update_rule_distances in E. apply bind_ok in E.
  destruct E as [[m1 c1] [E1 E]]. apply update_dots_small in E1; auto. destruct E1 as [I1 C1].
  apply bind_ok in E. destruct E as [[m2 b2] [E2 E]]. injection E as <- <- <-. split; auto.
  eapply set_distance_inv; [exact I1| |exact E2]. exact C1.
Qed.

Lemma transitive_rule_small : forall debug m ch p m' ch', sinv m ->
  transitive_rule debug (m, ch) p = Ok (m', ch') -> sinv m'.
Proof.
  intros debug m ch [i r] m' ch' HI H. unfold transitive_rule in H. apply bind_ok in H. destruct H as [x [EX H]].
  apply get_value in EX. apply bind_ok in H. destruct H as [[m1 c1] [E1 H]].
  assert (I1 : sinv m1).
  { destruct x as [x|]; [|injection E1 as <- <-; auto]. apply bind_ok in E1. destruct E1 as [[[m2 c2] b2] [E2 E1]].
    injection E1 as <- <-. apply update_rule_small in E2; [apply E2|auto|]. apply (di_af _ _ _ _ _ HI) in EX. auto. }
  apply bind_ok in H. destruct H as [y [EY H]]. apply get_value in EY.
  destruct y as [y|]; [|injection H as <- <-; auto]. apply bind_ok in H. destruct H as [[[m2 c2] b2] [E2 H]].
  injection H as <- <-. apply update_rule_small in E2; [apply E2|auto|]. apply (di_ab _ _ _ _ _ I1) in EY. auto.
Qed.

Lemma process_dot_small : forall debug m i r p d m', sinv m ->
  immediate_process_dot debug m i r p d = Ok m' -> sinv m'.
Proof.
  intros debug m i r p d m' HI H. unfold immediate_process_dot in H. apply bind_ok in H.
  destruct H as [m1 [E1 H]]. assert (H0 : small 0) by (unfold small; lia).
  assert (I1 : sinv m1).
  { destruct (includes_forward d); [|injection E1 as <-; auto].
    destruct (p <=? length (rhs r)) eqn:EL; [|discriminate].
    apply bind_ok in E1. destruct E1 as [[[m2 c2] b2] [E2 E1]].
    apply update_rule_small in E2; auto. destruct E2 as [I2 F2].
    apply bind_ok in E1. destruct E1 as [[bf b3] [E3 E1]]. injection E1 as <-.
    destruct I2. constructor; cbn; auto. intros s c Hs.
    destruct (set_min_at_In _ _ _ _ _ _ _ E3 Hs) as [X|[-> ->]]; eauto. }
  destruct (includes_backward d); [|injection H as <-; auto].
  destruct (p <=? length (rhs r)); [|discriminate].
  apply bind_ok in H. destruct H as [[[m2 c2] b2] [E2 H]].
  apply update_rule_small in E2; auto. destruct E2 as [I2 F2].
  apply bind_ok in H. destruct H as [[bf b3] [E3 H]]. injection H as <-.
  destruct I2. constructor; cbn; auto. intros s c Hs.
  destruct (set_min_at_In _ _ _ _ _ _ _ E3 Hs) as [X|[-> ->]]; eauto.
Qed.

(** * Termination: the first and last cells of the rows go down *)
Definition ends_weight (row : list (option N)) : N :=
  (weight_of (value_of row 0) + weight_of (value_of row (length row - 1)))%N.
Definition dmeasure (m : min_dist) : N := fold_right (fun row a => (ends_weight row + a)%N) 0%N (md_distances m).

(** Shapes do not change, values only go down. *)
Definition lower (m m' : min_dist) : Prop :=
  length (md_distances m') = length (md_distances m) /\
  forall i row, nth_error (md_distances m) i = Some row -> exists row', nth_error (md_distances m') i = Some row' /\
    length row' = length row /\ forall d, (weight_of (value_of row' d) <= weight_of (value_of row d))%N.

Lemma lower_refl : forall m, lower m m.
Proof. intros m. split; auto. intros i row H. exists row. split; auto. split; auto. intros d. reflexivity. Qed.
Lemma lower_trans : forall a b c, lower a b -> lower b c -> lower a c.
Proof.
  intros a b c [L1 H1] [L2 H2]. split; [congruence|]. intros i row H. destruct (H1 i row H) as [r1 [E1 [N1 W1]]].
  destruct (H2 i r1 E1) as [r2 [E2 [N2 W2]]]. exists r2. split; auto. split; [congruence|]. intros d.
  specialize (W1 d). specialize (W2 d). lia.
Qed.

Lemma weights_lower : forall l l' : list (list (option N)), length l' = length l ->
  (forall i row, nth_error l i = Some row -> exists row', nth_error l' i = Some row' /\
    length row' = length row /\ forall d, (weight_of (value_of row' d) <= weight_of (value_of row d))%N) ->
  (fold_right (fun row a => ends_weight row + a) 0 l' <= fold_right (fun row a => ends_weight row + a) 0 l)%N /\
  forall i row row', nth_error l i = Some row -> nth_error l' i = Some row' ->
    (ends_weight row' < ends_weight row)%N ->
    (fold_right (fun row a => ends_weight row + a) 0 l' < fold_right (fun row a => ends_weight row + a) 0 l)%N.
Proof.
  induction l as [|r l IH]; intros [|r' l'] HL H; try discriminate; cbn [fold_right].
  - split; [lia|]. intros [|i] row row' E; discriminate.
  - destruct (IH l') as [I1 I2]; [simpl in HL; lia|intros i row E; apply (H (S i) row E)|].
    destruct (H 0 r eq_refl) as [x [E [HX W]]]. injection E as <-.
    assert (HE : (ends_weight r' <= ends_weight r)%N).
    { unfold ends_weight. rewrite HX. pose proof (W 0). pose proof (W (length r - 1)). lia. }
    split; [lia|]. intros [|i] row row' E1 E2 HW; simpl in E1, E2.
    + injection E1 as <-. injection E2 as <-. lia.
    + specialize (I2 i row row' E1 E2 HW). lia.
Qed.

Lemma dmeasure_lower : forall m m', lower m m' -> (dmeasure m' <= dmeasure m)%N.
Proof. intros m m' [L H]. apply weights_lower; auto. Qed.

Lemma dmeasure_strict : forall m m' i row row', lower m m' ->
  nth_error (md_distances m) i = Some row -> nth_error (md_distances m') i = Some row' ->
  (ends_weight row' < ends_weight row)%N -> (dmeasure m' < dmeasure m)%N.
Proof. intros m m' i row row' [L H] E1 E2 HW. destruct (weights_lower _ _ L H) as [_ X]. eapply X; eauto. Qed.

Lemma set_distance_lower : forall m i d c m' b, small c -> set_distance m i d c = Ok (m', b) ->
  lower m m' /\ (b = true -> forall row, nth_error (md_distances m) i = Some row ->
    (d = 0 \/ d = length row - 1) -> (dmeasure m' < dmeasure m)%N).
Proof.
  intros m i d c m' b HC H. unfold set_distance in H. apply bind_ok in H. destruct H as [row [ER H]].
  apply get_ix_ok in ER. apply bind_ok in H. destruct H as [[row' b'] [E H]]. injection H as <- <-.
  destruct (set_min_at_spec _ _ _ _ _ E) as [Hd [LR [HO [x [EX [HX1 [HX2 [HX3 [HX4 HX5]]]]]]]]].
  assert (HI : i < length (md_distances m)) by (apply nth_error_Some; congruence).
  assert (HW : forall d0, (weight_of (value_of row' d0) <= weight_of (value_of row d0))%N).
  { intros d0. destruct (Nat.eq_dec d0 d) as [->|Hn]; [|rewrite HO by auto; reflexivity].
    rewrite EX. cbn [weight_of]. destruct (value_of row d) as [y|] eqn:EY; cbn [weight_of].
    - apply HX3; auto.
    - unfold small in HC. lia. }
  assert (HL : lower m {| md_distances := upd (md_distances m) i row'; md_fwd_before := md_fwd_before m;
       md_fwd_after := md_fwd_after m; md_bwd_before := md_bwd_before m; md_bwd_after := md_bwd_after m;
       md_min_length := md_min_length m |}).
  { split; cbn [md_distances]; [apply upd_length|]. intros j row0 Hj. rewrite nth_error_upd.
    destruct (Nat.eqb_spec i j) as [->|Hn]; simpl.
    - apply Nat.ltb_lt in HI. rewrite HI. exists row'. split; auto. rewrite ER in Hj. injection Hj as <-. auto.
    - exists row0. split; auto. split; auto. intros d0. reflexivity. }
  split; auto. intros -> row0 Hr He. rewrite ER in Hr. injection Hr as <-.
  apply (dmeasure_strict m _ i row row' HL ER); cbn [md_distances].
  - rewrite nth_error_upd, Nat.eqb_refl. apply Nat.ltb_lt in HI. rewrite HI. auto.
  - unfold ends_weight. rewrite LR. pose proof (HW 0). pose proof (HW (length row - 1)).
    destruct (HX4 eq_refl) as [_ HS].
    assert (HS' : (weight_of (value_of row' d) < weight_of (value_of row d))%N).
    { rewrite EX. cbn [weight_of]. destruct (value_of row d) as [y|]; cbn [weight_of] in *.
      - destruct HS as [HS|HS]; [auto|discriminate].
      - unfold small in HC. lia. }
    destruct He as [->| ->]; lia.
Qed.

Lemma update_dots_lower : forall debug l m cur idx rv m' cur', sinv m -> small cur ->
  update_dots debug m cur l idx rv = Ok (m', cur') -> lower m m'.
Proof.
  induction l as [|[d s] l IH]; intros m cur idx rv m' cur' HI HC E; cbn [update_dots] in E.
  - injection E as <- <-. apply lower_refl.
  - apply bind_ok in E. destruct E as [[m1 b1] [E1 E]]. apply bind_ok in E. destruct E as [[m2 c2] [E2 E]].
    pose proof (set_distance_lower _ _ _ _ _ _ HC E1) as [L1 _].
    eapply set_distance_inv in E1; [|exact HI|exact HC].
    assert (L2 : md_distances m2 = md_distances m1).
    { unfold update_sym_distance in E2. apply bind_ok in E2. destruct E2 as [[a' b'] [_ E2]].
      apply bind_ok in E2. destruct E2 as [[x|] [_ E2]]; [|discriminate]. apply bind_ok in E2. destruct E2 as [y [_ E2]].
      apply bind_ok in E2. destruct E2 as [z [_ E2]]. injection E2 as <- _. destruct rv; auto. }
    eapply update_sym_inv in E2; [|exact E1|exact HC]. destruct E2 as [I2 HX].
    apply IH in E; auto.
    + eapply lower_trans; [exact L1|]. unfold lower in *. rewrite L2 in E. auto.
    + destruct HX as [[x [_ EA]]|HX]; auto. eapply add_small; eauto.
Qed.

Lemma update_rule_lower : forall debug m cur u idx rv m' cur' b row, sinv m -> small cur ->
  nth_error (md_distances m) idx = Some row -> length row = length u + 1 ->
  update_rule_distances debug m cur u idx rv = Ok (m', cur', b) ->
  lower m m' /\ (b = true -> (dmeasure m' < dmeasure m)%N).
Proof.
  intros debug m cur u idx rv m' cur' b row HI HC HR HL E. unfold update_rule_distances in E. apply bind_ok in E.
  destruct E as [[m1 c1] [E1 E]]. pose proof (update_dots_lower _ _ _ _ _ _ _ _ HI HC E1) as L1.
  apply update_dots_small in E1; auto. destruct E1 as [I1 C1].
  apply bind_ok in E. destruct E as [[m2 b2] [E2 E]]. injection E as <- <- <-.
  destruct (set_distance_lower _ _ _ _ _ _ C1 E2) as [L2 S2]. split; [eapply lower_trans; eauto|].
  intros Hb. destruct L1 as [L1 R1]. destruct (R1 idx row HR) as [row1 [ER1 [N1 W1]]].
  assert (X : (dmeasure m2 < dmeasure m1)%N).
  { apply (S2 Hb row1 ER1). rewrite N1, HL. destruct rv; [right; lia|left; auto]. }
  pose proof (dmeasure_lower m m1 (conj L1 R1)). lia.
Qed.

Definition shaped (l : list rule) (m : min_dist) : Prop :=
  length (md_distances m) = length l /\
  forall i r, nth_error l i = Some r -> exists row, nth_error (md_distances m) i = Some row /\ length row = length (rhs r) + 1.

Lemma shaped_lower : forall l m m', shaped l m -> lower m m' -> shaped l m'.
Proof.
  intros l m m' [L H] [L' H']. split; [congruence|]. intros i r Hr. destruct (H i r Hr) as [row [E N]].
  destruct (H' i row E) as [row' [E' [N' _]]]. exists row'. split; auto. congruence.
Qed.

Lemma transitive_rule_lower : forall debug l m ch i r m' ch', shaped l m -> nth_error l i = Some r -> sinv m ->
  transitive_rule debug (m, ch) (i, r) = Ok (m', ch') ->
  lower m m' /\ (ch' = true -> ch = true \/ (dmeasure m' < dmeasure m)%N).
Proof.
  intros debug l m ch i r m' ch' HS Hr HI H. unfold transitive_rule in H. apply bind_ok in H. destruct H as [x [EX H]].
  apply get_value in EX. apply bind_ok in H. destruct H as [[m1 c1] [E1 H]].
  assert (X1 : sinv m1 /\ lower m m1 /\ (c1 = true -> ch = true \/ (dmeasure m1 < dmeasure m)%N)).
  { destruct x as [x|]; [|injection E1 as <- <-; split; auto; split; [apply lower_refl|auto]].
    apply bind_ok in E1. destruct E1 as [[[m2 c2] b2] [E2 E1]]. injection E1 as <- <-.
    assert (HX : small x) by (apply (di_af _ _ _ _ _ HI) in EX; auto). destruct HS as [_ HS].
    destruct (HS i r Hr) as [row [ER NR]]. pose proof (update_rule_lower _ _ _ _ _ _ _ _ _ _ HI HX ER NR E2) as [L2 S2].
    apply update_rule_small in E2; auto. split; [apply E2|]. split; auto. intros Hc. apply orb_true_iff in Hc.
    destruct Hc; auto. }
  destruct X1 as [I1 [L1 S1]].
  apply bind_ok in H. destruct H as [y [EY H]]. apply get_value in EY.
  destruct y as [y|]; [|injection H as <- <-; auto]. apply bind_ok in H. destruct H as [[[m2 c2] b2] [E2 H]].
  injection H as <- <-. assert (HY : small y) by (apply (di_ab _ _ _ _ _ I1) in EY; auto).
  pose proof (shaped_lower _ _ _ HS L1) as [_ HS1]. destruct (HS1 i r Hr) as [row [ER NR]].
  pose proof (update_rule_lower _ _ _ _ _ _ _ _ _ _ I1 HY ER NR E2) as [L2 S2]. cbn [fst].
  split; [eapply lower_trans; eauto|]. intros Hc. apply orb_true_iff in Hc.
  pose proof (dmeasure_lower _ _ L1). pose proof (dmeasure_lower _ _ L2). destruct Hc as [Hc|Hc].
  - destruct (S1 Hc); auto. right. lia.
  - right. specialize (S2 Hc). lia.
Qed.

Lemma transitive_pass : forall debug l m m' ch, shaped l m -> sinv m ->
  fold_res (transitive_rule debug) (combine (seq 0 (length l)) l) (m, false) = Ok (m', ch) ->
  shaped l m' /\ sinv m' /\ lower m m' /\ (ch = true -> (dmeasure m' < dmeasure m)%N).
Proof.
  intros debug l m m' ch HS HI E.
  apply (fold_enum _ (fun st => shaped l (fst st) /\ sinv (fst st) /\ lower m (fst st) /\
     (snd st = true -> (dmeasure (fst st) < dmeasure m)%N))) in E; auto.
  - intros i r [a ca] [b cb] Hr [S1 [I1 [L1 D1]]] E1. cbn [fst snd] in *.
    destruct (transitive_rule_lower _ _ _ _ _ _ _ _ S1 Hr I1 E1) as [L2 D2].
    apply transitive_rule_small in E1; auto. split; [eapply shaped_lower; eauto|]. split; auto.
    split; [eapply lower_trans; eauto|]. intros Hc. pose proof (dmeasure_lower _ _ L2). destruct (D2 Hc) as [X|X].
    + specialize (D1 X). lia.
    + pose proof (dmeasure_lower _ _ L1). lia.
  - cbn [fst snd]. split; auto. split; auto. split; [apply lower_refl|discriminate].
Qed.

Lemma fold_enum_res : forall {St : Type} (f : St -> nat * rule -> res St) l a,
  (forall a p, f a p <> OutOfFuel) -> fold_res f l a <> OutOfFuel.
Proof.
  intros St f l. induction l as [|p l IH]; intros a H; cbn [fold_res]; [discriminate|].
  destruct (f a p) eqn:E; cbn [bind]; auto; [discriminate|]. exfalso. eapply H; eauto.
Qed.
