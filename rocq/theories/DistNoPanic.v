(** The distance computation does not panic when the sums fit u32. *)

From Coq Require Import List Arith NArith Bool Lia.
From Verif Require Import Base Spec SetView SpecDist GrammarFacts ListFacts LoopModel LoopFacts SymbolModel
  CfgModel View BitSetModel ClosureModel SetProof ValueProof DistModel LengthProof DistProof DistSem DistProof2 DistTotal.
Import ListNotations.
Local Notation length := List.length.

Definition count (v : list (option N)) : nat :=
  length (filter (fun x => match x with Some _ => true | None => false end) v).

Lemma count_le : forall v, count v <= length v.
Proof. intros v. unfold count. induction v as [|[x|] v IH]; cbn [filter length]; lia. Qed.

Lemma count_upd : forall v i x, i < length v ->
  count (upd v i (Some x)) = match value_of v i with Some _ => count v | None => S (count v) end.
Proof.
  induction v as [|a v IH]; intros i x Hi; [simpl in Hi; lia|]. destruct i as [|i].
  - destruct a; reflexivity.
  - simpl in Hi. specialize (IH i x ltac:(lia)). unfold value_of in *. cbn [upd nth_error].
    unfold count in *. destruct a; cbn [filter length]; rewrite IH; destruct (nth_error v i) as [[y|]|]; reflexivity.
Qed.

Fixpoint total (v : list (option N)) (u : list nat) : N :=
  match u with
  | [] => 0%N
  | s :: u' => (match value_of v s with Some x => x | None => 0 end + total v u')%N
  end.

Lemma total_app : forall v a b, total v (a ++ b) = (total v a + total v b)%N.
Proof. intros v. induction a as [|s a IH]; intros b; cbn [app total]; [lia|]. rewrite IH. lia. Qed.
Lemma total_rev : forall v u, total v (rev u) = total v u.
Proof. intros v. induction u as [|s u IH]; cbn [rev total]; auto. rewrite total_app, IH. cbn [total]. lia. Qed.

Section NoPanic.
  Context (debug : bool) (g : cfg) (L : N).
  Local Notation n := (num_syms g).
  Hypothesis HL : ((N.of_nat n + 1) * L <= u32_max)%N.

  Definition bnd (v : list (option N)) : Prop :=
    forall s c, value_of v s = Some c -> (c <= N.of_nat (count v) * L)%N.

  Lemma bnd_set : forall v i new k, bnd v -> i < length v -> k <= count v -> (new <= (N.of_nat k + 1) * L)%N ->
    exists v' b, set_min_at v i new = Ok (v', b) /\ bnd v' /\ count v <= count v' /\ length v' = length v.
  Proof.
    intros v i new k HB Hi Hk Hn. unfold set_min_at, get_ix.
    destruct (nth_error v i) as [c|] eqn:E; [|apply nth_error_None in E; lia]. cbn [bind].
    assert (EV : value_of v i = c) by (unfold value_of; rewrite E; auto).
    eexists. eexists. split; [reflexivity|]. rewrite upd_length.
    assert (HS : exists x, fst (set_min c new) = Some x /\
      ((c = None /\ x = new) \/ (exists y, c = Some y /\ (x <= y)%N))).
    { destruct c as [y|]; cbn [set_min].
      - destruct (N.ltb_spec new y); cbn [fst]; eexists; (split; [reflexivity|]); right; exists y; split; auto; lia.
      - eexists. split; [reflexivity|]. auto. }
    destruct HS as [x [-> HX]]. pose proof (count_upd v i x Hi) as HC. rewrite EV in HC.
    destruct HX as [[-> ->]|[y [-> Hy]]].
    - split; [|split; [lia|auto]]. intros s c Hs. rewrite value_upd in Hs by auto. rewrite HC.
      destruct (Nat.eqb_spec i s) as [->|Hne].
      + injection Hs as <-. nia.
      + apply HB in Hs. nia.
    - split; [|split; [lia|auto]]. intros s c Hs. rewrite value_upd in Hs by auto. rewrite HC.
      destruct (Nat.eqb_spec i s) as [->|Hne].
      + injection Hs as <-. apply HB in EV. lia.
      + apply HB in Hs. auto.
  Qed.

  Lemma min_ok : forall v i new, i < length v -> exists v' b, set_min_at v i new = Ok (v', b) /\ length v' = length v.
  Proof.
    intros v i new Hi. unfold set_min_at, get_ix.
    destruct (nth_error v i) as [c|] eqn:E; [|apply nth_error_None in E; lia]. cbn [bind].
    eexists. eexists. split; [reflexivity|]. apply upd_length.
  Qed.

  Definition rows (m : min_dist) : list nat := map (@length (option N)) (md_distances m).
  Definition after (rv : bool) (m : min_dist) := if rv then md_bwd_after m else md_fwd_after m.

  (** All vectors have their sizes, all right-hand side symbols have lengths, and the bounds. *)
  Record ninv (m : min_dist) : Prop := {
    ni_rows : rows m = map (fun r => length (rhs r) + 1) (rules g);
    ni_len : length (md_min_length m) = n;
    ni_fb : length (md_fwd_before m) = n;
    ni_bb : length (md_bwd_before m) = n;
    ni_after : forall rv, length (after rv m) = n;
    ni_bnd : forall rv, bnd (after rv m)
  }.

  Lemma dist_ok : forall m i r d c, ninv m -> nth_error (rules g) i = Some r -> d <= length (rhs r) ->
    exists m' b, set_distance m i d c = Ok (m', b) /\ ninv m' /\ (forall rv, after rv m' = after rv m) /\
      md_min_length m' = md_min_length m.
  Proof.
    intros m i r d c HI Hr Hd. unfold set_distance, get_ix.
    pose proof (f_equal (fun l => nth_error l i) (ni_rows _ HI)) as ER. cbn beta in ER. unfold rows in ER.
    rewrite !nth_error_map, Hr in ER. cbn [option_map] in ER.
    destruct (nth_error (md_distances m) i) as [row|] eqn:EN; [|discriminate]. cbn [bind option_map] in *.
    injection ER as ER. destruct (min_ok row d c) as [row' [b [E LR]]]; [lia|]. rewrite E. cbn [bind].
    eexists. eexists. split; [reflexivity|]. split; [|split; [intros []; reflexivity|reflexivity]].
    destruct HI. constructor; cbn; auto.
    unfold rows in *. cbn [md_distances]. rewrite <- ni_rows0.
    apply nth_error_ext. intros j. rewrite !nth_error_map, nth_error_upd.
    destruct (Nat.eqb_spec i j) as [->|Hn]; simpl; auto. rewrite EN.
    assert (HJ : j < length (md_distances m)) by (apply nth_error_Some; congruence).
    apply Nat.ltb_lt in HJ. rewrite HJ. cbn [option_map]. congruence.
  Qed.

  Lemma add_ok : forall a b, (a + b <= u32_max)%N -> add_u32 debug a b = Ok (a + b)%N.
  Proof. intros a b H. unfold add_u32. apply N.leb_le in H. rewrite H. auto. Qed.

  Lemma sym_ok : forall m cur s rv k x, ninv m -> s < n -> value_of (md_min_length m) s = Some x ->
    k <= count (after rv m) -> (cur + x <= (N.of_nat k + 1) * L)%N ->
    exists m' cur', update_sym_distance debug m cur s rv = Ok (m', cur') /\ ninv m' /\ (cur' <= cur + x)%N /\
      count (after rv m) <= count (after rv m') /\ md_min_length m' = md_min_length m.
  Proof.
    intros m cur s rv k x HI Hs HX Hk Hc. unfold update_sym_distance.
    destruct (bnd_set (after rv m) s cur k) as [a' [b [EA [BA [CA LA]]]]]; auto.
    { apply (ni_bnd _ HI). }
    { rewrite (ni_after _ HI). auto. }
    { lia. }
    change (if rv then md_bwd_after m else md_fwd_after m) with (after rv m). rewrite EA. cbn [bind].
    assert (HE : forall y, (y <= cur + x)%N -> add_u32 debug cur x = Ok (cur + x)%N).
    { intros y _. apply add_ok. pose proof (count_le (after rv m)). rewrite (ni_after _ HI) in H. nia. }
    specialize (HE 0%N ltac:(lia)).
    assert (HG : get_ix (md_min_length m) s = Ok (Some x)).
    { unfold get_ix. unfold value_of in HX. destruct (nth_error (md_min_length m) s) as [y|]; [congruence|discriminate]. }
    assert (HB : exists z, get_ix (if rv then md_bwd_before m else md_fwd_before m) s = Ok z).
    { unfold get_ix. destruct (nth_error _ s) as [z|] eqn:EZ; [eauto|]. apply nth_error_None in EZ. exfalso.
      destruct HI. destruct rv; lia. }
    destruct HB as [z HB].
    exists (if rv then mkDist (md_distances m) (md_fwd_before m) (md_fwd_after m) (md_bwd_before m) a' (md_min_length m)
            else mkDist (md_distances m) (md_fwd_before m) a' (md_bwd_before m) (md_bwd_after m) (md_min_length m)).
    exists (match z with Some p => N.min (cur + x) p | None => (cur + x)%N end).
    split; [|split; [|split; [destruct z; lia|split; [destruct rv; exact CA|destruct rv; auto]]]].
    - destruct rv; cbn [md_min_length md_bwd_before md_fwd_before]; rewrite HG; cbn [bind]; rewrite HE; cbn [bind];
        rewrite HB; cbn [bind]; reflexivity.
    - destruct HI. destruct rv; constructor; auto; intros []; cbn; auto; try (apply (ni_after0 true)); try (apply (ni_after0 false));
        try (apply (ni_bnd0 true)); try (apply (ni_bnd0 false)); rewrite LA; apply ni_after0.
  Qed.

  Lemma dots_ok : forall i r rv k l m cur, nth_error (rules g) i = Some r ->
    ninv m -> k <= count (after rv m) ->
    Forall (fun p => (if rv then fst p else fst p + 1) <= length (rhs r) /\ snd p < n /\
                     exists x, value_of (md_min_length m) (snd p) = Some x) l ->
    (cur + total (md_min_length m) (map snd l) <= (N.of_nat k + 1) * L)%N ->
    exists m' cur', update_dots debug m cur l i rv = Ok (m', cur') /\ ninv m' /\
      count (after rv m) <= count (after rv m') /\ md_min_length m' = md_min_length m.
  Proof.
    intros i r rv k l. induction l as [|[d s] l IH]; intros m cur Hr HI Hk HF HC; cbn [update_dots].
    - exists m, cur. auto.
    - inversion HF as [|? ? [H1 [H2 [x HX]]] HF']; subst. cbn [fst snd] in *.
      destruct (dist_ok m i r (if rv then d else d + 1) cur HI Hr H1) as [m1 [b1 [E1 [I1 [A1 M1]]]]]. rewrite E1. cbn [bind].
      cbn [map total snd] in HC. rewrite HX in HC.
      destruct (sym_ok m1 cur s rv k x) as [m2 [c2 [E2 [I2 [C2 [K2 M2]]]]]]; auto.
      { rewrite M1. auto. } { rewrite A1. auto. } { lia. }
      rewrite E2. cbn [bind]. rewrite A1 in K2.
      assert (EM : md_min_length m2 = md_min_length m) by congruence.
      destruct (IH m2 c2) as [m3 [c3 [E3 [I3 [K3 M3]]]]]; auto.
      { lia. } { rewrite EM. auto. } { rewrite EM. lia. }
      exists m3, c3. split; auto. split; auto. split; [lia|congruence].
  Qed.

  Lemma rule_ok : forall i r rv k u m cur, nth_error (rules g) i = Some r -> length u <= length (rhs r) ->
    ninv m -> k <= count (after rv m) ->
    Forall (fun s => s < n /\ exists x, value_of (md_min_length m) s = Some x) u ->
    (cur + total (md_min_length m) u <= (N.of_nat k + 1) * L)%N ->
    exists m' cur' b, update_rule_distances debug m cur u i rv = Ok (m', cur', b) /\ ninv m' /\
      md_min_length m' = md_min_length m.
  Proof.
    intros i r rv k u m cur Hr HU HI Hk HF HC. unfold update_rule_distances.
    assert (HM : forall j (v : list nat), map snd (combine (seq j (length v)) v) = v).
    { intros j v. revert j. induction v as [|a v IHv]; intros j; cbn; auto. f_equal. apply IHv. }
    destruct (dots_ok i r rv k (if rv then combine (seq 0 (length u)) u else rev (combine (seq 0 (length u)) u)) m cur)
      as [m1 [c1 [E1 [I1 [K1 M1]]]]]; auto.
    - assert (HA : Forall (fun p : nat * nat => fst p + 1 <= length (rhs r) /\ snd p < n /\
                     exists x, value_of (md_min_length m) (snd p) = Some x) (combine (seq 0 (length u)) u)).
      { apply Forall_forall. intros [d s] Hp. cbn [fst snd]. rewrite Forall_forall in HF.
        pose proof (in_combine_l _ _ _ _ Hp) as X1. pose proof (in_combine_r _ _ _ _ Hp) as X2.
        apply in_seq in X1. split; [lia|]. apply HF. auto. }
      destruct rv.
      + eapply Forall_impl; [|exact HA]. intros p [X1 X2]. split; auto. lia.
      + apply Forall_rev. exact HA.
    - destruct rv; [|rewrite map_rev, total_rev]; rewrite HM; auto.
    - rewrite E1. cbn [bind].
      destruct (dist_ok m1 i r (if rv then length u else 0) c1 I1 Hr) as [m2 [b2 [E2 [I2 [_ M2]]]]]; [destruct rv; lia|].
      rewrite E2. cbn [bind]. exists m2, c1, b2. split; auto. split; auto. congruence.
  Qed.

  Definition good_lengths (v : list (option N)) : Prop :=
    forall r, In r (rules g) -> lhs r < n /\ (total v (rhs r) <= L)%N /\
      Forall (fun s => s < n /\ exists x, value_of v s = Some x) (rhs r).

  Lemma total_firstn : forall v p u, (total v (firstn p u) <= total v u)%N.
  Proof. intros v p u. rewrite <- (firstn_skipn p u) at 2. rewrite total_app. lia. Qed.
  Lemma total_skipn : forall v p u, (total v (skipn p u) <= total v u)%N.
  Proof. intros v p u. rewrite <- (firstn_skipn p u) at 2. rewrite total_app. lia. Qed.
  Lemma Forall_firstn : forall (Q : nat -> Prop) p u, Forall Q u -> Forall Q (firstn p u).
  Proof. intros Q p u H. rewrite <- (firstn_skipn p u) in H. apply Forall_app in H. apply H. Qed.
  Lemma Forall_skipn : forall (Q : nat -> Prop) p u, Forall Q u -> Forall Q (skipn p u).
  Proof. intros Q p u H. rewrite <- (firstn_skipn p u) in H. apply Forall_app in H. apply H. Qed.

  Lemma process_ok : forall m i r p d, nth_error (rules g) i = Some r -> ninv m -> good_lengths (md_min_length m) ->
    p <= length (rhs r) ->
    exists m', immediate_process_dot debug m i r p d = Ok m' /\ ninv m' /\ md_min_length m' = md_min_length m.
  Proof.
    intros m i r p d Hr HI HG Hp. pose proof (HG r (nth_error_In _ _ Hr)) as [G1 [G2 G3]].
    unfold immediate_process_dot. apply Nat.leb_le in Hp. rewrite Hp. apply Nat.leb_le in Hp.
    assert (S1 : exists m1, (if includes_forward d
       then do (mc, _) <- update_rule_distances debug m 0 (firstn p (rhs r)) i false;
            let (m', min) := mc : min_dist * N in
            do (before', _) <- set_min_at (md_fwd_before m') (lhs r) min;
            Ok (mkDist (md_distances m') before' (md_fwd_after m') (md_bwd_before m') (md_bwd_after m') (md_min_length m'))
       else Ok m) = Ok m1 /\ ninv m1 /\ md_min_length m1 = md_min_length m).
    { destruct (includes_forward d); [|exists m; auto].
      destruct (rule_ok i r false 0 (firstn p (rhs r)) m 0) as [m1 [c1 [b1 [E1 [I1 M1]]]]]; auto; try lia.
      - rewrite firstn_length. lia.
      - apply Forall_firstn. auto.
      - pose proof (total_firstn (md_min_length m) p (rhs r)). lia.
      - rewrite E1. cbn [bind]. destruct (min_ok (md_fwd_before m1) (lhs r) c1) as [v' [b [E2 L2]]].
        { rewrite (ni_fb _ I1). auto. }
        rewrite E2. cbn [bind]. eexists. split; [reflexivity|]. split; auto. destruct I1. constructor; cbn; auto. congruence. }
    destruct S1 as [m1 [-> [I1 M1]]]. cbn [bind]. destruct (includes_backward d); [|exists m1; auto].
    destruct (rule_ok i r true 0 (skipn p (rhs r)) m1 0) as [m2 [c2 [b2 [E2 [I2 M2]]]]]; auto; try lia.
    - rewrite skipn_length. lia.
    - rewrite M1. apply Forall_skipn. auto.
    - rewrite M1. pose proof (total_skipn (md_min_length m) p (rhs r)). lia.
    - rewrite E2. cbn [bind]. destruct (min_ok (md_bwd_before m2) (lhs r) c2) as [v' [b [E3 L3]]].
      { rewrite (ni_bb _ I2). auto. }
      rewrite E3. cbn [bind]. eexists. split; [reflexivity|]. split; [|cbn; congruence]. destruct I2. constructor; cbn; auto. congruence.
  Qed.

  Lemma get_ok : forall (v : list (option N)) s, s < length v -> get_ix v s = Ok (value_of v s).
  Proof.
    intros v s H. unfold get_ix, value_of. destruct (nth_error v s) as [x|] eqn:E; auto.
    apply nth_error_None in E. lia.
  Qed.

  Lemma transitive_rule_ok : forall st i r, nth_error (rules g) i = Some r -> ninv (fst st) ->
    good_lengths (md_min_length (fst st)) ->
    exists st', transitive_rule debug st (i, r) = Ok st' /\ ninv (fst st') /\
      md_min_length (fst st') = md_min_length (fst st).
  Proof.
    intros [m ch] i r Hr HI HG. cbn [fst] in *. pose proof (HG r (nth_error_In _ _ Hr)) as [G1 [G2 G3]].
    unfold transitive_rule. pose proof (ni_after _ HI false) as LA. cbn [after] in LA.
    rewrite get_ok by lia. cbn [bind].
    assert (S1 : exists m1 c1, match value_of (md_fwd_after m) (lhs r) with
       | Some distance => do (mc, now) <- update_rule_distances debug m distance (rhs r) i false; Ok (fst mc, ch || now)
       | None => Ok (m, ch) end = Ok (m1, c1) /\ ninv m1 /\ md_min_length m1 = md_min_length m).
    { destruct (value_of (md_fwd_after m) (lhs r)) as [c|] eqn:EC; [|exists m, ch; auto].
      pose proof (ni_bnd _ HI false (lhs r) c EC) as HB.
      destruct (rule_ok i r false (count (after false m)) (rhs r) m c) as [m1 [c1 [b1 [E1 [I1 M1]]]]]; auto; try lia.
      rewrite E1. cbn [bind fst]. eauto 6. }
    destruct S1 as [m1 [c1 [-> [I1 M1]]]]. cbn [bind].
    pose proof (ni_after _ I1 true) as LB. cbn [after] in LB. rewrite get_ok by lia. cbn [bind].
    destruct (value_of (md_bwd_after m1) (lhs r)) as [c|] eqn:EC; [|exists (m1, c1); auto].
    pose proof (ni_bnd _ I1 true (lhs r) c EC) as HB.
    destruct (rule_ok i r true (count (after true m1)) (rhs r) m1 c) as [m2 [c2 [b2 [E2 [I2 M2]]]]]; auto; try lia.
    - rewrite M1. auto.
    - rewrite M1. lia.
    - rewrite E2. cbn [bind fst]. eexists. split; [reflexivity|]. cbn [fst]. split; auto. congruence.
  Qed.

  Lemma fold_enum_ok : forall {St : Type} (f : St -> nat * rule -> res St) (I : St -> Prop) l,
    (forall i r a, nth_error l i = Some r -> I a -> exists a', f a (i, r) = Ok a' /\ I a') ->
    forall a, I a -> exists a', fold_res f (combine (seq 0 (length l)) l) a = Ok a' /\ I a'.
  Proof.
    intros St f I l H.
    assert (HG : forall u k, (forall j r, nth_error u j = Some r -> nth_error l (k + j) = Some r) ->
      forall a, I a -> exists a', fold_res f (combine (seq k (length u)) u) a = Ok a' /\ I a').
    { induction u as [|r u IH]; intros k HU a Ha; cbn [length seq combine fold_res]; [eauto|].
      destruct (H k r a) as [a1 [E1 I1]]; auto.
      - specialize (HU 0 r eq_refl). rewrite Nat.add_0_r in HU. auto.
      - rewrite E1. cbn [bind]. apply (IH (S k)); auto. intros j r' Hj. replace (S k + j) with (k + S j) by lia.
        apply HU. auto. }
    intros a. apply (HG l 0). auto.
  Qed.

  Lemma immediate_ok : forall skip m dots d, ninv m -> good_lengths (md_min_length m) ->
    (forall i p, In (i, p) dots -> forall r, nth_error (rules g) i = Some r -> p <= length (rhs r)) ->
    exists m', immediate_minimal_distances debug skip (rules g) m dots d = Ok m' /\ ninv m' /\
      md_min_length m' = md_min_length m.
  Proof.
    intros skip m dots d HI HG HD. unfold immediate_minimal_distances.
    destruct (fold_enum_ok (fun m0 (p : nat * rule) =>
      fold_res (fun m1 (dot : nat * nat) => immediate_process_dot debug m1 (fst p) (snd p) (snd dot) d)
             (binary_search_span skip dots (fst p)) m0) (fun a => ninv a /\ md_min_length a = md_min_length m) (rules g)) with (a := m)
      as [m' [E [I1 M1]]]; auto; [|exists m'; split; [exact E|auto]].
    cbn [fst snd]. intros i r a Hr [Ha Ma]. pose proof (span_In skip dots i) as HS. revert a Ha Ma HS.
    induction (binary_search_span skip dots i) as [|t u IH]; intros a Ha Ma HS; cbn [fold_res]; [eauto|].
    destruct (HS t (or_introl eq_refl)) as [H1 H2]. destruct t as [j p]. cbn [fst snd] in *. subst j.
    destruct (process_ok a i r p d) as [a1 [E1 [I1 M1]]]; auto.
    - rewrite Ma. auto.
    - eapply HD; eauto.
    - rewrite E1. cbn [bind]. apply IH; auto; [congruence|]. intros q Hq. apply HS. right. auto.
  Qed.
End NoPanic.

Lemma shaped_rows : forall g m, shaped (rules g) m -> rows m = map (fun r => length (rhs r) + 1) (rules g).
Proof.
  intros g m [HL H]. apply nth_error_ext. intros i. unfold rows. rewrite !nth_error_map.
  destruct (nth_error (rules g) i) as [r|] eqn:E.
  - destruct (H i r E) as [row [-> N]]. cbn [option_map]. congruence.
  - assert (E2 : nth_error (md_distances m) i = None) by (apply nth_error_None; apply nth_error_None in E; lia).
    rewrite E2. auto.
Qed.

Lemma words_total : forall g v u w, (forall s, s < num_syms g -> least (sentence_length (prods g) s) (value_of v s)) ->
  Forall (fun s => s < num_syms g) u -> derives (prods g) u w -> Forall (terminal (prods g)) w ->
  (total v u <= N.of_nat (length w))%N /\ Forall (fun s => s < num_syms g /\ exists x, value_of v s = Some x) u.
Proof.
  intros g v u w HV. revert w. induction u as [|s u IH]; intros w HU HD HT; cbn [total].
  - split; [lia|constructor].
  - inversion HU as [|? ? Hs HU']; subst. apply derives_cons_inv in HD. destruct HD as [w1 [w2 [-> [D1 D2]]]].
    apply Forall_app in HT. destruct HT as [T1 T2]. destruct (IH w2 HU' D2 T2) as [B1 B2].
    specialize (HV s Hs). unfold least in HV. rewrite app_length.
    assert (HX : sentence_length (prods g) s (N.of_nat (length w1))) by (exists w1; split; auto; split; auto).
    destruct (value_of v s) as [x|] eqn:E.
    + destruct HV as [_ HV]. apply HV in HX. split; [lia|]. constructor; eauto.
    + exfalso. apply (HV _ HX).
Qed.

(** No panic, in debug and in release builds. *)
Theorem distances_total : forall g L skip dots d, closed_rules g -> lengths_fit g ->
  ((N.of_nat (num_syms g) + 1) * L <= u32_max)%N ->
  (forall r, In r (rules g) -> exists w, derives (prods g) (rhs r) w /\ Forall (terminal (prods g)) w /\
     (N.of_nat (length w) <= L)%N) ->
  (forall i p, In (i, p) dots -> forall r, nth_error (rules g) i = Some r -> p <= length (rhs r)) ->
  exists m', forall debug, minimal_distances debug skip g (md_new g) dots d = Ok m'.
Proof.
  intros g L skip dots d HC HF HL HW HD.
  cut (exists m', minimal_distances true skip g (md_new g) dots d = Ok m').
  { intros [m' E]. exists m'. intros [|]; auto. apply distances_release. auto. }
  destruct (lengths_total g HC HF) as [v EV]. specialize (EV true).
  assert (H0 : lengths_ok g (repeat None (num_syms g))).
  { split; [apply repeat_length|]. intros s c. rewrite value_none. discriminate. }
  destruct (lengths_exact g _ v HC H0 EV) as [[LV SV] HV].
  assert (FV : fits v) by (intros s c E; apply (SV s c E)).
  assert (HG : good_lengths g L v).
  { intros r Hr. split; [apply (HC r Hr)|]. destruct (HW r Hr) as [w [W1 [W2 W3]]].
    destruct (words_total g v (rhs r) w HV) as [A B]; auto; [apply (HC r Hr)|]. split; auto. lia. }
  unfold minimal_distances. change (md_min_length (md_new g)) with (repeat (@None N) (num_syms g)). rewrite EV. cbn [bind].
  set (m1 := mkDist _ _ _ _ _ _).
  assert (R1 : ready g m1).
  { destruct (new_ready g). constructor; auto. destruct rd_small. constructor; auto. }
  assert (N1 : ninv g L m1).
  { destruct R1. constructor; auto.
    - apply shaped_rows; auto.
    - intros []; auto.
    - intros [] s c; cbn; rewrite value_none; discriminate. }
  assert (M1 : md_min_length m1 = v) by reflexivity. clearbody m1.
  destruct (immediate_ok true g L HL skip m1 (sort_by dot_compare dots) d) as [m2 [E2 [N2 M2]]]; auto.
  { rewrite M1. auto. }
  { intros i p Hi. apply sort_In in Hi. apply HD. auto. }
  rewrite E2. cbn [bind].
  destruct (immediate_down _ _ _ _ _ _ _ (rd_small _ _ R1) E2) as [S2 D2].
  assert (SH2 : shaped (rules g) m2) by (eapply shaped_lower; [apply (rd_shaped _ _ R1)|exact D2]).
  assert (HP : forall a, ninv g L a -> md_min_length a = v -> exists st,
    fold_res (transitive_rule true) (combine (seq 0 (length (rules g))) (rules g)) (a, false) = Ok st /\
    ninv g L (fst st) /\ md_min_length (fst st) = v).
  { intros a Ha Ma. apply (fold_enum_ok g L HL (transitive_rule true) (fun st => ninv g L (fst st) /\ md_min_length (fst st) = v) (rules g)); auto.
    intros i r st Hr [Hst Mst]. destruct (transitive_rule_ok true g L HL st i r Hr Hst) as [st' [E [I1 X]]].
    - rewrite Mst. auto.
    - exists st'. split; auto. split; auto. congruence. }
  destruct (transitive_ends true (rules g) m2 (fun a => ninv g L a /\ md_min_length a = v)) as [m3 [A1 [A2 [[A3 A4] ->]]]]; auto.
  - intros a a' ch [Ha Ma] E. destruct (HP a Ha Ma) as [st [E' [I1 X]]]. rewrite E in E'. injection E' as <-. auto.
  - split; auto. congruence.
  - destruct (HP m3 A3 A4) as [[m4 ch] [-> _]]. eauto.
Qed.
