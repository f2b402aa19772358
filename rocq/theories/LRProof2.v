(** Advancing LR(0) item sets, and the automaton. *)

From Coq Require Import List Arith NArith Bool Lia Sorted.
From Verif Require Import Base ListFacts Spec LoopModel LoopFacts HistoryModel CfgModel View
  BitSetModel SetView SetProof SetsModel SetsProof LRModel LRProof.
Import ListNotations.
Local Notation length := List.length.

Lemma bs_iter_NoDup : forall b, NoDup (bs_iter b).
Proof.
  intros b. unfold bs_iter.
  assert (H : forall b i, (forall s, In s (bs_iter_from i b) -> i <= s) /\ NoDup (bs_iter_from i b)).
  { clear b. induction b as [|[|] b IH]; intros i; cbn [bs_iter_from].
    - split; [intros s []|constructor].
    - destruct (IH (S i)) as [H1 H2]. split.
      + intros s [<-|Hs]; auto. apply H1 in Hs. lia.
      + constructor; auto. intros Hi. apply H1 in Hi. lia.
    - destruct (IH (S i)) as [H1 H2]. split; auto. intros s Hs. apply H1 in Hs. lia. }
  apply H.
Qed.

Lemma NoDup_app_cons : forall {A} (c : list A) s, NoDup c -> ~ In s c -> NoDup (c ++ [s]).
Proof.
  induction c as [|x c IH]; simpl; intros s H Hs; [repeat constructor; auto|].
  inversion H; subst. constructor; auto. rewrite in_app_iff. simpl. intuition.
Qed.

(** * Equality of item sets *)
Lemma syms_eqb_spec : forall a b, syms_eqb a b = true <-> a = b.
Proof.
  induction a as [|x a IH]; destruct b as [|y b]; cbn [syms_eqb]; split; intros H; try discriminate; auto.
  - apply andb_true_iff in H. destruct H as [H1 H2]. apply Nat.eqb_eq in H1. apply IH in H2. congruence.
  - injection H as -> ->. rewrite Nat.eqb_refl. apply IH. auto.
Qed.

Lemma item_eqb_spec : forall a b, item_eqb a b = true <-> a = b.
Proof.
  intros [r d] [r' d']. unfold item_eqb. cbn [it_rhs it_dot]. rewrite andb_true_iff, syms_eqb_spec, Nat.eqb_eq.
  split; [intros [-> ->]; auto|]. intros E; injection E; auto.
Qed.

Lemma items_eqb_spec : forall a b, items_eqb a b = true <-> a = b.
Proof.
  induction a as [|[i x] a IH]; destruct b as [|[j y] b]; cbn [items_eqb]; split; intros H; try discriminate; auto.
  - apply andb_true_iff in H. destruct H as [H1 H2]. apply andb_true_iff in H1. destruct H1 as [H0 H1].
    apply Nat.eqb_eq in H0. apply item_eqb_spec in H1. apply IH in H2. congruence.
  - injection H as -> -> ->. rewrite Nat.eqb_refl, (proj2 (item_eqb_spec y y)) by auto. apply IH. auto.
Qed.

Lemma set_index_spec : forall c m, match set_index c m with
  | Some id => nth_error c id = Some m
  | None => ~ In m c
  end.
Proof.
  induction c as [|x c IH]; cbn [set_index]; intros m; [intros []|].
  destruct (items_eqb x m) eqn:E.
  - apply items_eqb_spec in E. subst. auto.
  - specialize (IH m). destruct (set_index c m); cbn [option_map nth_error]; auto.
    intros [->|H]; auto. rewrite (proj2 (items_eqb_spec m m)) in E; auto. discriminate.
Qed.

(** * Moving the dot *)
Definition step_item (it : lr_item) : lr_item := mkItem (it_rhs it) (it_dot it + 1).

Definition move_fn (X : nat) (acc : lr_items) (p : nat * lr_item) : lr_items :=
  match lr_postdot (snd p) with
  | Some s => if s =? X then map_put acc (fst p) (mkItem (it_rhs (snd p)) (it_dot (snd p) + 1)) else acc
  | None => acc
  end.

Lemma moved_spec : forall m X, sorted_keys m -> sorted_keys (lr_moved m X) /\
  forall i it', map_get (lr_moved m X) i = Some it' <->
    exists it, map_get m i = Some it /\ lr_postdot it = Some X /\ it' = step_item it.
Proof.
  intros m X HS.
  assert (H : forall m acc, sorted_keys m -> sorted_keys acc ->
    sorted_keys (fold_left (move_fn X) m acc) /\
    forall i it', (forall it, map_get m i = Some it -> map_get acc i = None) ->
      (map_get (fold_left (move_fn X) m acc) i = Some it' <-> map_get acc i = Some it' \/
       exists it, map_get m i = Some it /\ lr_postdot it = Some X /\ it' = step_item it)).
  { clear m HS. induction m as [|[k v] m IH]; intros acc HS HA; cbn [fold_left].
    - split; auto. intros i it' _. split; auto. intros [?|[it [H _]]]; auto. discriminate.
    - assert (HS' : sorted_keys m) by (unfold sorted_keys in *; cbn [map fst] in HS; apply StronglySorted_inv in HS; tauto).
      assert (Hk : map_get m k = None).
      { apply map_get_keys. intros Hk. unfold sorted_keys in HS. cbn [map fst] in HS. apply StronglySorted_inv in HS.
        destruct HS as [_ HF]. rewrite Forall_forall in HF. apply HF in Hk. lia. }
      assert (HA' : sorted_keys (move_fn X acc (k, v))).
      { unfold move_fn. destruct (lr_postdot (snd (k, v))) as [s|]; auto. destruct (s =? X); auto. apply map_put_sorted. auto. }
      destruct (IH (move_fn X acc (k, v)) HS' HA') as [G1 G2]. split; auto.
      intros i it' Hdis. assert (Hf : map_get (move_fn X acc (k, v)) i = if (k =? i) then
          match lr_postdot v with Some s => if s =? X then Some (step_item v) else map_get acc i | None => map_get acc i end
          else map_get acc i).
      { unfold move_fn. cbn [fst snd]. destruct (lr_postdot v) as [s|]; [|destruct (k =? i); auto].
        destruct (s =? X); [|destruct (k =? i); auto]. rewrite map_get_put. auto. }
      rewrite G2.
      + rewrite Hf. cbn [map_get]. destruct (Nat.eqb_spec k i) as [->|Hn].
        * assert (Hacc : map_get acc i = None) by (apply (Hdis v); cbn [map_get]; rewrite Nat.eqb_refl; auto).
          rewrite Hacc, Hk. destruct (lr_postdot v) as [s|] eqn:Ev.
          -- destruct (Nat.eqb_spec s X) as [->|Hs].
             ++ split.
                ** intros [E|[it [E _]]]; [|discriminate]. injection E as <-. right. exists v. auto.
                ** intros [E|[it [E [_ ->]]]]; [discriminate|]. injection E as ->. auto.
             ++ split; intros [E|[it [E [E2 _]]]]; congruence.
          -- split; intros [E|[it [E [E2 _]]]]; congruence.
        * tauto.
      + intros it Hit. rewrite Hf. destruct (Nat.eqb_spec k i) as [->|Hn]; [congruence|].
        apply (Hdis it). cbn [map_get]. destruct (Nat.eqb_spec k i); [congruence|auto]. }
  destruct (H m []) as [G1 G2]; [auto|constructor|]. split; auto.
  intros i it'. change (lr_moved m X) with (fold_left (move_fn X) m []). rewrite G2 by auto. cbn [map_get]. split; [intros [E|]; [discriminate|auto]|auto].
Qed.

(** * Item sets of a grammar *)
Section Fsm.
  Context (ts : bitset) (l : list rule).
  Hypothesis Hterm : forall s, s < length ts -> (member ts s <-> forall x, In x l -> lhs x <> s).
  Hypothesis Hrhs : forall x s, In x l -> In s (rhs x) -> s < length ts.

  Definition genuine (m : lr_items) : Prop := sorted_keys m /\
    forall i it, map_get m i = Some it ->
      exists x, nth_error l i = Some x /\ it_rhs it = rhs x /\ it_dot it <= length (rhs x).

  Lemma genuine_postdot : forall m, genuine m ->
    forall i it B, map_get m i = Some it -> lr_postdot it = Some B -> B < length ts.
  Proof.
    intros m [_ HG] i it B Hi HB. destruct (HG i it Hi) as [x [Hx [E _]]]. apply postdot_In in HB.
    rewrite E in HB. apply (Hrhs x); auto. eapply nth_error_In; eauto.
  Qed.

  Lemma closure_genuine : forall m, genuine m -> exists m', lr_closure ts l m = Ok m' /\ genuine m' /\
    (forall j x, nth_error l j = Some x -> asked l m (lhs x) -> map_get m' j = Some (start_item x)) /\
    (forall j, map_get m' j = map_get m j \/
      exists x, nth_error l j = Some x /\ asked l m (lhs x) /\ map_get m' j = Some (start_item x)).
  Proof.
    intros m HG. destruct (closure_total ts l Hterm Hrhs m (proj1 HG) (genuine_postdot m HG)) as [m' [E [HS [H1 H2]]]].
    exists m'. split; auto. split; auto. split; auto. intros i it Hi. destruct (H2 i) as [Q|[x [X1 [X2 X3]]]].
    - apply (proj2 HG). congruence.
    - exists x. rewrite Hi in X3. injection X3 as ->. cbn [start_item it_rhs it_dot]. repeat split; auto. lia.
  Qed.

  Lemma moved_genuine : forall m X, genuine m -> genuine (lr_moved m X).
  Proof.
    intros m X [HS HG]. destruct (moved_spec m X HS) as [M1 M2]. split; auto.
    intros i it' Hi. apply M2 in Hi. destruct Hi as [it [Hi [Hp ->]]]. destruct (HG i it Hi) as [x [Hx [E HL]]].
    exists x. cbn [step_item it_rhs it_dot]. repeat split; auto.
    assert (it_dot it < length (it_rhs it)) by (apply nth_error_Some; unfold lr_postdot in Hp; congruence).
    rewrite E in H. lia.
  Qed.

  Lemma advance_genuine : forall m X, genuine m -> exists r, lr_advance ts l m X = Ok r /\
    match r with Some m' => genuine m' | None => True end.
  Proof.
    intros m X HG. unfold lr_advance. destruct (is_nil (lr_moved m X)); [exists None; auto|].
    destruct (closure_genuine _ (moved_genuine m X HG)) as [m' [E [HG' _]]]. rewrite E.
    exists (Some m'). auto.
  Qed.

  (** All the item sets *)
  Fixpoint all_sets (k : nat) (l : list rule) : list lr_items :=
    match l with
    | [] => [[]]
    | x :: l' => flat_map (fun s => s :: map (fun d => (k, mkItem (rhs x) d) :: s) (seq 0 (S (length (rhs x)))))
                          (all_sets (S k) l')
    end.

  Lemma all_sets_length : forall l0 k, (N.of_nat (length (all_sets k l0)) < 2 ^ N.of_nat (fsm_exponent l0))%N.
  Proof.
    induction l0 as [|x l0 IH]; intros k; cbn [all_sets fsm_exponent fold_right].
    - reflexivity.
    - change (fold_right (fun r n => length (rhs r) + 2 + n) 1 l0) with (fsm_exponent l0).
      assert (HL : forall ss, length (flat_map (fun s => s :: map (fun d => (k, mkItem (rhs x) d) :: s) (seq 0 (S (length (rhs x))))) ss)
                = length ss * (length (rhs x) + 2)).
      { induction ss as [|s ss IHs]; cbn [flat_map length]; auto. rewrite app_length, IHs. cbn [length].
        rewrite map_length, seq_length. lia. }
      rewrite HL. specialize (IH (S k)). rewrite Nat2N.inj_mul, (Nat2N.inj_add _ (fsm_exponent l0)), N.pow_add_r.
      pose proof (N.pow_gt_lin_r 2 (N.of_nat (length (rhs x) + 2)) eq_refl).
      rewrite N.mul_comm. apply N.mul_lt_mono; auto.
  Qed.

  Lemma all_sets_In : forall l0 k m, sorted_keys m ->
    (forall i it, In (i, it) m -> k <= i /\ exists x, nth_error l0 (i - k) = Some x /\ it_rhs it = rhs x /\ it_dot it <= length (rhs x)) ->
    In m (all_sets k l0).
  Proof.
    induction l0 as [|x l0 IH]; intros k m HS HG; cbn [all_sets].
    - destruct m as [|[i it] m]; [left; auto|]. destruct (HG i it (or_introl eq_refl)) as [_ [x [H _]]].
      destruct (i - k); discriminate.
    - assert (HR : forall m', sorted_keys m' -> (forall i it, In (i, it) m' -> k < i /\ In (i, it) m) -> In m' (all_sets (S k) l0)).
      { intros m' HS' HG'. apply IH; auto. intros i it Hi. destruct (HG' i it Hi) as [Hk Him].
        split; [lia|]. destruct (HG i it Him) as [_ [y [Hy Hy']]]. exists y. split; auto.
        replace (i - k) with (S (i - S k)) in Hy by lia. auto. }
      apply in_flat_map.
      destruct m as [|[i it] m].
      + exists []. split; [|left; auto]. apply HR; auto. intros i it [].
      + unfold sorted_keys in HS. cbn [map fst] in HS. pose proof HS as HS0. apply StronglySorted_inv in HS. destruct HS as [HS1 HS2].
        rewrite Forall_forall in HS2.
        destruct (HG i it (or_introl eq_refl)) as [Hk [y [Hy [Er Hd]]]]. destruct (Nat.eq_dec i k) as [->|Hn].
        * exists m. split.
          -- apply HR; auto. intros j jt Hj. split; [|right; auto]. apply (in_map fst) in Hj. apply HS2 in Hj. auto.
          -- right. apply in_map_iff. exists (it_dot it). rewrite Nat.sub_diag in Hy. injection Hy as ->. split.
             ++ rewrite <- Er. destruct it; auto.
             ++ apply in_seq. lia.
        * exists ((i, it) :: m). split; [|left; auto]. apply HR; auto. intros j jt Hj. split; auto.
          destruct Hj as [Hj|Hj]; [injection Hj as <- <-; lia|]. apply (in_map fst) in Hj. apply HS2 in Hj. simpl in Hj. lia.
  Qed.

  Lemma genuine_all : forall m, genuine m -> In m (all_sets 0 l).
  Proof.
    intros m [HS HG]. apply all_sets_In; auto. intros i it Hi. split; [lia|]. rewrite Nat.sub_0_r.
    apply HG. apply map_get_sorted; auto.
  Qed.

  (** * The loop *)
  Definition link_ok (c : list lr_items) (m : lr_items) (link : list (nat * nat)) (t : nat) : Prop :=
    match lr_advance ts l m t with
    | Ok None => map_get link t = None
    | Ok (Some s) => exists id, map_get link t = Some id /\ nth_error c id = Some s
    | _ => False
    end.

  Lemma link_ok_more : forall c e m link t, link_ok c m link t -> link_ok (c ++ e) m link t.
  Proof.
    unfold link_ok. intros c e m link t H. destruct (lr_advance ts l m t) as [[s|]| |]; auto.
    destruct H as [id [H1 H2]]. exists id. split; auto. rewrite nth_error_app1; auto. apply nth_error_Some. congruence.
  Qed.

  Lemma terminals_fold : forall m ps, genuine m -> NoDup ps -> forall b link,
    NoDup (cached_sets b) -> Forall genuine (cached_sets b) -> (forall t, In t ps -> map_get link t = None) ->
    exists ext link', fold_res (fsm_terminal ts l m) ps (b, link) =
        Ok (mkFsm (sets_queue b ++ ext) (cached_sets b ++ ext), link') /\
      NoDup (cached_sets b ++ ext) /\ Forall genuine (cached_sets b ++ ext) /\
      (forall t, In t ps -> link_ok (cached_sets b ++ ext) m link' t) /\
      (forall t, ~ In t ps -> map_get link' t = map_get link t) /\
      (forall id, length (cached_sets b) <= id < length (cached_sets b ++ ext) ->
        exists t, In t ps /\ map_get link' t = Some id) /\
      (sorted_keys link -> sorted_keys link').
  Proof.
    intros m. induction ps as [|t ps IH]; intros HG HN b link HC HF HL; cbn [fold_res].
    - exists [], link. rewrite !app_nil_r. split; [destruct b; auto|]. split; auto. split; auto. split; [intros t []|].
      split; auto. split; auto. intros. lia.
    - inversion HN as [|? ? HN1 HN2]; subst. destruct (advance_genuine m t HG) as [a [Ea Ha]].
      unfold fsm_terminal at 1. rewrite Ea. cbn [bind fst snd]. destruct a as [s|].
      + (* a set *)
        assert (HI : exists id ext0, id_of b s = (id, mkFsm (sets_queue b ++ ext0) (cached_sets b ++ ext0)) /\
            NoDup (cached_sets b ++ ext0) /\ Forall genuine (cached_sets b ++ ext0) /\
            nth_error (cached_sets b ++ ext0) id = Some s /\
            (forall i, length (cached_sets b) <= i < length (cached_sets b ++ ext0) -> i = id)).
        { unfold id_of. pose proof (set_index_spec (cached_sets b) s) as HS. destruct (set_index (cached_sets b) s) as [id|].
          - exists id, []. rewrite !app_nil_r. destruct b as [bq bc]; cbn [cached_sets sets_queue] in *; repeat split; auto. intros; lia.
          - exists (length (cached_sets b)), [s]. repeat split; auto.
            + apply NoDup_app_cons; auto.
            + apply Forall_app. auto.
            + rewrite nth_error_app2, Nat.sub_diag by lia. auto.
            + rewrite app_length. cbn [length]. intros. lia. }
        destruct HI as [id [ext0 [Ei [I1 [I2 [I3 I4]]]]]]. rewrite Ei. cbn [bind].
        destruct (IH HG HN2 (mkFsm (sets_queue b ++ ext0) (cached_sets b ++ ext0)) (map_put link t id))
          as [ext [link' [E [J1 [J2 [J3 [J4 [J5 J6]]]]]]]]; cbn [cached_sets sets_queue] in *; auto.
        { intros u Hu. rewrite map_get_put. destruct (Nat.eqb_spec t u); [subst; tauto|]. apply HL. right; auto. }
        exists (ext0 ++ ext), link'. rewrite !app_assoc. split; [auto|]. split; auto. split; auto.
        assert (Ht : map_get link' t = Some id) by (rewrite J4, map_get_put, Nat.eqb_refl; auto).
        split; [|split; [|split]].
        * intros u [<-|Hu]; [|auto]. unfold link_ok. rewrite Ea. exists id. split; auto.
          rewrite nth_error_app1; auto. apply nth_error_Some. congruence.
        * intros u Hu. rewrite J4 by (intros ?; apply Hu; right; auto). rewrite map_get_put.
          destruct (Nat.eqb_spec t u); auto. subst. exfalso. apply Hu. left; auto.
        * intros i Hi. destruct (Nat.lt_ge_cases i (length (cached_sets b ++ ext0))).
          -- assert (i = id) by (apply I4; lia). subst i. exists t. split; auto. left; auto.
          -- destruct (J5 i) as [u [U1 U2]]; [lia|]. exists u. split; auto. right; auto.
        * intros. apply J6. apply map_put_sorted. auto.
      + destruct (IH HG HN2 b link) as [ext [link' [E [J1 [J2 [J3 [J4 [J5 J6]]]]]]]]; auto.
        { intros u Hu. apply HL. right; auto. }
        exists ext, link'. split; auto. split; auto. split; auto. split; [|split; [|split]]; auto.
        * intros u [<-|Hu]; auto. unfold link_ok. rewrite Ea. rewrite J4 by auto. apply HL. left; auto.
        * intros u Hu. apply J4. intros ?. apply Hu. right; auto.
        * intros i Hi. destruct (J5 i Hi) as [u [U1 U2]]. exists u. split; auto. right; auto.
  Qed.

  Record fsm_inv (init : lr_items) (st : fsm * list lr_node) : Prop := {
    fi_cached : cached_sets (fst st) = map nd_items (snd st) ++ sets_queue (fst st);
    fi_nodup : NoDup (cached_sets (fst st));
    fi_genuine : Forall genuine (cached_sets (fst st));
    fi_init : nth_error (cached_sets (fst st)) 0 = Some init;
    fi_links : forall k nd, nth_error (snd st) k = Some nd -> sorted_keys (nd_link nd) /\ forall t,
      (member ts t -> link_ok (cached_sets (fst st)) (nd_items nd) (nd_link nd) t) /\
      (~ member ts t -> map_get (nd_link nd) t = None);
    fi_reach : forall id, 0 < id < length (cached_sets (fst st)) ->
      exists k nd t, k < id /\ nth_error (snd st) k = Some nd /\ map_get (nd_link nd) t = Some id }.

  Lemma fsm_step_inv : forall init st, fsm_inv init st ->
    match fsm_step ts l st with
    | inl st' => fsm_inv init st' /\ length (snd st') = S (length (snd st))
    | inr r => sets_queue (fst st) = [] /\ r = Ok (snd st)
    end.
  Proof.
    intros init [[q c] nodes] HI. destruct HI as [I1 I2 I3 I4 I5 I6]. unfold fsm_step. cbn [fst snd sets_queue cached_sets] in *.
    destruct q as [|m q]; [auto|].
    assert (Hm : In m c) by (rewrite I1; apply in_app_iff; right; left; auto).
    assert (HG : genuine m) by (rewrite Forall_forall in I3; auto).
    destruct (terminals_fold m (bs_iter ts) HG (bs_iter_NoDup ts) (mkFsm q c) []) as [ext [link [E [J1 [J2 [J3 [J4 [J5 J6]]]]]]]];
      cbn [cached_sets sets_queue] in *; auto.
    rewrite E. split; [|cbn [snd]; rewrite app_length; simpl; lia].
    assert (Hidx : nth_error (map nd_items nodes ++ m :: q) (length nodes) = Some m).
    { rewrite nth_error_app2; rewrite map_length; auto. rewrite Nat.sub_diag. auto. }
    constructor; cbn [fst snd cached_sets sets_queue].
    - rewrite I1, map_app. cbn [map nd_items]. rewrite <- !app_assoc. auto.
    - auto.
    - auto.
    - rewrite nth_error_app1; auto. apply nth_error_Some. congruence.
    - intros k nd Hk. destruct (Nat.lt_ge_cases k (length nodes)) as [Hlt|Hge].
      + rewrite nth_error_app1 in Hk by auto. destruct (I5 k nd Hk) as [K0 K]. split; auto. intros t. destruct (K t) as [K1 K2]. split; auto.
        intros Ht. apply link_ok_more. auto.
      + rewrite nth_error_app2 in Hk by auto. destruct (k - length nodes); [|destruct n; discriminate].
        injection Hk as <-. cbn [nd_items nd_link]. split; [apply J6; constructor|]. intros t. split.
        * intros Ht. apply J3. apply bs_iter_In. auto.
        * intros Ht. rewrite J4; auto. rewrite bs_iter_In. auto.
    - intros id Hid. destruct (Nat.lt_ge_cases id (length c)) as [Hlt|Hge].
      + destruct (I6 id) as [k [nd [t [K1 [K2 K3]]]]]; [lia|]. exists k, nd, t. split; auto. split; auto.
        rewrite nth_error_app1; auto. apply nth_error_Some. congruence.
      + destruct (J5 id) as [t [T1 T2]]; [lia|]. exists (length nodes), (mkNode m link), t. cbn [nd_link].
        split; [|split; auto].
        * assert (length nodes < length c) by (rewrite I1; apply nth_error_Some; congruence). lia.
        * rewrite nth_error_app2, Nat.sub_diag by lia. auto.
  Qed.

  Lemma fsm_cached_bound : forall c, NoDup c -> Forall genuine c -> length c <= length (all_sets 0 l).
  Proof.
    intros c HN HF. apply NoDup_incl_length; auto. intros m Hm. rewrite Forall_forall in HF. apply genuine_all. auto.
  Qed.

  Theorem fsm_total : forall init, genuine init -> forall p, fsm_exponent l <= p ->
    exists nodes, run_loop (fsm_step ts l) p (mkFsm [init] [init], []) = Ok nodes /\
      fsm_inv init (mkFsm [] (map nd_items nodes), nodes).
  Proof.
    intros init HG p Hp. unfold run_loop.
    destruct (iter_pow_ends (fsm_step ts l) (fsm_inv init)
      (fun st => N.of_nat (length (all_sets 0 l) - length (snd st)))) with (p := p) (s := (mkFsm [init] [init], @nil lr_node))
      as [st [r [HI [Hr E]]]].
    - intros s s' HS E. pose proof (fsm_step_inv init s HS) as H. rewrite E in H. destruct H as [H1 H2]. split; auto.
      assert (Hb : length (snd s') <= length (all_sets 0 l)).
      { destruct H1 as [J1 J2 J3 J4 J5 J6]. pose proof (fsm_cached_bound _ J2 J3) as HB. rewrite J1, app_length, map_length in HB. lia. }
      lia.
    - constructor; cbn [fst snd cached_sets sets_queue map app]; auto.
      + repeat constructor. intros [].
      + intros k nd Hk. destruct k; discriminate.
      + cbn [length]. intros. lia.
    - cbn [snd length]. rewrite Nat.sub_0_r. pose proof (all_sets_length l 0).
      eapply N.lt_le_trans; [exact H|]. apply N.pow_le_mono_r; lia.
    - pose proof (fsm_step_inv init st HI) as H. rewrite Hr in H. destruct H as [Hq ->]. rewrite E.
      exists (snd st). split; auto. destruct st as [[q c] nodes]. cbn [fst snd sets_queue] in *. subst q.
      pose proof (fi_cached _ _ HI) as Hc. cbn [fst snd sets_queue cached_sets] in Hc. rewrite app_nil_r in Hc.
      rewrite <- Hc. auto.
  Qed.
End Fsm.
