(** Proofs about the lexer map. *)

From Coq Require Import List Arith NArith Bool Lia Sorting.Sorted.
From Verif Require Import Base ListFacts SpecRegex RegexModel.
Import ListNotations.

(** * Characters *)

Lemma from_u32_ok : forall n, is_char n -> from_u32_unwrap n = Ok n.
Proof.
  unfold is_char, from_u32_unwrap. intros n H.
  destruct (n <? 55296)%N eqn:E1; auto. apply N.ltb_ge in E1. simpl.
  assert ((57344 <=? n)%N = true) as -> by (apply N.leb_le; lia).
  assert ((n <=? 1114111)%N = true) as -> by (apply N.leb_le; lia). reflexivity.
Qed.

Lemma from_u32_panic : forall n, ~ is_char n -> from_u32_unwrap n = Panic.
Proof.
  unfold is_char, from_u32_unwrap. intros n H.
  destruct (n <? 55296)%N eqn:E1; [apply N.ltb_lt in E1; lia|]. simpl.
  destruct (57344 <=? n)%N eqn:E2; auto. destruct (n <=? 1114111)%N eqn:E3; auto.
  apply N.leb_le in E2, E3. lia.
Qed.

(** * The table for ASCII *)

Definition covers (r : N * N) (i : nat) : bool :=
  (fst r <=? N.of_nat i)%N && (N.of_nat i <=? snd r)%N.

Lemma upd_length' : forall (A : Type) (l : list A) i x, length (upd l i x) = length l.
Proof. induction l; destruct i; simpl; auto. Qed.

Lemma nth_upd' : forall (A : Type) (l : list A) i j x d, i < length l ->
  nth j (upd l i x) d = if j =? i then x else nth j l d.
Proof.
  induction l; simpl; intros; [lia|]. destruct i, j; simpl; auto. apply IHl. lia.
Qed.

Lemma push_seq : forall s n a t, a + n <= length t ->
  exists t', fold_res (ascii_push s) (seq a n) t = Ok t' /\ length t' = length t /\
    forall j, nth j t' [] = nth j t [] ++ (if (a <=? j) && (j <? a + n) then [s] else []).
Proof.
  induction n; intros a t H.
  - exists t. simpl. split; auto. split; auto. intros j.
    destruct (a <=? j) eqn:E; simpl; [|rewrite app_nil_r; auto].
    apply Nat.leb_le in E. destruct (j <? a + 0) eqn:E2; [apply Nat.ltb_lt in E2; lia|].
    rewrite app_nil_r. auto.
  - simpl. unfold ascii_push at 1, get_ix, set_ix.
    destruct (nth_error t a) as [l|] eqn:E; [|apply nth_error_None in E; lia]. simpl.
    assert (a <? length t = true) as -> by (apply Nat.ltb_lt; lia). simpl.
    destruct (IHn (S a) (upd t a (l ++ [s]))) as [t' [E' [HL HN]]]; [rewrite upd_length'; lia|].
    exists t'. rewrite E'. split; auto. split; [rewrite HL; apply upd_length'|].
    intros j. rewrite HN, nth_upd' by lia. destruct (j =? a) eqn:EJ.
    + apply Nat.eqb_eq in EJ. subst j. assert (S a <=? a = false) as -> by (apply Nat.leb_gt; lia).
      assert (a <=? a = true) as -> by (apply Nat.leb_le; lia).
      assert (a <? a + S n = true) as -> by (apply Nat.ltb_lt; lia). simpl.
      rewrite app_nil_r. rewrite (nth_error_nth _ _ _ E). auto.
    + apply Nat.eqb_neq in EJ. f_equal.
      replace (S a + n) with (a + S n) by lia.
      destruct (S a <=? j) eqn:E1, (a <=? j) eqn:E2; auto;
        [apply Nat.leb_le in E1; apply Nat.leb_gt in E2; lia | apply Nat.leb_gt in E1; apply Nat.leb_le in E2; lia].
Qed.

Lemma push_seq_panic : forall s n a t, a <= length t -> length t < a + n ->
  fold_res (ascii_push s) (seq a n) t = Panic.
Proof.
  induction n; intros a t H1 H2; [lia|]. simpl.
  unfold ascii_push at 1, get_ix, set_ix.
  destruct (nth_error t a) as [l|] eqn:E; [|reflexivity]. simpl.
  assert (a < length t) by (apply nth_error_Some; congruence).
  assert (a <? length t = true) as -> by (apply Nat.ltb_lt; lia). simpl.
  apply IHn; rewrite upd_length'; lia.
Qed.

(** A range that [compute] can handle. *)
Definition narrow (r : N * N) : Prop := (fst r < 128 -> snd r < 256)%N.

Definition ascii_hit (r : N * N) (j : nat) : bool := is_ascii (fst r) && covers r j.

Lemma ascii_range_spec : forall s r t, length t = 256 -> narrow r ->
  exists t', ascii_range s t r = Ok t' /\ length t' = 256 /\
    forall j, nth j t' [] = nth j t [] ++ (if ascii_hit r j then [s] else []).
Proof.
  intros s [lo hi] t HL HN. unfold ascii_range, ascii_hit, narrow in *. cbn [fst snd] in *.
  unfold is_ascii. destruct (lo <? 128)%N eqn:EA.
  - apply N.ltb_lt in EA. specialize (HN EA). rewrite N.min_l by lia.
    destruct (push_seq s (N.to_nat (hi + 1) - N.to_nat lo) (N.to_nat lo) t) as [t' [E [HL' H]]]; [lia|].
    exists t'. split; auto. split; [congruence|]. intros j. rewrite H. f_equal. cbn [andb].
    unfold covers. cbn [fst snd].
    replace (N.to_nat lo <=? j) with (lo <=? N.of_nat j)%N; [|apply eq_true_iff_eq; rewrite N.leb_le, Nat.leb_le; lia].
    destruct (lo <=? N.of_nat j)%N eqn:E1; auto. apply N.leb_le in E1. cbn [andb].
    replace (j <? N.to_nat lo + (N.to_nat (hi + 1) - N.to_nat lo)) with (N.of_nat j <=? hi)%N; auto.
    apply eq_true_iff_eq. rewrite N.leb_le, Nat.ltb_lt. lia.
  - exists t. split; auto. split; auto. intros. simpl. rewrite app_nil_r. auto.
Qed.

Lemma ascii_range_panic : forall s r t, length t = 256 -> ~ narrow r -> ascii_range s t r = Panic.
Proof.
  intros s [lo hi] t HL HN. unfold ascii_range, narrow in *. cbn [fst snd] in *. unfold is_ascii.
  assert (lo < 128 /\ 256 <= hi)%N as [H1 H2] by lia.
  assert ((lo <? 128)%N = true) as -> by (apply N.ltb_lt; lia).
  rewrite N.min_r by lia. apply push_seq_panic; lia.
Qed.

Lemma ascii_class_spec : forall s rs t, length t = 256 -> Forall narrow rs ->
  exists t', fold_res (ascii_range s) rs t = Ok t' /\ length t' = 256 /\
    forall j, nth j t' [] = nth j t [] ++ flat_map (fun r => if ascii_hit r j then [s] else []) rs.
Proof.
  induction rs; intros t HL HF.
  - exists t. simpl. split; auto. split; auto. intros. rewrite app_nil_r. auto.
  - inversion HF; subst. destruct (ascii_range_spec s a t HL H1) as [t1 [E1 [L1 N1]]].
    destruct (IHrs t1 L1 H2) as [t2 [E2 [L2 N2]]]. exists t2. simpl. rewrite E1. simpl. split; auto. split; auto.
    intros j. rewrite N2, N1, app_assoc. auto.
Qed.

Lemma ascii_class_panic : forall s rs t, length t = 256 -> ~ Forall narrow rs ->
  fold_res (ascii_range s) rs t = Panic.
Proof.
  induction rs; intros t HL HF; [exfalso; apply HF; auto|]. simpl.
  assert (D : narrow a \/ ~ narrow a) by (unfold narrow; lia). destruct D.
  - destruct (ascii_range_spec s a t HL H) as [t1 [E1 [L1 N1]]]. rewrite E1. simpl. apply IHrs; auto.
  - rewrite ascii_range_panic; auto.
Qed.

Definition ascii_of (t : class_table) (j : nat) : list nat :=
  flat_map (fun p => flat_map (fun r => if ascii_hit r j then [snd p] else []) (fst p)) t.

Lemma ascii_fold_spec : forall ct t, length t = 256 -> Forall (fun p : lexer_classes * nat => Forall narrow (fst p)) ct ->
  exists t', fold_res (fun acc p => fold_res (ascii_range (snd p)) (fst p) acc) ct t = Ok t' /\ length t' = 256 /\
    forall j, nth j t' [] = nth j t [] ++ ascii_of ct j.
Proof.
  induction ct as [|[rs s] ct]; intros t HL HF.
  - exists t. simpl. split; auto. split; auto. intros. rewrite app_nil_r. auto.
  - inversion HF; subst. destruct (ascii_class_spec s rs t HL H1) as [t1 [E1 [L1 N1]]].
    destruct (IHct t1 L1 H2) as [t2 [E2 [L2 N2]]]. exists t2. simpl. rewrite E1. simpl. split; auto. split; auto.
    intros j. rewrite N2, N1, app_assoc. auto.
Qed.

Lemma ascii_fold_panic : forall ct t, length t = 256 -> ~ Forall (fun p : lexer_classes * nat => Forall narrow (fst p)) ct ->
  fold_res (fun acc p => fold_res (ascii_range (snd p)) (fst p) acc) ct t = Panic.
Proof.
  induction ct as [|[rs s] ct]; intros t HL HF; [exfalso; apply HF; auto|]. simpl.
  assert (D : Forall narrow rs \/ ~ Forall narrow rs).
  { clear. induction rs as [|a0 l IHl]; [left; auto|]. destruct IHl.
    - assert (D : narrow a0 \/ ~ narrow a0) by (unfold narrow; lia). destruct D; [left; auto|].
      right. intro H1. inversion H1; auto.
    - right. intro H1. inversion H1; auto. }
  destruct D.
  - destruct (ascii_class_spec s rs t HL H) as [t1 [E1 [L1 N1]]]. rewrite E1. simpl. apply IHct; auto.
  - rewrite ascii_class_panic; auto.
Qed.

Lemma ascii_of_in : forall ct j s, j < 128 ->
  (In s (ascii_of ct j) <-> exists rs, In (rs, s) ct /\ in_ranges rs (N.of_nat j)).
Proof.
  intros ct j s Hj. unfold ascii_of. rewrite in_flat_map. split.
  - intros [[rs s'] [H1 H2]]. cbn [fst snd] in H2. apply in_flat_map in H2. destruct H2 as [[lo hi] [H2 H3]].
    destruct (ascii_hit (lo, hi) j) eqn:E; [|destruct H3]. destruct H3 as [<-|[]].
    exists rs. split; auto. exists lo, hi. split; auto. unfold ascii_hit, covers in E. cbn [fst snd] in E.
    rewrite !andb_true_iff, !N.leb_le in E. lia.
  - intros [rs [H1 [lo [hi [H2 H3]]]]]. exists (rs, s). split; auto. cbn [fst snd]. apply in_flat_map.
    exists (lo, hi). split; auto. unfold ascii_hit, covers, is_ascii. cbn [fst snd].
    assert ((lo <? 128)%N = true) as -> by (apply N.ltb_lt; lia).
    assert ((lo <=? N.of_nat j)%N = true) as -> by (apply N.leb_le; lia).
    assert ((N.of_nat j <=? hi)%N = true) as -> by (apply N.leb_le; lia). simpl. auto.
Qed.

Lemma canonical_least : forall l a lo hi, canonical_from a l -> In (lo, hi) l -> (a <= lo <= hi)%N.
Proof.
  induction l as [|[x y] l]; intros a lo hi H HI; [destruct HI|]. destruct H as [_ [_ [H1 H2]]].
  destruct HI as [E|HI]; [injection E as <- <-; lia|]. specialize (IHl _ _ _ H2 HI). lia.
Qed.

Lemma hits_once : forall (s : nat) rs j a, canonical_from a rs ->
  NoDup (flat_map (fun r => if ascii_hit r j then [s] else []) rs).
Proof.
  induction rs as [|[lo hi] rs]; intros j a H; simpl; [constructor|].
  destruct H as [_ [_ [H1 H2]]]. destruct (ascii_hit (lo, hi) j) eqn:E; [|eapply IHrs; eauto].
  simpl. constructor; [|eapply IHrs; eauto].
  intro HI. apply in_flat_map in HI. destruct HI as [[x y] [HI H3]].
  destruct (ascii_hit (x, y) j) eqn:E2; [|destruct H3].
  pose proof (canonical_least _ _ _ _ H2 HI). unfold ascii_hit, covers in E, E2. cbn [fst snd] in E, E2.
  rewrite !andb_true_iff, !N.leb_le in E, E2. lia.
Qed.

Lemma NoDup_app' : forall (A : Type) (l1 l2 : list A), NoDup l1 -> NoDup l2 ->
  (forall x, In x l1 -> ~ In x l2) -> NoDup (l1 ++ l2).
Proof.
  induction l1; simpl; intros; auto. inversion H; subst. constructor.
  - rewrite in_app_iff. intros [?|?]; auto. eapply H1; eauto.
  - apply IHl1; auto.
Qed.

Lemma ascii_of_nodup : forall ct j, Forall (fun p : lexer_classes * nat => canonical (fst p)) ct ->
  NoDup (map snd ct) -> NoDup (ascii_of ct j).
Proof.
  unfold ascii_of. induction ct as [|[rs s] ct]; intros j HF HN; simpl; [constructor|].
  inversion HF; subst. inversion HN; subst. apply NoDup_app'.
  - eapply hits_once. apply H1.
  - apply IHct; auto.
  - intros x HI HI2. apply in_flat_map in HI. destruct HI as [r [_ HI]].
    destruct (ascii_hit r j); [|destruct HI]. destruct HI as [<-|[]].
    apply in_flat_map in HI2. destruct HI2 as [[rs' s'] [HI2 H5]]. cbn [fst snd] in H5.
    apply in_flat_map in H5. destruct H5 as [r' [_ H5]]. destruct (ascii_hit r' j); [|destruct H5].
    destruct H5 as [<-|[]]. apply H3. apply in_map_iff. exists (rs', s'). auto.
Qed.

(** * The events *)

Section Events.
Context {A : Type}.

Definition flat (m : list (N * list A)) : list (N * A) :=
  flat_map (fun e => map (fun v => (fst e, v)) (snd e)) m.

Definition sorted_map (m : list (N * list A)) : Prop := StronglySorted N.lt (map fst m).

Lemma flat_in : forall m k v, In (k, v) (flat m) -> In k (map fst m).
Proof.
  intros m k v H. apply in_flat_map in H. destruct H as [[k' l] [H1 H2]]. apply in_map_iff in H2.
  destruct H2 as [x [E _]]. cbn [fst snd] in E. injection E as <- _. apply in_map_iff. exists (k', l). auto.
Qed.

Lemma push_keys : forall (m : list (N * list A)) k v x, In x (map fst (event_push m k v)) <-> x = k \/ In x (map fst m).
Proof.
  induction m as [|[k' l] m]; intros; simpl; [intuition auto|].
  destruct (N.compare k k') eqn:E; simpl.
  - apply N.compare_eq in E. subst. intuition auto.
  - intuition auto.
  - rewrite IHm. intuition auto.
Qed.

Lemma push_sorted : forall (m : list (N * list A)) k v, sorted_map m -> sorted_map (event_push m k v).
Proof.
  unfold sorted_map. induction m as [|[k' l] m]; intros k v H; simpl.
  - constructor; constructor.
  - simpl in H. inversion H; subst. destruct (N.compare k k') eqn:E; simpl.
    + constructor; auto.
    + apply -> N.compare_lt_iff in E. constructor; auto. constructor; auto.
      eapply Forall_impl; [|exact H3]. intros. lia.
    + apply -> N.compare_gt_iff in E. constructor; auto. apply Forall_forall. intros x Hx.
      apply push_keys in Hx. destruct Hx as [->|Hx]; auto. rewrite Forall_forall in H3. auto.
Qed.

Lemma filter_all : forall (B : Type) (f : B -> bool) l, (forall x, In x l -> f x = true) -> filter f l = l.
Proof. induction l; simpl; intros; auto. rewrite H by auto. f_equal. apply IHl. auto. Qed.
Lemma filter_none : forall (B : Type) (f : B -> bool) l, (forall x, In x l -> f x = false) -> filter f l = [].
Proof. induction l; simpl; intros; auto. rewrite H by auto. apply IHl. auto. Qed.

Lemma flat_push : forall m k v, sorted_map m ->
  flat (event_push m k v) =
  filter (fun e => (fst e <=? k)%N) (flat m) ++ (k, v) :: filter (fun e => (k <? fst e)%N) (flat m).
Proof.
  unfold sorted_map. induction m as [|[k' l] m]; intros k v H; [reflexivity|].
  simpl in H. inversion H; subst. rewrite Forall_forall in H3.
  assert (T : forall x, In x (flat m) -> (k' < fst x)%N).
  { intros [x y] Hx. apply flat_in in Hx. auto. }
  cbn [event_push]. destruct (N.compare k k') eqn:E.
  - apply N.compare_eq in E. subst k'. simpl. rewrite map_app. simpl. rewrite <- app_assoc.
    rewrite !filter_app.
    rewrite (filter_all _ _ (map (fun v0 => (k, v0)) l)).
    2:{ intros x Hx. apply in_map_iff in Hx. destruct Hx as [y [<- _]]. simpl. apply N.leb_le. lia. }
    rewrite (filter_none _ _ (flat m)).
    2:{ intros x Hx. apply N.leb_gt. auto. }
    rewrite (filter_none _ _ (map (fun v0 => (k, v0)) l)).
    2:{ intros x Hx. apply in_map_iff in Hx. destruct Hx as [y [<- _]]. simpl. apply N.ltb_ge. lia. }
    rewrite (filter_all _ _ (flat m)).
    2:{ intros x Hx. apply N.ltb_lt. auto. }
    rewrite app_nil_r. reflexivity.
  - apply -> N.compare_lt_iff in E.
    assert (forall x, In x (flat ((k', l) :: m)) -> (k < fst x)%N).
    { intros x Hx. simpl in Hx. apply in_app_iff in Hx. destruct Hx as [Hx|Hx].
      - apply in_map_iff in Hx. destruct Hx as [y [<- _]]. auto.
      - apply T in Hx. lia. }
    rewrite filter_none. 2:{ intros. apply N.leb_gt. auto. }
    rewrite filter_all. 2:{ intros. apply N.ltb_lt. auto. }
    reflexivity.
  - apply -> N.compare_gt_iff in E. change (flat ((k', l) :: event_push m k v)) with (map (fun v0 => (k', v0)) l ++ flat (event_push m k v)).
    rewrite IHm by auto. change (flat ((k', l) :: m)) with (map (fun v0 => (k', v0)) l ++ flat m).
    rewrite !filter_app.
    rewrite (filter_all _ _ (map (fun v0 => (k', v0)) l)).
    2:{ intros x Hx. apply in_map_iff in Hx. destruct Hx as [y [<- _]]. simpl. apply N.leb_le. lia. }
    rewrite (filter_none _ _ (map (fun v0 => (k', v0)) l)).
    2:{ intros x Hx. apply in_map_iff in Hx. destruct Hx as [y [<- _]]. simpl. apply N.ltb_ge. lia. }
    rewrite app_assoc. reflexivity.
Qed.

Lemma flat_push_other : forall m k v (p : A -> bool), sorted_map m -> p v = false ->
  filter (fun e => p (snd e)) (flat (event_push m k v)) = filter (fun e => p (snd e)) (flat m).
Proof.
  intros m k v p H Hp. rewrite flat_push by auto. rewrite filter_app. simpl. rewrite Hp.
  rewrite <- filter_app. f_equal.
  assert (S : StronglySorted (fun a b => (fst a <= fst b)%N) (flat m)).
  { clear -H. unfold sorted_map in H. induction m as [|[k l] m]; [constructor|]. simpl in H. inversion H; subst.
    specialize (IHm H2). change (flat ((k, l) :: m)) with (map (fun v0 => (k, v0)) l ++ flat m).
    assert (T : forall x, In x (flat m) -> (k < fst x)%N).
    { intros [x y] Hx. apply flat_in in Hx. rewrite Forall_forall in H3. auto. }
    induction l; simpl; auto. constructor; auto. apply Forall_forall. intros x Hx. apply in_app_iff in Hx.
    destruct Hx as [Hx|Hx]; [apply in_map_iff in Hx; destruct Hx as [y [<- _]]; simpl; lia | apply T in Hx; simpl; lia]. }
  clear H. induction S; [reflexivity|]. simpl. destruct (fst a <=? k)%N eqn:E.
  - assert ((k <? fst a)%N = false) as ->. { apply N.ltb_ge. apply N.leb_le in E. lia. }
    simpl. f_equal. auto.
  - apply N.leb_gt in E. assert ((k <? fst a)%N = true) as -> by (apply N.ltb_lt; lia).
    rewrite filter_none. 2:{ intros x Hx. rewrite Forall_forall in H. specialize (H x Hx). apply N.leb_gt. lia. }
    simpl. f_equal. apply filter_all. intros x Hx. rewrite Forall_forall in H. specialize (H x Hx). apply N.ltb_lt. lia.
Qed.

Lemma flat_push_same : forall m k v (p : A -> bool), sorted_map m -> p v = true ->
  (forall e, In e (filter (fun e => p (snd e)) (flat m)) -> (fst e <= k)%N) ->
  filter (fun e => p (snd e)) (flat (event_push m k v)) = filter (fun e => p (snd e)) (flat m) ++ [(k, v)].
Proof.
  intros m k v p H Hp Hk. rewrite flat_push by auto. rewrite filter_app. simpl. rewrite Hp.
  f_equal.
  - clear -Hk. induction (flat m); [reflexivity|]. simpl in *. destruct (p (snd a)) eqn:EP.
    + assert ((fst a <=? k)%N = true) as ->. { apply N.leb_le. apply Hk. simpl. auto. }
      simpl. rewrite EP. f_equal. apply IHl. intros e He. apply Hk. simpl. auto.
    + destruct (fst a <=? k)%N; simpl; [rewrite EP|]; apply IHl; auto.
  - f_equal. apply filter_none. intros x Hx. apply filter_In in Hx. destruct Hx as [Hx H1].
    destruct (p (snd x)) eqn:EP; auto. assert (fst x <= k)%N. { apply Hk. apply filter_In. auto. }
    apply N.ltb_lt in H1. lia.
Qed.
End Events.

Definition of_sym (s : nat) (e : N * (bool * nat)) : bool := snd (snd e) =? s.
Definition events_of (s : nat) (rs : list (N * N)) : list (N * (bool * nat)) :=
  flat_map (fun r => [(fst r, (true, s)); ((snd r + 1)%N, (false, s))]) rs.

(** The end of a range is followed by a character. *)
Definition followed_by_char (r : N * N) : Prop := is_char (snd r + 1).

Lemma class_events : forall s rs m, sorted_map m -> Forall followed_by_char rs ->
  exists m', fold_res (range_events s) rs m = Ok m' /\ sorted_map m' /\
    (forall s', s' <> s -> filter (of_sym s') (flat m') = filter (of_sym s') (flat m)) /\
    (forall a, canonical_from a rs -> (forall e, In e (filter (of_sym s) (flat m)) -> (fst e <= a)%N) ->
       filter (of_sym s) (flat m') = filter (of_sym s) (flat m) ++ events_of s rs).
Proof.
  intros s. induction rs as [|[lo hi] rs]; intros m HS HF.
  - exists m. simpl. split; auto. split; auto. split; auto. intros. rewrite app_nil_r. auto.
  - inversion HF; subst. unfold followed_by_char in H1. cbn [snd] in H1.
    set (m1 := event_push m lo (true, s)).
    set (m2 := event_push m1 (hi + 1) (false, s)).
    assert (S1 : sorted_map m1) by (apply push_sorted; auto).
    assert (S2 : sorted_map m2) by (apply push_sorted; auto).
    destruct (IHrs m2 S2 H2) as [m' [E [S' [O' C']]]]. exists m'.
    simpl. unfold range_events at 1. cbn [fst snd]. rewrite from_u32_ok by auto. cbn [bind].
    fold m1. fold m2. split; auto. split; auto. split.
    + intros s' Hs. rewrite O' by auto. unfold of_sym, m2, m1.
      rewrite (flat_push_other _ _ _ (fun v : bool * nat => snd v =? s')); auto.
      2:{ apply Nat.eqb_neq. auto. }
      apply (flat_push_other _ _ _ (fun v : bool * nat => snd v =? s')); auto. apply Nat.eqb_neq. auto.
    + intros a HC Hk. simpl in HC. destruct HC as [_ [_ [HC1 HC2]]].
      assert (F1 : filter (of_sym s) (flat m1) = filter (of_sym s) (flat m) ++ [(lo, (true, s))]).
      { apply (flat_push_same _ _ _ (fun v : bool * nat => snd v =? s)); auto; [apply Nat.eqb_refl|].
        intros e He. specialize (Hk e He). lia. }
      assert (F2 : filter (of_sym s) (flat m2) = filter (of_sym s) (flat m1) ++ [((hi + 1)%N, (false, s))]).
      { apply (flat_push_same _ _ _ (fun v : bool * nat => snd v =? s)); auto; [apply Nat.eqb_refl|].
        intros e He. change (In e (filter (of_sym s) (flat m1))) in He. rewrite F1 in He.
        apply in_app_iff in He. destruct He as [He|[<-|[]]]; [specialize (Hk e He); lia | simpl; lia]. }
      rewrite (C' (hi + 1)%N); auto.
      * rewrite F2, F1. simpl. rewrite <- !app_assoc. reflexivity.
      * intros e He. rewrite F2, F1 in He. rewrite !in_app_iff in He.
        destruct He as [[He|[<-|[]]]|[<-|[]]]; simpl; try lia. specialize (Hk e He). lia.
Qed.

Lemma class_events_panic : forall s rs m, ~ Forall followed_by_char rs -> fold_res (range_events s) rs m = Panic.
Proof.
  intros s. induction rs as [|[lo hi] rs]; intros m HF; [exfalso; apply HF; auto|]. simpl.
  unfold range_events at 1. cbn [fst snd].
  assert (D : is_char (hi + 1) \/ ~ is_char (hi + 1)) by (unfold is_char; lia). destruct D as [D|D].
  - rewrite from_u32_ok by auto. simpl. apply IHrs. intro H. apply HF. constructor; auto.
  - rewrite from_u32_panic by auto. reflexivity.
Qed.

Definition events_fold (ct : class_table) m :=
  fold_res (fun acc p => fold_res (range_events (snd p)) (fst p) acc) ct m.

Lemma table_events : forall ct m, sorted_map m ->
  Forall (fun p : lexer_classes * nat => Forall followed_by_char (fst p)) ct ->
  exists m', events_fold ct m = Ok m' /\ sorted_map m' /\
    (forall s, ~ In s (map snd ct) -> filter (of_sym s) (flat m') = filter (of_sym s) (flat m)) /\
    (Forall (fun p : lexer_classes * nat => canonical (fst p)) ct -> NoDup (map snd ct) ->
     (forall s, In s (map snd ct) -> filter (of_sym s) (flat m) = []) ->
     forall rs s, In (rs, s) ct -> filter (of_sym s) (flat m') = events_of s rs).
Proof.
  unfold events_fold. induction ct as [|[rs s] ct]; intros m HS HF.
  - exists m. simpl. split; auto. split; auto. split; auto. intros _ _ _ rs s [].
  - inversion HF; subst. destruct (class_events s rs m HS H1) as [m1 [E1 [S1 [O1 C1]]]].
    destruct (IHct m1 S1 H2) as [m2 [E2 [S2 [O2 C2]]]]. exists m2. simpl. rewrite E1. simpl. split; auto. split; auto.
    split.
    + intros s' Hs. rewrite O2 by auto. apply O1. auto.
    + intros HC HN HE rs' s' HI. inversion HC; subst. inversion HN; subst. destruct HI as [EI|HI].
      * injection EI as <- <-. rewrite O2 by auto. rewrite (C1 0%N); auto.
        -- rewrite HE by auto. reflexivity.
        -- rewrite HE by auto. intros e [].
      * apply C2; auto. intros s'' Hs. rewrite O1; auto. intros ->. auto.
Qed.

Lemma table_events_panic : forall ct m, sorted_map m ->
  ~ Forall (fun p : lexer_classes * nat => Forall followed_by_char (fst p)) ct -> events_fold ct m = Panic.
Proof.
  unfold events_fold. induction ct as [|[rs s] ct]; intros m HS HF; [exfalso; apply HF; auto|]. simpl.
  assert (D : Forall followed_by_char rs \/ ~ Forall followed_by_char rs).
  { clear. induction rs as [|r rs]; [left; auto|]. destruct IHrs.
    - assert (D : followed_by_char r \/ ~ followed_by_char r) by (unfold followed_by_char, is_char; lia).
      destruct D; [left; auto|]. right. intro H1. inversion H1; auto.
    - right. intro H1. inversion H1; auto. }
  destruct D as [D|D].
  - destruct (class_events s rs m HS D) as [m1 [E1 [S1 _]]]. rewrite E1. simpl. apply IHct; auto.
  - rewrite class_events_panic by auto. reflexivity.
Qed.

(** * Sweeping *)

Lemma sweep_keys : forall m w, map fst (sweep m w) = map fst m.
Proof. induction m as [|[k l] m]; intros; simpl; f_equal; auto. Qed.

Lemma sweep_last : forall m w ch, sorted_map m ->
  match rev (filter (fun e => (fst e <=? ch)%N) (sweep m w)) with
  | [] => w
  | e :: _ => snd e
  end = fold_left apply_change (map snd (filter (fun e => (fst e <=? ch)%N) (flat m))) w.
Proof.
  unfold sorted_map. induction m as [|[k l] m]; intros w ch H; [reflexivity|].
  simpl in H. inversion H; subst. cbn [sweep filter fst].
  change (flat ((k, l) :: m)) with (map (fun v0 => (k, v0)) l ++ flat m). rewrite filter_app.
  rewrite Forall_forall in H3. destruct (k <=? ch)%N eqn:E.
  - rewrite (filter_all _ _ (map (fun v0 => (k, v0)) l)).
    2:{ intros x Hx. apply in_map_iff in Hx. destruct Hx as [y [<- _]]. auto. }
    rewrite map_app, fold_left_app, map_map. cbn [snd]. rewrite map_id. rewrite <- IHm by auto.
    simpl. set (F := filter _ _). destruct (rev F); reflexivity.
  - apply N.leb_gt in E. rewrite (filter_none _ _ (map (fun v0 => (k, v0)) l)).
    2:{ intros x Hx. apply in_map_iff in Hx. destruct Hx as [y [<- _]]. simpl. apply N.leb_gt. auto. }
    rewrite (filter_none _ _ (flat m)).
    2:{ intros [x y] Hx. apply flat_in in Hx. specialize (H3 _ Hx). simpl. apply N.leb_gt. lia. }
    rewrite filter_none; [reflexivity|]. intros x Hx. apply N.leb_gt.
    assert (In (fst x) (map fst (sweep m (fold_left apply_change l w)))) by (apply in_map; auto).
    rewrite sweep_keys in H0. specialize (H3 _ H0). lia.
Qed.

Lemma sym_insert_in : forall x s l, In x (sym_insert s l) <-> x = s \/ In x l.
Proof.
  induction l; simpl; [intuition auto|]. destruct (Nat.compare s a) eqn:E; simpl.
  - apply Nat.compare_eq in E. subst. intuition auto.
  - intuition auto.
  - rewrite IHl. intuition auto.
Qed.

Lemma sym_insert_sorted : forall s l, StronglySorted lt l -> StronglySorted lt (sym_insert s l).
Proof.
  induction l; intros H; simpl; [repeat constructor|]. inversion H; subst. destruct (Nat.compare s a) eqn:E; auto.
  - apply -> Nat.compare_lt_iff in E. constructor; auto. constructor; auto. eapply Forall_impl; [|exact H3]. intros; lia.
  - apply -> Nat.compare_gt_iff in E. constructor; auto. apply Forall_forall. intros x Hx. apply sym_insert_in in Hx.
    rewrite Forall_forall in H3. destruct Hx as [->|Hx]; auto.
Qed.

Lemma remove_sorted : forall s l, StronglySorted lt l -> StronglySorted lt (remove Nat.eq_dec s l).
Proof.
  induction l; intros H; simpl; auto. inversion H; subst. destruct (Nat.eq_dec s a); auto.
  constructor; auto. apply Forall_forall. intros x Hx. apply in_remove in Hx. rewrite Forall_forall in H3. apply H3. tauto.
Qed.

Lemma changes_sorted : forall cs w, StronglySorted lt w -> StronglySorted lt (fold_left apply_change cs w).
Proof.
  induction cs as [|[[] s] cs]; intros w H; simpl; auto; apply IHcs; unfold apply_change; simpl;
    auto using sym_insert_sorted, remove_sorted.
Qed.

Lemma sorted_nodup : forall l, StronglySorted lt l -> NoDup l.
Proof.
  induction l; intros H; constructor; inversion H; subst; auto.
  intro HI. rewrite Forall_forall in H3. specialize (H3 _ HI). lia.
Qed.

Definition last_change (s : nat) (cs : list (bool * nat)) (b : bool) : bool :=
  fold_left (fun _ c => fst c) (filter (fun c => snd c =? s) cs) b.

Lemma changes_in : forall s cs w b, (In s w <-> b = true) ->
  (In s (fold_left apply_change cs w) <-> last_change s cs b = true).
Proof.
  unfold last_change. intros s. induction cs as [|[b0 s0] cs]; intros w b H; simpl; auto.
  destruct (s0 =? s) eqn:E.
  - apply Nat.eqb_eq in E. subst s0. simpl. apply IHcs. unfold apply_change. simpl. destruct b0.
    + rewrite sym_insert_in. intuition auto.
    + split; [intro HI; apply in_remove in HI; tauto | discriminate].
  - apply Nat.eqb_neq in E. apply IHcs. rewrite <- H. unfold apply_change. simpl. destruct b0.
    + rewrite sym_insert_in. intuition congruence.
    + split; [intro HI; apply in_remove in HI; tauto | intro HI; apply in_in_remove; auto].
Qed.

Lemma filter_comm : forall (B : Type) (f g : B -> bool) l, filter f (filter g l) = filter g (filter f l).
Proof.
  induction l; simpl; auto. destruct (g a) eqn:E1, (f a) eqn:E2; simpl; rewrite ?E1, ?E2; auto. f_equal. auto.
Qed.
Lemma filter_map_snd : forall (s : nat) (l : list (N * (bool * nat))),
  filter (fun c => snd c =? s) (map snd l) = map snd (filter (of_sym s) l).
Proof. induction l; simpl; auto. unfold of_sym at 1. destruct (snd (snd a) =? s); simpl; f_equal; auto. Qed.

Lemma events_least : forall s rs a e, canonical_from a rs -> In e (events_of s rs) -> (a <= fst e)%N.
Proof.
  induction rs as [|[lo hi] rs]; intros a e H HI; [destruct HI|]. destruct H as [_ [_ [H1 H2]]].
  destruct HI as [<-|[<-|HI]]; simpl; try lia. specialize (IHrs _ _ H2 HI). lia.
Qed.

Lemma events_state : forall s rs a ch, canonical_from a rs ->
  (fold_left (fun _ c => fst c) (map snd (filter (fun e => (fst e <=? ch)%N) (events_of s rs))) false = true
   <-> in_ranges rs ch).
Proof.
  induction rs as [|[lo hi] rs]; intros a ch H.
  - simpl. split; [discriminate|]. intros [? [? [[] _]]].
  - assert (HR : in_ranges ((lo, hi) :: rs) ch <-> (lo <= ch <= hi)%N \/ in_ranges rs ch).
    { split.
      - intros [x [y [[E|HI] H1]]]; [injection E as <- <-; auto | right; exists x, y; auto].
      - intros [H1|[x [y [HI H1]]]]; [exists lo, hi; simpl; auto | exists x, y; simpl; auto]. }
    rewrite HR. clear HR. pose proof H as [_ [_ [H1 H2]]].
    change (events_of s ((lo, hi) :: rs)) with ((lo, (true, s)) :: ((hi + 1)%N, (false, s)) :: events_of s rs).
    destruct (N.le_gt_cases (hi + 1) ch) as [C1|C1].
    + cbn [filter fst]. assert ((lo <=? ch)%N = true) as -> by (apply N.leb_le; lia).
      assert ((hi + 1 <=? ch)%N = true) as -> by (apply N.leb_le; lia). simpl.
      rewrite (IHrs _ ch H2). split; auto. intros [?|?]; auto. lia.
    + assert (NR : ~ in_ranges rs ch).
      { intros [x [y [HI H3]]]. pose proof (canonical_least _ _ _ _ H2 HI). lia. }
      destruct (N.le_gt_cases lo ch) as [C2|C2].
      * cbn [filter fst]. assert ((lo <=? ch)%N = true) as -> by (apply N.leb_le; lia).
        assert ((hi + 1 <=? ch)%N = false) as -> by (apply N.leb_gt; lia).
        rewrite filter_none. 2:{ intros e He. pose proof (events_least s rs _ e H2 He). apply N.leb_gt. lia. }
        simpl. split; auto. intros _. left. lia.
      * rewrite filter_none.
        2:{ intros e He. apply N.leb_gt. destruct He as [<-|[<-|He]]; simpl; try lia.
            pose proof (events_least s rs _ e H2 He). lia. }
        simpl. split; [discriminate|]. intros [?|?]; [lia | contradiction].
Qed.

(** * Lookup *)

Definition handled (r : N * N) : Prop := narrow r /\ followed_by_char r.

Lemma compute_ok : forall lm, Forall (fun p : lexer_classes * nat => Forall handled (fst p)) (lm_classes lm) ->
  exists lm', compute lm = Ok lm' /\ lm_classes lm' = lm_classes lm /\ length (lm_ascii lm') = 256 /\
    (forall j, j < 128 -> nth j (lm_ascii lm') [] = ascii_of (lm_classes lm) j) /\
    exists ev, sorted_map ev /\ lm_ranges lm' = sweep ev [] /\
      (forall s, ~ In s (map snd (lm_classes lm)) -> filter (of_sym s) (flat ev) = []) /\
      (Forall (fun p : lexer_classes * nat => canonical (fst p)) (lm_classes lm) -> NoDup (map snd (lm_classes lm)) ->
       forall rs s, In (rs, s) (lm_classes lm) -> filter (of_sym s) (flat ev) = events_of s rs).
Proof.
  intros lm H.
  destruct (ascii_fold_spec (lm_classes lm) (repeat [] 256)) as [t [E [HL HN]]]; [reflexivity| |].
  { eapply Forall_impl; [|exact H]. intros p Hp. eapply Forall_impl; [|exact Hp]. intros r [? _]. auto. }
  destruct (table_events (lm_classes lm) []) as [ev [E2 [S2 [O2 C2]]]]; [constructor| |].
  { eapply Forall_impl; [|exact H]. intros p Hp. eapply Forall_impl; [|exact Hp]. intros r [_ ?]. auto. }
  exists (mkLexer (lm_classes lm) t (sweep ev [])). unfold compute, ascii_table. rewrite E. cbn [bind].
  change (all_events (lm_classes lm)) with (events_fold (lm_classes lm) []). rewrite E2. cbn [bind].
  split; auto. split; auto. split; auto. split.
  - intros j Hj. cbn [lm_ascii]. rewrite HN. rewrite nth_repeat. reflexivity.
  - exists ev. split; auto.
Qed.

Lemma compute_panics : forall lm, ~ Forall (fun p : lexer_classes * nat => Forall handled (fst p)) (lm_classes lm) ->
  compute lm = Panic.
Proof.
  intros lm H. unfold compute, ascii_table.
  assert (D : forall (P : N * N -> Prop), (forall r, P r \/ ~ P r) -> forall t : class_table,
    Forall (fun p => Forall P (fst p)) t \/ ~ Forall (fun p => Forall P (fst p)) t).
  { intros P DP. assert (D1 : forall l, Forall P l \/ ~ Forall P l).
    { induction l; [left; auto|]. destruct IHl, (DP a); [left; auto|right..]; intro X; inversion X; auto. }
    induction t as [|[rs s] t]; [left; auto|]. destruct IHt, (D1 rs); [left; auto|right..]; intro X; inversion X; auto. }
  destruct (D narrow ltac:(unfold narrow; intros; lia) (lm_classes lm)) as [H1|H1].
  - destruct (ascii_fold_spec (lm_classes lm) (repeat [] 256)) as [t [E _]]; [reflexivity|auto|]. rewrite E. cbn [bind].
    change (all_events (lm_classes lm)) with (events_fold (lm_classes lm) []).
    rewrite table_events_panic; [reflexivity|constructor|]. intro H2. apply H.
    rewrite Forall_forall in *. intros p Hp. specialize (H1 p Hp). specialize (H2 p Hp).
    rewrite Forall_forall in *. intros r Hr. split; auto.
  - rewrite ascii_fold_panic; [reflexivity|reflexivity|auto].
Qed.

Lemma get_spec : forall lm lm' ch,
  Forall (fun p : lexer_classes * nat => Forall handled (fst p)) (lm_classes lm) ->
  Forall (fun p : lexer_classes * nat => canonical (fst p)) (lm_classes lm) ->
  NoDup (map snd (lm_classes lm)) ->
  compute lm = Ok lm' ->
  exists l, lexer_get lm' ch = Ok l /\ NoDup l /\
    forall s, In s l <-> exists rs, In (rs, s) (lm_classes lm) /\ in_ranges rs ch.
Proof.
  intros lm lm' ch H1 H2 H3 E. destruct (compute_ok lm H1) as [lm2 [E2 [_ [HL [HA [ev [HS [HR [HO HC]]]]]]]]].
  rewrite E in E2. injection E2 as <-. unfold lexer_get, is_ascii. destruct (ch <? 128)%N eqn:EA.
  - apply N.ltb_lt in EA. assert (Hj : N.to_nat ch < 128) by lia. exists (ascii_of (lm_classes lm) (N.to_nat ch)).
    split; [|split].
    + unfold get_ix. rewrite <- HA by auto. rewrite (nth_error_nth' _ []); [reflexivity|]. rewrite HL. lia.
    + apply ascii_of_nodup; auto.
    + intros s. rewrite ascii_of_in by auto. rewrite N2Nat.id. reflexivity.
  - eexists. split; [reflexivity|]. rewrite HR, sweep_last by auto. split.
    + apply sorted_nodup, changes_sorted. constructor.
    + intros s. rewrite (changes_in s _ [] false) by (simpl; split; [tauto | discriminate]).
      unfold last_change. rewrite filter_map_snd, filter_comm.
      destruct (in_dec Nat.eq_dec s (map snd (lm_classes lm))) as [HI|HI].
      * apply in_map_iff in HI. destruct HI as [[rs s'] [ES HI]]. simpl in ES. subst s'.
        rewrite (HC H2 H3 rs s HI). rewrite Forall_forall in H2. pose proof (H2 _ HI) as HC2. simpl in HC2.
        rewrite (events_state s rs 0 ch HC2). split; [intros; exists rs; auto|].
        intros [rs' [HI' H']]. replace rs with rs'; auto.
        clear -H3 HI HI'. induction (lm_classes lm) as [|[a b] t]; [destruct HI|]. inversion H3; subst.
        destruct HI as [E|HI], HI' as [E'|HI'].
        -- congruence.
        -- injection E as -> ->. exfalso. apply H1. apply in_map_iff. exists (rs', s). auto.
        -- injection E' as -> ->. exfalso. apply H1. apply in_map_iff. exists (rs, s). auto.
        -- auto.
      * rewrite HO by auto. simpl. split; [discriminate|]. intros [rs [HI' _]]. exfalso. apply HI.
        apply in_map_iff. exists (rs, s). auto.
Qed.
