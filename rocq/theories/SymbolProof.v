(** Proofs about symbol sources and mappings. *)

From Coq Require Import List Arith NArith Bool Lia String.
From Verif Require Import Base ListFacts SymbolModel View.
Import ListNotations.
Local Notation length := List.length.

Lemma max_of_pos : forall w, (255 <= max_of w)%N.
Proof. destruct w; simpl; unfold u32_max; lia. Qed.
Lemma max_of_u32 : forall w, (max_of w <= u32_max)%N.
Proof. destruct w; simpl; unfold u32_max; lia. Qed.

(** * Creation *)

Lemma advance_spec : forall debug w n x, (n < u32_max)%N -> sym_advance debug w n = Ok x ->
  x = (n + 1)%N /\ (x <= max_of w)%N.
Proof.
  unfold sym_advance; intros. assert ((n =? u32_max)%N = false) by (apply N.eqb_neq; lia).
  rewrite H1 in H0. destruct (n + 1 <=? max_of w)%N eqn:E; [|discriminate].
  apply N.leb_le in E. destruct (debug && _); inversion H0; auto.
Qed.

Lemma advance_ok : forall (debug : bool) w n,
  (n + (if debug then 1 else 0) < max_of w)%N -> sym_advance debug w n = Ok (n + 1)%N.
Proof.
  unfold sym_advance; intros debug w n H. pose proof (max_of_u32 w).
  assert ((n =? u32_max)%N = false) as -> by (apply N.eqb_neq; destruct debug; lia).
  assert ((n + 1 <=? max_of w)%N = true) as -> by (apply N.leb_le; destruct debug; lia).
  destruct debug; simpl; auto. assert ((n + 1 =? max_of w)%N = false) as -> by (apply N.eqb_neq; lia). auto.
Qed.

Lemma advance_panic : forall debug w n, w <> W32 -> (max_of w <= n)%N -> sym_advance debug w n = Panic.
Proof.
  unfold sym_advance; intros. assert (HM : (max_of w < u32_max)%N) by (destruct w; simpl; unfold u32_max; try lia; congruence).
  destruct (n =? u32_max)%N eqn:E.
  - apply N.eqb_eq in E; subst. assert ((u32_max <=? max_of w)%N = false) as -> by (apply N.leb_gt; lia). auto.
  - assert ((n + 1 <=? max_of w)%N = false) as -> by (apply N.leb_gt; lia). auto.
Qed.

Lemma issue_app : forall debug w n1 n2 src,
  source_issue debug w src (n1 ++ n2) =
  do (l1, s1) <- source_issue debug w src n1;
  do (l2, s2) <- source_issue debug w s1 n2; Ok (l1 ++ l2, s2).
Proof.
  induction n1; simpl; intros.
  - destruct (source_issue debug w src n2) as [[? ?]| |]; auto.
  - unfold source_next_sym at 1 2. destruct (sym_advance debug w (next_symbol src)) as [nx| |]; simpl; auto.
    rewrite IHn1. destruct (source_issue debug w _ n1) as [[l1 s1]| |]; simpl; auto.
    destruct (source_issue debug w s1 n2) as [[l2 s2]| |]; simpl; auto.
Qed.

(** As long as the counter does not exceed the range, symbols are numbered in order. *)
Lemma issue_spec : forall debug w names src l src',
  source_issue debug w src names = Ok (l, src') ->
  (1 <= next_symbol src)%N ->
  (next_symbol src + N.of_nat (length names) <= u32_max)%N ->
  map sym_usize l = map (fun i => (sym_usize (next_symbol src) + N.of_nat i)%N) (seq 0 (length names)) /\
  next_symbol src' = (next_symbol src + N.of_nat (length names))%N /\
  source_names src' = source_names src ++ names.
Proof.
  induction names; intros.
  - simpl in *. inversion H; subst. simpl. rewrite N.add_0_r, app_nil_r. auto.
  - cbn [source_issue] in H. apply bind_ok in H. destruct H as [[s s1] [E1 E2]].
    apply bind_ok in E2. destruct E2 as [[l2 s2] [E2 E3]]. inversion E3; subst; clear E3.
    unfold source_next_sym in E1. apply bind_ok in E1. destruct E1 as [nx [E1 E3]]. inversion E3; subst; clear E3.
    cbn [length] in H1. rewrite Nat2N.inj_succ in H1.
    apply advance_spec in E1; [|lia]. destruct E1 as [-> Hle].
    apply IHnames in E2; cbn [next_symbol source_names] in *; try lia.
    destruct E2 as [E2 [E3 E4]]. cbn [length map seq]. rewrite E2, E3, E4.
    split; [|split].
    + f_equal; [unfold sym_usize; lia|]. rewrite <- seq_shift, map_map. apply map_ext. intros.
      unfold sym_usize. lia.
    + lia.
    + rewrite <- app_assoc. auto.
Qed.

Lemma issue_ok : forall (debug : bool) w names src, (1 <= next_symbol src)%N ->
  (next_symbol src + N.of_nat (length names) + (if debug then 1 else 0) <= max_of w)%N ->
  exists l src', source_issue debug w src names = Ok (l, src').
Proof.
  induction names; intros.
  - simpl. eauto.
  - cbn [length] in H0. rewrite Nat2N.inj_succ in H0. cbn [source_issue]. unfold source_next_sym.
    rewrite advance_ok by (destruct debug; lia). cbn [bind].
    destruct (IHnames (mkSource (next_symbol src + 1)%N (source_names src ++ [a]))) as [l [s E]].
    + simpl. lia.
    + cbn [next_symbol]. lia.
    + rewrite E. cbn [bind]. eauto.
Qed.

Lemma issue_panic : forall debug w names src, w <> W32 -> (1 <= next_symbol src)%N ->
  (next_symbol src <= max_of w)%N ->
  (max_of w < next_symbol src + N.of_nat (length names))%N ->
  source_issue debug w src names = Panic.
Proof.
  induction names; intros.
  - simpl in H2. lia.
  - cbn [source_issue]. unfold source_next_sym.
    destruct (N.eq_dec (next_symbol src) (max_of w)) as [E|E].
    + rewrite advance_panic; auto. lia.
    + destruct (sym_advance debug w (next_symbol src)) as [nx| |] eqn:EA; cbn [bind]; auto.
      * apply advance_spec in EA; [|pose proof (max_of_u32 w); lia]. destruct EA as [-> ?].
        rewrite IHnames; cbn [next_symbol length] in *; auto; try lia.
      * unfold sym_advance in EA. destruct (_ <=? _)%N; [destruct (debug && _)|]; discriminate.
Qed.

Theorem source_new_numbers : forall debug w names l src',
  source_issue debug w source_new names = Ok (l, src') ->
  (N.of_nat (length names) < u32_max)%N ->
  map sym_usize l = map N.of_nat (seq 0 (length names)) /\
  NoDup l /\ source_num_syms src' = N.of_nat (length names).
Proof.
  intros. apply issue_spec in H; [|unfold source_new, sym_first; cbn [next_symbol]; lia|].
  - destruct H as [E1 [E2 _]].
    assert (EM : map sym_usize l = map N.of_nat (seq 0 (length names))).
    { rewrite E1. apply map_ext. intros; unfold source_new, sym_usize, sym_first; cbn [next_symbol]; lia. }
    split; auto. split.
    + apply (NoDup_map_inv sym_usize). rewrite EM. apply FinFun.Injective_map_NoDup; [|apply seq_NoDup].
      intros x y. apply Nat2N.inj.
    + unfold source_num_syms. rewrite E2. unfold source_new, sym_usize, sym_first. cbn [next_symbol]. lia.
  - unfold source_new, sym_first. cbn [next_symbol]. lia.
Qed.

Lemma generate_spec : forall debug w k n l,
  generate_from debug w n k = Ok l -> (1 <= n)%N -> (n + N.of_nat k <= u32_max)%N ->
  map sym_usize l = map (fun i => (sym_usize n + N.of_nat i)%N) (seq 0 k).
Proof.
  induction k; intros.
  - simpl in *. inversion H; auto.
  - cbn [generate_from] in H. apply bind_ok in H. destruct H as [nx [E1 E2]].
    apply bind_ok in E2. destruct E2 as [l2 [E2 E3]]. inversion E3; subst.
    rewrite Nat2N.inj_succ in H1. apply advance_spec in E1; [|lia]. destruct E1 as [-> ?].
    apply IHk in E2; try lia. cbn [map seq]. rewrite E2. f_equal; [unfold sym_usize; lia|].
    rewrite <- seq_shift, map_map. apply map_ext. intros. unfold sym_usize. lia.
Qed.

(** * Names *)

Lemma step_wf : forall debug w src o src', source_wf src -> (next_symbol src < u32_max)%N ->
  match o with STruncate n => (n <= source_num_syms src)%N | SNext _ => True end ->
  source_step debug w src o = Ok src' ->
  source_wf src' /\ (next_symbol src' <= next_symbol src + 1)%N.
Proof.
  intros debug w src o src' [W1 W2] HN HO E. destruct o; simpl in E.
  - apply bind_ok in E. destruct E as [[s s1] [E1 E2]]. inversion E2; subst; clear E2.
    unfold source_next_sym in E1. apply bind_ok in E1. destruct E1 as [nx [E1 E3]]. inversion E3; subst.
    apply advance_spec in E1; auto. destruct E1 as [-> ?]. unfold source_wf, source_num_syms, sym_usize in *. simpl.
    rewrite app_length. simpl. lia.
  - unfold source_truncate in E. destruct (new_len =? 0)%N eqn:E0; [discriminate|].
    destruct (max_of w <? new_len)%N; [discriminate|]. destruct (max_of w <? new_len + 1)%N; [discriminate|].
    inversion E; subst. unfold source_wf, source_num_syms, sym_usize in *. simpl. rewrite firstn_length. lia.
Qed.

Lemma step_name : forall debug w src o src' i, source_wf src -> (next_symbol src < u32_max)%N ->
  match o with STruncate n => (n <= source_num_syms src)%N /\ (N.of_nat i < n)%N | SNext _ => True end ->
  source_step debug w src o = Ok src' -> i < length (source_names src) ->
  nth_error (source_names src') i = nth_error (source_names src) i /\ i < length (source_names src').
Proof.
  intros debug w src o src' i [W1 W2] HN HO E Hi. destruct o; simpl in E.
  - apply bind_ok in E. destruct E as [[s s1] [E1 E2]]. inversion E2; subst; clear E2.
    unfold source_next_sym in E1. apply bind_ok in E1. destruct E1 as [nx [E1 E3]]. inversion E3; subst.
    simpl. rewrite nth_error_app1 by auto. rewrite app_length; simpl; split; auto; lia.
  - unfold source_truncate in E. destruct (new_len =? 0)%N eqn:E0; [discriminate|].
    destruct (max_of w <? new_len)%N; [discriminate|]. destruct (max_of w <? new_len + 1)%N; [discriminate|].
    inversion E; subst. simpl. rewrite firstn_length. destruct HO.
    assert (i < N.to_nat new_len) by lia. split; [|lia].
    clear - H1. revert i H1. generalize (N.to_nat new_len) (source_names src).
    induction n; intros; [lia|]. destruct l; simpl; auto. destruct i; simpl; auto. apply IHn; lia.
Qed.

Theorem names_kept : forall debug w ops src src' i,
  source_wf src ->
  (next_symbol src + N.of_nat (length ops) <= u32_max)%N ->
  shrinking debug w src ops ->
  fold_res (source_step debug w) ops src = Ok src' ->
  i < length (source_names src) ->
  (forall n, In (STruncate n) ops -> (N.of_nat i < n)%N) ->
  source_wf src' /\
  nth_error (source_names src') i = nth_error (source_names src) i.
Proof.
  induction ops; intros src src' i W HN HS E Hi HT.
  - simpl in E. inversion E; subst; auto.
  - cbn [fold_res] in E. apply bind_ok in E. destruct E as [s1 [E1 E2]].
    cbn [length] in HN. rewrite Nat2N.inj_succ in HN.
    cbn [shrinking] in HS. rewrite E1 in HS. destruct HS as [HS1 HS2].
    assert (HT' : match a with STruncate n => (n <= source_num_syms src)%N /\ (N.of_nat i < n)%N | SNext _ => True end).
    { destruct a; auto. split; auto. apply HT; left; auto. }
    destruct (step_wf debug w src a s1 W ltac:(lia) HS1 E1) as [W1 N1].
    destruct (step_name debug w src a s1 i W ltac:(lia) HT' E1 Hi) as [E3 E4].
    destruct (IHops s1 src' i W1 ltac:(lia) HS2 E2 E4) as [W2 E5].
    { intros; apply HT; right; auto. }
    split; auto. congruence.
Qed.

Lemma history_wf : forall debug w ops src src', source_wf src ->
  (next_symbol src + N.of_nat (length ops) <= u32_max)%N ->
  shrinking debug w src ops -> fold_res (source_step debug w) ops src = Ok src' -> source_wf src'.
Proof.
  induction ops; intros src src' W HN HS E.
  - simpl in E. inversion E; subst; auto.
  - cbn [fold_res] in E. apply bind_ok in E. destruct E as [s1 [E1 E2]].
    cbn [length] in HN. rewrite Nat2N.inj_succ in HN.
    cbn [shrinking] in HS. rewrite E1 in HS. destruct HS as [HS1 HS2].
    destruct (step_wf debug w src a s1 W ltac:(lia) HS1 E1) as [W1 N1].
    eapply IHops; eauto. lia.
Qed.

(** * Serialization *)

Lemma serialize_roundtrip : forall w s, valid_sym w s -> sym_deserialize w (sym_serialize s) = Some s.
Proof.
  intros w s [H1 H2]. unfold sym_deserialize, sym_serialize, sym_usize.
  pose proof (max_of_u32 w).
  assert ((s - 1 <? max_of w)%N = true) as -> by (apply N.ltb_lt; lia).
  assert (((s - 1 + 1) mod (u32_max + 1))%N = s) as -> by (rewrite N.mod_small; lia).
  assert ((s =? 0)%N = false) as -> by (apply N.eqb_neq; lia).
  assert ((s <=? max_of w)%N = true) as -> by (apply N.leb_le; lia). auto.
Qed.

Lemma deserialize_sound : forall w n s, sym_deserialize w n = Some s ->
  valid_sym w s /\ sym_serialize s = n.
Proof.
  intros w n s H. unfold sym_deserialize in H. pose proof (max_of_u32 w).
  destruct (n <? max_of w)%N eqn:E1; [|discriminate]. apply N.ltb_lt in E1.
  rewrite N.mod_small in H by lia.
  destruct (n + 1 =? 0)%N; [discriminate|]. destruct (n + 1 <=? max_of w)%N eqn:E2; [|discriminate].
  apply N.leb_le in E2. inversion H; subst. unfold valid_sym, sym_serialize, sym_usize. lia.
Qed.

(** * Mappings *)

Lemma map_res_ok : forall {A B} (f : A -> res B) l l', map_res f l = Ok l' ->
  Forall2 (fun a b => f a = Ok b) l l'.
Proof.
  induction l; simpl; intros.
  - inversion H; auto.
  - apply bind_ok in H. destruct H as [b [E1 E2]]. apply bind_ok in E2. destruct E2 as [l2 [E2 E3]].
    inversion E3; subst. constructor; auto.
Qed.

Lemma map_res_total : forall {A B} (f : A -> res B) l, (forall a, In a l -> exists b, f a = Ok b) ->
  exists l', map_res f l = Ok l'.
Proof.
  induction l; simpl; intros; eauto. destruct (H a) as [b E]; auto. rewrite E. simpl.
  destruct IHl as [l' E2]; auto. rewrite E2. simpl. eauto.
Qed.

Lemma Forall2_nth : forall {A B} (R : A -> B -> Prop) l l', Forall2 R l l' -> forall i,
  match nth_error l i, nth_error l' i with
  | Some a, Some b => R a b
  | None, None => True
  | _, _ => False
  end.
Proof. induction 1; destruct i; simpl; auto. apply IHForall2. Qed.

Theorem translate_spec : forall self other r, mapping_translate self other = Ok r ->
  (forall x, internal_of r x = match internal_of self x with Some y => internal_of other y | None => None end) /\
  (forall z, external_of r z = match external_of other z with Some y => external_of self y | None => None end).
Proof.
  intros. unfold mapping_translate in H. apply bind_ok in H. destruct H as [te [E1 E2]].
  inversion E2; subst; clear E2. split.
  - intros. unfold internal_of; simpl. rewrite nth_error_map.
    destruct (nth_error (to_internal self) x) as [[y|]|]; simpl; auto.
    destruct (nth_error (to_internal other) y) as [[z|]|]; auto.
  - intros. unfold external_of; simpl. apply map_res_ok in E1.
    pose proof (Forall2_nth _ _ _ E1 z) as H.
    destruct (nth_error (to_external other) z); destruct (nth_error te z); try tauto.
    unfold get_ix in H. destruct (nth_error (to_external self) n); congruence.
Qed.

Lemma translate_total : forall self other,
  (forall y, In y (to_external other) -> y < length (to_external self)) ->
  exists r, mapping_translate self other = Ok r.
Proof.
  intros. unfold mapping_translate.
  destruct (map_res_total (fun middle => get_ix (to_external self) middle) (to_external other)) as [l E].
  - intros a Ha. apply H in Ha. unfold get_ix. destruct (nth_error (to_external self) a) eqn:E; eauto.
    apply nth_error_None in E. lia.
  - rewrite E. simpl. eauto.
Qed.

Lemma translate_inverse : forall self other r, mapping_translate self other = Ok r ->
  inverse_pair self -> inverse_pair other -> inverse_pair r.
Proof.
  intros self other r H I1 I2 x y. destruct (translate_spec _ _ _ H) as [A B]. rewrite A, B. split; intros.
  - destruct (internal_of self x) as [m|] eqn:E; [|discriminate].
    apply I1 in E. apply I2 in H0. rewrite H0. auto.
  - destruct (external_of other y) as [m|] eqn:E; [|discriminate].
    apply I1 in H0. apply I2 in E. rewrite H0. auto.
Qed.
