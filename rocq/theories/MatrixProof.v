(** Matrices hold the relations they are meant to hold. *)

From Coq Require Import List Arith Bool Lia Relations Sorted.
From Verif Require Import Base ListFacts Spec SpecClassify SetView GrammarFacts HistoryModel CfgModel View
  MatrixModel BitSetModel SetProof.
Import ListNotations.
Local Notation length := List.length.

(** A square matrix and the relation it holds. *)
Definition square (n : nat) (m : matrix) : Prop := length m = n /\ Forall (fun r => length r = n) m.
Definition bit (m : matrix) (i j : nat) : Prop := exists r, nth_error m i = Some r /\ nth_error r j = Some true.

Lemma bit_nth : forall m i j, bit m i j <-> nth j (nth i m []) false = true.
Proof.
  intros m i j. unfold bit. split.
  - intros [r [E1 E2]]. rewrite (nth_error_nth _ _ _ E1). exact (nth_error_nth _ _ _ E2).
  - intros H. destruct (nth_error m i) as [r|] eqn:E.
    + exists r. split; auto. rewrite (nth_error_nth _ _ _ E) in H.
      destruct (nth_error r j) eqn:E2.
      * rewrite (nth_error_nth _ _ _ E2) in H. subst; auto.
      * apply nth_error_None in E2. rewrite nth_overflow in H; [discriminate|exact E2].
    + apply nth_error_None in E. rewrite (nth_overflow m) in H by exact E. destruct j; discriminate.
Qed.

Lemma square_row : forall n m i r, square n m -> nth_error m i = Some r -> length r = n.
Proof. intros n m i r [_ H] E. apply nth_error_In in E. rewrite Forall_forall in H. auto. Qed.

Lemma square_row_ex : forall n m i, square n m -> i < n -> exists r, nth_error m i = Some r /\ length r = n.
Proof.
  intros n m i H L. destruct (nth_error m i) as [r|] eqn:E.
  - exists r. split; auto. eapply square_row; eauto.
  - apply nth_error_None in E. destruct H. lia.
Qed.

Lemma bit_lt : forall n m i j, square n m -> bit m i j -> i < n /\ j < n.
Proof.
  intros n m i j H [r [E1 E2]]. pose proof (square_row _ _ _ _ H E1). destruct H as [HL _].
  split.
  - rewrite <- HL. apply nth_error_Some. congruence.
  - rewrite <- H0. apply nth_error_Some. congruence.
Qed.

Lemma mx_get_ok : forall n m i j, square n m -> i < n -> j < n ->
  exists b, mx_get m i j = Ok b /\ (b = true <-> bit m i j).
Proof.
  intros n m i j H Hi Hj. destruct (square_row_ex n m i H Hi) as [r [E L]].
  unfold mx_get, get_ix. rewrite E. simpl. destruct (nth_error r j) as [b|] eqn:E2.
  - exists b. split; auto. unfold bit. rewrite E. split.
    + intros ->. exists r; auto.
    + intros [r' [E3 E4]]. inversion E3; subst. congruence.
  - apply nth_error_None in E2. lia.
Qed.

Lemma Forall_upd : forall {A} (P : A -> Prop) l i x, Forall P l -> P x -> Forall P (upd l i x).
Proof. induction l; destruct i; simpl; intros; auto; inversion H; subst; constructor; auto. Qed.

Lemma mx_set_ok : forall n m i j b, square n m -> i < n -> j < n ->
  exists m', mx_set m i j b = Ok m' /\ square n m' /\
  forall x y, bit m' x y <-> (x = i /\ y = j /\ b = true) \/ (~ (x = i /\ y = j) /\ bit m x y).
Proof.
  intros n m i j b H Hi Hj. destruct (square_row_ex n m i H Hi) as [r [E L]].
  unfold mx_set, get_ix. rewrite E. cbn [bind]. destruct H as [HL HF].
  assert (X1 : set_ix r j b = Ok (upd r j b)) by (unfold set_ix; destruct (Nat.ltb_spec j (length r)); [auto|lia]).
  rewrite X1. cbn [bind].
  assert (X2 : set_ix m i (upd r j b) = Ok (upd m i (upd r j b)))
    by (unfold set_ix; destruct (Nat.ltb_spec i (length m)); [auto|lia]).
  rewrite X2.
  eexists. split; [reflexivity|]. split.
  - split; [rewrite upd_length; auto|]. apply Forall_upd; auto. rewrite upd_length; auto.
  - intros x y. unfold bit. destruct (Nat.eq_dec x i) as [->|Hx].
    + rewrite nth_error_upd_same by lia. destruct (Nat.eq_dec y j) as [->|Hy].
      * split.
        -- intros [r' [E1 E2]]. inversion E1; subst r'. rewrite nth_error_upd_same in E2 by lia. inversion E2. auto.
        -- intros [[_ [_ ->]]|[C _]]; [|exfalso; apply C; auto].
           eexists; split; eauto. rewrite nth_error_upd_same by lia. auto.
      * split.
        -- intros [r' [E1 E2]]. inversion E1; subst r'. rewrite nth_error_upd_other in E2 by auto.
           right. split; [intros [_ ?]; auto|]. exists r; auto.
        -- intros [[_ [? _]]|[_ [r' [E1 E2]]]]; [contradiction|]. rewrite E in E1; inversion E1; subst r'.
           eexists; split; eauto. rewrite nth_error_upd_other by auto. auto.
    + rewrite nth_error_upd_other by auto. split.
      * intros HB. right. split; [intros [? _]; auto|]. exact HB.
      * intros [[? _]|[_ HB]]; [contradiction|exact HB].
Qed.

Lemma mx_new_square : forall n, square n (mx_new n).
Proof.
  intros n. split; [apply repeat_length|]. apply Forall_forall. intros r H. apply repeat_spec in H.
  subst. apply repeat_length.
Qed.
Lemma mx_new_bit : forall n i j, ~ bit (mx_new n) i j.
Proof.
  intros n i j [r [E1 E2]]. apply nth_error_In in E1. apply repeat_spec in E1. subst r.
  apply nth_error_In in E2. apply repeat_spec in E2. discriminate.
Qed.

(** Setting a list of pairs. *)
Lemma mx_set_all : forall n (f : nat -> nat) i l m, square n m -> i < n -> Forall (fun s => f s < n) l ->
  exists m', fold_res (fun m s => mx_set m i (f s) true) l m = Ok m' /\ square n m' /\
  forall x y, bit m' x y <-> bit m x y \/ (x = i /\ exists s, In s l /\ y = f s).
Proof.
  intros n f i l. induction l as [|a l IH]; intros m H Hi HF.
  - exists m. split; auto. split; auto. intros x y. split; auto. intros [?|[_ [s [[] _]]]]; auto.
  - inversion HF as [|a' l' Ha Hl]; subst. destruct (mx_set_ok n m i (f a) true H Hi Ha) as [m1 [E1 [S1 B1]]].
    destruct (IH m1 S1 Hi Hl) as [m2 [E2 [S2 B2]]].
    exists m2. simpl. rewrite E1. simpl. split; auto. split; auto. intros x y.
    rewrite B2, B1. split.
    + intros [[[-> [-> _]]|[_ HB]]|[-> [s [Hs ->]]]]; auto; right; split; auto; [exists a|exists s]; simpl; auto.
    + intros [HB|[-> [s [[<-|Hs] ->]]]].
      * destruct (Nat.eq_dec x i), (Nat.eq_dec y (f a)); subst; auto; left; right; split; auto; intros [? ?]; auto.
      * left; left; auto.
      * right. split; auto. exists s; auto.
Qed.

(** * Warshall *)

Inductive path (R : nat -> nat -> Prop) (k : nat) : nat -> nat -> Prop :=
| path_one : forall i j, R i j -> path R k i j
| path_via : forall i m j, m < k -> path R k i m -> path R k m j -> path R k i j.

Lemma path_S : forall R k i j,
  path R (S k) i j <-> path R k i j \/ (path R k i k /\ path R k k j).
Proof.
  intros R k i j. split.
  - induction 1 as [i j H|i m j Hm H1 IH1 H2 IH2]; [left; constructor; auto|].
    assert (m < k \/ m = k) as [Hk|Hk] by lia.
    + destruct IH1 as [A|[A1 A2]], IH2 as [B|[B1 B2]].
      * left. eapply path_via; eauto.
      * right. split; auto. eapply path_via; eauto.
      * right. split; auto. eapply path_via; eauto.
      * right. split; auto.
    + subst m. destruct IH1 as [A|[A1 A2]], IH2 as [B|[B1 B2]]; right; split; auto.
  - assert (HM : forall a b, path R k a b -> path R (S k) a b).
    { intros a b H. induction H as [a b H|a m b Hm H1 IH1 H2 IH2]; [constructor; auto|].
      apply path_via with m; auto. }
    intros [H|[H1 H2]]; auto. apply path_via with k; auto.
Qed.

Lemma path_0 : forall (R : nat -> nat -> Prop) i j, path R 0 i j <-> R i j.
Proof. intros. split; [|constructor; auto]. intros H. inversion H; subst; auto. lia. Qed.

Lemma path_clos : forall (R : nat -> nat -> Prop) n i j, (forall a b, R a b -> a < n /\ b < n) ->
  (path R n i j <-> clos_trans nat R i j).
Proof.
  intros R n i j HR. split.
  - induction 1; [constructor; auto|]. eapply t_trans; eauto.
  - intros H. assert (HB : path R n i j /\ i < n /\ j < n); [|tauto].
    induction H as [x y H|x y z _ IH1 _ IH2].
    + destruct (HR _ _ H). split; [constructor; auto|auto].
    + destruct IH1 as [? [? ?]], IH2 as [? [? ?]]. split; auto. apply path_via with y; auto.
Qed.

Lemma or_rows_spec : forall a b j, length a = length b ->
  (nth_error (or_rows a b) j = Some true <-> nth_error a j = Some true \/ nth_error b j = Some true).
Proof.
  unfold or_rows. induction a as [|x a IH]; destruct b as [|y b]; simpl; intros j H; try discriminate.
  - destruct j; simpl; split; auto; intros [?|?]; discriminate.
  - destruct j; simpl; [|apply IH; lia]. destruct x, y; simpl; split; intros; auto; try discriminate;
      try (destruct H0; discriminate).
Qed.

Lemma or_rows_length : forall a b, length a = length b -> length (or_rows a b) = length a.
Proof. intros. unfold or_rows. rewrite map_length, combine_length. lia. Qed.

Lemma warshall_pivot_spec : forall n m k, square n m -> k < n ->
  square n (warshall_pivot m k) /\
  forall i j, bit (warshall_pivot m k) i j <-> bit m i j \/ (bit m i k /\ bit m k j).
Proof.
  intros n m k H Hk. destruct (square_row_ex n m k H Hk) as [rk [Ek Lk]].
  assert (En : nth k m [] = rk) by (exact (nth_error_nth _ _ _ Ek)).
  unfold warshall_pivot. rewrite En. split.
  - destruct H as [HL HF]. split; [rewrite map_length; auto|]. rewrite Forall_forall in HF |- *.
    intros r Hr. apply in_map_iff in Hr. destruct Hr as [r0 [<- Hr]]. destruct (nth k r0 false); auto.
    rewrite or_rows_length; auto. rewrite HF by auto. auto.
  - intros i j. split.
    + intros [r [E1 E2]]. rewrite nth_error_map in E1. destruct (nth_error m i) as [r0|] eqn:E0; [|discriminate].
      simpl in E1. inversion E1; subst r. clear E1. pose proof (square_row _ _ _ _ H E0) as L0.
      destruct (nth k r0 false) eqn:Eb.
      * apply or_rows_spec in E2; [|congruence]. destruct E2 as [E2|E2].
        -- left. exists r0; auto.
        -- right. split; [|exists rk; auto]. apply bit_nth. rewrite (nth_error_nth _ _ _ E0). auto.
      * left. exists r0; auto.
    + assert (HX : forall r0, nth_error m i = Some r0 ->
        (bit m i j \/ bit m i k /\ bit m k j) ->
        nth_error (if nth k r0 false then or_rows r0 rk else r0) j = Some true).
      { intros r0 E0 HB. pose proof (square_row _ _ _ _ H E0) as L0.
        assert (HBi : forall x, bit m i x -> nth_error r0 x = Some true)
          by (intros x [r' [X1 X2]]; rewrite E0 in X1; inversion X1; subst; auto).
        destruct (nth k r0 false) eqn:Eb.
        - apply or_rows_spec; [congruence|]. destruct HB as [HB|[_ [r' [X1 X2]]]]; auto.
          right. rewrite Ek in X1. inversion X1; subst; auto.
        - destruct HB as [HB|[HB _]]; auto. apply HBi in HB. rewrite (nth_error_nth _ _ _ HB) in Eb. discriminate. }
      intros HB. destruct (nth_error m i) as [r0|] eqn:E0.
      * eexists. split; [rewrite nth_error_map, E0; reflexivity|]. apply HX; auto.
      * exfalso. destruct HB as [[r' [X _]]|[[r' [X _]] _]]; congruence.
Qed.

Lemma transitive_closure_spec : forall n m, square n m ->
  square n (transitive_closure m) /\
  forall i j, bit (transitive_closure m) i j <-> clos_trans nat (bit m) i j.
Proof.
  intros n m H.
  assert (HK : forall k, k <= n -> square n (fold_left warshall_pivot (seq 0 k) m) /\
             forall i j, bit (fold_left warshall_pivot (seq 0 k) m) i j <-> path (bit m) k i j).
  { induction k as [|k IH]; intros Hk.
    - simpl. split; auto. intros. symmetry. apply path_0.
    - destruct (IH ltac:(lia)) as [S1 B1]. rewrite seq_S, fold_left_app. simpl.
      destruct (warshall_pivot_spec n _ k S1 Hk) as [S2 B2]. split; auto.
      intros i j. rewrite B2, !B1. symmetry. apply path_S. }
  unfold transitive_closure. destruct H as [HL HF]. rewrite HL.
  destruct (HK n (Nat.le_refl n)) as [S1 B1]. split; auto. intros i j. rewrite B1.
  apply path_clos. intros a b. apply bit_lt. split; auto.
Qed.

Lemma reflexive_closure_spec : forall n m, square n m ->
  exists m', reflexive_closure m = Ok m' /\ square n m' /\
  forall i j, bit m' i j <-> bit m i j \/ (i = j /\ i < n).
Proof.
  intros n m H. unfold reflexive_closure. destruct H as [HL HF] eqn:HE. rewrite HL.
  assert (HX : forall l m, square n m -> Forall (fun i => i < n) l ->
    exists m', fold_res (fun m i => mx_set m i i true) l m = Ok m' /\ square n m' /\
    forall i j, bit m' i j <-> bit m i j \/ (i = j /\ In i l)).
  { clear. induction l as [|a l IH]; intros m H HF.
    - exists m. split; auto. split; auto. intros i j. simpl. tauto.
    - inversion HF as [|a' l' Ha Hl]; subst. destruct (mx_set_ok n m a a true H Ha Ha) as [m1 [E1 [S1 B1]]].
      destruct (IH m1 S1 Hl) as [m2 [E2 [S2 B2]]]. exists m2. simpl. rewrite E1. simpl.
      split; auto. split; auto. intros i j. rewrite B2, B1. split.
      + intros [[[-> [-> _]]|[_ ?]]|[-> ?]]; auto.
      + intros [HB|[-> [->|?]]]; auto.
        destruct (Nat.eq_dec i a), (Nat.eq_dec j a); subst; auto; left; right; split; auto; intros [? ?]; auto. }
  destruct (HX (seq 0 n) m (conj HL HF)) as [m' [E [S1 B]]].
  { apply Forall_forall. intros x Hx. apply in_seq in Hx. lia. }
  exists m'. split; auto. split; auto. intros i j. rewrite B, in_seq. simpl. intuition lia.
Qed.

(** * The matrices of a grammar *)

Definition direct (P : productions) (A B : nat) : Prop := exists r, P A r /\ In B r.

Lemma direct_matrix_spec : forall g, closed_rules g ->
  exists m, direct_derivation_matrix g = Ok m /\ square (num_syms g) m /\
  forall i j, bit m i j <-> direct (prods g) i j.
Proof.
  intros g HC. unfold direct_derivation_matrix, empty_matrix.
  assert (HX : forall l m, square (num_syms g) m -> (forall x, In x l -> In x (rules g)) ->
    exists m', fold_res (fun m r => fold_res (fun m s => mx_set m (lhs r) s true) (rhs r) m) l m = Ok m' /\
    square (num_syms g) m' /\
    forall i j, bit m' i j <-> bit m i j \/ exists x, In x l /\ lhs x = i /\ In j (rhs x)).
  { induction l as [|x l IH]; intros m HS HI.
    - exists m. split; auto. split; auto. intros. split; auto. intros [?|[x [[] _]]]; auto.
    - destruct (HC x (HI x (or_introl eq_refl))) as [Hl Hr].
      destruct (mx_set_all (num_syms g) (fun s => s) (lhs x) (rhs x) m HS Hl Hr) as [m1 [E1 [S1 B1]]].
      destruct (IH m1 S1 (fun y Hy => HI y (or_intror Hy))) as [m2 [E2 [S2 B2]]].
      exists m2. cbn [fold_res]. rewrite E1. cbn [bind]. split; auto. split; auto.
      intros i j. rewrite B2, B1. split.
      + intros [[?|[-> [s [Hs ->]]]]|[y [Hy [<- Hj]]]]; auto; right; [exists x|exists y]; simpl; auto.
      + intros [?|[y [[<-|Hy] [<- Hj]]]]; auto.
        * left; right. split; auto. exists j; auto.
        * right. exists y; auto. }
  destruct (HX (rules g) _ (mx_new_square _) (fun x H => H)) as [m [E [S1 B]]].
  exists m. split; auto. split; auto. intros i j. rewrite B. unfold direct, prods. split.
  - intros [H|[x [Hx [H1 H2]]]]; [destruct (mx_new_bit _ _ _ H)|]. exists (rhs x). split; auto. exists x; auto.
  - intros [r [[x [Hx [H1 <-]]] H2]]. right. exists x; auto.
Qed.

Lemma unit_matrix_spec : forall g, closed_rules g ->
  exists m, unit_derivation_matrix g = Ok m /\ square (num_syms g) m /\
  forall i j, bit m i j <-> unit_derives (prods g) i j.
Proof.
  intros g HC. unfold unit_derivation_matrix, empty_matrix.
  assert (HX : forall l m, square (num_syms g) m -> (forall x, In x l -> In x (rules g)) ->
    exists m', fold_res unit_rule_bit l m = Ok m' /\ square (num_syms g) m' /\
    forall i j, bit m' i j <-> bit m i j \/ exists x, In x l /\ lhs x = i /\ rhs x = [j] /\ i <> j).
  { induction l as [|x l IH]; intros m HS HI.
    - exists m. split; auto. split; auto. intros. split; auto. intros [?|[x [[] _]]]; auto.
    - destruct (HC x (HI x (or_introl eq_refl))) as [Hl Hr].
      assert (H1 : exists m1, unit_rule_bit m x = Ok m1 /\ square (num_syms g) m1 /\
        forall i j, bit m1 i j <-> bit m i j \/ (lhs x = i /\ rhs x = [j] /\ i <> j)).
      { unfold unit_rule_bit. destruct (rhs x) as [|s [|s2 r]] eqn:ER.
        - exists m. split; auto. split; auto. intros. split; auto. intros [?|[_ [? _]]]; auto. discriminate.
        - inversion Hr as [|s' l' Hs _]; subst. destruct (Nat.eqb_spec (lhs x) s) as [->|Hne].
          + exists m. split; auto. split; auto. intros. split; auto. intros [?|[? [X ?]]]; auto.
            inversion X; subst. contradiction.
          + destruct (mx_set_ok (num_syms g) m (lhs x) s true HS Hl Hs) as [m1 [E1 [S1 B1]]].
            exists m1. split; auto. split; auto. intros i j. rewrite B1. split.
            * intros [[-> [-> _]]|[_ ?]]; auto.
            * intros [HB|[<- [X _]]]; [|inversion X; subst; auto].
              destruct (Nat.eq_dec i (lhs x)), (Nat.eq_dec j s); subst; auto; right; split; auto; intros [? ?]; auto.
        - exists m. split; auto. split; auto. intros. split; auto. intros [?|[_ [? _]]]; auto. discriminate. }
      destruct H1 as [m1 [E1 [S1 B1]]].
      destruct (IH m1 S1 (fun y Hy => HI y (or_intror Hy))) as [m2 [E2 [S2 B2]]].
      exists m2. cbn [fold_res]. rewrite E1. cbn [bind]. split; auto. split; auto.
      intros i j. rewrite B2, B1. split.
      + intros [[?|?]|[y [Hy ?]]]; auto; right; [exists x|exists y]; simpl; auto.
      + intros [?|[y [[<-|Hy] ?]]]; auto. right. exists y; auto. }
  destruct (HX (rules g) _ (mx_new_square _) (fun x H => H)) as [m [E [S1 B]]].
  rewrite E. cbn [bind]. destruct (transitive_closure_spec _ m S1) as [S2 B2].
  eexists. split; [reflexivity|]. split; auto. intros i j. rewrite B2. unfold unit_derives.
  assert (HE : forall a b, bit m a b <-> unit_step (prods g) a b).
  { intros a b. rewrite B. unfold unit_step, prods. split.
    - intros [H|[x [Hx [H1 [H2 H3]]]]]; [destruct (mx_new_bit _ _ _ H)|]. split; auto. exists x; auto.
    - intros [[x [Hx [H1 H2]]] H3]. right. exists x; auto. }
  split; (induction 1; [apply t_step, HE; auto|eapply t_trans; eauto]).
Qed.

Lemma reaches1_direct : forall P A B, clos_trans nat (direct P) A B <-> reaches1 P A B.
Proof.
  intros P A B. split.
  - intros H. apply Operators_Properties.clos_trans_t1n in H.
    induction H as [x y [r [Hr Hi]]|x y z [r [Hr Hi]] H IH].
    + apply in_split in Hi. destruct Hi as [u [v ->]]. exists u, v. apply derives1_single.
      exists (u ++ y :: v). split; auto. constructor.
    + apply in_split in Hi. destruct Hi as [u [v ->]]. destruct IH as [u' [v' IH]].
      exists (u ++ u'), (v' ++ v). apply derives1_single. exists (u ++ y :: v). split; auto.
      replace ((u ++ u') ++ z :: v' ++ v) with (u ++ (u' ++ z :: v') ++ v)
        by (rewrite <- !app_assoc; reflexivity).
      change (y :: v) with ([y] ++ v). apply derives_ctx. apply derives1_derives. exact IH.
  - intros [u [v H]]. destruct H as [x [C [y [r [E [HP HD]]]]]].
    destruct x; [|destruct x; discriminate]. inversion E; subst C y. simpl in HD. rewrite app_nil_r in HD.
    assert (HY : forall a b, derives P a b -> forall z, In z b -> In z a \/ exists s, In s a /\ clos_trans nat (direct P) s z).
    { clear. induction 1 as [w|p C q r w HP HD IH]; intros z Hz; auto.
      destruct (IH z Hz) as [Hi|[s [Hs Hc]]].
      - apply in_app_or in Hi. destruct Hi as [Hi|Hi]; [left; apply in_or_app; auto|].
        apply in_app_or in Hi. destruct Hi as [Hi|Hi].
        + right. exists C. split; [apply in_or_app; right; left; auto|]. apply t_step. exists r; auto.
        + left. apply in_or_app. right. right. auto.
      - apply in_app_or in Hs. destruct Hs as [Hi|Hi].
        { right. exists s. split; [apply in_or_app; auto|auto]. }
        apply in_app_or in Hi. destruct Hi as [Hi|Hi].
        + right. exists C. split; [apply in_or_app; right; left; auto|]. eapply t_trans; [|exact Hc].
          apply t_step. exists r; auto.
        + right. exists s. split; [apply in_or_app; right; right; auto|auto]. }
    destruct (HY _ _ HD B) as [Hi|[s [Hs Hc]]].
    + apply in_or_app. right. left. auto.
    + apply t_step. exists r; auto.
    + eapply t_trans; [|exact Hc]. apply t_step. exists r; auto.
Qed.

Lemma reachability_spec : forall g, closed_rules g ->
  exists m, reachability_matrix g = Ok m /\ square (num_syms g) m /\
  forall i j, bit m i j <-> reaches1 (prods g) i j.
Proof.
  intros g HC. unfold reachability_matrix. destruct (direct_matrix_spec g HC) as [m [E [S1 B]]].
  rewrite E. simpl. destruct (transitive_closure_spec _ m S1) as [S2 B2].
  eexists. split; [reflexivity|]. split; auto. intros i j. rewrite B2, <- reaches1_direct.
  split; (induction 1; [apply t_step, B; auto|eapply t_trans; eauto]).
Qed.

Lemma row_syms_In : forall r i s, In s (row_syms_from i r) <-> exists k, s = i + k /\ nth_error r k = Some true.
Proof.
  induction r as [|b r IH]; simpl; intros i s.
  - split; [intros []|intros [k [_ H]]; destruct k; discriminate].
  - assert (H : In s (row_syms_from (S i) r) <-> exists k, s = i + S k /\ nth_error (b :: r) (S k) = Some true).
    { rewrite IH. simpl. split; intros [k [-> H]]; exists k; split; auto; lia. }
    destruct b; [simpl; rewrite H|rewrite H]; split.
    + intros [<-|[k [-> E]]]; [exists 0|exists (S k)]; simpl; auto.
    + intros [k [-> E]]. destruct k; [left; lia|right; exists k; auto].
    + intros [k [-> E]]. exists (S k); auto.
    + intros [k [-> E]]. destruct k; [discriminate|exists k; auto].
Qed.

Lemma iter_row_syms_spec : forall n m i, square n m -> i < n ->
  exists l, iter_row_syms m i = Ok l /\ forall s, In s l <-> bit m i s.
Proof.
  intros n m i H Hi. destruct (square_row_ex n m i H Hi) as [r [E L]]. unfold iter_row_syms, get_ix.
  rewrite E. simpl. eexists. split; [reflexivity|]. intros s. rewrite row_syms_In. unfold bit. rewrite E. split.
  - intros [k [-> Hk]]. exists r; auto.
  - intros [r' [X Y]]. inversion X; subst. exists s; auto.
Qed.

Lemma row_syms_sorted : forall r i, StronglySorted lt (row_syms_from i r).
Proof.
  induction r as [|b r IH]; intros i; simpl; [constructor|]. destruct b; auto. constructor; auto.
  apply Forall_forall. intros s Hs. apply row_syms_In in Hs. destruct Hs as [k [-> _]]. lia.
Qed.
