(** Cycles among unit rules and their removal; recursion. *)

From Coq Require Import List Arith Bool Lia Relations.
From Verif Require Import Base ListFacts Spec SpecClassify SetView GrammarFacts HistoryModel CfgModel View
  MatrixModel BitSetModel ClosureModel CfgProof SetProof MatrixProof ClassifyModel UsefulProof.
Import ListNotations.
Local Notation length := List.length.

Lemma unit_derives_derives : forall P A B, unit_derives P A B -> derives P [A] [B].
Proof.
  intros P A B H. induction H as [x y [H _]|x y z _ IH1 _ IH2].
  - apply derives_rule; auto.
  - eapply derives_trans; eauto.
Qed.

Lemma all_res_gen : forall (f : nat -> res bool) (Q : nat -> Prop) l,
  (forall x, In x l -> exists b, f x = Ok b /\ (b = true <-> Q x)) ->
  exists b, all_res f l = Ok b /\ (b = true <-> Forall Q l).
Proof.
  intros f Q l. induction l as [|a l IH]; intros H.
  - exists true. split; auto. split; auto.
  - destruct (H a (or_introl eq_refl)) as [b [E M]]. destruct (IH (fun x Hx => H x (or_intror Hx))) as [b' [E' M']].
    simpl. rewrite E. simpl. destruct b.
    + exists b'. split; auto. rewrite M'. split; intros X; [constructor; auto; apply M; auto|inversion X; auto].
    + exists false. split; auto. split; [discriminate|]. intros X. inversion X; subst. apply M; auto.
Qed.

Lemma any_res_gen : forall (f : nat -> res bool) (Q : nat -> Prop) l,
  (forall x, In x l -> exists b, f x = Ok b /\ (b = true <-> Q x)) ->
  exists b, any_res f l = Ok b /\ (b = true <-> Exists Q l).
Proof.
  intros f Q l. induction l as [|a l IH]; intros H.
  - exists false. split; auto. split; [discriminate|]. intros X; inversion X.
  - destruct (H a (or_introl eq_refl)) as [b [E M]]. destruct (IH (fun x Hx => H x (or_intror Hx))) as [b' [E' M']].
    simpl. rewrite E. simpl. destruct b.
    + exists true. split; auto. split; auto. intros _. constructor. apply M; auto.
    + exists b'. split; auto. rewrite M'. split; intros X; [apply Exists_cons_tl; auto|].
      inversion X; subst; auto. apply M in H1. discriminate.
Qed.

Section Matrix.
  Context (g : cfg) (m : matrix).
  Context (HC : closed_rules g) (HS : square (num_syms g) m).
  Context (HB : forall i j, bit m i j <-> unit_derives (prods g) i j).

  Local Notation UD := (unit_derives (prods g)).

  Lemma is_cyclical_spec : forall x, In x (rules g) ->
    exists b, is_cyclical m x = Ok b /\ (b = true <-> on_cycle (prods g) (lhs x) (rhs x)).
  Proof.
    intros x Hx. destruct (HC x Hx) as [Hl Hr]. unfold is_cyclical, on_cycle.
    destruct (rhs x) as [|s [|s2 r]] eqn:E.
    - exists false. split; auto. split; [discriminate|]. intros [B [X _]]. discriminate.
    - inversion Hr; subst. destruct (mx_get_ok _ m s (lhs x) HS H1 Hl) as [b [Eb Mb]].
      exists b. split; auto. rewrite Mb, HB. split; [eauto|]. intros [B [X Y]]. inversion X; subst; auto.
    - exists false. split; auto. split; [discriminate|]. intros [B [X _]]. discriminate.
  Qed.

  Definition flagged (x : rule) : Prop := on_cycle (prods g) (lhs x) (rhs x).
  Definition same (a b : nat) : Prop := UD a b /\ UD b a.

  Lemma same_sym : forall a b, same a b -> same b a.
  Proof. intros a b [? ?]; split; auto. Qed.
  Lemma same_trans : forall a b c, same a b -> same b c -> same a c.
  Proof. intros a b c [? ?] [? ?]; split; eapply t_trans; eauto. Qed.
  Lemma same_refl_l : forall a b, same a b -> same a a.
  Proof. intros a b [? ?]; split; eapply t_trans; eauto. Qed.

  Lemma UD_lt : forall a b, UD a b -> a < num_syms g /\ b < num_syms g.
  Proof. intros a b H. apply HB in H. eapply bit_lt; eauto. Qed.

  Lemma cycle_row_spec : forall a, a < num_syms g ->
    exists row, cycle_row m a = Ok row /\ forall s, In s row <-> same a s.
  Proof.
    intros a Ha. destruct (square_row_ex _ m a HS Ha) as [r [E L]]. unfold cycle_row, get_ix at 1.
    rewrite E. cbn [bind].
    destruct (filter_res_spec (fun s => do b <- get_ix r s; if b then mx_get m s a else Ok false)
                (fun s => same a s) (seq 0 (length r))) as [row [ER [MR _]]].
    { intros s Hs. apply in_seq in Hs. unfold get_ix. destruct (nth_error r s) as [b|] eqn:Es.
      - cbn [bind]. assert (Hbit : b = true <-> UD a s).
        { rewrite <- HB. unfold bit. rewrite E. split.
          - intros ->. exists r; auto.
          - intros [r' [X Y]]. inversion X; subst. congruence. }
        destruct b.
        + destruct (mx_get_ok _ m s a HS) as [b [Eb Mb]]; [lia|auto|]. exists b. split; auto.
          rewrite Mb, HB. unfold same. tauto.
        + exists false. split; auto. split; [discriminate|]. intros [X _]. apply Hbit in X. discriminate.
      - apply nth_error_None in Es. lia. }
    exists row. split; auto. intros s. rewrite MR, in_seq. split; [tauto|]. intros HSs. split; auto.
    rewrite L. destruct HSs as [X _]. apply UD_lt in X. lia.
  Qed.

  Lemma fold_insert : forall row t a x,
    fold_left (fun t s => tr_insert t s (Some a)) row t x = if in_dec Nat.eq_dec x row then Some (Some a) else t x.
  Proof.
    induction row as [|s row IH]; intros t a x; simpl; auto. rewrite IH. unfold tr_insert.
    destruct (in_dec Nat.eq_dec x row) as [Hi|Hi]; destruct (Nat.eq_dec s x) as [->|Hne]; auto.
    - rewrite Nat.eqb_refl; auto.
    - destruct (Nat.eqb_spec x s); [congruence|]. auto.
  Qed.

  Definition rep (t : translation) (s : nat) : nat := fst (translate t s).

  (** [n] is the left-hand side of the first rule on the cycle of [s]. *)
  Definition first_on (l : list rule) (s n : nat) : Prop :=
    exists pre x post, l = pre ++ x :: post /\ flagged x /\ lhs x = n /\ same s n /\
      forall y, In y pre -> flagged y -> ~ same s (lhs y).

  Record scan_inv (done : list rule) (t : translation) (kept : list rule) : Prop := {
    si_rep : forall s v, t s = Some v -> same s (rep t s) /\ first_on done s (rep t s) /\
                 (v = Some s -> False);
    si_same : forall s s', same s s' -> t s <> None -> t s' <> None /\ rep t s = rep t s';
    si_dom : forall x, In x done -> flagged x -> t (lhs x) <> None;
    si_kept : forall x, In x kept <-> In x done /\ ~ flagged x;
    si_sub : exists f, kept = filter f done
  }.

  Lemma first_on_app : forall l s n e, first_on l s n -> first_on (l ++ [e]) s n.
  Proof.
    intros l s n e [pre [x [post [-> H]]]]. exists pre, x, (post ++ [e]). split; auto.
    rewrite <- app_assoc. auto.
  Qed.

  Lemma flagged_same : forall x, In x (rules g) -> flagged x -> same (lhs x) (lhs x).
  Proof.
    intros x Hx [B [ER H]]. assert (HP : prods g (lhs x) [B]) by (exists x; auto).
    destruct (Nat.eq_dec (lhs x) B) as [Heq|Hne]; [rewrite <- Heq in H; split; auto|].
    assert (HU : UD (lhs x) (lhs x)); [|split; auto]. eapply t_trans; [|exact H]. apply t_step. split; auto.
  Qed.

  Lemma scan_step : forall done x t kept, In x (rules g) -> (forall y, In y done -> In y (rules g)) ->
    scan_inv done t kept ->
    exists t' kept', rewrite_scan m (t, kept) x = Ok (t', kept') /\ scan_inv (done ++ [x]) t' kept'.
  Proof.
    intros done x t kept Hx HD I. destruct (is_cyclical_spec x Hx) as [b [Eb Mb]].
    unfold rewrite_scan. rewrite Eb. cbn [bind]. fold (flagged x) in Mb.
    assert (HIn : forall y, In y (done ++ [x]) <-> In y done \/ y = x).
    { intros y. rewrite in_app_iff. simpl. intuition. }
    destruct b.
    - pose proof (proj1 Mb eq_refl) as HFx. pose proof (flagged_same x Hx HFx) as HSx.
      assert (HK : forall y, In y kept <-> In y (done ++ [x]) /\ ~ flagged y).
      { intros y. rewrite (si_kept _ _ _ I), HIn. split; [tauto|]. intros [[?| ->] ?]; tauto. }
      assert (HSub : exists f, kept = filter f (done ++ [x])).
      { destruct (si_sub _ _ _ I) as [f Hf].
        exists (fun y => f y && match is_cyclical m y with Ok b => negb b | _ => false end).
        assert (HFil : forall l, (forall y, In y l -> In y done) ->
                  filter (fun y => f y && match is_cyclical m y with Ok b => negb b | _ => false end) l = filter f l).
        { induction l as [|y l IHl]; intros Hl; auto. simpl.
          rewrite IHl by (intros; apply Hl; right; auto).
          destruct (f y) eqn:Ef; auto. simpl.
          assert (Hy : In y kept) by (rewrite Hf; apply filter_In; split; auto; apply Hl; left; auto).
          apply (si_kept _ _ _ I) in Hy. destruct Hy as [Hy1 Hy2].
          destruct (is_cyclical_spec y (HD y Hy1)) as [by' [Ey My]]. rewrite Ey.
          destruct by'; auto. exfalso. apply Hy2, My; auto. }
        rewrite filter_app, HFil by auto. simpl. rewrite Eb. simpl. rewrite andb_false_r, app_nil_r. auto. }
      destruct (t (lhs x)) as [v|] eqn:Et.
      + exists t, kept. split; auto. constructor; auto.
        * intros s w Hs. destruct (si_rep _ _ _ I s w Hs) as [A [B C]]. split; [auto|split; [apply first_on_app; auto|auto]].
        * exact (si_same _ _ _ I).
        * intros y Hy HF. apply HIn in Hy. destruct Hy as [Hy| ->]; [apply (si_dom _ _ _ I); auto|congruence].
      + destruct (HC x Hx) as [Hl _]. destruct (cycle_row_spec (lhs x) Hl) as [row [ER MR]].
        rewrite ER. cbn [bind]. do 2 eexists. split; [reflexivity|].
        set (a := lhs x) in *. set (t' := tr_insert _ a None).
        assert (Ht' : forall s, t' s = if s =? a then Some None else if in_dec Nat.eq_dec s row then Some (Some a) else t s).
        { intros s. unfold t', tr_insert. destruct (Nat.eqb_spec s a); auto.
          exact (fold_insert row t a s). }
        assert (HNone : forall s, same a s -> t s = None).
        { intros s Hs. destruct (t s) eqn:Ets; auto. exfalso.
          destruct (si_same _ _ _ I s a) as [X _]; [apply same_sym; auto|congruence|congruence]. }
        assert (Hrep_in : forall s, same a s -> t' s <> None /\ rep t' s = a).
        { intros s Hs. unfold rep, translate. rewrite Ht'. destruct (Nat.eqb_spec s a) as [->|Hne].
          - simpl. split; [discriminate|auto].
          - destruct (in_dec Nat.eq_dec s row) as [Hi|Hi]; [simpl; split; [discriminate|auto]|].
            exfalso. apply Hi, MR; auto. }
        assert (Hrep_out : forall s, ~ same a s -> t' s = t s /\ rep t' s = rep t s).
        { intros s Hs. assert (E : t' s = t s).
          { rewrite Ht'. destruct (Nat.eqb_spec s a) as [->|Hne]; [contradiction|].
            destruct (in_dec Nat.eq_dec s row) as [Hi|Hi]; auto. apply MR in Hi. contradiction. }
          split; auto. unfold rep, translate. rewrite E. auto. }
        assert (Hdec : forall s, same a s \/ ~ same a s).
        { intros s. destruct (in_dec Nat.eq_dec s row) as [Hi|Hi]; rewrite MR in Hi; auto. }
        constructor; auto.
        * intros s v Hs. destruct (Hdec s) as [Y|N].
          -- destruct (Hrep_in s Y) as [_ R]. rewrite R. split; [apply same_sym; auto|]. split.
             ++ exists done, x, []. split; auto. split; auto. split; auto. split; [apply same_sym; auto|].
                intros y Hy HF HSy. apply (si_dom _ _ _ I y Hy HF).
                apply HNone. eapply same_trans; eauto.
             ++ intros ->. rewrite Ht' in Hs. destruct (Nat.eqb_spec s a); [discriminate|].
                destruct (in_dec Nat.eq_dec s row) as [Hi|Hi].
                ** inversion Hs; subst; contradiction.
                ** apply Hi, MR; auto.
          -- destruct (Hrep_out s N) as [E R]. rewrite R. rewrite E in Hs.
             destruct (si_rep _ _ _ I s v Hs) as [A [B C]]. split; [auto|split; [apply first_on_app; auto|auto]].
        * intros s s' Hs Ht. destruct (Hdec s) as [Y|N].
          -- assert (Y' : same a s') by (eapply same_trans; eauto).
             destruct (Hrep_in s Y), (Hrep_in s' Y'). split; auto. congruence.
          -- assert (N' : ~ same a s') by (intros Y'; apply N; eapply same_trans; [exact Y'|apply same_sym; auto]).
             destruct (Hrep_out s N) as [E R], (Hrep_out s' N') as [E' R'].
             rewrite E in Ht. rewrite E', R, R'. apply (si_same _ _ _ I); auto.
        * intros y Hy HF. destruct (Hdec (lhs y)) as [Y|N]; [apply Hrep_in; auto|].
          destruct (Hrep_out _ N) as [E _]. rewrite E. apply HIn in Hy. destruct Hy as [Hy| ->].
          -- apply (si_dom _ _ _ I); auto.
          -- contradiction.
    - assert (HNF : ~ flagged x) by (intros X; apply Mb in X; discriminate).
      exists t, (kept ++ [x]). split; auto. constructor.
      + intros s w Hs. destruct (si_rep _ _ _ I s w Hs) as [A [B C]]. split; [auto|split; [apply first_on_app; auto|auto]].
      + exact (si_same _ _ _ I).
      + intros y Hy HF. apply HIn in Hy. destruct Hy as [Hy| ->]; [apply (si_dom _ _ _ I); auto|contradiction].
      + intros y. rewrite in_app_iff, (si_kept _ _ _ I), HIn. simpl. split.
        * intros [[? ?]|[<-|[]]]; auto.
        * intros [[?| ->] ?]; auto.
      + destruct (si_sub _ _ _ I) as [f Hf].
        exists (fun y => match is_cyclical m y with Ok b => negb b | _ => false end).
        assert (HFil : forall l, (forall y, In y l -> In y (rules g)) ->
                  (forall y, In y l -> (f y = true <-> ~ flagged y)) ->
                  filter (fun y => match is_cyclical m y with Ok b => negb b | _ => false end) l = filter f l).
        { induction l as [|y l IHl]; intros Hl1 Hl2; auto. simpl.
          rewrite IHl; [|intros; apply Hl1; right; auto|intros; apply Hl2; right; auto].
          destruct (is_cyclical_spec y (Hl1 y (or_introl eq_refl))) as [by' [Ey My]]. rewrite Ey.
          specialize (Hl2 y (or_introl eq_refl)). fold (flagged y) in My.
          destruct by'; simpl.
          - destruct (f y) eqn:Ef; auto. exfalso. apply (proj1 Hl2 eq_refl), My; auto.
          - destruct (f y) eqn:Ef; auto. exfalso. assert (~ flagged y) by (intros X; apply My in X; discriminate).
            apply Hl2 in H. congruence. }
        rewrite filter_app, HFil; auto.
        * simpl. rewrite Eb. simpl. rewrite Hf. auto.
        * intros y Hy. split; intros X.
          -- apply (si_kept _ _ _ I y). rewrite Hf. apply filter_In; auto.
          -- assert (In y kept) by (apply (si_kept _ _ _ I); auto). rewrite Hf in H. apply filter_In in H. tauto.
  Qed.

  Lemma scan_inv_nil : scan_inv [] (fun _ => None) [].
  Proof.
    constructor.
    - discriminate.
    - intros s s' _ H. congruence.
    - intros x [].
    - intros x. split; [intros []|intros [[] _]].
    - exists (fun _ => true). auto.
  Qed.

  Lemma scan_all : exists t kept,
    fold_res (rewrite_scan m) (rules g) (fun _ => None, []) = Ok (t, kept) /\ scan_inv (rules g) t kept.
  Proof.
    assert (HX : forall l done t kept, done ++ l = rules g -> scan_inv done t kept ->
      exists t' kept', fold_res (rewrite_scan m) l (t, kept) = Ok (t', kept') /\ scan_inv (done ++ l) t' kept').
    { induction l as [|x l IH]; intros done t kept HE I.
      - exists t, kept. rewrite app_nil_r. auto.
      - destruct (scan_step done x t kept) as [t1 [k1 [E1 I1]]]; auto.
        + rewrite <- HE. apply in_or_app. right; left; auto.
        + intros y Hy. rewrite <- HE. apply in_or_app. auto.
        + destruct (IH (done ++ [x]) t1 k1) as [t2 [k2 [E2 I2]]]; auto.
          { rewrite <- app_assoc. auto. }
          exists t2, k2. cbn [fold_res]. rewrite E1. cbn [bind]. rewrite E2. split; auto.
          rewrite <- app_assoc in I2. auto. }
    destruct (HX (rules g) [] _ _ eq_refl scan_inv_nil) as [t [k [E I]]]. exists t, k. auto.
  Qed.

  (** * The translation at the end *)

  Section Translation.
    Context (t : translation) (kept : list rule) (I : scan_inv (rules g) t kept).

    Lemma rep_cases : forall s, (rep t s = s /\ (UD s s -> same s (rep t s))) \/ same s (rep t s).
    Proof.
      intros s. destruct (t s) as [v|] eqn:E.
      - right. exact (proj1 (si_rep _ _ _ I s v E)).
      - left. unfold rep, translate. rewrite E. simpl. split; auto. intros H. split; auto.
    Qed.

    Lemma on_cycle_rule : forall s, UD s s -> exists x, In x (rules g) /\ lhs x = s /\ flagged x.
    Proof.
      intros s H. apply Operators_Properties.clos_trans_t1n in H. inversion H as [y [_ Hne]|y z [HP Hne] HT]; subst.
      - contradiction.
      - destruct HP as [x [Hx [H1 H2]]]. exists x. split; auto. split; auto. exists y. split; auto.
        rewrite H1. apply Operators_Properties.clos_t1n_trans. exact HT.
    Qed.

    Lemma rep_same : forall a b, same a b -> rep t a = rep t b.
    Proof.
      intros a b H. pose proof (same_refl_l _ _ H) as [HA _]. destruct (on_cycle_rule a HA) as [x [Hx [<- HF]]].
      apply (si_same _ _ _ I); auto. apply (si_dom _ _ _ I); auto.
    Qed.

    Lemma rep_first : forall s, UD s s -> first_on (rules g) s (rep t s).
    Proof.
      intros s H. destruct (on_cycle_rule s H) as [x [Hx [<- HF]]].
      pose proof (si_dom _ _ _ I x Hx HF) as HN. destruct (t (lhs x)) as [v|] eqn:E; [|contradiction].
      exact (proj1 (proj2 (si_rep _ _ _ I _ v E))).
    Qed.

    Lemma rep_id : forall s, ~ UD s s -> rep t s = s.
    Proof.
      intros s H. destruct (rep_cases s) as [[? _]|HX]; auto. apply same_refl_l in HX. destruct HX. contradiction.
    Qed.

    Lemma rep_derives : forall s, derives (prods g) [s] [rep t s] /\ derives (prods g) [rep t s] [s].
    Proof.
      intros s. destruct (rep_cases s) as [[-> _]|[H1 H2]].
      - split; constructor.
      - split; apply unit_derives_derives; auto.
    Qed.

    Lemma rep_lt : forall s, s < num_syms g -> rep t s < num_syms g.
    Proof.
      intros s Hs. destruct (rep_cases s) as [[-> _]|[H1 H2]]; auto. apply UD_lt in H1. tauto.
    Qed.

    (** The rules after rewriting, without the length limit. *)
    Definition rewritten_prods : productions :=
      fun A r => exists x, In x (rules g) /\ ~ flagged x /\ A = rep t (lhs x) /\ r = map (rep t) (rhs x).

    Lemma rewritten_sound : forall u w, derives rewritten_prods u w -> derives (prods g) u w.
    Proof.
      apply derives_sim. intros A r [x [Hx [_ [-> ->]]]].
      eapply derives_trans; [apply (rep_derives (lhs x))|].
      apply derives_rule_then with (rhs x); [exists x; auto|].
      clear -I. induction (rhs x) as [|s l IHl]; [constructor|]. simpl.
      apply (derives_app _ [s] l [rep t s] (map (rep t) l)); auto. apply rep_derives.
    Qed.

    Lemma rewritten_complete : forall u w, derives (prods g) u w ->
      derives rewritten_prods (map (rep t) u) (map (rep t) w).
    Proof.
      intros u w H. 
      assert (HM : forall l, map (rep t) l = flat_map (fun s => [rep t s]) l).
      { induction l; simpl; congruence. }
      rewrite !HM. revert u w H. apply derives_hom. intros A r [x [Hx [<- <-]]].
      rewrite <- HM.
      destruct (is_cyclical_spec x Hx) as [b [_ Mb]]. destruct b.
      - destruct (proj1 Mb eq_refl) as [B [ER HU]]. rewrite ER. simpl.
        assert (HE : rep t (lhs x) = rep t B).
        { destruct (Nat.eq_dec (lhs x) B) as [->|Hne]; auto. apply rep_same. split; auto.
          apply t_step. split; auto. exists x; auto. }
        rewrite HE. constructor.
      - apply derives_rule. exists x. split; auto. split; auto. intros X. apply Mb in X. discriminate.
    Qed.

    Lemma rewritten_derives : forall u w, Forall (fun s => ~ UD s s) w ->
      (derives rewritten_prods (map (rep t) u) w <-> derives (prods g) u w).
    Proof.
      intros u w HW. assert (HE : map (rep t) w = w).
      { induction HW; simpl; auto. rewrite rep_id by auto. congruence. }
      split.
      - intros H. apply rewritten_sound in H. eapply derives_trans; [|exact H].
        clear -I. induction u as [|s l IHl]; [constructor|]. simpl.
        apply (derives_app _ [s] l [rep t s] (map (rep t) l)); auto. apply rep_derives.
      - intros H. apply rewritten_complete in H. rewrite HE in H. auto.
    Qed.

    Lemma rewritten_closed : forall A r, rewritten_prods A r ->
      A < num_syms g /\ Forall (fun s => s < num_syms g) r.
    Proof.
      intros A r [x [Hx [_ [-> ->]]]]. destruct (HC x Hx) as [Hl Hr]. split; [apply rep_lt; auto|].
      apply Forall_forall. intros s Hs. apply in_map_iff in Hs. destruct Hs as [s0 [<- Hs]].
      rewrite Forall_forall in Hr. apply rep_lt; auto.
    Qed.

    (** No cycles are left. *)
    Lemma UDr_rep : forall a b, UD (rep t a) b -> UD a b.
    Proof. intros a b H. destruct (rep_cases a) as [[E _]|[H1 _]]; [rewrite E in H; auto|eapply t_trans; eauto]. Qed.
    Lemma UDl_rep : forall a b, UD a (rep t b) -> UD a b.
    Proof. intros a b H. destruct (rep_cases b) as [[E _]|[_ H1]]; [rewrite E in H; auto|eapply t_trans; eauto]. Qed.

    Lemma rewritten_step : forall A B, unit_step rewritten_prods A B ->
      exists a b, ~ on_cycle (prods g) a [b] /\ A = rep t a /\ B = rep t b /\ UD a b.
    Proof.
      intros A B [[x [Hx [HF [-> HR]]]] Hne]. destruct (rhs x) as [|b [|c r]] eqn:ER; try discriminate.
      simpl in HR. inversion HR; subst B. exists (lhs x), b. split; [unfold flagged in HF; rewrite ER in HF; auto|].
      split; auto. split; auto. apply t_step. split; [exists x; auto|]. congruence.
    Qed.

    Lemma rewritten_UD : forall A B, unit_derives rewritten_prods A B -> UD A B.
    Proof.
      intros A B H. induction H as [A B H|A B C _ IH1 _ IH2]; [|eapply t_trans; eauto].
      destruct (rewritten_step A B H) as [a [b [_ [-> [-> HU]]]]].
      assert (H1 : UD (rep t a) b).
      { destruct (rep_cases a) as [[-> _]|[_ Ha]]; [auto|eapply t_trans; [exact Ha|exact HU]]. }
      destruct (rep_cases b) as [[-> _]|[Hb _]]; [auto|eapply t_trans; [exact H1|exact Hb]].
    Qed.

    Lemma rewritten_cycle_free : cycle_free_grammar rewritten_prods.
    Proof.
      intros A H. apply Operators_Properties.clos_trans_t1n in H.
      assert (HX : exists B, unit_step rewritten_prods A B /\ (B = A \/ unit_derives rewritten_prods B A)).
      { inversion H as [y HS1|y z HS1 HT]; subst; [exists A; auto|]. exists y. split; auto. right.
        apply Operators_Properties.clos_t1n_trans; auto. }
      destruct HX as [B [HS1 [->|HU]]].
      - destruct HS1 as [_ Hne]. contradiction.
      - apply rewritten_UD in HU. destruct (rewritten_step A B HS1) as [a [b [HN [-> [-> Hab]]]]].
        apply HN. exists b. split; auto. apply UDr_rep, UDl_rep; auto.
    Qed.
  End Translation.
End Matrix.

(** * Length limits do not add unit rules *)

Lemma chain_long : forall r l p s w c, chain r l p s w c -> 2 <= l -> 2 <= length w ->
  Forall (fun x => 2 <= length (rhs x)) c.
Proof.
  intros r l p s w c H Hl. induction H as [p s w Hne HL|p s w c HL HCh IH]; intros Hw.
  - constructor; auto.
  - constructor.
    + simpl. rewrite firstn_length. lia.
    + apply IH. simpl. rewrite skipn_length. lia.
Qed.

Lemma add_rules_units : forall rs g g', good_limit (limit g) -> fold_res add_rule rs g = Ok g' ->
  forall A B, prods g' A [B] <-> prods g A [B] \/ exists x, In x rs /\ lhs x = A /\ rhs x = [B].
Proof.
  induction rs as [|x rs IH]; intros g g' HG E A B.
  - simpl in E. inversion E; subst. split; auto. intros [?|[x [[] _]]]; auto.
  - cbn [fold_res] in E. destruct (add_rule_spec g x HG) as [k [c [E1 [_ HCs]]]].
    rewrite E1 in E. cbn [bind] in E. assert (HL : limit (added g k c) = limit g) by reflexivity.
    rewrite (IH _ _ ltac:(rewrite HL; auto) E A B), in_chain_prods.
    assert (HX : (exists y, In y c /\ lhs y = A /\ rhs y = [B]) <-> (lhs x = A /\ rhs x = [B])).
    { destruct HCs as [[-> _]|[l [HL1 [HL2 HCh]]]].
      - split; [intros [y [[<-|[]] ?]]; auto|]. intros H. exists x. simpl; auto.
      - unfold good_limit in HG. rewrite HL1 in HG.
        assert (HF : Forall (fun x => 2 <= length (rhs x)) c) by (eapply chain_long; [exact HCh|lia|lia]).
        split.
        + intros [y [Hy [_ HR]]]. rewrite Forall_forall in HF. apply HF in Hy. rewrite HR in Hy. simpl in Hy. lia.
        + intros [_ HR]. rewrite HR in HL2. simpl in HL2. lia. }
    rewrite HX. split.
    + intros [[?|?]|[y [Hy ?]]]; auto; right; [exists x|exists y]; simpl; auto.
    + intros [?|[y [[<-|Hy] ?]]]; auto. right. exists y; auto.
Qed.

(** * The operations *)

Lemma unit_derives_units : forall P Q : productions, (forall A B, P A [B] <-> Q A [B]) ->
  forall A B, unit_derives P A B <-> unit_derives Q A B.
Proof.
  intros P Q H A B. split; (induction 1 as [x y [HP Hne]|]; [apply t_step; split; auto; apply H; auto|eapply t_trans; eauto]).
Qed.

Lemma cycles_new_spec : forall g, closed_rules g ->
  exists m, cycles_new g = Ok (mkCycles g m None) /\ square (num_syms g) m /\
    forall i j, bit m i j <-> unit_derives (prods g) i j.
Proof.
  intros g HC. unfold cycles_new. destruct (unit_matrix_spec g HC) as [m [E [S B]]]. rewrite E. simpl.
  exists m. auto.
Qed.

Lemma cycle_free_spec : forall g m, closed_rules g -> square (num_syms g) m ->
  (forall i j, bit m i j <-> unit_derives (prods g) i j) ->
  exists b, cycle_free (mkCycles g m None) = Ok (b, mkCycles g m (Some b)) /\
    (b = true <-> cycle_free_grammar (prods g)).
Proof.
  intros g m HC HS HB. unfold cycle_free. cbn [cy_free cy_unit cy_grammar].
  destruct (all_res_gen (fun i => do x <- mx_get m i i; Ok (negb x)) (fun i => ~ unit_derives (prods g) i i)
              (seq 0 (num_syms g))) as [b [E M]].
  { intros i Hi. apply in_seq in Hi. destruct (mx_get_ok _ m i i HS) as [x [Ex Mx]]; [lia|lia|].
    rewrite Ex. simpl. eexists. split; [reflexivity|]. rewrite <- HB, <- Mx. destruct x; simpl; intuition discriminate. }
  rewrite E. simpl. exists b. split; auto. rewrite M. unfold cycle_free_grammar. rewrite Forall_forall. split.
  - intros H A HA. apply (H A); auto. apply in_seq. apply HB in HA. apply (bit_lt _ _ _ _ HS) in HA. lia.
  - intros H A _. auto.
Qed.

Lemma classify_spec : forall g m, closed_rules g -> square (num_syms g) m ->
  (forall i j, bit m i j <-> unit_derives (prods g) i j) ->
  forall l, (forall x, In x l -> In x (rules g)) ->
  exists r, classify_rules m l = Ok r /\ map fst r = l /\
    forall x b, In (x, b) r -> (b = true <-> on_cycle (prods g) (lhs x) (rhs x)).
Proof.
  intros g m HC HS HB. induction l as [|x l IH]; intros HI.
  - exists []. split; auto. split; auto. intros x b [].
  - destruct (is_cyclical_spec g m HC HS HB x (HI x (or_introl eq_refl))) as [b [E M]].
    destruct (IH (fun y Hy => HI y (or_intror Hy))) as [r [Er [Mr Hr]]].
    simpl. rewrite E. simpl. rewrite Er. simpl. eexists. split; [reflexivity|]. split; [simpl; congruence|].
    intros y c [Hy|Hy]; [inversion Hy; subst; auto|auto].
Qed.

Lemma remove_cycles_spec : forall g, closed_rules g ->
  exists c c', cycles_new g = Ok c /\ remove_cycles c = Ok c' /\
    cy_grammar c' = set_rules g (rules (cy_grammar c')) /\
    (exists f, rules (cy_grammar c') = filter f (rules g)) /\
    (forall x, In x (rules (cy_grammar c')) <-> In x (rules g) /\ ~ on_cycle (prods g) (lhs x) (rhs x)) /\
    exists b, cy_free c' = Some b /\ (b = true <-> cycle_free_grammar (prods g)).
Proof.
  intros g HC. destruct (cycles_new_spec g HC) as [m [E [HS HB]]]. eexists. rewrite E.
  destruct (cycle_free_spec g m HC HS HB) as [b [EF MF]]. unfold remove_cycles. rewrite EF. cbn [bind].
  destruct b.
  - eexists. split; [reflexivity|]. split; [reflexivity|]. simpl. split; [destruct g; auto|].
    split; [exists (fun _ => true); clear; induction (rules g); simpl; congruence|]. split.
    + intros x. split; [|tauto]. intros Hx. split; auto. intros HO.
      apply (proj1 MF eq_refl (lhs x)). exact (proj1 (flagged_same g x Hx HO)).
    + exists true. auto.
  - cbn [cy_unit cy_grammar cy_free].
    destruct (filter_res_spec (fun r => do b <- is_cyclical m r; Ok (negb b))
                (fun x => ~ on_cycle (prods g) (lhs x) (rhs x)) (rules g)) as [l [El [Ml Fl]]].
    { intros x Hx. destruct (is_cyclical_spec g m HC HS HB x Hx) as [b [Eb Mb]]. rewrite Eb. simpl.
      eexists. split; [reflexivity|]. rewrite <- Mb. destruct b; simpl; intuition discriminate. }
    rewrite El. simpl. eexists. split; [reflexivity|]. split; [reflexivity|]. simpl. split; auto.
    split; [eexists; exact Fl|]. split; auto. exists false. auto.
Qed.

Lemma removed_cycle_free : forall g g', closed_rules g ->
  (forall x, In x (rules g') <-> In x (rules g) /\ ~ on_cycle (prods g) (lhs x) (rhs x)) ->
  cycle_free_grammar (prods g').
Proof.
  intros g g' HC HR A H.
  assert (HU : forall a b, unit_derives (prods g') a b -> unit_derives (prods g) a b).
  { intros a b. induction 1 as [x y [[r [Hr [H1 H2]]] Hne]|]; [|eapply t_trans; eauto].
    apply t_step. split; auto. exists r. apply HR in Hr. tauto. }
  apply Operators_Properties.clos_trans_t1n in H. inversion H as [y [_ Hne]|y z [[x [Hx [H1 H2]]] Hne] HT]; subst.
  - contradiction.
  - apply HR in Hx. destruct Hx as [Hx HN]. apply HN. exists y. split; auto. apply HU.
    apply Operators_Properties.clos_t1n_trans. auto.
Qed.

(** A rule with renamed symbols, and whether that changes it. *)
Definition renamed_rule (r : nat -> nat) (x : rule) : rule := mkRule (r (lhs x)) (map r (rhs x)) (hist x).
Definition moved (r : nat -> nat) (x : rule) : bool := negb (r (lhs x) =? lhs x) || existsb (fun s => negb (r s =? s)) (rhs x).

(** The rules that are left: first those without a renamed symbol, then the renamed ones. *)
Definition rewritten_rules (g : cfg) (r : nat -> nat) (l : list rule) : Prop :=
  exists keep : rule -> bool, (forall x, In x (rules g) -> (keep x = true <-> ~ on_cycle (prods g) (lhs x) (rhs x))) /\
    l = filter (fun x => keep x && negb (moved r x)) (rules g) ++ map (renamed_rule r) (filter (fun x => keep x && moved r x) (rules g)).

Lemma scan_kept : forall m l t k t' k', fold_res (rewrite_scan m) l (t, k) = Ok (t', k') ->
  k' = k ++ filter (fun x => match is_cyclical m x with Ok b => negb b | _ => false end) l.
Proof.
  induction l as [|x l IH]; intros t k t' k' E; cbn [fold_res] in E.
  - injection E as <- <-. cbn. rewrite app_nil_r. reflexivity.
  - cbn [filter]. unfold rewrite_scan at 1 in E. destruct (is_cyclical m x) as [b| |] eqn:EB; cbn [bind] in E; try discriminate.
    destruct b; cbn [negb].
    + destruct (t (lhs x)); [cbn [bind] in E; eapply IH; eauto|]. destruct (cycle_row m (lhs x)); cbn [bind] in E; try discriminate. eapply IH; eauto.
    + cbn [bind] in E. apply IH in E. rewrite <- app_assoc in E. exact E.
Qed.

Lemma scan_moves : forall m l t k t' k', fold_res (rewrite_scan m) l (t, k) = Ok (t', k') ->
  (forall s n, t s = Some (Some n) -> n <> s) -> forall s n, t' s = Some (Some n) -> n <> s.
Proof.
  induction l as [|x l IH]; intros t k t' k' E HT; cbn [fold_res] in E.
  - injection E as <- <-. exact HT.
  - unfold rewrite_scan at 1 in E. destruct (is_cyclical m x) as [b| |] eqn:EB; cbn [bind] in E; try discriminate.
    destruct b.
    + destruct (t (lhs x)); [cbn [bind] in E; eapply IH; eauto|]. destruct (cycle_row m (lhs x)) as [row| |]; cbn [bind] in E; try discriminate.
      eapply IH; [exact E|]. intros s n. unfold tr_insert at 1. destruct (s =? lhs x) eqn:ES; [discriminate|]. apply Nat.eqb_neq in ES.
      assert (HX : forall row t0, (forall s n, t0 s = Some (Some n) -> n <> s \/ n = lhs x) ->
                   forall s n, fold_left (fun t s => tr_insert t s (Some (lhs x))) row t0 s = Some (Some n) -> n <> s \/ n = lhs x).
      { clear. induction row as [|y row IHr]; intros t0 H0; cbn [fold_left]; auto. apply IHr. intros s n. unfold tr_insert. destruct (s =? y); auto.
        intros H. injection H as <-. auto. }
      intros H. apply HX in H; [destruct H as [H|H]; congruence|]. intros s0 n0 H0. left. eauto.
    + cbn [bind] in E. eapply IH; eauto.
Qed.

Lemma rewrite_rule_renamed : forall t x, fst (rewrite_rule t x) = renamed_rule (rep t) x.
Proof. intros t x. unfold rewrite_rule, renamed_rule, rep. destruct (translate t (lhs x)). reflexivity. Qed.

Lemma rewrite_rule_moved : forall t x, (forall s n, t s = Some (Some n) -> n <> s) -> snd (rewrite_rule t x) = moved (rep t) x.
Proof.
  intros t x HT.
  assert (HS : forall s, snd (translate t s) = negb (rep t s =? s)).
  { intros s. unfold rep, translate. destruct (t s) as [[n|]|] eqn:E; cbn [fst snd].
    - apply HT in E. apply Nat.eqb_neq in E. rewrite E. reflexivity.
    - rewrite Nat.eqb_refl. reflexivity.
    - rewrite Nat.eqb_refl. reflexivity. }
  unfold rewrite_rule, moved. rewrite <- HS. destruct (translate t (lhs x)) as [a b]. cbn [snd]. f_equal.
  induction (rhs x) as [|s l IH]; cbn [existsb]; auto. rewrite HS, IH. reflexivity.
Qed.

(** No rule is longer than the limit. *)
Definition within_limit (g : cfg) : Prop :=
  forall l x, limit g = Some l -> In x (rules g) -> length (rhs x) <= l.

Lemma adds_all : forall rs g, good_limit (limit g) -> (forall l x, limit g = Some l -> In x rs -> length (rhs x) <= l) ->
  fold_res add_rule rs g = Ok (set_rules g (rules g ++ rs)).
Proof.
  induction rs as [|r rs IH]; intros g HG H; cbn [fold_res].
  - rewrite app_nil_r. destruct g; reflexivity.
  - assert (E : add_rule g r = Ok (push_rule g r)).
    { destruct (add_rule_spec g r HG) as [k [c [E [Hk [[-> _]|[l [EL [HL _]]]]]]]].
      - simpl in Hk. assert (k = 0) by lia. subst k. rewrite E. rewrite push_rule_added. reflexivity.
      - specialize (H l r EL (or_introl eq_refl)). lia. }
    rewrite E. cbn [bind]. rewrite IH; [|exact HG|intros l x HL Hx; apply (H l x HL); right; exact Hx].
    unfold push_rule, set_rules. cbn. rewrite <- app_assoc. reflexivity.
Qed.

(** What [rewrite_cycles] does: [r] maps each symbol to the one that replaces it. *)
Record rewritten (g g' : cfg) (r : nat -> nat) : Prop := {
  rw_repr : exists V, Repr g' V (fun s => num_syms g <= s < num_syms g') /\
              (forall A q, V A q <-> exists x, In x (rules g) /\ ~ on_cycle (prods g) (lhs x) (rhs x) /\
                                     A = r (lhs x) /\ q = map r (rhs x)) /\
              (forall A B, prods g' A [B] <-> V A [B]) /\
              (forall u w, derives V u w -> derives (prods g) u w) /\
              (forall u w, Forall (fun s => ~ unit_derives (prods g) s s) w ->
                 (derives V (map r u) w <-> derives (prods g) u w)) /\
              cycle_free_grammar V;
  rw_roots : roots g' = roots g;
  rw_wroots : wroots g' = wroots g;
  rw_limit : limit g' = limit g;
  rw_num : num_syms g <= num_syms g';
  rw_lt : forall s, s < num_syms g -> r s < num_syms g;
  rw_id : forall s, ~ unit_derives (prods g) s s -> r s = s;
  rw_first : forall s, unit_derives (prods g) s s -> first_on g (rules g) s (r s);
  rw_same : forall a b, same g a b -> r a = r b;
  rw_rules : within_limit g -> rewritten_rules g r (rules g')
}.

Lemma rewrite_cycles_spec : forall g, closed_rules g -> good_limit (limit g) ->
  exists c c' r, cycles_new g = Ok c /\ rewrite_cycles c = Ok c' /\ rewritten g (cy_grammar c') r.
Proof.
  intros g HC HG. destruct (cycles_new_spec g HC) as [m [E [HS HB]]]. eexists. rewrite E.
  destruct (cycle_free_spec g m HC HS HB) as [b [EF MF]]. unfold rewrite_cycles. rewrite EF. cbn [bind].
  destruct b.
  - eexists. exists (fun s => s). split; [reflexivity|]. split; [reflexivity|]. cbn [cy_grammar].
    pose proof (proj1 MF eq_refl) as HF.
    assert (HM : forall u : list nat, map (fun s => s) u = u) by (induction u; simpl; congruence).
    constructor; auto.
    + exists (prods g). split; [|split; [|split; [|split; [|split]]]]; auto.
      * eapply Repr_ext; [apply closed_Repr; auto|intros; reflexivity|]. intros s. split; [tauto|lia].
      * intros A q. split.
        -- intros [x [Hx [<- <-]]]. exists x. split; auto. split; [|rewrite HM; auto]. intros HO.
           apply (HF (lhs x)). exact (proj1 (flagged_same g x Hx HO)).
        -- intros [x [Hx [_ [-> ->]]]]. rewrite HM. exists x; auto.
      * intros A B. reflexivity.
      * intros u w _. rewrite HM. reflexivity.
    + intros s H. destruct (HF s H).
    + intros a b H. destruct (HF a). exact (proj1 (same_refl_l g _ _ H)).
    + intros _. exists (fun _ => true). split.
      * intros x Hx. split; auto. intros _ HO. apply (HF (lhs x)). exact (proj1 (flagged_same g x Hx HO)).
      * assert (HMv : forall x, moved (fun s => s) x = false).
        { intros x. unfold moved. rewrite Nat.eqb_refl. cbn. induction (rhs x) as [|s l IH]; cbn [existsb]; auto. rewrite Nat.eqb_refl. exact IH. }
        transitivity (rules g ++ []); [symmetry; apply app_nil_r|]. f_equal.
        -- rewrite (filter_ext _ (fun _ => true)) by (intros x; rewrite HMv; reflexivity). clear. induction (rules g) as [|x l IH]; cbn [filter]; congruence.
        -- rewrite (filter_ext _ (fun _ => false)) by (intros x; rewrite HMv; reflexivity). clear. induction (rules g) as [|x l IH]; cbn [filter]; auto.
  - cbn [cy_unit cy_grammar cy_free]. destruct (scan_all g m HC HS HB) as [t [kept [ES I]]].
    rewrite ES. cbn [bind].
    set (g0 := set_rules g (filter (fun r => negb (snd (rewrite_rule t r))) kept)).
    set (rs := map (fun r => fst (rewrite_rule t r)) (filter (fun r => snd (rewrite_rule t r)) kept)).
    assert (Hkept : forall x, In x kept -> In x (rules g)) by (intros x Hx; apply (si_kept _ _ _ _ I) in Hx; tauto).
    assert (HC0 : closed_rules g0).
    { intros x Hx. simpl in Hx. apply filter_In in Hx. destruct Hx as [Hx _].
      exact (HC x (Hkept x Hx)). }
    assert (Hrep : forall x, lhs (fst (rewrite_rule t x)) = rep t (lhs x) /\
                             rhs (fst (rewrite_rule t x)) = map (rep t) (rhs x)).
    { intros x. unfold rewrite_rule, rep. destruct (translate t (lhs x)) eqn:ET. simpl. auto. }
    assert (Hunch : forall x, snd (rewrite_rule t x) = false -> rep t (lhs x) = lhs x /\ map (rep t) (rhs x) = rhs x).
    { intros x Hx. unfold rewrite_rule, rep in *.
      assert (HU : forall s, snd (translate t s) = false -> fst (translate t s) = s).
      { intros s. unfold translate. destruct (t s) as [[n|]|]; simpl; auto. discriminate. }
      destruct (translate t (lhs x)) as [n c] eqn:ET. simpl in Hx. apply orb_false_iff in Hx. destruct Hx as [-> Hx].
      split; [rewrite <- ET; apply HU; rewrite ET; auto|].
      revert Hx. clear -HU. induction (rhs x) as [|s l IHl]; simpl; auto. intros H. apply orb_false_iff in H.
      destruct H as [H1 H2]. rewrite HU, IHl; auto. }
    destruct (add_rules_Repr rs g0 (prods g0) (fun _ => False)) as [g' [EA [GR RP]]]; auto.
    { apply closed_Repr; auto. }
    { apply Forall_forall. intros x Hx. unfold rs in Hx. apply in_map_iff in Hx. destruct Hx as [y [<- Hy]].
      apply filter_In in Hy. destruct Hy as [Hy _]. destruct (Hrep y) as [-> ->].
      destruct (HC y (Hkept y Hy)) as [Hl Hr]. split; [apply (rep_lt g m HS HB t kept I); auto|].
      split; auto. split; [|apply Forall_forall; auto].
      apply Forall_forall. intros s Hs. apply in_map_iff in Hs. destruct Hs as [s0 [<- Hs]].
      rewrite Forall_forall in Hr. apply (rep_lt g m HS HB t kept I); auto. }
    rewrite EA. cbn [bind]. eexists. exists (rep t). split; [reflexivity|]. split; [reflexivity|].
    cbn [cy_grammar].
    assert (HV : forall A q, (prods g0 A q \/ exists x, In x rs /\ lhs x = A /\ rhs x = q) <-> rewritten_prods g t A q).
    { intros A q. unfold rewritten_prods. split.
      - intros [[x [Hx [<- <-]]]|[y [Hy [<- <-]]]].
        + simpl in Hx. apply filter_In in Hx. destruct Hx as [Hx Hf]. apply negb_true_iff in Hf.
          apply Hunch in Hf. destruct Hf as [F1 F2]. apply (si_kept _ _ _ _ I) in Hx. destruct Hx as [Hx HN].
          exists x. rewrite F1, F2. auto.
        + unfold rs in Hy. apply in_map_iff in Hy. destruct Hy as [x [<- Hx]]. apply filter_In in Hx.
          destruct Hx as [Hx _]. apply (si_kept _ _ _ _ I) in Hx. destruct Hx as [Hx HN]. destruct (Hrep x) as [-> ->].
          exists x; auto.
      - intros [x [Hx [HN [-> ->]]]]. assert (HK : In x kept) by (apply (si_kept _ _ _ _ I); auto).
        destruct (snd (rewrite_rule t x)) eqn:Ec.
        + right. exists (fst (rewrite_rule t x)). split; [|apply Hrep]. unfold rs. apply in_map_iff.
          exists x. split; auto. apply filter_In; auto.
        + left. destruct (Hunch x Ec) as [-> ->]. exists x. split; auto. simpl. apply filter_In. rewrite Ec. auto. }
    constructor.
    + exists (rewritten_prods g t). split; [|split; [|split; [|split; [|split]]]].
      * eapply Repr_ext; [exact RP|exact HV|]. intros s. change (num_syms g0) with (num_syms g). tauto.
      * intros A q. reflexivity.
      * intros A B. rewrite (add_rules_units rs g0 g' HG EA). apply HV.
      * apply (rewritten_sound g t kept I).
      * apply (rewritten_derives g m HC HS HB t kept I).
      * apply (rewritten_cycle_free g t kept I).
    + rewrite (gr_roots _ _ GR). reflexivity.
    + rewrite (gr_wroots _ _ GR). reflexivity.
    + rewrite (gr_limit _ _ GR). reflexivity.
    + apply (grows_num _ _ GR).
    + intros s. apply (rep_lt g m HS HB t kept I).
    + apply (rep_id g t kept I).
    + apply (rep_first g t kept I).
    + apply (rep_same g t kept I).
    + intros HL. rewrite (adds_all rs g0) in EA;
        [|exact HG|intros l x EL Hx; unfold rs in Hx; apply in_map_iff in Hx; destruct Hx as [y [<- Hy]]; apply filter_In in Hy;
          destruct Hy as [Hy _]; destruct (Hrep y) as [_ ->]; rewrite map_length; exact (HL l y EL (Hkept y Hy))].
      injection EA as <-. cbn [rules set_rules].
      exists (fun x => match is_cyclical m x with Ok b => negb b | _ => false end). split.
      * intros x Hx. destruct (is_cyclical_spec g m HC HS HB x Hx) as [b [-> Mb]]. rewrite <- Mb. destruct b; cbn; intuition discriminate.
      * pose proof (scan_kept _ _ _ _ _ _ ES) as HK. cbn [app] in HK.
        assert (HMv : forall x, snd (rewrite_rule t x) = moved (rep t) x).
        { intros x. apply rewrite_rule_moved. apply (scan_moves _ _ _ _ _ _ ES). intros s n H. discriminate. }
        assert (HFF : forall (p q : rule -> bool) l, filter p (filter q l) = filter (fun x => q x && p x) l).
        { clear. induction l as [|x l IH]; cbn [filter]; auto. destruct (q x) eqn:EQ; cbn [filter andb]; [|exact IH]. rewrite IH. reflexivity. }
        unfold g0, rs. cbn [rules set_rules]. rewrite HK, !HFF. f_equal.
        -- apply filter_ext. intros x. rewrite HMv. reflexivity.
        -- rewrite (filter_ext _ (fun x => (match is_cyclical m x with Ok b => negb b | _ => false end) && moved (rep t) x)) by (intros x; rewrite HMv; reflexivity).
           apply map_ext. intros x. apply rewrite_rule_renamed.
Qed.

(** * Recursion *)

Lemma last_in_split : forall (r : list nat) s, r <> [] -> exists q, r = q ++ [last r s].
Proof. intros r s H. exists (removelast r). apply app_removelast_last; auto. Qed.

Lemma rule_recursion_spec : forall g m x, closed_rules g -> square (num_syms g) m ->
  (forall i j, bit m i j <-> reaches1 (prods g) i j) -> In x (rules g) ->
  exists k, rule_recursion m x = Ok k /\
    match k with
    | None => forall s, In s (rhs x) -> ~ reaches (prods g) s (lhs x)
    | Some v =>
        (exists s, In s (rhs x) /\ reaches (prods g) s (lhs x)) /\
        (rk_left v = true <-> exists s t, rhs x = s :: t /\ reaches (prods g) s (lhs x)) /\
        (rk_right v = true <-> exists s t, rhs x = t ++ [s] /\ reaches (prods g) s (lhs x)) /\
        (rk_middle v = true <-> exists a t s u b, rhs x = a :: t ++ s :: u ++ [b] /\ reaches (prods g) s (lhs x))
    end.
Proof.
  intros g m x HC HS HB Hx. destruct (HC x Hx) as [Hl Hr].
  assert (HR : forall s, In s (rhs x) -> (reaches1 (prods g) s (lhs x) <-> reaches (prods g) s (lhs x))).
  { intros s Hs. rewrite reaches_iff. split; auto. intros [->|?]; auto.
    apply reaches1_direct. apply t_step. exists (rhs x). split; auto. exists x; auto. }
  assert (HG : forall s, In s (rhs x) -> exists b, mx_get m s (lhs x) = Ok b /\ (b = true <-> reaches (prods g) s (lhs x))).
  { intros s Hs. destruct (mx_get_ok _ m s (lhs x) HS) as [b [E M]]; auto.
    - rewrite Forall_forall in Hr. auto.
    - exists b. split; auto. rewrite M, HB. apply HR; auto. }
  unfold rule_recursion. destruct (rhs x) as [|a r] eqn:ER.
  - exists None. split; auto.
  - destruct (HG a (or_introl eq_refl)) as [bl [El Ml]]. rewrite El. cbn [bind].
    destruct (last_in_split (a :: r) a ltac:(discriminate)) as [q Hq].
    set (z := last (a :: r) a) in *.
    assert (Hz : In z (a :: r)) by (rewrite Hq; apply in_or_app; right; left; auto).
    destruct (HG z Hz) as [br [Er Mr]]. rewrite Er. cbn [bind].
    set (mid := firstn (length (a :: r) - 2) (skipn 1 (a :: r))).
    assert (Hmid : forall s, In s mid <-> exists t u, a :: r = a :: t ++ s :: u ++ [z]).
    { intros s. unfold mid. simpl skipn. simpl length.
      destruct q as [|a' q]; simpl in Hq; inversion Hq as [[Ha Hr']].
      - simpl. split; [intros []|]. intros [t [u X]]. inversion X as [Y]. destruct t; discriminate.
      - replace (S (length (q ++ [z])) - 2) with (length q) by (rewrite app_length; simpl; lia).
        rewrite firstn_app, firstn_all, Nat.sub_diag. simpl. rewrite app_nil_r. split.
        + intros Hs. apply in_split in Hs. destruct Hs as [t [u ->]]. exists t, u. f_equal.
          rewrite <- app_assoc. reflexivity.
        + intros [t [u X]]. inversion X as [[Y]]. rewrite app_comm_cons, app_assoc in Y.
          apply app_inj_tail in Y. destruct Y as [-> _]. apply in_or_app. right. left. auto. }
    assert (Hin : forall s, In s mid -> In s (a :: r)).
    { intros s Hs. apply Hmid in Hs. destruct Hs as [t [u ->]]. right. apply in_or_app. right. left. auto. }
    destruct (any_res_gen (fun s => mx_get m s (lhs x)) (fun s => reaches (prods g) s (lhs x)) mid) as [bm [Em Mm]].
    { intros s Hs. apply HG; auto. }
    rewrite Em. cbn [bind]. eexists. split; [reflexivity|].
    rewrite Exists_exists in Mm.
    assert (Hcov : forall s, In s (a :: r) -> s = a \/ s = z \/ In s mid).
    { intros s [<-|Hs]; auto. destruct q as [|a' q]; simpl in Hq; inversion Hq as [[Ha Hr']].
      - subst r. destruct Hs.
      - subst a'. rewrite Hr' in Hs. apply in_app_or in Hs. destruct Hs as [Hs|[<-|[]]]; auto.
        right. right. apply Hmid. apply in_split in Hs. destruct Hs as [t [u ->]]. exists t, u.
        rewrite Hr'. rewrite <- app_assoc. reflexivity. }
    destruct (bl || bm || br) eqn:EO; cbn [rk_left rk_right rk_middle].
    + split.
      { apply orb_true_iff in EO. destruct EO as [EO|EO]; [apply orb_true_iff in EO; destruct EO as [EO|EO]|].
        - exists a. split; [left; auto|]. apply Ml; auto.
        - apply Mm in EO. destruct EO as [s [H1 H2]]. exists s. auto.
        - exists z. split; auto. apply Mr; auto. }
      split; [|split].
      * rewrite Ml. split; [intros; exists a, r; auto|]. intros [s [t [X Y]]]. inversion X; subst; auto.
      * rewrite Mr. split; [intros; exists z, q; auto|]. intros [s [t [X Y]]]. rewrite Hq in X.
        apply app_inj_tail in X. destruct X as [_ ->]. auto.
      * rewrite Mm. split.
        -- intros [s [H1 H2]]. apply Hmid in H1. destruct H1 as [t [u H1]]. exists a, t, s, u, z. auto.
        -- intros [a' [t [s [u [b [X Y]]]]]]. exists s. split; auto. apply Hmid. inversion X as [[X1 X2]]. subst a'.
           exists t, u. f_equal. assert (HZ : b = z).
           { assert (E : (a :: t ++ s :: u) ++ [b] = q ++ [z]) by (rewrite <- Hq, X2; simpl; rewrite <- app_assoc; reflexivity).
             apply app_inj_tail in E. tauto. }
           subst b. auto.
    + apply orb_false_iff in EO. destruct EO as [EO ->]. apply orb_false_iff in EO. destruct EO as [-> ->].
      intros s Hs HRs. destruct (Hcov s Hs) as [->|[->|Hm]].
      * apply Ml in HRs. discriminate.
      * apply Mr in HRs. discriminate.
      * assert (false = true) by (apply Mm; exists s; auto). discriminate.
Qed.

Lemma recursive_from_spec : forall g m, closed_rules g -> square (num_syms g) m ->
  (forall i j, bit m i j <-> reaches1 (prods g) i j) ->
  forall l, (forall x, In x l -> In x (rules g)) ->
  exists r, recursive_from m l = Ok r /\
    (exists f, map fst r = filter f l) /\
    (forall x k, In (x, k) r -> In x l /\ rule_recursion m x = Ok (Some k)) /\
    (forall x, In x l -> (exists k, In (x, k) r) <-> exists s, In s (rhs x) /\ reaches (prods g) s (lhs x)).
Proof.
  intros g m HC HS HB l HI.
  assert (HX : exists r, recursive_from m l = Ok r /\
     map fst r = filter (fun x => match rule_recursion m x with Ok (Some _) => true | _ => false end) l /\
     (forall x k, In (x, k) r <-> In x l /\ rule_recursion m x = Ok (Some k))).
  { induction l as [|x l IH].
    - exists []. split; auto. split; auto. intros x k. simpl. tauto.
    - destruct (rule_recursion_spec g m x HC HS HB (HI x (or_introl eq_refl))) as [k [E _]].
      destruct (IH (fun y Hy => HI y (or_intror Hy))) as [r [Er [Fr Mr]]].
      simpl. rewrite E. cbn [bind]. rewrite Er. cbn [bind]. eexists. split; [reflexivity|]. split.
      + destruct k; simpl; congruence.
      + intros y c. destruct k as [k|].
        * simpl. rewrite Mr. split.
          -- intros [H|[? ?]]; [inversion H; subst; auto|auto].
          -- intros [[<-|?] HK]; auto. left. congruence.
        * rewrite Mr. simpl. split; [tauto|]. intros [[<-|?] HK]; auto. congruence. }
  destruct HX as [r [E [F M]]]. exists r. split; auto. split; [eexists; exact F|]. split.
  - intros x k H. apply M; auto.
  - intros x Hx. destruct (rule_recursion_spec g m x HC HS HB (HI x Hx)) as [k [Ek Hk]]. split.
    + intros [c Hc]. apply M in Hc. destruct Hc as [_ Hc]. rewrite Ek in Hc. inversion Hc; subst k. tauto.
    + intros [s [Hs HRs]]. destruct k as [k|].
      * exists k. apply M; auto.
      * destruct (Hk s Hs HRs).
Qed.

Lemma rewrite_cycles_dec : forall g, closed_rules g -> forall s,
  unit_derives (prods g) s s \/ ~ unit_derives (prods g) s s.
Proof.
  intros g HC s. destruct (cycles_new_spec g HC) as [m [_ [HS HB]]].
  destruct (lt_dec s (num_syms g)) as [H|H].
  - destruct (mx_get_ok _ m s s HS H H) as [b [_ Mb]]. rewrite HB in Mb. destruct b; [left; tauto|right].
    intros X. apply Mb in X. discriminate.
  - right. intros X. apply HB in X. apply (bit_lt _ _ _ _ HS) in X. lia.
Qed.
