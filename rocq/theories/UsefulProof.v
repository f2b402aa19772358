(** Usefulness: what [Usefulness] computes and what removing useless rules does. *)

From Coq Require Import List Arith Bool Lia Relations.
From Verif Require Import Base ListFacts Spec SpecClassify SetView GrammarFacts HistoryModel CfgModel View
  MatrixModel BitSetModel ClosureModel SetProof MatrixProof ClassifyModel.
Import ListNotations.
Local Notation length := List.length.

(** * Productive symbols *)

Lemma productive_terminal : forall P s, terminal P s -> productive P s.
Proof. intros P s H. exists [s]. split; [constructor|]. constructor; auto. Qed.

Lemma productive_list : forall P r, Forall (productive P) r <-> productive_rhs P r.
Proof.
  intros P r. split.
  - induction 1 as [|s r [w1 [D1 T1]] _ [w2 [D2 T2]]].
    + exists []. split; [constructor|constructor].
    + exists (w1 ++ w2). split; [apply derives_cons; auto|apply Forall_app; auto].
  - intros [w [HD HT]]. revert w HD HT. induction r as [|s r IH]; intros; constructor.
    + apply derives_cons_inv in HD. destruct HD as [w1 [w2 [-> [D1 D2]]]]. apply Forall_app in HT.
      exists w1. split; tauto.
    + apply derives_cons_inv in HD. destruct HD as [w1 [w2 [-> [D1 D2]]]]. apply Forall_app in HT.
      apply (IH w2); tauto.
Qed.

Lemma productive_rule : forall (P : productions) A r, P A r -> Forall (productive P) r -> productive P A.
Proof.
  intros P A r HP H. apply productive_list in H. destruct H as [w [HD HT]]. exists w. split; auto.
  eapply derives_rule_then; eauto.
Qed.

Lemma productive_inv : forall P A, productive P A -> terminal P A \/ exists r, P A r /\ Forall (productive P) r.
Proof.
  intros P A [w [HD HT]]. apply derives_single_inv in HD. destruct HD as [->|[r [HP HD]]].
  - left. inversion HT; auto.
  - right. exists r. split; auto. apply productive_list. exists w; auto.
Qed.

Lemma closure_productive : forall P (T : nat -> Prop) s, (forall x, T x -> terminal P x \/ P x []) ->
  closure_all P T s -> productive P s.
Proof.
  intros P T s HT. revert s. fix IH 2. intros s H. destruct H as [s H|A r HP Hne HF].
  - destruct (HT s H); [apply productive_terminal; auto|]. eapply productive_rule; eauto.
  - apply productive_rule with r; auto. clear HP Hne. induction HF as [|a l Ha _ IHl]; constructor; auto.
Qed.

Lemma productive_closure : forall (P : productions) n (T : nat -> Prop),
  (forall A r, P A r -> Forall (fun s => s < n) r) ->
  (forall x, x < n -> terminal P x -> T x) -> (forall x, P x [] -> T x) ->
  forall s, s < n -> productive P s -> closure_all P T s.
Proof.
  intros P n T HC HT HN s Hs [w [HD HF]].
  assert (HX : forall u v, yields P u v -> Forall (terminal P) v -> Forall (fun x => x < n) u ->
               Forall (closure_all P T) u).
  { induction 1 as [|a u v H IH|A r u v1 v2 HP H1 IH1 H2 IH2]; intros HV HU; [constructor| |].
    - inversion HV; inversion HU; subst. constructor; auto. apply ca_init. auto.
    - apply Forall_app in HV. inversion HU; subst. constructor; [|apply IH2; tauto].
      destruct r as [|a r]; [apply ca_init; auto|]. apply ca_rule with (a :: r); auto; [discriminate|].
      apply IH1; [tauto|]. eapply HC; eauto. }
  assert (HY : Forall (closure_all P T) [s]).
  { apply HX with w; auto. apply derives_yields; auto. }
  inversion HY; auto.
Qed.

Lemma closed_prods : forall g A r, closed_rules g -> prods g A r ->
  A < num_syms g /\ Forall (fun s => s < num_syms g) r.
Proof. intros g A r HC [x [Hx [<- <-]]]. apply HC; auto. Qed.

Lemma productive_syms_spec : forall g, closed_rules g ->
  exists b, productive_syms g = Ok b /\ length b = num_syms g /\
  forall s, member b s <-> s < num_syms g /\ productive (prods g) s.
Proof.
  intros g HC. unfold productive_syms.
  destruct (bs_terminal_spec g HC) as [b1 [E1 [L1 M1]]]. rewrite E1. cbn [bind].
  destruct (bs_nulling_from_spec g b1 HC L1) as [b2 [E2 [L2 M2]]]. rewrite E2. cbn [bind].
  destruct (rhs_closure_all_spec g b2 HC) as [b3 [E3 [L3 M3]]]; [lia|].
  exists b3. split; auto. split; [lia|]. intros s. split.
  - intros H. split; [rewrite <- L2, <- L3; apply member_lt; auto|]. apply M3 in H.
    eapply closure_productive; [|exact H]. intros x Hx. apply M2 in Hx. destruct Hx as [Hx|Hx]; auto.
    apply M1 in Hx. tauto.
  - intros [Hs H]. apply M3. apply productive_closure with (num_syms g); auto.
    + intros A r HP. apply (closed_prods g A r HC HP).
    + intros x Hx HT. apply M2. left. apply M1. auto.
    + intros x Hx. apply M2. auto.
Qed.

(** * The result of the analysis *)

Lemma reaches_iff : forall P A B, reaches P A B <-> A = B \/ reaches1 P A B.
Proof.
  intros P A B. split.
  - intros [u [v H]]. apply derives_inv1 in H. destruct H as [H|H].
    + left. destruct u; [|destruct u; discriminate]. inversion H; auto.
    + right. exists u, v; auto.
  - intros [->|[u [v H]]].
    + exists [], []. constructor.
    + exists u, v. apply derives1_derives; auto.
Qed.

Lemma reaches_rule : forall (P : productions) R A r s, reaches P R A -> P A r -> In s r -> reaches P R s.
Proof.
  intros P R A r s [u [v H]] HP Hi. apply in_split in Hi. destruct Hi as [x [y ->]].
  exists (u ++ x), (y ++ v). replace ((u ++ x) ++ s :: y ++ v) with (u ++ (x ++ s :: y) ++ v)
    by (rewrite <- !app_assoc; reflexivity).
  eapply derives_step_r; eauto.
Qed.

Lemma reaches_occurs : forall P R A, reaches P R A -> R = A \/ occurs P A.
Proof.
  intros P R A H. apply reaches_iff in H. destruct H as [->|H]; auto. right.
  apply reaches1_direct in H. apply Operators_Properties.clos_trans_tn1 in H.
  destruct H as [y [r [Hr Hi]]|y z [r [Hr Hi]] _]; [exists R, r|exists y, r]; auto.
Qed.

(** What [usefulness_with_roots] gives for the roots [l]. *)
Record analysis (g : cfg) (l : list nat) (u : usefulness) : Prop := {
  an_plen : length (us_productivity u) = num_syms g;
  an_rlen : length (us_reachable u) = num_syms g;
  an_prod : forall s, member (us_productivity u) s <-> s < num_syms g /\ productive (prods g) s;
  an_reach : forall s, member (us_reachable u) s <->
     (s < num_syms g /\ ~ occurs (prods g) s) \/ reachable_from (prods g) l s
}.

Lemma unused_terminal : forall P s, ~ occurs P s -> terminal P s.
Proof. intros P s H r HP. apply H. exists s, r; auto. Qed.

Lemma reaches_lt : forall g R A, closed_rules g -> R < num_syms g -> reaches (prods g) R A -> A < num_syms g.
Proof.
  intros g R A HC HR H. apply reaches_occurs in H. destruct H as [<-|H]; auto. eapply occurs_lt; eauto.
Qed.

Lemma usefulness_spec : forall g l, closed_rules g -> Forall (fun s => s < num_syms g) l ->
  exists u, usefulness_with_roots g l = Ok u /\ analysis g l u.
Proof.
  intros g l HC HL. unfold usefulness_with_roots, usefulness_new.
  destruct (productive_syms_spec g HC) as [b1 [E1 [L1 M1]]]. rewrite E1. cbn [bind].
  destruct (reachability_spec g HC) as [m1 [E2 [S2 B2]]]. rewrite E2. cbn [bind].
  destruct (reflexive_closure_spec _ m1 S2) as [m [E3 [S3 B3]]]. unfold reflexive. rewrite E3. cbn [bind].
  destruct (bs_unused_spec g HC) as [b2 [E4 [L4 M4]]]. rewrite E4. cbn [bind].
  destruct (bs_union_spec b1 b2) as [b3 [E5 [L5 M5]]]; [lia|]. rewrite E5. cbn [bind].
  destruct (bs_union_spec (bs_from_elem g false) b2) as [b4 [E6 [L6 M6]]];
    [rewrite length_from_elem; lia|]. rewrite E6. cbn [bind].
  unfold bs_space. rewrite L5, L1. destruct S3 as [S3a S3b] eqn:ES. rewrite S3a, Nat.eqb_refl. cbn [bind].
  rewrite length_from_elem in L6.
  unfold us_add_reachable. cbn [us_reachability us_reachable us_productivity].
  assert (HM4 : forall s, member b4 s <-> s < num_syms g /\ ~ occurs (prods g) s).
  { intros s. rewrite M6, M4. unfold bs_from_elem. rewrite member_repeat. intuition discriminate. }
  assert (HX : forall ls b, Forall (fun s => s < num_syms g) ls -> length b = num_syms g ->
    exists b', fold_res (fun b s => do row <- iter_row_syms m s;
                            fold_res (fun b d => bs_set b d true) row b) ls b = Ok b' /\
      length b' = num_syms g /\
      forall s, member b' s <-> member b s \/ reachable_from (prods g) ls s).
  { induction ls as [|a ls IH]; intros b HF HB.
    - exists b. split; auto. split; auto. intros s. split; auto. intros [?|[R [[] _]]]; auto.
    - inversion HF as [|a' l' Ha Hl]; subst.
      destruct (iter_row_syms_spec (num_syms g) m a (conj S3a S3b) Ha) as [row [ER HR]].
      destruct (mark_all row b true) as [b' [EB [LB MB]]].
      { apply Forall_forall. intros s Hs. apply HR in Hs. rewrite HB.
        exact (proj2 (bit_lt _ _ _ _ (conj S3a S3b) Hs)). }
      destruct (IH b' Hl) as [b'' [EB2 [LB2 MB2]]]; [lia|].
      exists b''. cbn [fold_res]. rewrite ER. cbn [bind]. rewrite EB. cbn [bind]. split; auto. split; auto.
      intros s. rewrite MB2, MB. assert (HRs : In s row <-> reaches (prods g) a s).
      { rewrite HR, B3, B2, reaches_iff. split.
        - intros [?|[? ?]]; auto.
        - intros [->|?]; auto. }
      unfold reachable_from. split.
      + intros [[[Hs _]|[_ ?]]|[R [? ?]]]; auto.
        * right. exists a. split; [left; auto|tauto].
        * right. exists R. split; [right; auto|auto].
      + intros [Hb|[R [[<-|Hi] HRR]]].
        * left. destruct (in_dec Nat.eq_dec s row); auto.
        * left. left. tauto.
        * right. exists R; auto. }
  destruct (HX l b4 HL L6) as [b5 [E7 [L7 M7]]].
  rewrite E7. cbn [bind]. eexists. split; [reflexivity|].
  constructor; cbn [us_productivity us_reachable]; auto.
  - lia.
  - intros s. rewrite M5, M1, M4. split; [|auto]. intros [?|[? ?]]; auto.
    split; auto. apply productive_terminal, unused_terminal; auto.
  - intros s. rewrite M7, HM4. tauto.
Qed.

Section Analysis.
  Context (g : cfg) (l : list nat) (u : usefulness).
  Context (HC : closed_rules g) (HL : Forall (fun s => s < num_syms g) l) (AN : analysis g l u).

  Lemma us_productive_spec : forall s, s < num_syms g ->
    exists b, us_productive u s = Ok b /\ (b = true <-> productive (prods g) s).
  Proof.
    intros s Hs. destruct (bs_get_ok (us_productivity u) s) as [b [E M]].
    { rewrite (an_plen _ _ _ AN). auto. }
    exists b. split; auto. rewrite M, (an_prod _ _ _ AN). tauto.
  Qed.

  Lemma rule_parts : forall x, In x (rules g) ->
    exists p r, all_res (bs_get (us_productivity u)) (rhs x) = Ok p /\ bs_get (us_reachable u) (lhs x) = Ok r /\
      (p = true <-> productive_rhs (prods g) (rhs x)) /\ (r = true <-> reachable_from (prods g) l (lhs x)).
  Proof.
    intros x Hx. destruct (HC x Hx) as [Hl Hr].
    destruct (all_res_spec (us_productivity u) (rhs x)) as [p [E1 M1]].
    { eapply Forall_impl; [|exact Hr]. intros a Ha. rewrite (an_plen _ _ _ AN). auto. }
    destruct (bs_get_ok (us_reachable u) (lhs x)) as [r [E2 M2]].
    { rewrite (an_rlen _ _ _ AN). auto. }
    exists p, r. split; auto. split; auto. split.
    - rewrite M1, <- productive_list. rewrite !Forall_forall. rewrite Forall_forall in Hr. split.
      + intros H s Hs. exact (proj2 (proj1 (an_prod _ _ _ AN s) (H s Hs))).
      + intros H s Hs. apply (an_prod _ _ _ AN s). split; auto.
    - rewrite M2, (an_reach _ _ _ AN). split; auto. intros [[_ H]|?]; auto. exfalso. apply H.
      exists (lhs x), (rhs x). split; auto. exists x; auto.
  Qed.

  Lemma us_rule_spec : forall x, In x (rules g) ->
    exists v, us_rule u x = Ok v /\
      (ru_reachable v = true <-> reachable_from (prods g) l (lhs x)) /\
      (ru_productive v = true <-> productive_rhs (prods g) (rhs x)) /\
      (is_useless v = false <-> useful (prods g) l (lhs x) (rhs x)).
  Proof.
    intros x Hx. destruct (rule_parts x Hx) as [p [r [E1 [E2 [M1 M2]]]]].
    unfold us_rule. rewrite E1. cbn [bind]. rewrite E2. cbn [bind]. eexists. split; [reflexivity|].
    simpl. split; auto. split; auto. unfold useful. rewrite <- M1, <- M2. unfold is_useless. simpl.
    destruct p, r; simpl; intuition discriminate.
  Qed.

  Lemma rule_is_useful_spec : forall x, In x (rules g) ->
    exists b, rule_is_useful u x = Ok b /\ (b = true <-> useful (prods g) l (lhs x) (rhs x)).
  Proof.
    intros x Hx. destruct (rule_parts x Hx) as [p [r [E1 [E2 [M1 M2]]]]].
    unfold rule_is_useful. rewrite E1. cbn [bind]. rewrite E2. cbn [bind]. eexists. split; [reflexivity|].
    unfold useful. rewrite <- M1, <- M2. destruct p, r; simpl; intuition discriminate.
  Qed.

  Lemma all_useful_spec : us_all_useful u = true <->
    forall x, In x (rules g) -> useful (prods g) l (lhs x) (rhs x).
  Proof.
    unfold us_all_useful. rewrite andb_true_iff, !bs_all_spec, (an_plen _ _ _ AN), (an_rlen _ _ _ AN). split.
    - intros [HP HR] x Hx. destruct (HC x Hx) as [Hl Hr]. split.
      + specialize (HR _ Hl). apply (an_reach _ _ _ AN) in HR. destruct HR as [[_ H]|?]; auto.
        exfalso. apply H. exists (lhs x), (rhs x). split; auto. exists x; auto.
      + apply productive_list. rewrite Forall_forall in *. intros s Hs.
        exact (proj2 (proj1 (an_prod _ _ _ AN s) (HP s (Hr s Hs)))).
    - intros H. assert (HO : forall s, occurs (prods g) s -> reachable_from (prods g) l s /\ productive (prods g) s).
      { intros s [A [r [[x [Hx [<- <-]]] Hs]]]. destruct (H x Hx) as [[R [HR HRR]] HPR].
        apply productive_list in HPR. assert (HPx : prods g (lhs x) (rhs x)) by (exists x; auto).
        destruct Hs as [->|Hs].
        - split; [exists R; auto|]. eapply productive_rule; eauto.
        - split; [exists R; split; auto; eapply reaches_rule; eauto|]. rewrite Forall_forall in HPR. auto. }
      assert (HD : forall s, occurs (prods g) s \/ ~ occurs (prods g) s).
      { intros s. destruct (bs_used_spec g HC) as [b [_ [_ M]]]. destruct (member_dec b s) as [X|X];
          rewrite M in X; auto. }
      split; intros s Hs; destruct (HD s) as [X|X].
      + apply (an_prod _ _ _ AN). split; auto. apply HO; auto.
      + apply (an_prod _ _ _ AN). split; auto. apply productive_terminal, unused_terminal; auto.
      + apply (an_reach _ _ _ AN). right. apply HO; auto.
      + apply (an_reach _ _ _ AN). left; auto.
  Qed.

  Lemma all_productive_spec : us_all_productive u = true <->
    forall s, s < num_syms g -> productive (prods g) s.
  Proof.
    unfold us_all_productive. rewrite bs_all_spec, (an_plen _ _ _ AN). split; intros H s Hs.
    - exact (proj2 (proj1 (an_prod _ _ _ AN s) (H s Hs))).
    - apply (an_prod _ _ _ AN). auto.
  Qed.

  Lemma all_reachable_spec : us_all_reachable u = true <->
    forall s, occurs (prods g) s -> reachable_from (prods g) l s.
  Proof.
    unfold us_all_reachable. rewrite bs_all_spec, (an_rlen _ _ _ AN). split.
    - intros H s Hs. pose proof (occurs_lt g s HC Hs) as Hl. apply H in Hl. apply (an_reach _ _ _ AN) in Hl.
      destruct Hl as [[_ X]|?]; [contradiction|auto].
    - intros H s Hs. apply (an_reach _ _ _ AN). destruct (bs_used_spec g HC) as [b [_ [_ M]]].
      destruct (member_dec b s) as [X|X]; rewrite M in X; auto.
  Qed.
End Analysis.

(** * Filtering *)

Lemma filter_res_spec : forall {A} (f : A -> res bool) (Q : A -> Prop) l,
  (forall x, In x l -> exists b, f x = Ok b /\ (b = true <-> Q x)) ->
  exists l', filter_res f l = Ok l' /\ (forall x, In x l' <-> In x l /\ Q x) /\
    l' = filter (fun x => match f x with Ok b => b | _ => false end) l.
Proof.
  intros A f Q l. induction l as [|a l IH]; intros H.
  - exists []. split; auto. split; auto. simpl. tauto.
  - destruct (H a (or_introl eq_refl)) as [b [E M]].
    destruct (IH (fun x Hx => H x (or_intror Hx))) as [l' [E' [M' F']]].
    simpl. rewrite E. simpl. rewrite E'. simpl. eexists. split; [reflexivity|]. split.
    + intros x. destruct b; simpl; rewrite M'; split.
      * intros [<-|[? ?]]; auto. split; auto. apply M; auto.
      * intros [[<-|?] ?]; auto.
      * intros [? ?]; auto.
      * intros [[<-|?] HQ]; auto. apply M in HQ. discriminate.
    + destruct b; rewrite F'; auto.
Qed.

Lemma remove_useless_spec : forall g l u, closed_rules g -> analysis g l u ->
  exists g', us_remove_useless_rules u g = Ok g' /\
    (forall x, In x (rules g') <-> In x (rules g) /\ useful (prods g) l (lhs x) (rhs x)) /\
    (exists f, rules g' = filter f (rules g)) /\
    g' = set_rules g (rules g').
Proof.
  intros g l u HC AN. unfold us_remove_useless_rules. destruct (us_all_useful u) eqn:E.
  - exists g. split; auto. rewrite (all_useful_spec g l u HC AN) in E. split; [|split].
    + intros x. split; [intros Hx; split; auto|tauto].
    + exists (fun _ => true). clear. induction (rules g); simpl; congruence.
    + destruct g; reflexivity.
  - destruct (filter_res_spec (rule_is_useful u) (fun x => useful (prods g) l (lhs x) (rhs x)) (rules g))
      as [l' [E' [M F]]].
    { intros x Hx. apply rule_is_useful_spec; auto. }
    rewrite E'. simpl. eexists. split; [reflexivity|]. simpl. split; auto. split; [|reflexivity].
    eexists. exact F.
Qed.

(** * Languages *)

(** The productions that are left. *)
Definition useful_part (P : productions) (l : list nat) : productions :=
  fun A r => P A r /\ useful P l A r.

Lemma reachable_step : forall (P : productions) l A r, P A r -> reachable_from P l A ->
  Forall (reachable_from P l) r.
Proof.
  intros P l A r HP [R [HR HRR]]. apply Forall_forall. intros s Hs. exists R. split; auto.
  eapply reaches_rule; eauto.
Qed.

Lemma useful_part_derives : forall P l w, Forall (terminal P) w ->
  forall u, Forall (reachable_from P l) u ->
  (derives (useful_part P l) u w <-> derives P u w).
Proof.
  intros P l w HT u HU. split.
  - apply derives_mono. intros A r [H _]. exact H.
  - intros HD. apply derives_yields in HD. apply yields_derives.
    induction HD as [|s u v H IH|A r u w1 w2 HP H1 IH1 H2 IH2].
    + constructor.
    + inversion HT; inversion HU; subst. constructor. auto.
    + apply Forall_app in HT. inversion HU; subst. apply y_rule with r; [|apply IH1|apply IH2]; try tauto.
      * split; auto. split; auto. exists w1. split; [|tauto]. apply yields_derives; auto.
      * eapply reachable_step; eauto.
Qed.

Lemma useful_part_terminal : forall P l s, terminal P s -> terminal (useful_part P l) s.
Proof. intros P l s H r [HP _]. eapply H; eauto. Qed.

Lemma root_reachable : forall P l R, In R l -> reachable_from P l R.
Proof. intros P l R H. exists R. split; auto. exists [], []. constructor. Qed.

(** All symbols of sentential forms stay reachable and productive. *)
Lemma useful_part_forms : forall P l u w, derives (useful_part P l) u w ->
  Forall (fun s => reachable_from P l s /\ productive P s) u ->
  Forall (fun s => reachable_from P l s /\ productive P s) w.
Proof.
  intros P l u w. apply derives_Forall. intros A r [HP [HR HPR]] _.
  apply productive_list in HPR. pose proof (reachable_step P l A r HP HR) as H2.
  rewrite Forall_forall in *. auto.
Qed.

Lemma useful_part_language : forall P l R w, In R l -> productive P R ->
  (language (useful_part P l) R w <-> language P R w).
Proof.
  intros P l R w HR HP. unfold language. split.
  - intros [HD HT]. assert (HT' : Forall (terminal P) w).
    { assert (HF : Forall (fun s => reachable_from P l s /\ productive P s) w).
      { apply (useful_part_forms P l [R] w HD). constructor; auto. split; auto. apply root_reachable; auto. }
      rewrite Forall_forall in *. intros s Hs r HPs. destruct (HF s Hs) as [H1 H2].
      apply productive_inv in H2. destruct H2 as [H2|[q [H3 H4]]]; [eapply H2; eauto|].
      apply (HT s Hs q). split; auto. split; auto. apply productive_list; auto. }
    split; auto. eapply derives_mono; [|exact HD]. intros A r [H _]; exact H.
  - intros [HD HT]. split.
    + apply useful_part_derives; auto. constructor; auto. apply root_reachable; auto.
    + eapply Forall_impl; [|exact HT]. intros s. apply useful_part_terminal.
Qed.

(** Productivity and reachability of what is left. *)
Lemma useful_part_productive : forall P l s, reachable_from P l s -> productive P s ->
  productive (useful_part P l) s.
Proof.
  intros P l s HR [w [HD HT]]. exists w. split.
  - apply useful_part_derives; auto.
  - eapply Forall_impl; [|exact HT]. intros a. apply useful_part_terminal.
Qed.

Lemma useful_part_rhs : forall P l A r, useful_part P l A r -> Forall (productive (useful_part P l)) r.
Proof.
  intros P l A r [HP [HR HPR]]. apply productive_list in HPR.
  pose proof (reachable_step P l A r HP HR) as H2. rewrite Forall_forall in *.
  intros s Hs. apply useful_part_productive; auto.
Qed.

(** When every right-hand side is productive, only unreachable rules go. *)
Lemma useful_part_reach : forall (P : productions) l R s, (forall A r, P A r -> Forall (productive P) r) ->
  In R l -> reaches P R s -> reaches (useful_part P l) R s.
Proof.
  intros P l R s HP HR H. apply reaches_iff in H. apply reaches_iff. destruct H as [->|H]; auto. right.
  apply reaches1_direct in H. apply reaches1_direct. apply Operators_Properties.clos_trans_tn1 in H.
  assert (HD : forall A B, reaches P R A -> direct P A B -> direct (useful_part P l) A B).
  { intros A B HA [r [Hr Hi]]. exists r. split; auto. split; auto. split; [exists R; auto|].
    apply productive_list. eapply HP; eauto. }
  induction H as [y H|y z H1 H2 IH].
  - apply t_step. apply HD; auto. exists [], []. constructor.
  - eapply t_trans; [exact IH|]. apply t_step. apply HD; auto. apply reaches_iff. right.
    apply reaches1_direct. apply Operators_Properties.clos_tn1_trans. exact H2.
Qed.

Lemma useful_part_all_useful : forall (P : productions) l, (forall A r, P A r -> Forall (productive P) r) ->
  forall A r, useful_part P l A r -> useful (useful_part P l) l A r.
Proof.
  intros P l HP A r H. split.
  - destruct H as [_ [[R [HR HRR]] _]]. exists R. split; auto. apply useful_part_reach; auto.
  - apply productive_list. eapply useful_part_rhs; eauto.
Qed.

Lemma useful_ext : forall (P Q : productions) l, (forall A r, P A r <-> Q A r) -> forall A r, useful P l A r <-> useful Q l A r.
Proof.
  intros P Q l H A r. unfold useful, reachable_from, productive_rhs, reaches. split.
  - intros [[R [HR [u [v HD]]]] [w [HD2 HT]]]. split.
    + exists R. split; auto. exists u, v. apply (derives_ext P Q H); auto.
    + exists w. split; [apply (derives_ext P Q H); auto|]. eapply Forall_impl; [|exact HT]. intros a. apply (terminal_ext P Q H).
  - intros [[R [HR [u [v HD]]]] [w [HD2 HT]]]. split.
    + exists R. split; auto. exists u, v. apply (derives_ext P Q H); auto.
    + exists w. split; [apply (derives_ext P Q H); auto|]. eapply Forall_impl; [|exact HT]. intros a. apply (terminal_ext P Q H).
Qed.

(** A useful rule contributes when every right-hand side is productive. *)
Lemma useful_contributes : forall (P : productions) l A r, (forall A r, P A r -> Forall (productive P) r) ->
  P A r -> useful P l A r -> contributes P l A r.
Proof.
  intros P l A r HP HA [[R [HR [u [v HD]]]] _].
  assert (HX : Forall (productive P) (u ++ r ++ v)).
  { pose proof (derives_inv1 P _ _ HD) as HI. destruct HI as [HI|HI].
    - destruct u; [|destruct u; discriminate]. inversion HI; subst. simpl. rewrite app_nil_r. eauto.
    - apply derives1_single in HI. destruct HI as [q [Hq HDq]].
      assert (HF : Forall (productive P) (u ++ A :: v)).
      { eapply derives_Forall; [|exact HDq|eauto]. intros; eauto. }
      apply Forall_app in HF. destruct HF as [H1 H2]. inversion H2; subst.
      apply Forall_app. split; auto. apply Forall_app. split; eauto. }
  apply productive_list in HX. destruct HX as [w [HD2 HT]]. exists R, u, v, w. auto.
Qed.

(** * make_proper *)

Lemma make_proper_spec : forall g, closed_rules g -> Forall (fun s => s < num_syms g) (roots g) ->
  exists b g', make_proper g = Ok (b, g') /\
    (b = true <-> forall x, In x (rules g) -> useful (prods g) (roots g) (lhs x) (rhs x)) /\
    (forall x, In x (rules g') <-> In x (rules g) /\ useful (prods g) (roots g) (lhs x) (rhs x)) /\
    (exists f, rules g' = filter f (rules g)) /\
    g' = set_rules g (rules g') /\ (b = true -> g' = g).
Proof.
  intros g HC HR. unfold make_proper, cfg_usefulness.
  destruct (usefulness_spec g (roots g) HC HR) as [u [E AN]]. rewrite E. cbn [bind].
  destruct (us_all_useful u) eqn:EU; cbn [negb bind].
  - do 2 eexists. split; [reflexivity|]. pose proof (proj1 (all_useful_spec _ _ _ HC AN) EU) as HA.
    split; [split; auto|]. split; [|split; [|split]]; auto.
    + intros x. split; [intros Hx; split; auto|tauto].
    + exists (fun _ => true). clear. induction (rules g); simpl; congruence.
    + destruct g; reflexivity.
  - destruct (remove_useless_spec g (roots g) u HC AN) as [g' [E' [M [F S]]]]. rewrite E'. cbn [bind].
    do 2 eexists. split; [reflexivity|]. split; [|split; [exact M|split; [exact F|split; [exact S|discriminate]]]].
    rewrite <- (all_useful_spec _ _ _ HC AN), EU. tauto.
Qed.

Lemma prods_useful : forall g g' l,
  (forall x, In x (rules g') <-> In x (rules g) /\ useful (prods g) l (lhs x) (rhs x)) ->
  forall A r, prods g' A r <-> useful_part (prods g) l A r.
Proof.
  intros g g' l H A r. unfold useful_part, prods at 1. split.
  - intros [x [Hx [<- <-]]]. apply H in Hx. destruct Hx. split; auto. exists x; auto.
  - intros [[x [Hx [<- <-]]] HU]. exists x. split; auto. apply H; auto.
Qed.
