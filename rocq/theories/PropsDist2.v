(** C86, C87: minimality of distances, distances of recursive rules. *)

From Coq Require Import List Arith NArith Bool String Lia.
From Verif Require Import Base Spec SetView SpecDist SpecClassify GrammarFacts ListFacts LoopModel SymbolModel HistoryModel CfgModel View
  BitSetModel ClosureModel SetProof ValueProof MatrixModel MatrixProof ClassifyModel UsefulProof CyclesProof DistModel LengthProof DistProof
  DistSem DistProof2 DistTotal DistNoPanic DistUpper DistUpper2 PropsGrammar PropsSets PropsClassify PropsDist.
Import ListNotations.
Local Notation length := List.length.

(** ** C86 *)

(** A distance is reported and at most [n]. *)
Definition within (m : min_dist) (i d n : nat) : Prop := exists c, reported m i d c /\ (c <= N.of_nat n)%N.

Lemma atmost_within : forall m i d n, atmost m i d (N.of_nat n) -> within m i d n.
Proof. intros m i d n [row [c [E [V [_ L]]]]]. exists c. split; auto. exists row. auto. Qed.

Lemma run_hit : forall g (Q : min_dist -> Prop) c calls m m', closed_rules g ->
  (forall a b, lower a b -> Q a -> Q b) -> In c calls ->
  (forall a a', ready g a -> lengths_ok g (md_min_length a) ->
     minimal_distances true (cl_skip c) g a (cl_dots c) (cl_dir c) = Ok a' -> Q a') ->
  ready g m -> lengths_ok g (md_min_length m) -> run_calls true g calls m = Ok m' -> Q m'.
Proof.
  intros g Q c calls m m' HC HQ Hc H HR HL E. unfold run_calls in E.
  eapply (fold_hit _ (fun a => ready g a /\ lengths_ok g (md_min_length a)) Q _ c); [| |exact Hc| |exact E]; auto.
  - intros a a' x _ [R L] Ea. cbn beta in Ea.
    destruct (distances_upper g (cl_skip x) a (cl_dots x) (cl_dir x) a' 0 (mkRule 0 [] hd0) 0 HC R L Ea) as [R' [L' [D _]]].
    split; auto. apply HQ. exact D.
  - intros a a' [R L] Ea. apply (H a); auto.
Qed.

Lemma new_lengths : forall g, lengths_ok g (md_min_length (md_new g)).
Proof. intros g. split; [apply repeat_length|]. intros s x. cbn. rewrite value_none. discriminate. Qed.

Lemma within_lower : forall m m' i d b, lower m m' -> atmost m i d b -> atmost m' i d b.
Proof. exact atmost_lower. Qed.

(** Inside of the rule of a target, no string is shorter than what is reported.  Backwards this holds for
    targets at the start of a rule. *)
Theorem C86_same_rule_partial : forall g calls m i r, closed_rules g ->
  run_calls true g calls (md_new g) = Ok m -> nth_error (rules g) i = Some r ->
  (forall a u b w, rhs r = a ++ u ++ b -> fwd_target calls (i, length (a ++ u)) ->
     derives (prods g) u w -> Forall (terminal (prods g)) w -> within m i (length a) (length w)) /\
  (forall u b w, rhs r = u ++ b -> bwd_target calls (i, 0) ->
     derives (prods g) u w -> Forall (terminal (prods g)) w -> within m i (length u) (length w)).
Proof.
  intros g calls m i r HC E Hr. split.
  - intros a u b w HE [c [Hc [Hd Ht]]] HD HT. apply atmost_within.
    eapply (run_hit g (fun m => atmost m i (length a) (N.of_nat (length w))) c); eauto using new_ready, new_lengths.
    + intros x y. apply atmost_lower.
    + intros x x' R L Ex. destruct (distances_upper g _ _ _ _ _ i r (length (a ++ u)) HC R L Ex) as [_ [_ [_ H]]].
      destruct (H Hr Ht) as [H1 _]. apply forward_iff in Hd. apply (H1 Hd); auto; [rewrite app_length; lia|].
      rewrite HE, app_assoc, firstn_app, Nat.sub_diag, firstn_all. cbn [firstn]. rewrite app_nil_r.
      rewrite skipn_app, skipn_all, Nat.sub_diag. exact HD.
  - intros u b w HE [c [Hc [Hd Ht]]] HD HT. apply atmost_within.
    eapply (run_hit g (fun m => atmost m i (length u) (N.of_nat (length w))) c); eauto using new_ready, new_lengths.
    + intros x y. apply atmost_lower.
    + intros x x' R L Ex. destruct (distances_upper g _ _ _ _ _ i r 0 HC R L Ex) as [_ [_ [_ H]]].
      destruct (H Hr Ht) as [_ H1]. apply backward_iff in Hd. apply (H1 Hd); auto.
      * rewrite HE, app_length. lia.
      * cbn [skipn]. rewrite HE, firstn_app, Nat.sub_diag, firstn_all. cbn [firstn]. rewrite app_nil_r. exact HD.
Qed.
Print Assumptions C86_same_rule_partial.

(** The same in the rules of a symbol in front of a target; backwards, in the rules of a symbol after a target. *)
Theorem C86_next_rule_partial : forall g calls m i r j q, closed_rules g ->
  run_calls true g calls (md_new g) = Ok m -> nth_error (rules g) i = Some r -> nth_error (rules g) j = Some q ->
  (forall a u b x y w, rhs r = a ++ lhs q :: u ++ b -> fwd_target calls (i, length (a ++ lhs q :: u)) -> rhs q = x ++ y ->
     derives (prods g) (y ++ u) w -> Forall (terminal (prods g)) w -> within m j (length x) (length w)) /\
  (forall a u b x y w, rhs r = a ++ u ++ lhs q :: b -> bwd_target calls (i, length a) -> rhs q = x ++ y ->
     derives (prods g) (u ++ x) w -> Forall (terminal (prods g)) w -> within m j (length x) (length w)).
Proof.
  intros g calls m i r j q HC E Hr Hq. split.
  - intros a u b x y w HE [c [Hc [Hd Ht]]] HX HD HT. apply atmost_within.
    eapply (run_hit g (fun m => atmost m j (length x) (N.of_nat (length w))) c); eauto using new_ready, new_lengths.
    + intros s t. apply atmost_lower.
    + intros s s' R L Ex. destruct (distances_upper2 g _ _ _ _ _ i r _ j q HC R L Ex Hr Ht Hq) as [H1 _].
      assert (EF : firstn (length (a ++ lhs q :: u)) (rhs r) = a ++ lhs q :: u).
      { rewrite HE. change (a ++ lhs q :: u ++ b) with (a ++ (lhs q :: u) ++ b). rewrite app_assoc, firstn_app, Nat.sub_diag, firstn_all.
        cbn [firstn]. apply app_nil_r. }
      apply forward_iff in Hd. apply (H1 Hd (length a)); auto.
      * rewrite EF, nth_error_app2, Nat.sub_diag by lia. reflexivity.
      * rewrite HX, app_length. lia.
      * rewrite EF. change (a ++ lhs q :: u) with (a ++ [lhs q] ++ u). rewrite app_assoc.
        replace (S (length a)) with (length (a ++ [lhs q])) by (rewrite app_length; cbn; lia).
        rewrite skipn_app, skipn_all, Nat.sub_diag, HX, skipn_app, skipn_all, Nat.sub_diag. exact HD.
  - intros a u b x y w HE [c [Hc [Hd Ht]]] HX HD HT. apply atmost_within.
    eapply (run_hit g (fun m => atmost m j (length x) (N.of_nat (length w))) c); eauto using new_ready, new_lengths.
    + intros s t. apply atmost_lower.
    + intros s s' R L Ex. destruct (distances_upper2 g _ _ _ _ _ i r _ j q HC R L Ex Hr Ht Hq) as [_ H1].
      assert (EF : skipn (length a) (rhs r) = u ++ lhs q :: b).
      { rewrite HE, skipn_app, skipn_all, Nat.sub_diag. reflexivity. }
      apply backward_iff in Hd. apply (H1 Hd (length u)); auto.
      * rewrite EF, nth_error_app2, Nat.sub_diag by lia. reflexivity.
      * rewrite HX, app_length. lia.
      * rewrite EF, firstn_app, Nat.sub_diag, firstn_all. cbn [firstn]. rewrite app_nil_r.
        rewrite HX, firstn_app, Nat.sub_diag, firstn_all. cbn [firstn]. rewrite app_nil_r. exact HD.
Qed.
Print Assumptions C86_next_rule_partial.

Ltac dotted_tac i r := exists i, r; split; [reflexivity|cbn; intuition congruence].

(** S ::= a A, A ::= B, B ::= b, target in front of b: the empty string leads there from the dot after a, for
    which nothing is reported. *)
Definition ex_pred : cfg := mkCfg (mkSrc 5 []) [mkRule 0 [1; 2] hd0; mkRule 2 [3] hd0; mkRule 3 [4] hd0] [] [] None.
Theorem C86_prediction_refuted : exists g m, closed g /\
  run_calls true g [mkCall (fun _ => 0) [(2, 0)] Forward] (md_new g) = Ok m /\
  leads (rule_list g) (num_syms g) (0, 1) (2, 0) [] /\ ~ exists c, reported m 0 1 c.
Proof.
  exists ex_pred. eexists. split; [split; [closed_tac|split; constructor]|]. split; [vm_compute; reflexivity|]. split.
  - split; [constructor|]. exists 0, [1], [4]. split; [cbn; lia|].
    apply (derives_step _ [] 0 [] [1; 5; 2]); [exists 0, [1; 2]; split; [reflexivity|]; right; left; cbn; auto|].
    apply (derives_step _ [1; 5] 2 [] [3]); [exists 1, [3]; split; [reflexivity|]; left; reflexivity|].
    apply (derives_step _ [1; 5] 3 [] [6; 4]); [exists 2, [4]; split; [reflexivity|]; right; right; left; cbn; auto with arith|].
    constructor.
  - intros [c [row [E V]]]. injection E as <-. discriminate.
Qed.
Print Assumptions C86_prediction_refuted.

(** S ::= A x x, A ::= B, B ::= b with a second target at the end of the first rule: 3 is reported for the start of
    the first rule, from which the empty string leads to the other target. *)
Definition ex_pred2 : cfg := mkCfg (mkSrc 5 []) [mkRule 0 [2; 1; 1] hd0; mkRule 2 [3] hd0; mkRule 3 [4] hd0] [] [] None.
Theorem C86_longer_refuted : exists g m, closed g /\
  run_calls true g [mkCall (fun _ => 0) [(0, 3); (2, 0)] Forward] (md_new g) = Ok m /\
  leads (rule_list g) (num_syms g) (0, 0) (2, 0) [] /\ reported m 0 0 3%N.
Proof.
  exists ex_pred2. eexists. split; [split; [closed_tac|split; constructor]|]. split; [vm_compute; reflexivity|]. split.
  - split; [constructor|]. exists 0, [], [4; 1; 1]. split; [cbn; lia|].
    apply (derives_step _ [] 0 [] [5; 2; 1; 1]); [exists 0, [2; 1; 1]; split; [reflexivity|]; right; left; cbn; auto with arith|].
    apply (derives_step _ [5] 2 [1; 1] [3]); [exists 1, [3]; split; [reflexivity|]; left; reflexivity|].
    apply (derives_step _ [5] 3 [1; 1] [6; 4]); [exists 2, [4]; split; [reflexivity|]; right; right; left; cbn; auto with arith|].
    constructor.
  - eexists. split; reflexivity.
Qed.
Print Assumptions C86_longer_refuted.

(** B ::= b, A ::= a B, S ::= A A: the computation stops too early, because the start of the rule of A has its
    distance already.  Nothing is reported for the end of the rule of B. *)
Definition ex_early : cfg := mkCfg (mkSrc 5 []) [mkRule 3 [4] hd0; mkRule 2 [1; 3] hd0; mkRule 0 [2; 2] hd0] [] [] None.
Theorem C86_early_refuted : exists g m, closed g /\
  run_calls true g [mkCall (fun _ => 0) [(1, 1); (2, 1)] Forward] (md_new g) = Ok m /\
  leads (rule_list g) (num_syms g) (0, 1) (2, 1) [] /\ ~ exists c, reported m 0 1 c.
Proof.
  exists ex_early. eexists. split; [split; [closed_tac|split; constructor]|]. split; [vm_compute; reflexivity|]. split.
  - split; [constructor|]. exists 0, [1; 4], [2]. split; [cbn; lia|].
    apply (derives_step _ [] 0 [] [2; 6; 2]); [exists 2, [2; 2]; split; [reflexivity|]; right; right; left; cbn; auto with arith|].
    apply (derives_step _ [] 2 [6; 2] [1; 3]); [exists 1, [1; 3]; split; [reflexivity|]; left; reflexivity|].
    apply (derives_step _ [1] 3 [6; 2] [4; 5]); [exists 0, [4]; split; [reflexivity|]; right; left; cbn; auto with arith|].
    constructor.
  - intros [c [row [E V]]]. injection E as <-. discriminate.
Qed.
Print Assumptions C86_early_refuted.

Example C86_example : closed_rules ex_dist /\
  exists m, run_calls true ex_dist [mkCall (fun _ => 0) [(1, 3)] Forward] (md_new ex_dist) = Ok m /\
  fwd_target [mkCall (fun _ => 0) [(1, 3)] Forward] (1, length ([1; 4] ++ [2])) /\
  derives (prods ex_dist) [2] [] /\ reported m 1 2 0%N /\ reported m 1 0 1%N /\ reported m 4 1 1%N.
Proof.
  split; [closed_tac|]. eexists. split; [vm_compute; reflexivity|]. split; [eexists; split; [left; reflexivity|]; split; [discriminate|cbn; auto]|].
  split; [|repeat split; eexists; split; reflexivity].
  apply (derives_step _ [] 2 [] [1; 1]); [prods_tac|]. apply (derives_step _ [] 1 [1] []); [prods_tac|].
  apply (derives_step _ [] 1 [] []); [prods_tac|]. constructor.
Qed.

(** ** C87 *)

(** The dot in front of a symbol that reaches the left-hand side of its rule. *)
Definition recursion_dot (g : cfg) (t : nat * nat) : Prop :=
  exists r s, nth_error (rules g) (fst t) = Some r /\ nth_error (rhs r) (snd t) = Some s /\ reaches (prods g) s (lhs r).

Lemma reaches_trans : forall P A B C, reaches P A B -> reaches P B C -> reaches P A C.
Proof.
  intros P A B C [u [v H1]] [x [y H2]]. exists (u ++ x), (y ++ v). eapply derives_trans; [exact H1|].
  replace ((u ++ x) ++ C :: y ++ v) with (u ++ (x ++ C :: y) ++ v) by (rewrite <- !app_assoc; reflexivity).
  apply (derives_ctx P u v [B]). exact H2.
Qed.

Lemma last_step : forall (R : nat -> nat -> Prop) a b, Relation_Operators.clos_trans nat R a b ->
  exists z, R z b /\ (z = a \/ Relation_Operators.clos_trans nat R a z).
Proof.
  intros R a b H. apply Operators_Properties.clos_trans_tn1 in H. destruct H as [b H|z b H HT].
  - exists a. auto.
  - exists z. split; auto. right. apply Operators_Properties.clos_tn1_trans. exact HT.
Qed.

(** Somewhere in the recursion, the left-hand side of a recursive rule is on a right-hand side. *)
Lemma recursion_parent : forall g x s, In x (rules g) -> In s (rhs x) -> reaches (prods g) s (lhs x) ->
  exists j y p, nth_error (rules g) j = Some y /\ nth_error (rhs y) p = Some (lhs x) /\ reaches (prods g) (lhs x) (lhs y).
Proof.
  intros g x s Hx Hs HR.
  assert (HD : reaches (prods g) (lhs x) s).
  { apply in_split in Hs. destruct Hs as [u [v E]]. exists u, v. apply derives_rule. exists x. auto. }
  assert (HP : exists y, In y (rules g) /\ In (lhs x) (rhs y) /\ reaches (prods g) (lhs x) (lhs y)).
  { apply reaches_iff in HR. destruct HR as [->|HR].
    - exists x. split; [auto|]. split; [auto|exact HD].
    - apply reaches1_direct in HR. apply last_step in HR. destruct HR as [z [[r [[y [Hy [E1 E2]]] Hi]] HZ]].
      subst z r. exists y. split; [auto|]. split; [auto|]. destruct HZ as [->|HZ]; [exact HD|].
      eapply reaches_trans; [exact HD|]. apply reaches_iff. right. apply reaches1_direct. exact HZ. }
  destruct HP as [y [Hy [Hi HR']]]. apply In_nth_error in Hy. destruct Hy as [j Hj].
  apply In_nth_error in Hi. destruct Hi as [p Hp]. exists j, y, p. auto.
Qed.

Lemma fold_enum_acc : forall {A B : Type} (f : nat -> A -> res (list B)) (g : nat -> A -> list B -> Prop) (l : list A) i acc out,
  (forall k a b, nth_error l k = Some a -> f (i + k) a = Ok b -> g (i + k) a b) ->
  fold_res (fun acc (p : nat * A) => do b <- f (fst p) (snd p); Ok (acc ++ b)) (combine (seq i (length l)) l) acc = Ok out ->
  exists bs, out = acc ++ List.concat bs /\ length bs = length l /\
    forall k a, nth_error l k = Some a -> exists b, nth_error bs k = Some b /\ g (i + k) a b.
Proof.
  intros A B f g l. induction l as [|a l IH]; intros i acc out H E; cbn [length seq combine fold_res] in E.
  - injection E as <-. exists []. rewrite app_nil_r. split; auto. split; auto. intros [|k]; discriminate.
  - apply bind_ok in E. destruct E as [acc1 [E1 E]]. apply bind_ok in E1. destruct E1 as [b [E1 E2]]. injection E2 as <-.
    cbn [fst snd] in E1. apply IH in E.
    + destruct E as [bs [-> [L HB]]]. exists (b :: bs). split; [cbn [List.concat]; apply eq_sym, app_assoc|]. split; [cbn; congruence|].
      intros [|k] a' Hk; cbn in Hk.
      * injection Hk as <-. exists b. split; auto. apply (H 0 a b); auto. rewrite Nat.add_0_r. exact E1.
      * replace (i + S k) with (S i + k) by lia. apply HB. exact Hk.
    + intros k a' b' Hk Ef. replace (S i + k) with (i + S k) in * by lia. apply (H (S k) a' b' Hk Ef).
Qed.

Lemma fold_res_ext : forall {St P : Type} (f f' : St -> P -> res St) l a, (forall s p, f s p = f' s p) ->
  fold_res f l a = fold_res f' l a.
Proof.
  intros St P f f' l. induction l as [|p l IH]; intros a H; cbn [fold_res]; auto. rewrite H.
  destruct (f' a p); cbn [bind]; auto.
Qed.

(** The dots that are given as targets. *)
Lemma recursive_dots_spec : forall g m dots, closed_rules g -> square (num_syms g) m ->
  (forall i j, bit m i j <-> reaches1 (prods g) i j) -> recursive_dots m (rules g) = Ok dots ->
  forall t, In t dots <-> recursion_dot g t.
Proof.
  intros g m dots HC HS HB E.
  assert (HG : forall r s, In r (rules g) -> In s (rhs r) -> exists b, mx_get m s (lhs r) = Ok b /\ (b = true <-> reaches (prods g) s (lhs r))).
  { intros r s Hr Hs. destruct (HC r Hr) as [Hl Hf]. destruct (mx_get_ok _ m s (lhs r) HS) as [b [Eb M]]; auto.
    - rewrite Forall_forall in Hf. auto.
    - exists b. split; auto. rewrite M, HB, reaches_iff. split; auto. intros [->|?]; auto.
      apply reaches1_direct. apply Relation_Operators.t_step. exists (rhs r). split; auto. exists r; auto. }
  unfold recursive_dots in E.
  set (F := fun (i : nat) (r : rule) => fold_res (fun (acc : list (nat * nat)) (q : nat * nat) => do b <- (do b <- mx_get m (snd q) (lhs r);
     Ok (if b : bool then [(i, fst q)] else [])); Ok (acc ++ b)) (combine (seq 0 (length (rhs r))) (rhs r)) []).
  assert (FA : forall (i : nat) (r : rule) (u : list (nat * nat)) acc,
     fold_res (fun acc (q : nat * nat) => do b <- mx_get m (snd q) (lhs r); Ok (if b : bool then acc ++ [(i, fst q)] else acc)) u acc =
     (do b <- fold_res (fun acc (q : nat * nat) => do b <- (do b <- mx_get m (snd q) (lhs r);
     Ok (if b : bool then [(i, fst q)] else [])); Ok (acc ++ b)) u []; Ok (acc ++ b))).
  { intros i r. assert (G : forall u acc acc', fold_res (fun acc (q : nat * nat) => do b <- mx_get m (snd q) (lhs r);
       Ok (if b : bool then acc ++ [(i, fst q)] else acc)) u (acc ++ acc') =
     (do b <- fold_res (fun acc (q : nat * nat) => do b <- (do b <- mx_get m (snd q) (lhs r);
     Ok (if b : bool then [(i, fst q)] else [])); Ok (acc ++ b)) u acc'; Ok (acc ++ b))).
    { induction u as [|q u IH]; intros acc acc'; cbn [fold_res]; auto.
      destruct (mx_get m (snd q) (lhs r)) as [[|]| |]; cbn [bind]; auto.
      - rewrite <- app_assoc. apply IH.
      - rewrite app_nil_r. apply IH. }
    intros u acc. rewrite <- (app_nil_r acc) at 1. apply G. }
  rewrite (fold_res_ext _ (fun acc (p : nat * rule) => do b <- F (fst p) (snd p); Ok (acc ++ b))) in E
    by (intros acc [i r]; apply FA).
  apply (fold_enum_acc F (fun i r b => forall t, In t b <-> fst t = i /\ exists s, nth_error (rhs r) (snd t) = Some s /\ reaches (prods g) s (lhs r))) in E.
  - destruct E as [bs [-> [LB HX]]]. cbn [app]. intros t. rewrite in_concat. split.
    + intros [b [Hb Ht]]. apply In_nth_error in Hb. destruct Hb as [k Hk].
      assert (Hlt : k < length (rules g)) by (rewrite <- LB; apply nth_error_Some; congruence).
      destruct (nth_error (rules g) k) as [r|] eqn:Er; [|apply nth_error_None in Er; lia].
      destruct (HX k r Er) as [b' [Eb X]]. rewrite Hk in Eb. injection Eb as <-. apply X in Ht.
      destruct Ht as [Ht [s [H1 H2]]]. exists r, s. split; [rewrite Ht; exact Er|]. auto.
    + intros [r [s [H1 [H2 H3]]]]. destruct (HX _ _ H1) as [b [Eb X]]. exists b. split; [eapply nth_error_In; eauto|].
      apply X. split; [reflexivity|]. eauto.
  - intros i r b Hr Eb. cbn [Nat.add] in *. unfold F in Eb.
    apply (fold_enum_acc (fun p s => do b <- mx_get m s (lhs r); Ok (if b : bool then [(i, p)] else []))
      (fun p s b => forall t, In t b <-> t = (i, p) /\ reaches (prods g) s (lhs r))) in Eb.
    + destruct Eb as [bs [-> [LB HX]]]. cbn [app]. intros t. rewrite in_concat. split.
      * intros [b [Hb Ht]]. apply In_nth_error in Hb. destruct Hb as [k Hk].
        assert (Hlt : k < length (rhs r)) by (rewrite <- LB; apply nth_error_Some; congruence).
        destruct (nth_error (rhs r) k) as [s|] eqn:Es; [|apply nth_error_None in Es; lia].
        destruct (HX k s Es) as [b' [Eb X]]. rewrite Hk in Eb. injection Eb as <-. apply X in Ht.
        destruct Ht as [-> H]. split; auto. exists s. split; auto.
      * intros [H1 [s [H2 H3]]]. destruct (HX _ _ H2) as [b [Eb X]]. exists b. split; [eapply nth_error_In; eauto|].
        apply X. split; auto. destruct t. cbn in *. congruence.
    + intros k s b' Hs Eb'. cbn [Nat.add] in *. destruct (HG r s) as [c [Ec Mc]].
      * eapply nth_error_In; eauto.
      * eapply nth_error_In; eauto.
      * rewrite Ec in Eb'. cbn [bind] in Eb'. injection Eb' as <-. intros t. destruct c.
        -- split; [intros [<-|[]]; split; auto; apply Mc; auto|]. intros [-> _]. left. auto.
        -- split; [intros []|]. intros [_ H]. apply Mc in H. discriminate.
Qed.

Lemma rows_of : forall m md (l : list rule) i acc out,
  fold_res (fun acc (p : nat * rule) =>
    do k <- rule_recursion m (snd p);
    match k with
    | None => Ok acc
    | Some k =>
        do row <- get_ix (md_distances md) (fst p);
        do first <- get_ix row 0;
        do last <- get_ix row (length row - 1);
        Ok (acc ++ [(snd p, k, (unwrap_or_max first, unwrap_or_max last))])
    end) (combine (seq i (length l)) l) acc = Ok out ->
  exists new, out = acc ++ new /\ recursive_from m l = Ok (map fst new) /\
    forall x k a b, In (x, k, (a, b)) new -> exists j row, nth_error l j = Some x /\ rule_recursion m x = Ok (Some k) /\
      nth_error (md_distances md) (i + j) = Some row /\ row <> [] /\
      a = unwrap_or_max (value_of row 0) /\ b = unwrap_or_max (value_of row (length row - 1)).
Proof.
  intros m md l. induction l as [|r l IH]; intros i acc out E; cbn [length seq combine fold_res] in E.
  - injection E as <-. exists []. rewrite app_nil_r. split; auto. split; auto. intros ? ? ? ? [].
  - apply bind_ok in E. destruct E as [acc1 [E1 E]]. cbn [fst snd] in E1. apply bind_ok in E1. destruct E1 as [k [Ek E1]].
    apply IH in E. destruct E as [new [-> [EF HN]]]. cbn [recursive_from]. rewrite Ek, EF. cbn [bind].
    assert (HN' : forall x k a b, In (x, k, (a, b)) new -> exists j row, nth_error (r :: l) j = Some x /\ rule_recursion m x = Ok (Some k) /\
      nth_error (md_distances md) (i + j) = Some row /\ row <> [] /\
      a = unwrap_or_max (value_of row 0) /\ b = unwrap_or_max (value_of row (length row - 1))).
    { intros x k0 a b Hi. destruct (HN x k0 a b Hi) as [j [row [H1 [H2 [H3 H4]]]]]. exists (S j), row.
      split; auto. split; auto. split; [|exact H4]. replace (i + S j) with (S i + j) by lia. exact H3. }
    destruct k as [k|].
    + apply bind_ok in E1. destruct E1 as [row [ER E1]]. apply bind_ok in E1. destruct E1 as [first [E0 E1]].
      apply bind_ok in E1. destruct E1 as [last [EL E1]]. injection E1 as <-. apply get_ix_ok in ER.
      exists ((r, k, (unwrap_or_max first, unwrap_or_max last)) :: new). split; [rewrite <- app_assoc; reflexivity|]. split; auto.
      intros x k0 a b [Hi|Hi]; [|apply HN'; auto]. injection Hi as <- <- <- <-. exists 0, row. rewrite Nat.add_0_r.
      split; auto. split; auto. split; auto. split; [intros ->; discriminate|]. apply get_value in E0. apply get_value in EL. split; congruence.
    + injection E1 as <-. exists new. split; auto.
Qed.

(** The rules and kinds of [recursive_rules] (C36). *)
Theorem C87_rules : forall debug skip g l, closed_rules g -> recursion_minimal_distances debug skip g = Ok l ->
  recursive_rules g = Ok (map fst l).
Proof.
  intros debug skip g l HC H. unfold recursion_minimal_distances in H. unfold recursive_rules.
  apply bind_ok in H. destruct H as [m [EM H]]. rewrite EM. cbn [bind]. apply bind_ok in H. destruct H as [dots [ED H]].
  apply bind_ok in H. destruct H as [md [EX H]]. apply rows_of in H. destruct H as [new [-> [H _]]]. exact H.
Qed.
Print Assumptions C87_rules.

(** A position that something leads to exists. *)
Lemma leads_position : forall l n a i d w, (forall A r, In (A, r) l -> A < n /\ Forall (fun s => s < n) r) ->
  leads l n a (i, d) w -> exists A r, nth_error l i = Some (A, r) /\ d <= length r.
Proof.
  intros l n a i d w HL [_ [C [x [y [HC H]]]]].
  destruct (nth_error l i) as [[A r]|] eqn:E.
  - destruct (le_dec d (length r)) as [Hd|Hd]; [eauto|]. exfalso.
    assert (G : forall u v, derives (dotted l n (S n) a (i, d)) u v -> ~ In (S n) u -> ~ In (S n) v).
    { intros u v HD. induction HD as [|u A' v q w' [j [r' [Hj HQ]]] HD IH]; auto. intros HN. apply IH. cbn [fst snd] in HQ.
      assert (HR : ~ In (S n) r').
      { intros X. apply nth_error_In in Hj. destruct (HL _ _ Hj) as [_ HF]. rewrite Forall_forall in HF. apply HF in X. lia. }
      assert (HM : forall k, ~ In (S n) (mark n k r')).
      { intros k X. unfold mark in X. rewrite <- (firstn_skipn k r') in HR. apply in_app_or in X.
        destruct X as [X|[X|X]]; [apply HR; apply in_or_app; auto|lia|apply HR; apply in_or_app; auto]. }
      assert (HQ' : ~ In (S n) q).
      { destruct HQ as [->|[[_ [_ ->]]|[[-> [X _]]|[_ [-> [_ [X _]]]]]]]; auto; rewrite E in Hj; injection Hj as <- <-; lia. }
      intros X. apply in_app_or in X. destruct X as [X|X]; [apply HN; apply in_or_app; auto|].
      apply in_app_or in X. destruct X as [X|X]; [auto|]. apply HN. apply in_or_app. right. right. auto. }
    apply (G _ _ H).
    + cbn. lia.
    + apply in_or_app. right. right. apply in_or_app. right. left. auto.
  - exfalso.
    assert (G : forall u v, derives (dotted l n (S n) a (i, d)) u v -> ~ In (S n) u -> ~ In (S n) v).
    { intros u v HD. induction HD as [|u A' v q w' [j [r' [Hj HQ]]] HD IH]; auto. intros HN. apply IH. cbn [fst snd] in HQ.
      assert (HR : ~ In (S n) r').
      { intros X. apply nth_error_In in Hj. destruct (HL _ _ Hj) as [_ HF]. rewrite Forall_forall in HF. apply HF in X. lia. }
      assert (HM : forall k, ~ In (S n) (mark n k r')).
      { intros k X. unfold mark in X. rewrite <- (firstn_skipn k r') in HR. apply in_app_or in X.
        destruct X as [X|[X|X]]; [apply HR; apply in_or_app; auto|lia|apply HR; apply in_or_app; auto]. }
      assert (HQ' : ~ In (S n) q).
      { destruct HQ as [->|[[_ [_ ->]]|[[-> [X _]]|[_ [-> [_ [X _]]]]]]]; auto; congruence. }
      intros X. apply in_app_or in X. destruct X as [X|X]; [apply HN; apply in_or_app; auto|].
      apply in_app_or in X. destruct X as [X|X]; [auto|]. apply HN. apply in_or_app. right. right. auto. }
    apply (G _ _ H).
    + cbn. lia.
    + apply in_or_app. right. right. apply in_or_app. right. left. auto.
Qed.

(** In a debug build: the distance at the start of a recursive rule is 0, because the rule is predicted right after
    the dot of a recursion.  The distance at its end is the length of a string between it and the dot of a
    recursion, and not more than what the rule itself derives. *)
Theorem C87_distances_partial : forall skip g l x k a b, closed_rules g ->
  recursion_minimal_distances true skip g = Ok l -> In (x, k, (a, b)) l ->
  exists i, nth_error (rules g) i = Some x /\
  (a = 0%N /\ exists t, recursion_dot g t /\ leads (rule_list g) (num_syms g) t (i, 0) []) /\
  (exists t w, recursion_dot g t /\ N.of_nat (length w) = b /\
     (leads (rule_list g) (num_syms g) t (i, length (rhs x)) w \/ leads (rule_list g) (num_syms g) (i, length (rhs x)) t w)) /\
  forall w, derives (prods g) (rhs x) w -> Forall (terminal (prods g)) w -> (b <= N.of_nat (length w))%N.
Proof.
  intros skip g l x k a b HC H Hin. unfold recursion_minimal_distances in H.
  destruct (reachability_spec g HC) as [m [EM [HS HB]]]. rewrite EM in H. cbn [bind] in H.
  apply bind_ok in H. destruct H as [dots [ED H]].
  pose proof (recursive_dots_spec g m dots HC HS HB ED) as HD.
  apply bind_ok in H. destruct H as [md [EX H]]. apply rows_of in H. destruct H as [new [-> [_ HN]]]. cbn [app] in Hin.
  destruct (HN x k a b Hin) as [i [row [Hi [Ek [Hrow [Hne [-> ->]]]]]]]. clear HN Hin. cbn [Nat.add] in Hrow.
  exists i. split; auto. pose proof (nth_error_In _ _ Hi) as Hx.
  destruct (rule_recursion_spec g m x HC HS HB Hx) as [k' [Ek' HK]]. rewrite Ek in Ek'. injection Ek' as <-.
  destruct HK as [[s [Hs HR]] _].
  destruct (recursion_parent g x s Hx Hs HR) as [j [y [p [Hj [Hp HR']]]]].
  assert (Ht : recursion_dot g (j, p)) by (exists y, (lhs x); auto).
  pose proof (proj2 (HD _) Ht) as Hd.
  assert (EL : length row = length (rhs x) + 1).
  { destruct (distances_end true skip g (md_new g) dots Symmetric HC (new_ready g)) as [_ R]. specialize (R md EX).
    destruct (rd_shaped _ _ R) as [_ S']. destruct (S' i x Hi) as [row' [E' L']]. rewrite Hrow in E'. injection E' as <-. auto. }
  assert (HU : forall h w, h <= length (rhs x) -> derives (prods g) (firstn h (rhs x)) w -> Forall (terminal (prods g)) w ->
     exists c, value_of row h = Some c /\ (c <= N.of_nat (length w))%N).
  { intros h w Hh D T.
    destruct (distances_upper2 g skip (md_new g) dots Symmetric md j y p i x HC (new_ready g) (new_lengths g) EX Hj Hd Hi) as [_ U].
    destruct (U eq_refl 0 h w) as [row' [c [E1 [E2 [_ E3]]]]]; auto.
    - clear - Hp. revert p Hp. induction (rhs y) as [|z r IH]; intros [|p] Hp; try discriminate; auto. apply IH. exact Hp.
    - rewrite Hrow in E1. injection E1 as <-. eauto. }
  assert (HRL : forall A r, In (A, r) (rule_list g) -> A < num_syms g /\ Forall (fun s => s < num_syms g) r).
  { intros A r Hr. apply in_map_iff in Hr. destruct Hr as [z [E Hz]]. injection E as <- <-. apply (HC z Hz). }
  replace (length row - 1) with (length (rhs x)) by lia.
  assert (Hk : nth_error (skipn p (rhs y)) 0 = Some (lhs x)).
  { clear - Hp. revert p Hp. induction (rhs y) as [|z r IH]; intros [|p] Hp; try discriminate; auto. apply IH. exact Hp. }
  destruct (HU 0 []) as [c0 [V0 L0]]; [lia|constructor|constructor|]. rewrite V0. cbn [unwrap_or_max].
  destruct (distances_known g skip (md_new g) dots Symmetric md j y p i x HC (new_ready g) (new_lengths g) EX Hj Hd Hi eq_refl
    0 (length (rhs x)) Hk (le_n _)) as [_ [row' [c [E1 [Vc _]]]]]. rewrite Hrow in E1. injection E1 as <-.
  rewrite Vc. cbn [unwrap_or_max].
  split; [split|split].
  - cbn in L0. lia.
  - exists (j, p). split; auto. split; [constructor|].
    exists (lhs y), (firstn p (rhs y)), (rhs x ++ skipn (S p) (rhs y)). split; [apply (HC y); eapply nth_error_In; eauto|].
    assert (ES : skipn p (rhs y) = lhs x :: skipn (S p) (rhs y)).
    { clear - Hp. revert p Hp. induction (rhs y) as [|z r IH]; intros [|p] Hp; try discriminate.
      - cbn in Hp. injection Hp as ->. reflexivity.
      - cbn [skipn]. cbn in Hp. rewrite (IH p Hp). reflexivity. }
    assert (Hlt : p < length (rhs y)) by (apply nth_error_Some; congruence).
    apply (derives_step _ [] (lhs y) [] (mark (num_syms g) p (rhs y))).
    { exists j, (rhs y). split; [unfold rule_list; rewrite nth_error_map, Hj; reflexivity|].
      right. left. cbn [fst snd]. split; auto. split; [lia|reflexivity]. }
    cbn [app]. rewrite app_nil_r. unfold mark. rewrite ES.
    replace (firstn p (rhs y) ++ num_syms g :: lhs x :: skipn (S p) (rhs y))
      with ((firstn p (rhs y) ++ [num_syms g]) ++ lhs x :: skipn (S p) (rhs y)) by (rewrite <- app_assoc; reflexivity).
    apply (derives_step _ _ (lhs x) _ (mark (S (num_syms g)) 0 (rhs x))).
    { exists i, (rhs x). split; [unfold rule_list; rewrite nth_error_map, Hi; reflexivity|].
      right. right. left. cbn [fst snd]. split; auto. split; [lia|reflexivity]. }
    unfold mark. cbn [firstn skipn app]. rewrite <- app_assoc. constructor.
  - assert (ER : run_calls true g [mkCall skip dots Symmetric] (md_new g) = Ok md).
    { unfold run_calls. cbn [fold_res cl_skip cl_dots cl_dir]. rewrite EX. reflexivity. }
    destruct (C46_distances_realized_partial g _ md i (length (rhs x)) c HC ER) as [[t [w [HT [HW HE]]]]|[[t [w [HT [HW HE]]]]|[t [w [p' [HT [HT' [Hp' [HW HE]]]]]]]]].
    + exists row. auto.
    + destruct HT as [cl [[<-|[]] [_ HT]]]. cbn [cl_dots] in HT. exists t, w. split; [apply HD; auto|]. auto.
    + destruct HT as [cl [[<-|[]] [_ HT]]]. cbn [cl_dots] in HT. exists t, w. split; [apply HD; auto|]. auto.
    + exfalso. apply (leads_position _ _ _ _ _ _ HRL) in HW. destruct HW as [A [r [E L]]].
      unfold rule_list in E. rewrite nth_error_map, Hi in E. injection E as <- <-. lia.
  - intros w D T. destruct (HU (length (rhs x)) w) as [c' [V' L']]; auto; [rewrite firstn_all; exact D|].
    rewrite Vc in V'. injection V' as <-. exact L'.
Qed.
Print Assumptions C87_distances_partial.

(** A ::= b A c c | e: 4 is reported for the end of the first rule, but only e c c is between the recursion and
    the end. *)
Definition ex_recd : cfg := mkCfg (mkSrc 4 []) [mkRule 0 [1; 0; 2; 2] hd0; mkRule 0 [3] hd0] [] [] None.
Theorem C87_end_refuted : exists g skip x k i t w, closed g /\ nth_error (rules g) i = Some x /\
  recursion_minimal_distances true skip g = Ok [(x, k, (0, 4)%N)] /\
  recursion_dot g t /\ leads (rule_list g) (num_syms g) t (i, length (rhs x)) w /\ length w = 3.
Proof.
  exists ex_recd, (fun _ => 0), (mkRule 0 [1; 0; 2; 2] hd0), (mkRec false true false), 0, (0, 1), [3; 2; 2].
  split; [split; [closed_tac|split; constructor]|]. split; [reflexivity|]. split; [vm_compute; reflexivity|].
  split; [eexists; exists 0; split; [reflexivity|]; split; [reflexivity|]; exists [], []; constructor|]. split; [|reflexivity].
  assert (HT : forall s, 0 < s -> terminal (of_list (rule_list ex_recd)) s).
  { intros s Hs r [H|[H|[]]]; injection H as <- <-; lia. }
  split; [repeat constructor; cbn; auto with arith|].
  exists 0, [1], []. split; [cbn; lia|].
  apply (derives_step _ [] 0 [] [1; 4; 0; 2; 2; 5]); [exists 0, [1; 0; 2; 2]; split; [reflexivity|]; do 3 right; cbn; repeat split; auto with arith|].
  apply (derives_step _ [1; 4] 0 [2; 2; 5] [3]); [exists 1, [3]; split; [reflexivity|]; left; reflexivity|]. constructor.
Qed.
Print Assumptions C87_end_refuted.

Example C87_example : closed_rules ex_rec /\ exists l, recursion_minimal_distances true (fun _ => 0) ex_rec = Ok l /\
  map fst l = [(mkRule 0 [0; 1; 0] hd0, mkRec true false true); (mkRule 0 [2; 0; 3] hd0, mkRec false true false);
               (mkRule 0 [4; 0] hd0, mkRec false false true)].
Proof. split; [closed_tac|]. eexists. split; vm_compute; reflexivity. Qed.
