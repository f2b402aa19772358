(** Parse trees under wrap_input. *)

From Coq Require Import List Arith Bool Lia String.
From Verif Require Import Base ListFacts Spec SpecTree GrammarFacts SymbolModel HistoryModel CfgModel View CfgProof CfgProof2
  TreeProof TreeLimit.
Import ListNotations.
Local Open Scope list_scope.
Local Notation length := List.length.

Lemma same_match : forall (S : nat -> Prop) l l' A, S A -> same_trees S (fun w => w) l l' -> trees_match (fun w => w) l A l' A.
Proof. intros S l l' A HA [f [F1 [F2 F3]]]. exists f. split; [|split]; eauto. Qed.

Lemma match_trans : forall c c' l1 A1 l2 A2 l3 A3, trees_match c l1 A1 l2 A2 -> trees_match c' l2 A2 l3 A3 ->
  trees_match (fun w => c' (c w)) l1 A1 l3 A3.
Proof.
  intros c c' l1 A1 l2 A2 l3 A3 [f [F1 [F2 F3]]] [h [H1 [H2 H3]]]. exists (fun t => h (f t)). split; [|split].
  - intros t HP. destruct (F1 t HP) as [E1 E2]. destruct (H1 _ E1) as [E3 E4]. split; auto. rewrite E4, E2. reflexivity.
  - intros t u Ht Hu E. apply F2; auto. apply H2; auto; apply F1; auto.
  - intros t' HP. destruct (H3 t' HP) as [t1 [E1 E2]]. destruct (F3 t1 E1) as [t [E3 E4]]. exists t. split; auto. congruence.
Qed.

Lemma match_unambiguous : forall c l A l' B, (forall u v, c u = c v -> u = v) -> trees_match c l A l' B ->
  (unambiguous l A <-> unambiguous l' B).
Proof.
  intros c l A l' B HC [f [F1 [F2 F3]]]. split; intros HU t t' H H' E.
  - destruct (F3 t H) as [u [U1 U2]]. destruct (F3 t' H') as [u' [U3 U4]]. subst. f_equal. apply HU; auto.
    apply HC. rewrite <- (proj2 (F1 u U1)), <- (proj2 (F1 u' U3)). exact E.
  - apply F2; auto. destruct (F1 t H). destruct (F1 t' H'). apply HU; auto. congruence.
Qed.

Section Extra.
  Context (l : list (nat * list nat)) (n R : nat) (r : list nat).
  Hypothesis HB : Forall (below n) l.
  Hypothesis HR : n <= R.

  Lemma extra_nth : forall i p, nth_error l i = Some p -> nth_error (l ++ [(R, r)]) i = Some p.
  Proof. intros i p E. rewrite nth_error_app1; auto. apply nth_error_Some. congruence. Qed.

  Lemma extra_parses : forall A t, A < n -> (parses l A t <-> parses (l ++ [(R, r)]) A t).
  Proof.
    intros A t HA. split; intros H; revert HA.
    - apply (parses_ind2 l (fun A t => A < n -> parses (l ++ [(R, r)]) A t)) with (A := A) (t := t); auto.
      + intros s HN Hs. constructor. intros q Hq. apply in_app_or in Hq. destruct Hq as [Hq|[Hq|[]]]; [eapply HN; eauto|injection Hq as <- _; lia].
      + intros B q i ts E _ HF _. econstructor; [apply extra_nth; exact E|]. apply nth_error_In in E. rewrite Forall_forall in HB.
        destruct (HB _ E) as [_ HQ]. cbn in HQ. clear E. induction HF; constructor; inversion HQ; subst; auto.
    - apply (parses_ind2 (l ++ [(R, r)]) (fun A t => A < n -> parses l A t)) with (A := A) (t := t); auto.
      + intros s HN Hs. constructor. intros q Hq. apply (HN q). apply in_or_app. auto.
      + intros B q i ts E _ HF HA.
        assert (E' : nth_error l i = Some (B, q)).
        { destruct (Nat.lt_ge_cases i (length l)) as [Hi|Hi]; [rewrite nth_error_app1 in E by exact Hi; exact E|].
          rewrite nth_error_app2 in E by exact Hi. destruct (i - length l) as [|[|k]]; cbn in E; [injection E as <- _; lia|discriminate|discriminate]. }
        econstructor; [exact E'|]. apply nth_error_In in E'. rewrite Forall_forall in HB. destruct (HB _ E') as [_ HQ]. cbn in HQ. clear E E'.
        induction HF; constructor; inversion HQ; subst; auto.
  Qed.

  Lemma extra_same : same_trees (fun A => A < n) (fun w => w) l (l ++ [(R, r)]).
  Proof.
    exists (fun t => t). split; [|split]; auto.
    - intros A t HA H. split; auto. apply extra_parses; auto.
    - intros A t HA H. exists t. split; auto. apply extra_parses; auto.
  Qed.
End Extra.

(** The wrapper rule, added to a list. *)
Lemma wrapper_match : forall l n s inner e R, Forall (below n) l -> inner < n -> n <= s -> n <= e -> n <= R -> s <> R -> e <> R ->
  trees_match (fun w => s :: w ++ [e]) l inner (l ++ [(R, [s; inner; e])]) R.
Proof.
  intros l n s inner e R HB Hi Hs He HR N1 N2. set (l' := l ++ [(R, [s; inner; e])]).
  assert (T : forall x, n <= x -> x <> R -> forall q, ~ In (x, q) l').
  { intros x Hx Nx q Hq. apply in_app_or in Hq. destruct Hq as [Hq|[Hq|[]]]; [|injection Hq as <- _; congruence].
    rewrite Forall_forall in HB. destruct (HB _ Hq) as [H _]. cbn in H. lia. }
  assert (TL : forall x t, n <= x -> x <> R -> parses l' x t -> t = Leaf x).
  { intros x t Hx Nx H. inversion H as [y HN|B q i ts E HF]; subst; auto. exfalso. apply nth_error_In in E. eapply T; eauto. }
  exists (fun t => Node (length l) [Leaf s; t; Leaf e]). split; [|split].
  - intros t H. split.
    + econstructor.
      * unfold l'. rewrite nth_error_app2, Nat.sub_diag by lia. reflexivity.
      * apply Forall2_cons; [apply parses_leaf, T; auto|]. apply Forall2_cons; [apply (extra_parses l n R); auto|].
        apply Forall2_cons; [apply parses_leaf, T; auto|apply Forall2_nil].
    + cbn [yield flat_map]. rewrite app_nil_r. reflexivity.
  - intros t u _ _ E. injection E as E. exact E.
  - intros t' H. inversion H as [y HN|B q i ts E HF]; subst.
    + exfalso. apply (HN [s; inner; e]). apply in_or_app. simpl. auto.
    + assert (i = length l /\ q = [s; inner; e]) as [-> ->].
      { destruct (Nat.lt_ge_cases i (length l)) as [Hl|Hl].
        - exfalso. unfold l' in E. rewrite nth_error_app1 in E by exact Hl. apply nth_error_In in E. rewrite Forall_forall in HB.
          destruct (HB _ E) as [X _]. cbn in X. lia.
        - unfold l' in E. rewrite nth_error_app2 in E by exact Hl. destruct (i - length l) as [|[|k]] eqn:EI; cbn in E; try discriminate.
          injection E as <-. split; [lia|reflexivity]. }
      inversion HF as [|a1 t1 q1 ts1 P1 HF1]; subst. inversion HF1 as [|a2 t2 q2 ts2 P2 HF2]; subst.
      inversion HF2 as [|a3 t3 q3 ts3 P3 HF3]; subst. inversion HF3; subst.
      exists t2. split; [apply (extra_parses l n R [s; inner; e]); auto|]. f_equal. rewrite (TL s t1), (TL e t3); auto.
Qed.

Lemma wrap_one_trees : forall g a g', good_limit (limit g) -> Forall (below (num_syms g)) (map pr (rules g)) -> a < num_syms g ->
  wrap_one g a = Ok g' ->
  exists W, wroots g' = wroots g ++ [W] /\ wr_inner W = a /\ wr_root W < num_syms g' /\
    num_syms g <= num_syms g' /\ limit g' = limit g /\ Forall (below (num_syms g')) (map pr (rules g')) /\
    same_trees (fun A => A < num_syms g) (fun w => w) (map pr (rules g)) (map pr (rules g')) /\
    trees_match (fun w => wr_start W :: w ++ [wr_end W]) (map pr (rules g)) a (map pr (rules g')) (wr_root W).
Proof.
  intros g a g' HL HB Ha E. unfold wrap_one, next_sym, src_next in E.
  cbn [src num names rules roots wroots limit] in E. set (n := num g.(src)) in *.
  match type of E with (do g4 <- add_rule ?x ?y; _) = _ => set (g3 := x) in E; set (r := y) in E end.
  destruct (add_rule g3 r) as [g4| |] eqn:EA; try discriminate. cbn [bind] in E.
  assert (Hn : num_syms g3 = S (S (S n))) by reflexivity.
  assert (HB3 : Forall (below (num_syms g3)) (map pr (rules g3))).
  { rewrite Hn. eapply Forall_impl; [|exact HB]. intros x Hx. eapply below_le; [|exact Hx]. unfold num_syms. fold n. lia. }
  assert (Han : a < n) by exact Ha.
  destruct (add_rule_same g3 r g4 [] HL EA HB3) as [HS [HN [HLim HB4]]].
  - constructor.
  - rewrite Hn. split; cbn; [lia|]. repeat (apply Forall_cons; [lia|]). apply Forall_nil.
  - assert (W4 : wroots g4 = wroots g /\ roots g4 = roots g).
    { destruct (add_rule_spec g3 r HL) as [k [c [E' _]]]. rewrite E' in EA. injection EA as <-. split; reflexivity. }
    destruct W4 as [W4 R4]. injection E as <-. exists (mkWrapped (S n) a (S (S n)) n). cbn [wroots rules src wr_inner wr_root wr_start wr_end limit].
    change (num_syms (mkCfg (src g4) (rules g4) (roots g4 ++ [n]) (wroots g4 ++ [mkWrapped (S n) a (S (S n)) n]) (limit g4))) with (num_syms g4).
    rewrite W4. split; [reflexivity|]. split; [reflexivity|]. split; [lia|]. split; [unfold num_syms in *; lia|]. split; [exact HLim|].
    split; [exact HB4|]. rewrite !app_nil_r in HS. change (pr r) with (n, [S n; a; S (S n)]) in HS. change (rules g3) with (rules g) in HS.
    assert (HX : same_trees (fun A => A < num_syms g) (fun w => w) (map pr (rules g)) (map pr (rules g) ++ [(n, [S n; a; S (S n)])])).
    { apply extra_same; auto. }
    assert (HS' : same_trees (fun A => A < num_syms g) (fun w => w) (map pr (rules g) ++ [(n, [S n; a; S (S n)])]) (map pr (rules g4))).
    { eapply same_trees_sub; [|exact HS]. intros A HA. rewrite Hn. unfold num_syms in HA. fold n in HA. lia. }
    split.
    + exact (same_trees_trans _ _ _ _ _ _ HX HS').
    + apply (match_trans (fun w => S n :: w ++ [S (S n)]) (fun w => w) _ a (map pr (rules g) ++ [(n, [S n; a; S (S n)])]) n _ n).
      * apply (wrapper_match _ n); auto; lia.
      * eapply same_match; [|exact HS]. cbn beta. rewrite Hn. lia.
Qed.

Lemma wrap_fold_trees : forall l g g', good_limit (limit g) -> Forall (below (num_syms g)) (map pr (rules g)) ->
  Forall (fun s => s < num_syms g) l -> fold_res wrap_one l g = Ok g' ->
  num_syms g <= num_syms g' /\
  same_trees (fun A => A < num_syms g) (fun w => w) (map pr (rules g)) (map pr (rules g')) /\
  exists ws, wroots g' = wroots g ++ ws /\ map wr_inner ws = l /\
    forall W, In W ws -> trees_match (fun w => wr_start W :: w ++ [wr_end W]) (map pr (rules g)) (wr_inner W) (map pr (rules g')) (wr_root W).
Proof.
  induction l as [|a l IH]; intros g g' HL HB HF E.
  - injection E as <-. split; [lia|]. split; [apply same_trees_refl|]. exists []. rewrite app_nil_r. split; [auto|]. split; [auto|]. intros W [].
  - cbn [fold_res] in E. destruct (wrap_one g a) as [g1| |] eqn:E1; try discriminate. cbn [bind] in E. inversion HF as [|? ? Ha HF']; subst.
    destruct (wrap_one_trees g a g1 HL HB Ha E1) as [W [W1 [W2 [W3 [W4 [W5 [W6 [W7 W8]]]]]]]].
    destruct (IH g1 g') as [N [HS [ws [V1 [V2 V3]]]]]; auto.
    + rewrite W5. exact HL.
    + eapply Forall_impl; [|exact HF']. cbn. intros; lia.
    + assert (HS1 : same_trees (fun A => A < num_syms g) (fun w => w) (map pr (rules g1)) (map pr (rules g'))).
      { eapply same_trees_sub; [|exact HS]. cbn. intros; lia. }
      split; [lia|]. split; [exact (same_trees_trans _ _ _ _ _ _ W7 HS1)|]. exists (W :: ws). split; [rewrite V1, W1, <- app_assoc; reflexivity|].
      split; [cbn [map]; congruence|]. intros X [<-|HX].
      * rewrite W2. apply (match_trans (fun w => wr_start W :: w ++ [wr_end W]) (fun w => w) _ a (map pr (rules g1)) (wr_root W) _ (wr_root W)).
        -- exact W8.
        -- eapply same_match; [|exact HS]. cbn. exact W3.
      * apply (match_trans (fun w => w) (fun w => wr_start X :: w ++ [wr_end X]) _ (wr_inner X) (map pr (rules g1)) (wr_inner X) _ (wr_root X)).
        -- eapply same_match; [|exact W7]. cbn. rewrite Forall_forall in HF'. apply HF'. rewrite <- V2. apply in_map. exact HX.
        -- apply V3. exact HX.
Qed.
