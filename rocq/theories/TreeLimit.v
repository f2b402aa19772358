(** Limiting the length of rules keeps parse trees. *)

From Coq Require Import List Arith Lia.
From Verif Require Import Base ListFacts Spec SpecTree GrammarFacts SymbolModel HistoryModel CfgModel View CfgProof SpecDist TreeProof.
Import ListNotations.

Definition pr (x : rule) : nat * list nat := (lhs x, rhs x).
Definition below (n : nat) (p : nat * list nat) : Prop := fst p < n /\ Forall (fun s => s < n) (snd p).

Lemma below_le : forall n m p, n <= m -> below n p -> below m p.
Proof. intros n m p H [H1 H2]. split; [lia|]. eapply Forall_impl; [|exact H2]. simpl. intros; lia. Qed.

Lemma chain_same : forall r l p s w c, chain r l p s w c -> forall X Y, Forall (below s) X -> Forall (below s) Y ->
  below s (lhs r, w) -> same_trees (fun A => A < s) (fun w => w) (X ++ (lhs r, w) :: Y) (X ++ map pr c ++ Y).
Proof.
  intros r l p s w c H. induction H as [p s w Hw Hl|p s w c Hl Hc IH]; intros X Y HX HY HB.
  - apply same_trees_refl.
  - assert (HI : forall A q, In (A, q) (X ++ (lhs r, w) :: Y) -> below s (A, q)).
    { intros A q Hi. apply in_app_or in Hi. destruct Hi as [Hi|[Hi|Hi]]; [|rewrite <- Hi; exact HB|]; rewrite Forall_forall in *; auto. }
    pose proof (split_same X Y (lhs r) s (firstn l w) (skipn l w)) as HS. rewrite firstn_skipn in HS.
    assert (H1 : same_trees (fun A => A < s) (fun w => w) (X ++ (lhs r, w) :: Y) (X ++ (s, firstn l w) :: (lhs r, s :: skipn l w) :: Y)).
    { eapply same_trees_sub; [|apply HS]; [cbn; intros; lia|]. intros A q Hi. apply HI in Hi. destruct Hi as [Ha Hq]. cbn in Ha, Hq.
      split; [lia|]. intros Hin. rewrite Forall_forall in Hq. apply Hq in Hin. lia. }
    assert (H2 : same_trees (fun A => A < s) (fun w => w) ((X ++ [(s, firstn l w)]) ++ (lhs r, s :: skipn l w) :: Y) ((X ++ [(s, firstn l w)]) ++ map pr c ++ Y)).
    { eapply same_trees_sub; [|apply IH].
      - cbn; intros; lia.
      - apply Forall_app. split.
        + eapply Forall_impl; [|exact HX]. intros; eapply below_le; [|eauto]; lia.
        + constructor; [|constructor]. split; cbn [fst snd]; [lia|]. destruct HB as [_ HB]. cbn in HB. apply Forall_forall.
          intros x Hx. rewrite Forall_forall in HB. assert (x < s); [|lia]. apply HB. rewrite <- (firstn_skipn l w). apply in_or_app. auto.
      - eapply Forall_impl; [|exact HY]. intros; eapply below_le; [|eauto]; lia.
      - destruct HB as [HA HB]. cbn in HA, HB. split; cbn [fst snd]; [lia|]. constructor; [lia|]. apply Forall_forall.
        intros x Hx. rewrite Forall_forall in HB. assert (x < s); [|lia]. apply HB. rewrite <- (firstn_skipn l w). apply in_or_app. auto. }
    rewrite <- !app_assoc in H2. cbn [app] in H2. exact (same_trees_trans _ _ _ _ _ _ H1 H2).
Qed.

Lemma chain_below : forall r l p s w c, chain r l p s w c -> forall m, below s (lhs r, w) -> s + length c <= S m -> Forall (below m) (map pr c).
Proof.
  intros r l p s w c H. induction H as [p s w Hw Hl|p s w c Hl Hc IH]; intros m HB Hm; cbn [length map] in *.
  - constructor; [|constructor]. eapply below_le; [|exact HB]. lia.
  - assert (1 <= length c) by (inversion Hc; cbn; lia). destruct HB as [HA HB]. cbn in HA, HB. constructor.
    + split; cbn [fst snd pr lhs rhs]; [lia|]. apply Forall_forall. intros x Hx. rewrite Forall_forall in HB. assert (x < s); [|lia].
      apply HB. rewrite <- (firstn_skipn l w). apply in_or_app. auto.
    + apply IH; [|lia]. split; cbn [fst snd]; [lia|]. constructor; [lia|]. apply Forall_forall. intros x Hx. rewrite Forall_forall in HB.
      assert (x < s); [|lia]. apply HB. rewrite <- (firstn_skipn l w). apply in_or_app. auto.
Qed.

Lemma add_rule_same : forall g r g' Y, good_limit (limit g) -> add_rule g r = Ok g' ->
  Forall (below (num_syms g)) (map pr (rules g)) -> Forall (below (num_syms g)) Y -> below (num_syms g) (pr r) ->
  same_trees (fun A => A < num_syms g) (fun w => w) (map pr (rules g) ++ pr r :: Y) (map pr (rules g') ++ Y) /\
  num_syms g <= num_syms g' /\ limit g' = limit g /\ Forall (below (num_syms g')) (map pr (rules g')).
Proof.
  intros g r g' Y HL E HX HY HB. destruct (add_rule_spec g r HL) as [k [c [E' [Hk Hc]]]]. rewrite E' in E. injection E as <-.
  assert (N : num_syms (added g k c) = num_syms g + k) by reflexivity. rewrite N.
  assert (R : rules (added g k c) = rules g ++ c) by reflexivity. rewrite R, map_app, <- app_assoc.
  split; [|split; [lia|split; [reflexivity|]]].
  - destruct Hc as [[-> _]|[l [_ [_ Hc]]]]; [apply same_trees_refl|]. eapply chain_same; eauto.
  - apply Forall_app. split; [eapply Forall_impl; [|exact HX]; intros; eapply below_le; [|eauto]; lia|].
    destruct Hc as [[-> _]|[l [_ [_ Hc]]]].
    + constructor; [|constructor]. eapply below_le; [|exact HB]. lia.
    + eapply chain_below; [exact Hc|exact HB|lia].
Qed.

Lemma limit_fold_same : forall rs g g' n, good_limit (limit g) -> fold_res add_rule rs g = Ok g' -> n <= num_syms g ->
  Forall (below (num_syms g)) (map pr (rules g)) -> Forall (below n) (map pr rs) ->
  same_trees (fun A => A < n) (fun w => w) (map pr (rules g) ++ map pr rs) (map pr (rules g')).
Proof.
  induction rs as [|r rs IH]; intros g g' n HL E Hn HX HY; cbn [fold_res] in E.
  - injection E as <-. cbn [map]. rewrite app_nil_r. apply same_trees_refl.
  - destruct (add_rule g r) as [g1| |] eqn:E1; try discriminate. cbn [bind] in E. inversion HY as [|? ? HB HY']; subst.
    destruct (add_rule_same g r g1 (map pr rs) HL E1 HX) as [A1 [A2 [A3 A4]]].
    + eapply Forall_impl; [|exact HY']. intros; eapply below_le; eauto.
    + eapply below_le; eauto.
    + cbn [map]. assert (H2 : same_trees (fun A => A < n) (fun w => w) (map pr (rules g1) ++ map pr rs) (map pr (rules g'))).
      { apply IH; auto; [congruence|lia]. }
      eapply (same_trees_trans _ (fun w => w) (fun w => w)); [|exact H2]. eapply same_trees_sub; [|exact A1]. cbn; intros; lia.
Qed.
