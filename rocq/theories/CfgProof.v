(** Proofs about add_rule and limit_rhs_len. *)

From Coq Require Import List Arith NArith Bool Lia.
From Verif Require Import Base ListFacts Spec GrammarFacts SymbolModel HistoryModel CfgModel View.
Import ListNotations.

(** The history of a part. *)
Definition part_hist (r : rule) (l parts : nat) (top : bool) : history :=
  if ((parts =? 0) && top) || negb (l =? 2) then hist r
  else history_binarize (hist r) parts (length (rhs r)) top.

(** The rules that [split_loop] adds for the rest [w] of a right-hand side, when the next
    fresh symbol is [s]. *)
Inductive chain (r : rule) (l : nat) : nat -> nat -> list nat -> list rule -> Prop :=
| chain_last : forall p s w, w <> [] -> length w <= l ->
    chain r l p s w [mkRule (lhs r) w (part_hist r l p true)]
| chain_more : forall p s w c, l < length w ->
    chain r l (S p) (S s) (s :: skipn l w) c ->
    chain r l p s w (mkRule s (firstn l w) (part_hist r l p false) :: c).

Lemma split_loop_nil : forall fuel r l p g, split_loop fuel r l p [] g = Ok (p, g).
Proof. destruct fuel; reflexivity. Qed.

Lemma split_loop_step : forall fuel r l p rr g, rr <> [] ->
  split_loop (S fuel) r l p rr g =
  if length rr <=? l then
    Ok (S p, push_rule g (mkRule (lhs r) (rev rr) (part_hist r l p true)))
  else
    let (s, g1) := next_sym g None in
    split_loop fuel r l (S p) (firstn (length rr - l) rr ++ [s])
      (push_rule g1 (mkRule s (rev (skipn (length rr - l) rr)) (part_hist r l p false))).
Proof.
  intros. unfold part_hist. cbn [split_loop].
  destruct (is_nil rr) eqn:E; [apply is_nil_true in E; contradiction|]. cbn [split_loop].
  destruct (length rr <=? l) eqn:EL.
  - apply Nat.leb_le in EL. replace (length rr - l) with 0 by lia.
    cbn [firstn skipn is_nil]. rewrite split_loop_nil. reflexivity.
  - apply Nat.leb_gt in EL.
    destruct (is_nil (firstn (length rr - l) rr)) eqn:E2.
    + apply is_nil_true in E2. apply (f_equal (@length nat)) in E2.
      rewrite firstn_length in E2. simpl in E2. lia.
    + unfold next_sym, src_next.
      replace (is_nil (firstn (length rr - l) rr ++ [num (src g)])) with false; auto.
      destruct (firstn (length rr - l) rr); reflexivity.
Qed.

(** The grammar after the loop. *)
Definition added (g : cfg) (k : nat) (c : list rule) : cfg :=
  mkCfg (mkSrc (num (src g) + k) (names (src g) ++ repeat None k)) (rules g ++ c)
        (roots g) (wroots g) (limit g).

Lemma split_loop_chain : forall l r, 2 <= l -> forall fuel p rr g, rr <> [] -> length rr <= fuel ->
  exists c k, chain r l p (num_syms g) (rev rr) c /\ length c = S k /\
    split_loop fuel r l p rr g = Ok (p + S k, added g k c).
Proof.
  intros l r Hl. induction fuel; intros.
  - destruct rr; simpl in *; [congruence | lia].
  - rewrite split_loop_step; auto. destruct (length rr <=? l) eqn:EL.
    + apply Nat.leb_le in EL. eexists; exists 0; split; [|split].
      * apply chain_last. intro E. apply (f_equal (@length nat)) in E.
        rewrite rev_length in E. destruct rr; simpl in *; congruence.
        rewrite rev_length; auto.
      * reflexivity.
      * f_equal. f_equal; [lia|]. unfold added, push_rule, set_rules. simpl.
        rewrite app_nil_r, Nat.add_0_r. destruct g as [[n nms] ? ? ? ?]; reflexivity.
    + apply Nat.leb_gt in EL. unfold next_sym, src_next. cbn [fst snd].
      set (s := num (src g)).
      set (rr' := firstn (length rr - l) rr ++ [s]).
      assert (HL : length rr' = length rr - l + 1).
      { unfold rr'. rewrite app_length, firstn_length. simpl. lia. }
      edestruct (IHfuel (S p) rr') as [c [k [Hc [Hk Hs]]]].
      { destruct rr'; simpl in *; [lia | discriminate]. }
      { lia. }
      rewrite Hs. clear Hs.
      exists (mkRule s (firstn l (rev rr)) (part_hist r l p false) :: c), (S k).
      split; [|split].
      * apply chain_more. { rewrite rev_length; auto. }
        unfold rr' in Hc. rewrite rev_app_distr in Hc. simpl in Hc.
        rewrite skipn_rev. exact Hc.
      * simpl; auto.
      * f_equal. f_equal; [lia|]. unfold added, push_rule, set_rules. simpl.
        f_equal.
        -- f_equal; [unfold s; lia|]. rewrite <- app_assoc. reflexivity.
        -- rewrite <- app_assoc. simpl. f_equal. f_equal. f_equal. rewrite firstn_rev; auto.
Qed.

Lemma split_loop_diverge : forall l r fuel p rr g,
  (l = 1 /\ 2 <= length rr) \/ (l = 0 /\ 1 <= length rr) ->
  split_loop fuel r l p rr g = OutOfFuel.
Proof.
  induction fuel; intros.
  - destruct rr; auto. simpl in H; lia.
  - rewrite split_loop_step by (destruct rr; simpl in *; [lia | discriminate]).
    assert (length rr <=? l = false) as -> by (apply Nat.leb_gt; lia).
    unfold next_sym, src_next. apply IHfuel. rewrite app_length, firstn_length. simpl. lia.
Qed.

Lemma chain_length : forall r l p s w c, chain r l p s w c -> 2 <= l ->
  length c = if length w <=? l then 1 else 1 + (length w - l + (l - 2)) / (l - 1).
Proof.
  intros r l p s w c H Hl. induction H.
  - apply Nat.leb_le in H0. rewrite H0. reflexivity.
  - cbn [length]. rewrite IHchain.
    assert (E : length (s :: skipn l w) = length w - l + 1) by (simpl; rewrite skipn_length; lia).
    rewrite E. apply Nat.leb_gt in H as HL. rewrite HL.
    destruct (length w - l + 1 <=? l) eqn:E2.
    + apply Nat.leb_le in E2.
      assert ((length w - l + (l - 2)) / (l - 1) = 1); [|lia].
      apply Nat.leb_gt in HL.
      symmetry. apply (Nat.div_unique _ (l - 1) 1 (length w - l - 1)); lia.
    + apply Nat.leb_gt in E2. f_equal.
      replace (length w - l + (l - 2)) with ((length w - l + 1 - l + (l - 2)) + 1 * (l - 1)) by lia.
      rewrite Nat.div_add by lia. lia.
Qed.

Lemma chain_len_bound : forall r l p s w c, chain r l p s w c ->
  Forall (fun x => 1 <= length (rhs x) <= l \/ l = 0) c.
Proof.
  intros. induction H; constructor; simpl; auto.
  - left. destruct w; simpl in *; [congruence|lia].
  - destruct l; auto. left. rewrite firstn_length. lia.
Qed.

(** Each symbol of the added rules comes from [w] or is fresh; the fresh ones unfold. *)
Lemma chain_hom : forall r l p s w c, chain r l p s w c ->
  lhs r < s -> Forall (fun x => x < s) w ->
  exists (f : nat -> list nat) k,
    length c = S k /\
    (forall x, x < s \/ s + k <= x -> f x = [x]) /\
    (forall x, In x c ->
       (s <= lhs x < s + k /\ f (lhs x) = flat_map f (rhs x)) \/
       (lhs x = lhs r /\ flat_map f (rhs x) = w)) /\
    (forall x, In x c -> Forall (fun y => In y w \/ s <= y < s + k) (rhs x)) /\
    (forall y, s <= y < s + k -> exists x, In x c /\ lhs x = y) /\
    (exists x, In x c /\ lhs x = lhs r) /\
    derives (of_list (map (fun x => (lhs x, rhs x)) c)) [lhs r] w.
Proof.
  intros r l p s w c H. induction H; intros.
  - exists (fun x => [x]), 0. repeat split; auto.
    + intros x [<- | []]. right; simpl; split; auto. apply flat_map_single; auto.
    + intros x [<- | []]. simpl. apply Forall_forall. auto.
    + intros; lia.
    + eexists; simpl; eauto.
    + apply derives_rule. simpl. left; auto.
  - assert (HB : Forall (fun x => x < S s) (s :: skipn l w)).
    { constructor; [lia|]. rewrite <- (firstn_skipn l w) in H2.
      apply Forall_app in H2. destruct H2 as [_ H2].
      eapply Forall_impl; [| exact H2]. simpl; intros; lia. }
    destruct (IHchain ltac:(lia) HB) as [f' [k [Hk [Hf [Hc [Hv [Hy [Ht Hd]]]]]]]].
    set (sub := fun y => if y =? s then firstn l w else [y]).
    assert (Hws : forall x, In x w -> x < s) by (rewrite Forall_forall in H2; auto).
    assert (Hin1 : forall x, In x (firstn l w) -> In x w).
    { intros. rewrite <- (firstn_skipn l w). apply in_or_app; auto. }
    assert (Hin2 : forall x, In x (skipn l w) -> In x w).
    { intros. rewrite <- (firstn_skipn l w). apply in_or_app; auto. }
    assert (Hsub : forall u, (forall x, In x u -> x <> s) -> flat_map sub u = u).
    { intros. apply flat_map_single. intros. unfold sub.
      destruct (s0 =? s) eqn:E; auto. apply Nat.eqb_eq in E. exfalso. eapply H3; eauto. }
    exists (fun x => flat_map sub (f' x)), (S k).
    assert (Hf2 : forall x, x < s \/ s + S k <= x -> flat_map sub (f' x) = [x]).
    { intros. rewrite Hf by lia. simpl. unfold sub.
      destruct (x =? s) eqn:E; auto. apply Nat.eqb_eq in E. lia. }
    assert (Hfm : forall u, flat_map (fun x => flat_map sub (f' x)) u = flat_map sub (flat_map f' u)).
    { induction u; simpl; auto. rewrite flat_map_app, IHu; auto. }
    assert (Hw : flat_map sub (s :: skipn l w) = w).
    { simpl. unfold sub at 1. rewrite Nat.eqb_refl. rewrite Hsub.
      - apply firstn_skipn.
      - intros x Hx E. subst. apply Hin2 in Hx. apply Hws in Hx. lia. }
    repeat split.
    + simpl; auto.
    + auto.
    + intros x [<- | Hx].
      * left. simpl. split; [lia|]. rewrite Hf by lia. simpl.
        unfold sub at 1. rewrite Nat.eqb_refl, app_nil_r. rewrite Hfm.
        rewrite (flat_map_single f').
        -- symmetry; apply Hsub. intros y Hy' E. subst. apply Hin1 in Hy'. apply Hws in Hy'. lia.
        -- intros. apply Hf. apply Hin1 in H3. apply Hws in H3. lia.
      * destruct (Hc _ Hx) as [[? E] | [? E]].
        -- left. split; [lia|]. rewrite E, Hfm; auto.
        -- right. split; auto. rewrite Hfm, E; auto.
    + intros x [<- | Hx].
      * simpl. apply Forall_forall. intros y Hy'. left; auto.
      * specialize (Hv _ Hx). eapply Forall_impl; [| exact Hv]. simpl.
        intros y [[-> | ?] | ?]; [right; lia | left; auto | right; lia].
    + intros y Hy'. destruct (Nat.eq_dec y s).
      * subst. eexists; split; [left; reflexivity | auto].
      * destruct (Hy y) as [x [? ?]]; [lia|]. exists x; split; auto. right; auto.
    + destruct Ht as [x [? ?]]. exists x; split; auto. right; auto.
    + simpl. eapply derives_trans.
      * eapply derives_mono; [| exact Hd]. unfold of_list. intros. right; auto.
      * rewrite <- (firstn_skipn l w) at 3.
        apply derives_cons.
        -- apply derives_rule. left; auto.
        -- constructor.
Qed.

(** add_rule in closed form. *)
Lemma add_rule_short : forall g r l, limit g = Some l -> 1 <= l -> length (rhs r) <= l ->
  add_rule_parts g r = Ok (1, push_rule g r).
Proof.
  intros. unfold add_rule_parts, add_rule_fuel. rewrite H.
  destruct (length (rhs r) <? l) eqn:E; auto. apply Nat.ltb_ge in E.
  destruct (length (rhs r)) eqn:E2; [lia|].
  rewrite split_loop_step.
  - rewrite rev_length, E2. assert (S n <=? l = true) as -> by (apply Nat.leb_le; lia).
    rewrite rev_involutive. unfold part_hist. simpl. destruct r; reflexivity.
  - intro Hn. apply (f_equal (@length nat)) in Hn. rewrite rev_length in Hn. simpl in Hn. lia.
Qed.

Lemma add_rule_none : forall g r, limit g = None -> add_rule_parts g r = Ok (1, push_rule g r).
Proof. intros. unfold add_rule_parts, add_rule_fuel. rewrite H; auto. Qed.

Lemma push_rule_added : forall g r, push_rule g r = added g 0 [r].
Proof.
  intros. unfold push_rule, set_rules, added. rewrite Nat.add_0_r, app_nil_r.
  destruct g as [[? ?] ? ? ? ?]; reflexivity.
Qed.

Lemma add_rule_parts_spec : forall g r, good_limit (limit g) ->
  exists k c, add_rule_parts g r = Ok (S k, added g k c) /\ length c = S k /\
    ((c = [r] /\ (forall l, limit g = Some l -> length (rhs r) <= l)) \/
     (exists l, limit g = Some l /\ l < length (rhs r) /\ chain r l 0 (num_syms g) (rhs r) c)).
Proof.
  intros. destruct (limit g) as [l|] eqn:EL.
  - simpl in H. destruct (le_lt_dec (length (rhs r)) l).
    + exists 0, [r]. rewrite (add_rule_short g r l) by (auto; lia).
      rewrite push_rule_added. repeat split; auto. left; split; auto.
      intros l' E; inversion E; subst; auto.
    + unfold add_rule_parts, add_rule_fuel. rewrite EL.
      assert (length (rhs r) <? l = false) as -> by (apply Nat.ltb_ge; lia).
      destruct (split_loop_chain l r H (length (rhs r)) 0 (rev (rhs r)) g) as [c [k [Hc [Hk Hs]]]].
      { intro E. apply (f_equal (@length nat)) in E. rewrite rev_length in E. simpl in E. lia. }
      { rewrite rev_length; auto. }
      exists k, c. rewrite Hs. repeat split; auto. right. exists l. rewrite rev_involutive in Hc. auto.
  - exists 0, [r]. rewrite add_rule_none by auto. rewrite push_rule_added.
    repeat split; auto. left; split; auto. intros; discriminate.
Qed.

Lemma add_rule_spec : forall g r, good_limit (limit g) ->
  exists k c, add_rule g r = Ok (added g k c) /\ length c = S k /\
    ((c = [r] /\ (forall l, limit g = Some l -> length (rhs r) <= l)) \/
     (exists l, limit g = Some l /\ l < length (rhs r) /\ chain r l 0 (num_syms g) (rhs r) c)).
Proof.
  intros. destruct (add_rule_parts_spec g r H) as [k [c [E [? ?]]]].
  exists k, c. unfold add_rule. rewrite E. simpl. auto.
Qed.

(** Unlike [add_rule], any larger amount of fuel gives the same result. *)
Lemma split_loop_fuel_mono : forall fuel r l p rr g x,
  split_loop fuel r l p rr g = Ok x -> forall n, split_loop (fuel + n) r l p rr g = Ok x.
Proof.
  induction fuel; intros.
  - destruct rr; simpl in *; [|discriminate]. rewrite split_loop_nil; auto.
  - destruct rr as [|a rr]; [rewrite split_loop_nil in *; auto|].
    cbn [plus]. rewrite split_loop_step in * by discriminate.
    destruct (length (a :: rr) <=? l); auto.
    unfold next_sym, src_next in *. apply IHfuel; auto.
Qed.

Lemma add_rule_fuel_enough : forall g r fuel, length (rhs r) <= fuel ->
  add_rule_fuel fuel g r = add_rule_parts g r.
Proof.
  intros. unfold add_rule_parts, add_rule_fuel. destruct (limit g) as [l|]; auto.
  destruct (length (rhs r) <? l) eqn:E; auto. apply Nat.ltb_ge in E.
  destruct (split_loop (length (rhs r)) r l 0 (rev (rhs r)) g) eqn:ES.
  - replace fuel with (length (rhs r) + (fuel - length (rhs r))) by lia.
    apply split_loop_fuel_mono; auto.
  - exfalso. revert ES. generalize (length (rhs r)) at 1. intros n.
    generalize 0 (rev (rhs r)) g. induction n; intros.
    + destruct l0; simpl in *; discriminate.
    + destruct l0 as [|a l0]; [rewrite split_loop_nil in ES; discriminate|].
      rewrite split_loop_step in ES by discriminate.
      destruct (length (a :: l0) <=? l); [discriminate|].
      unfold next_sym, src_next in ES. eapply IHn; eauto.
  - destruct (le_lt_dec 2 l).
    + destruct (rhs r) as [|a w] eqn:ER.
      { simpl in ES. discriminate. }
      edestruct (split_loop_chain l r l0 (length (rhs r)) 0 (rev (rhs r)) g) as [c [k [_ [_ Hs]]]].
      { rewrite ER. intro X. apply (f_equal (@length nat)) in X. rewrite rev_length in X. discriminate. }
      { rewrite rev_length; auto. }
      rewrite ER in Hs. rewrite Hs in ES. discriminate.
    + destruct (Nat.eq_dec l 1).
      * subst. destruct (le_lt_dec 2 (length (rhs r))).
        -- apply split_loop_diverge. left. rewrite rev_length. auto.
        -- exfalso. destruct (rhs r) as [|a [|b w]]; simpl in *; try lia; discriminate.
      * assert (l = 0) by lia. subst. destruct (rhs r) as [|a w] eqn:ER.
        -- simpl in ES; discriminate.
        -- apply split_loop_diverge. right. rewrite rev_length. simpl. lia.
Qed.

(** * Representation *)

Record Repr (g : cfg) (V : productions) (C : nat -> Prop) : Prop := {
  rp_rep : represents (prods g) V C;
  rp_closed : closed_rules g;
  rp_C : forall s, C s -> s < num_syms g;
  rp_V : forall A r, V A r -> A < num_syms g /\ Forall (fun s => s < num_syms g) r
}.

Definition plus_rule (V : productions) (A : nat) (r : list nat) : productions :=
  fun B q => V B q \/ (B = A /\ q = r).

Lemma in_chain_prods : forall g k c A q,
  prods (added g k c) A q <-> prods g A q \/ exists x, In x c /\ lhs x = A /\ rhs x = q.
Proof.
  unfold prods, added; simpl; split.
  - intros [x [Hx ?]]. apply in_app_or in Hx. destruct Hx; [left | right]; eauto.
  - intros [[x [? ?]] | [x [? ?]]]; exists x; split; auto; apply in_or_app; auto.
Qed.

Lemma represents_chain : forall P V C s r l c w,
  represents P V C ->
  (forall A q, P A q -> A < s /\ Forall (fun x => x < s) q) ->
  (forall x, C x -> x < s) ->
  chain r l 0 s w c -> lhs r < s -> Forall (fun x => x < s) w ->
  ~ C (lhs r) -> Forall (fun x => ~ C x) w ->
  (forall A q, V A q -> A < s /\ Forall (fun x => x < s) q) ->
  forall k, length c = S k ->
  represents (fun A q => P A q \/ exists x, In x c /\ lhs x = A /\ rhs x = q)
             (plus_rule V (lhs r) w) (fun x => C x \/ s <= x < s + k).
Proof.
  intros P V C s r l c w HR HP HC Hch Hlt Hw HnC HnCw HV k Hk.
  destruct (chain_hom _ _ _ _ _ _ Hch Hlt Hw) as [f [k' [Hk' [Hf [Hr [Hv [Hy [Ht Hd]]]]]]]].
  assert (k' = k) by lia. subst k'.
  constructor.
  - intros A q [HV1 | [-> ->]].
    + eapply derives_mono; [| apply (rep_sim _ _ _ HR); eauto]. auto.
    + eapply derives_mono; [| exact Hd]. unfold of_list. intros A q Hin.
      apply in_map_iff in Hin. destruct Hin as [x [E ?]]. inversion E; subst. right; eauto.
  - destruct (rep_hom _ _ _ HR) as [f0 [Hf0 Hs0]].
    set (F := fun x => if (s <=? x) && (x <? s + k) then f x else f0 x).
    assert (F1 : forall x, x < s -> F x = f0 x).
    { intros. unfold F. assert (s <=? x = false) as -> by (apply Nat.leb_gt; lia). auto. }
    assert (F2 : forall x, s <= x < s + k -> F x = f x).
    { intros. unfold F. assert (s <=? x = true) as -> by (apply Nat.leb_le; lia).
      assert (x <? s + k = true) as -> by (apply Nat.ltb_lt; lia). auto. }
    assert (F3 : forall x, ~ C x -> ~ s <= x < s + k -> F x = [x]).
    { intros. unfold F. destruct (s <=? x) eqn:E1; destruct (x <? s + k) eqn:E2; simpl; auto.
      apply Nat.leb_le in E1. apply Nat.ltb_lt in E2. lia. }
    exists F. split.
    + intros x Hx. apply F3; tauto.
    + intros A q [HA | [x [Hx [<- <-]]]].
      * destruct (HP _ _ HA) as [HA1 HA2]. rewrite F1 by auto.
        replace (flat_map F q) with (flat_map f0 q).
        -- eapply derives_mono; [| apply Hs0; auto]. left; auto.
        -- clear - HA2 F1. induction HA2; simpl; auto. rewrite F1, IHHA2; auto.
      * assert (EF : flat_map F (rhs x) = flat_map f (rhs x)).
        { specialize (Hv _ Hx). clear - Hv F1 F2 F3 HnCw Hf Hw. induction Hv; simpl; auto.
          rewrite IHHv. f_equal. destruct H as [Hin | ?].
          - rewrite Forall_forall in Hw. specialize (Hw _ Hin).
            rewrite F3. + symmetry; apply Hf; auto.
            + rewrite Forall_forall in HnCw; auto. + lia.
          - apply F2; auto. }
        rewrite EF. destruct (Hr _ Hx) as [[Hfr E] | [E1 E2]].
        -- rewrite F2 by auto. rewrite E. constructor.
        -- rewrite E1, E2. rewrite F3; auto; [| lia]. apply derives_rule. right; auto.
  - intros A q [HA | [-> ->]].
    + destruct (rep_voc _ _ _ HR _ _ HA). destruct (HV _ _ HA). split.
      * intros [?|?]; [tauto | lia].
      * rewrite Forall_forall in *. intros y Hy' [?|?]; [eapply H0; eauto |]. specialize (H2 _ Hy'). lia.
    + split.
      * intros [?|?]; [tauto | lia].
      * rewrite Forall_forall in *. intros y Hy' [?|?]; [eapply HnCw; eauto |]. specialize (Hw _ Hy'). lia.
  - intros x Hx. split.
    + intros [q [Hq | [y [Hy' [E1 E2]]]]].
      * assert (nonterminal V x) as [q' ?].
        { apply (rep_nt _ _ _ HR); [tauto|]. exists q; auto. }
        exists q'. left; auto.
      * exists w. right. split; auto. destruct (Hr _ Hy') as [[? ?] | [? ?]]; [|congruence].
        exfalso. apply Hx. right. lia.
    + intros [q [Hq | [-> ->]]].
      * assert (nonterminal P x) as [q' ?].
        { apply (rep_nt _ _ _ HR); [tauto|]. exists q; auto. }
        exists q'. left; auto.
      * destruct Ht as [y [? ?]]. exists (rhs y). right. exists y; auto.
  - intros x [Hx | Hx].
    + destruct (rep_fresh_nt _ _ _ HR _ Hx) as [q ?]. exists q; auto.
    + destruct (Hy _ Hx) as [y [? ?]]. exists (rhs y). right; exists y; auto.
Qed.

Lemma represents_one : forall P V C A r,
  represents P V C -> ~ C A -> Forall (fun x => ~ C x) r ->
  represents (fun B q => P B q \/ (B = A /\ q = r)) (plus_rule V A r) C.
Proof.
  intros P V C A r HR HA Hr. constructor.
  - intros B q [HV | [-> ->]].
    + eapply derives_mono; [| apply (rep_sim _ _ _ HR); eauto]. auto.
    + apply derives_rule. auto.
  - destruct (rep_hom _ _ _ HR) as [f [Hf Hs]]. exists f; split; auto.
    intros B q [HB | [-> ->]].
    + eapply derives_mono; [| apply Hs; auto]. left; auto.
    + rewrite Hf by auto. rewrite flat_map_single.
      * apply derives_rule. right; auto.
      * intros. apply Hf. rewrite Forall_forall in Hr; auto.
  - intros B q [HB | [-> ->]]; [apply (rep_voc _ _ _ HR _ _ HB) | auto].
  - intros x Hx. pose proof (rep_nt _ _ _ HR x Hx) as [N1 N2]. split.
    + intros [q [? | [-> ->]]].
      * destruct N1 as [q' ?]; [exists q; auto|]. exists q'; left; auto.
      * exists r; right; auto.
    + intros [q [? | [-> ->]]].
      * destruct N2 as [q' ?]; [exists q; auto|]. exists q'; left; auto.
      * exists r; right; auto.
  - intros x Hx. destruct (rep_fresh_nt _ _ _ HR _ Hx) as [q ?]. exists q; auto.
Qed.

Lemma represents_ext : forall P P' V V' C C',
  represents P V C -> (forall A r, P A r <-> P' A r) -> (forall A r, V A r <-> V' A r) ->
  (forall s, C s <-> C' s) -> represents P' V' C'.
Proof.
  intros P P' V V' C C' HR EP EV EC. constructor.
  - intros A r H. apply (derives_ext P P' EP). apply (rep_sim _ _ _ HR). apply EV; auto.
  - destruct (rep_hom _ _ _ HR) as [f [Hf Hs]]. exists f; split.
    + intros; apply Hf. rewrite EC; auto.
    + intros. apply (derives_ext V V' EV). apply Hs. apply EP; auto.
  - intros A r H. apply EV in H. destruct (rep_voc _ _ _ HR _ _ H). split.
    + rewrite <- EC; auto.
    + eapply Forall_impl; [| exact H1]. simpl; intros. rewrite <- EC; auto.
  - intros s Hs. rewrite <- EC in Hs. pose proof (rep_nt _ _ _ HR s Hs) as [N1 N2].
    split; intros [r Hr].
    + destruct N1 as [q Hq]; [exists r; apply EP; auto|]. exists q; apply EV; auto.
    + destruct N2 as [q Hq]; [exists r; apply EV; auto|]. exists q; apply EP; auto.
  - intros s Hs. apply EC in Hs. destruct (rep_fresh_nt _ _ _ HR _ Hs) as [q ?]. exists q; apply EP; auto.
Qed.

Lemma Repr_ext : forall g V V' C C',
  Repr g V C -> (forall A r, V A r <-> V' A r) -> (forall s, C s <-> C' s) -> Repr g V' C'.
Proof.
  intros g V V' C C' HR EV EC. destruct HR. constructor; auto.
  - eapply represents_ext; eauto. tauto.
  - intros; apply rp_C0; apply EC; auto.
  - intros; apply rp_V0; apply EV; auto.
Qed.

(** What add_rule does to the other fields. *)
Record grows (g g' : cfg) : Prop := {
  gr_roots : roots g' = roots g;
  gr_wroots : wroots g' = wroots g;
  gr_limit : limit g' = limit g;
  gr_num : exists k, src g' = mkSrc (num_syms g + k) (names (src g) ++ repeat None k);
  gr_rules : exists c, rules g' = rules g ++ c
}.

Lemma grows_num : forall g g', grows g g' -> num_syms g <= num_syms g'.
Proof. intros. destruct (gr_num _ _ H) as [k E]. unfold num_syms. rewrite E. simpl. unfold num_syms. lia. Qed.

Lemma grows_added : forall g k c, grows g (added g k c).
Proof. intros. constructor; simpl; eauto. Qed.

Lemma closed_added : forall g k c, closed_rules g ->
  (forall x, In x c -> lhs x < num_syms g + k /\ Forall (fun s => s < num_syms g + k) (rhs x)) ->
  closed_rules (added g k c).
Proof.
  intros. intros x Hx. unfold num_syms, added in *. simpl in *. apply in_app_or in Hx. destruct Hx as [Hx|Hx].
  - destruct (H _ Hx). unfold num_syms in *. split; [lia|]. eapply Forall_impl; [| exact H2]. simpl; intros; lia.
  - destruct (H0 _ Hx). split; auto.
Qed.

Lemma add_rule_Repr : forall g V C A r h,
  good_limit (limit g) -> Repr g V C ->
  A < num_syms g -> ~ C A ->
  Forall (fun s => s < num_syms g) r -> Forall (fun s => ~ C s) r ->
  exists g', add_rule g (mkRule A r h) = Ok g' /\ grows g g' /\
    Repr g' (plus_rule V A r) (fun s => C s \/ num_syms g <= s < num_syms g').
Proof.
  intros g V C A r h HL HR HA HCA Hr HCr.
  destruct (add_rule_spec g (mkRule A r h) HL) as [k [c [E [Hk Hc]]]].
  exists (added g k c). split; auto. split; [apply grows_added|].
  simpl in Hc. destruct HR as [Hrep Hcl HC HV].
  assert (Hnum : num_syms (added g k c) = num_syms g + k) by reflexivity.
  destruct Hc as [[-> Hl] | [l [EL [Hl Hch]]]].
  - assert (k = 0) by (simpl in Hk; lia). subst k. rewrite Nat.add_0_r in Hnum.
    constructor.
    + eapply represents_ext; [eapply (represents_one _ _ _ A r Hrep); auto | | |].
      * intros. rewrite in_chain_prods. split; intros [?|?]; auto.
        -- destruct H as [-> ->]. right. exists (mkRule A r h); simpl; auto.
        -- destruct H as [x [[<- | []] [<- <-]]]. right; auto.
      * tauto.
      * intros; split; [tauto|]. intros [?|?]; auto. lia.
    + apply closed_added; auto. intros x [<- | []]. simpl. rewrite Nat.add_0_r. auto.
    + intros s [?|?]; [|lia]. rewrite Hnum; auto.
    + rewrite Hnum. intros B q [HB | [-> ->]]; auto.
  - assert (HP : forall B q, prods g B q -> B < num_syms g /\ Forall (fun x => x < num_syms g) q).
    { intros B q [x [Hx [<- <-]]]. apply Hcl; auto. }
    pose proof (represents_chain _ _ _ _ _ _ _ _ Hrep HP HC Hch HA Hr HCA HCr HV k Hk) as HR2.
    destruct (chain_hom _ _ _ _ _ _ Hch HA Hr) as [f [k' [Hk' [Hf [Hrr [Hv [Hy [Ht Hd]]]]]]]].
    assert (k' = k) by lia. subst k'.
    constructor.
    + eapply represents_ext; [exact HR2 | | |].
      * intros. rewrite in_chain_prods. tauto.
      * simpl. tauto.
      * intros. rewrite Hnum. tauto.
    + apply closed_added; auto. intros x Hx. split.
      * destruct (Hrr _ Hx) as [[? ?] | [-> ?]]; simpl; lia.
      * specialize (Hv _ Hx). eapply Forall_impl; [| exact Hv]. simpl.
        intros y [Hin | ?]; [|lia]. rewrite Forall_forall in Hr. specialize (Hr _ Hin). lia.
    + rewrite Hnum. intros s [?|?]; [|lia]. specialize (HC _ H). lia.
    + rewrite Hnum. intros B q [HB | [-> ->]].
      * destruct (HV _ _ HB). split; [lia|]. eapply Forall_impl; [| exact H0]. simpl; intros; lia.
      * split; [lia|]. eapply Forall_impl; [| exact Hr]. simpl; intros; lia.
Qed.

Lemma next_sym_Repr : forall g V C n s g',
  next_sym g n = (s, g') -> Repr g V C ->
  s = num_syms g /\ num_syms g' = S (num_syms g) /\ Repr g' V C.
Proof.
  intros g V C n s g' E HR. unfold next_sym, src_next in E. inversion E; subst; clear E.
  unfold num_syms; simpl. split; auto. split; auto.
  destruct HR as [R1 R2 R3 R4]. unfold closed_rules, num_syms in *. constructor; auto.
  - intros x Hx. unfold num_syms; simpl in *. destruct (R2 x Hx). split; [lia|].
    eapply Forall_impl; [| exact H0]. simpl; intros; lia.
  - intros y Hy. unfold num_syms; simpl. apply R3 in Hy. lia.
  - intros A r Hr. unfold num_syms; simpl. destruct (R4 A r Hr). split; [lia|].
    eapply Forall_impl; [| exact H0]. simpl; intros; lia.
Qed.

Lemma closed_Repr : forall g, closed_rules g -> Repr g (prods g) (fun _ => False).
Proof.
  intros. constructor; auto.
  - apply represents_refl.
  - intros; tauto.
  - intros A r [x [Hx [<- <-]]]. auto.
Qed.

Lemma empty_Repr : forall g, rules g = [] -> Repr g (fun _ _ => False) (fun _ => False).
Proof.
  intros. eapply Repr_ext.
  - apply closed_Repr. intros x Hx. rewrite H in Hx. destruct Hx.
  - unfold prods. rewrite H. simpl. firstorder.
  - tauto.
Qed.

Lemma grows_refl : forall g, grows g g.
Proof.
  intros; constructor; auto.
  - exists 0. rewrite Nat.add_0_r, app_nil_r. unfold num_syms. destruct (src g); auto.
  - exists []. rewrite app_nil_r; auto.
Qed.

Lemma grows_trans : forall a b c, grows a b -> grows b c -> grows a c.
Proof.
  intros a b c H1 H2; constructor.
  - rewrite (gr_roots _ _ H2). apply H1.
  - rewrite (gr_wroots _ _ H2). apply H1.
  - rewrite (gr_limit _ _ H2). apply H1.
  - destruct (gr_num _ _ H1) as [k1 E1], (gr_num _ _ H2) as [k2 E2].
    exists (k1 + k2). rewrite E2. unfold num_syms. rewrite E1. simpl. unfold num_syms.
    f_equal; [lia|]. rewrite <- app_assoc. f_equal. rewrite repeat_app. auto.
  - destruct (gr_rules _ _ H1) as [c1 E1], (gr_rules _ _ H2) as [c2 E2].
    exists (c1 ++ c2). rewrite E2, E1, app_assoc; auto.
Qed.

(** Adding a list of rules. *)
Lemma add_rules_Repr : forall l g V C,
  good_limit (limit g) -> Repr g V C ->
  Forall (fun x => lhs x < num_syms g /\ ~ C (lhs x) /\
                   Forall (fun s => s < num_syms g) (rhs x) /\ Forall (fun s => ~ C s) (rhs x)) l ->
  exists g', fold_res add_rule l g = Ok g' /\ grows g g' /\
    Repr g' (fun A r => V A r \/ exists x, In x l /\ lhs x = A /\ rhs x = r)
         (fun s => C s \/ num_syms g <= s < num_syms g').
Proof.
  induction l; intros g V C HL HR HF.
  - exists g. simpl. split; auto. split; auto using grows_refl. eapply Repr_ext; [exact HR | |].
    + intros; simpl; split; auto. intros [?|[? [[] ?]]]; auto.
    + intros; split; auto. intros [?|?]; auto; lia.
  - inversion HF; subst. destruct H1 as [Ha [HCa [Hr HCr]]].
    destruct a as [A r h]; simpl in *.
    destruct (add_rule_Repr g V C A r h HL HR Ha HCa Hr HCr) as [g1 [E1 [G1 R1]]].
    pose proof (grows_num _ _ G1).
    destruct (IHl g1 _ _ ltac:(rewrite (gr_limit _ _ G1); auto) R1) as [g2 [E2 [G2 R2]]].
    { eapply Forall_impl; [| exact H2]. simpl. intros x [X1 [X2 [X3 X4]]].
      split; [lia|]. split; [intros [?|?]; [tauto|lia] |]. split.
      - eapply Forall_impl; [| exact X3]. simpl; intros; lia.
      - rewrite Forall_forall in *. intros y Hy [?|?]; [eapply X4; eauto|].
        specialize (X3 _ Hy). lia. }
    exists g2. rewrite E1. simpl. split; auto. split; [eapply grows_trans; eauto|].
    pose proof (grows_num _ _ G2).
    eapply Repr_ext; [exact R2 | |].
    + intros B q. unfold plus_rule. split.
      * intros [[?|[-> ->]] | [x [? [? ?]]]]; auto.
        -- right. exists (mkRule A r h); simpl; auto.
        -- right. exists x; simpl; tauto.
      * intros [? | [x [[<- | ?] [E3 E4]]]]; auto.
        right; exists x; auto.
    + intros s; simpl. split; [intros [[?|?]|?]; auto; right; lia |].
      intros [?|?]; auto. destruct (le_lt_dec (num_syms g1) s); [right; lia | left; right; lia].
Qed.

Theorem limit_rhs_len_Repr : forall g lim, closed_rules g -> good_limit lim ->
  exists g', limit_rhs_len g lim = Ok g' /\
    roots g' = roots g /\ wroots g' = wroots g /\ limit g' = lim /\
    (exists k, src g' = mkSrc (num_syms g + k) (names (src g) ++ repeat None k)) /\
    Repr g' (prods g) (fun s => num_syms g <= s < num_syms g').
Proof.
  intros g lim HC HL. unfold limit_rhs_len.
  set (g0 := mkCfg (src g) [] (roots g) (wroots g) lim).
  destruct (add_rules_Repr (rules g) g0 (fun _ _ => False) (fun _ => False)) as [g' [E [G R]]].
  - exact HL.
  - apply empty_Repr. reflexivity.
  - apply Forall_forall. intros x Hx. destruct (HC _ Hx). unfold g0, num_syms in *; simpl.
    repeat split; auto. apply Forall_forall; auto.
  - exists g'. split; auto.
    pose proof (gr_roots _ _ G). pose proof (gr_wroots _ _ G). pose proof (gr_limit _ _ G).
    pose proof (gr_num _ _ G). do 3 (split; [assumption|]). split; [assumption|].
    eapply Repr_ext; [exact R | |].
    + intros. unfold prods. split; [intros [[]|?]; auto | auto].
    + intros. unfold g0, num_syms; simpl. tauto.
Qed.

Theorem limit_rhs_len_derives : forall g lim g', closed_rules g -> good_limit lim ->
  limit_rhs_len g lim = Ok g' ->
  forall u w, Forall (fun s => s < num_syms g) u -> Forall (fun s => s < num_syms g) w ->
  (derives (prods g') u w <-> derives (prods g) u w).
Proof.
  intros. destruct (limit_rhs_len_Repr g lim H H0) as [g2 [E [_ [_ [_ [_ R]]]]]].
  rewrite E in H1. inversion H1; subst.
  eapply represents_derives; [apply (rp_rep _ _ _ R) | |];
    (eapply Forall_impl; [|eassumption]); simpl; intros; lia.
Qed.

Theorem limit_rhs_len_language : forall g lim g', closed_rules g -> good_limit lim ->
  limit_rhs_len g lim = Ok g' ->
  forall s w, s < num_syms g -> (language (prods g') s w <-> language (prods g) s w).
Proof.
  intros. destruct (limit_rhs_len_Repr g lim H H0) as [g2 [E [_ [_ [_ [_ R]]]]]].
  rewrite E in H1. inversion H1; subst.
  eapply represents_language; [apply (rp_rep _ _ _ R) | simpl; lia].
Qed.
