(** Proofs about the other grammar operations of [CfgModel]. *)

From Coq Require Import List Arith NArith Bool Lia Permutation Sorted String.
From Verif Require Import Base ListFacts Spec GrammarFacts SymbolModel HistoryModel CfgModel View CfgProof.
Import ListNotations.
Local Notation length := List.length.

(** * The parts produced by limit_rhs_len *)

Definition part_count (l m : nat) : nat :=
  if m <=? l then 1 else 1 + (m - l + (l - 2)) / (l - 1).

Lemma add_rule_parts_list : forall g r l, limit g = Some l -> 2 <= l ->
  exists p, add_rule g r = Ok (added g (length p - 1) p) /\
    length p = part_count l (length (rhs r)) /\
    (length (rhs r) <= l -> p = [r]) /\
    Forall (fun x => length (rhs x) <= l) p.
Proof.
  intros g r l HL Hl.
  destruct (add_rule_spec g r) as [k [c [E [Hk Hc]]]]; [rewrite HL; auto|].
  exists c. rewrite Hk. simpl. rewrite Nat.sub_0_r. split; auto.
  destruct Hc as [[-> H] | [l' [E' [Hlt Hch]]]].
  - specialize (H _ HL). unfold part_count. assert (length (rhs r) <=? l = true) as -> by (apply Nat.leb_le; auto).
    repeat split; auto.
  - rewrite HL in E'. inversion E'; subst l'. split; [|split].
    + rewrite <- Hk. unfold part_count. eapply chain_length; eauto.
    + lia.
    + pose proof (chain_len_bound _ _ _ _ _ _ Hch). eapply Forall_impl; [| exact H]. simpl. intros; lia.
Qed.

Lemma add_rules_parts : forall l rs g, limit g = Some l -> 2 <= l ->
  exists g' parts, fold_res add_rule rs g = Ok g' /\
    rules g' = rules g ++ List.concat parts /\
    Forall2 (fun r p => length p = part_count l (length (rhs r)) /\
                        (length (rhs r) <= l -> p = [r]) /\
                        Forall (fun x => length (rhs x) <= l) p) rs parts.
Proof.
  intros l. induction rs; intros g HL Hl.
  - exists g, []. simpl. rewrite app_nil_r. auto.
  - destruct (add_rule_parts_list g a l HL Hl) as [p [E Hp]].
    destruct (IHrs (added g (length p - 1) p) HL Hl) as [g' [parts [E' [Hr HF]]]].
    exists g', (p :: parts). simpl. rewrite E. simpl. split; auto. split; auto.
    rewrite Hr. simpl. rewrite app_assoc; auto.
Qed.

Lemma limit_rhs_len_parts : forall g l g', 2 <= l -> limit_rhs_len g (Some l) = Ok g' ->
  exists parts, rules g' = List.concat parts /\
    Forall2 (fun r p => length p = part_count l (length (rhs r)) /\
                        (length (rhs r) <= l -> p = [r]) /\
                        Forall (fun x => length (rhs x) <= l) p) (rules g) parts.
Proof.
  intros. unfold limit_rhs_len in H0.
  destruct (add_rules_parts l (rules g) (mkCfg (src g) [] (roots g) (wroots g) (Some l)) eq_refl H)
    as [g2 [parts [E [Hr HF]]]].
  rewrite E in H0. inversion H0; subst. exists parts; auto.
Qed.

Lemma limit_rhs_len_bound : forall g l g', 2 <= l -> limit_rhs_len g (Some l) = Ok g' ->
  Forall (fun x => length (rhs x) <= l) (rules g').
Proof.
  intros. destruct (limit_rhs_len_parts _ _ _ H H0) as [parts [-> HF]].
  clear H0. induction HF; simpl; auto. apply Forall_app; tauto.
Qed.

Lemma limit_sets_limit : forall rs g g', fold_res add_rule rs g = Ok g' ->
  limit g' = limit g /\ roots g' = roots g /\ wroots g' = wroots g.
Proof.
  induction rs; simpl; intros.
  - inversion H; auto.
  - apply bind_ok in H. destruct H as [g1 [E1 E2]]. apply IHrs in E2.
    assert (limit g1 = limit g /\ roots g1 = roots g /\ wroots g1 = wroots g).
    { clear - E1. unfold add_rule in E1. apply bind_ok in E1. destruct E1 as [[n g2] [E1 E2]].
      inversion E2; subst g2; clear E2. unfold add_rule_parts, add_rule_fuel in E1.
      destruct (limit g) eqn:EL.
      - destruct (length (rhs a) <? n0).
        + inversion E1; subst; auto.
        + rewrite <- EL. clear EL. revert E1. generalize (length (rhs a)) 0 (rev (rhs a)). intros f p rr.
          revert p rr g. induction f; intros p rr g E1.
          * destruct rr; simpl in E1; inversion E1; subst; auto.
          * destruct rr as [|x rr]; [rewrite split_loop_nil in E1; inversion E1; subst; auto|].
            rewrite split_loop_step in E1 by discriminate.
            destruct (length (x :: rr) <=? n0).
            -- inversion E1; subst; auto.
            -- unfold next_sym, src_next in E1. apply IHf in E1. exact E1.
      - inversion E1; subst; auto. }
    intuition congruence.
Qed.

(** Rules that already fit are only pushed back. *)
Lemma fold_short : forall l rs g, limit g = Some l -> 1 <= l ->
  Forall (fun x => length (rhs x) <= l) rs ->
  fold_res add_rule rs g = Ok (set_rules g (rules g ++ rs)).
Proof.
  induction rs; intros g HL Hl HF; simpl.
  - rewrite app_nil_r. unfold set_rules. destruct g; reflexivity.
  - inversion HF; subst. unfold add_rule at 1. rewrite (add_rule_short g a l) by auto. simpl.
    rewrite IHrs; auto. unfold push_rule, set_rules; simpl. rewrite <- app_assoc. reflexivity.
Qed.

Lemma limit_rhs_len_idem : forall g l g', 2 <= l -> limit_rhs_len g (Some l) = Ok g' ->
  limit_rhs_len g' (Some l) = Ok g'.
Proof.
  intros. pose proof (limit_rhs_len_bound _ _ _ H H0) as HB.
  unfold limit_rhs_len in *. apply limit_sets_limit in H0. simpl in H0. destruct H0 as [HL [HR HW]].
  rewrite (fold_short l) by (auto; simpl; lia). unfold set_rules. simpl.
  rewrite <- HL. destruct g'; reflexivity.
Qed.

(** * Termination of limit_rhs_len *)

Lemma add_rule_small_limit : forall g r l, limit g = Some l -> l < 2 ->
  add_rule g r =
  if length (rhs r) <=? l then Ok (if l =? 0 then g else push_rule g r) else OutOfFuel.
Proof.
  intros. destruct (length (rhs r) <=? l) eqn:E.
  - apply Nat.leb_le in E. destruct l.
    + unfold add_rule, add_rule_parts, add_rule_fuel. rewrite H.
      destruct (rhs r); simpl in *; [reflexivity | lia].
    + unfold add_rule. rewrite (add_rule_short g r (S l)); auto. lia.
  - apply Nat.leb_gt in E. unfold add_rule, add_rule_parts, add_rule_fuel. rewrite H.
    assert (length (rhs r) <? l = false) as -> by (apply Nat.ltb_ge; lia).
    rewrite split_loop_diverge; auto. rewrite rev_length. lia.
Qed.

Lemma limit_small : forall l rs g, limit g = Some l -> l < 2 ->
  fold_res add_rule rs g =
  if forallb (fun r => length (rhs r) <=? l) rs
  then Ok (if l =? 0 then g else set_rules g (rules g ++ rs)) else OutOfFuel.
Proof.
  induction rs; intros g HL Hl; simpl.
  - rewrite app_nil_r. unfold set_rules. destruct (l =? 0); destruct g; auto.
  - rewrite (add_rule_small_limit g a l) by auto. destruct (length (rhs a) <=? l); simpl; auto.
    rewrite IHrs; auto.
    + destruct (forallb _ rs); auto. destruct (l =? 0); auto. unfold push_rule, set_rules; simpl.
      rewrite <- app_assoc; auto.
    + destruct (l =? 0); auto.
Qed.

(** No amount of fuel lets add_rule finish. *)
Lemma add_rule_diverges : forall g r l fuel, limit g = Some l -> l < 2 -> l < length (rhs r) ->
  add_rule_fuel fuel g r = OutOfFuel.
Proof.
  intros. unfold add_rule_fuel. rewrite H.
  assert (length (rhs r) <? l = false) as -> by (apply Nat.ltb_ge; lia).
  rewrite split_loop_diverge; auto. rewrite rev_length. lia.
Qed.

(** * History of the parts under limit 2 *)

Lemma chain2_shape : forall r p s w c, chain r 2 p s w c -> 2 <= length w ->
  forall i x, nth_error c i = Some x ->
    hist x = part_hist r 2 (p + i) (S i =? length c) /\
    (S i = length c <-> length w = i + 2) /\
    length c = length w - 1.
Proof.
  intros r p s w c H. induction H; intros.
  - destruct i; simpl in H2; [inversion H2; subst | destruct i; discriminate].
    cbn [hist length]. rewrite Nat.add_0_r. split; [reflexivity|]. cbn [length Nat.eqb]. lia.
  - assert (HL : length (s :: skipn 2 w) = length w - 1) by (cbn [length]; rewrite skipn_length; lia).
    rewrite HL in IHchain.
    assert (Hc : exists y, nth_error c 0 = Some y).
    { inversion H0; subst; simpl; eauto. }
    destruct Hc as [y Hy].
    pose proof (IHchain ltac:(lia) 0 y Hy) as [_ [_ HLc]].
    destruct i; simpl in H2.
    + inversion H2; subst. cbn [hist]. rewrite Nat.add_0_r.
      destruct c; [discriminate|]. cbn [length] in *. split; [reflexivity|]. lia.
    + destruct (IHchain ltac:(lia) i x H2) as [H3 [H4 H5]]. split; [|cbn [length]; lia].
      rewrite H3. f_equal. lia.
Qed.

(** * wrap_input *)

Definition wroot_rule (W : wrapped_root) : nat * list nat :=
  (wr_root W, [wr_start W; wr_inner W; wr_end W]).
Definition wsyms (W : wrapped_root) : list nat := [wr_root W; wr_start W; wr_end W].

Record wrap_inv (P : productions) (n0 : nat) (done : list nat) (g : cfg) (Cs : nat -> Prop) : Prop := {
  wi_repr : Repr g (fun A r => P A r \/ In (A, r) (map wroot_rule (wroots g))) Cs;
  wi_roots : roots g = map wr_root (wroots g);
  wi_inner : map wr_inner (wroots g) = done;
  wi_nodup : NoDup (flat_map wsyms (wroots g));
  wi_fresh : forall s, In s (flat_map wsyms (wroots g)) -> n0 <= s < num_syms g;
  wi_C : forall s, Cs s -> n0 <= s
}.

Lemma wrap_one_inv : forall P n0 done g Cs inner,
  good_limit (limit g) -> inner < n0 -> n0 <= num_syms g -> wrap_inv P n0 done g Cs ->
  exists g' Cs', wrap_one g inner = Ok g' /\ wrap_inv P n0 (done ++ [inner]) g' Cs' /\
    n0 <= num_syms g' /\ limit g' = limit g.
Proof.
  intros P n0 done g Cs inner HL Hin Hn0 [HR HRo HI HND HF HC].
  unfold wrap_one.
  destruct (next_sym g (nm "root")) as [root g1] eqn:E1.
  destruct (next_sym g1 (nm "start_of_input")) as [soi g2] eqn:E2.
  destruct (next_sym g2 (nm "end_of_input")) as [eoi g3] eqn:E3.
  destruct (next_sym_Repr _ _ _ _ _ _ E1 HR) as [N1 [M1 R1]].
  destruct (next_sym_Repr _ _ _ _ _ _ E2 R1) as [N2 [M2 R2]].
  destruct (next_sym_Repr _ _ _ _ _ _ E3 R2) as [N3 [M3 R3]].
  assert (EQ : roots g3 = roots g /\ wroots g3 = wroots g /\ limit g3 = limit g).
  { unfold next_sym, src_next in *. inversion E1; subst. inversion E2; subst. inversion E3; subst. auto. }
  destruct EQ as [Q1 [Q2 Q3]].
  assert (HCb : forall s, Cs s -> s < num_syms g) by (apply (rp_C _ _ _ HR)).
  destruct (add_rule_Repr g3 _ _ root [soi; inner; eoi] (process_root (RRule root)) ltac:(rewrite Q3; auto) R3)
    as [g4 [E4 [G4 R4]]].
  { lia. }
  { intro X. apply HCb in X. lia. }
  { repeat constructor; lia. }
  { repeat constructor; intro X; [apply HCb in X | apply HC in X | apply HCb in X]; lia. }
  rewrite E4. simpl. eexists. eexists. split; [reflexivity|].
  pose proof (grows_num _ _ G4) as HG.
  split; [|split; [simpl; unfold num_syms in *; simpl in *; lia | simpl; rewrite (gr_limit _ _ G4); auto]].
  assert (W4 : wroots g4 = wroots g) by (rewrite (gr_wroots _ _ G4); auto).
  constructor; simpl.
  - assert (R5 : Repr g4 (fun A r => P A r \/ In (A, r) (map wroot_rule (wroots g4 ++ [mkWrapped soi inner eoi root])))
                     (fun s => Cs s \/ num_syms g3 <= s < num_syms g4)).
    { eapply Repr_ext; [exact R4 | | tauto]. intros A r. unfold plus_rule. rewrite map_app, in_app_iff, W4. simpl.
      unfold wroot_rule at 3. simpl. split.
      - intros [[?|?]|[-> ->]]; auto.
      - intros [?|[?|[E|[]]]]; auto. inversion E; auto. }
    destruct R5 as [X1 X2 X3 X4]. constructor; [exact X1 | exact X2 | exact X3 | exact X4].
  - rewrite (gr_roots _ _ G4), Q1, HRo, map_app, W4. reflexivity.
  - rewrite map_app, W4, HI. reflexivity.
  - rewrite flat_map_app, W4. simpl. 
    apply NoDup_app. split; [auto|]. split.
    + repeat constructor; simpl; intuition lia.
    + intros x Hx. apply HF in Hx. simpl. intuition lia.
  - intros s. rewrite flat_map_app, W4, in_app_iff. simpl. intros [Hs | Hs].
    + apply HF in Hs. unfold num_syms in *; simpl in *. lia.
    + unfold num_syms in *; simpl in *. intuition lia.
  - intros s [Hs | Hs]; [auto|]. lia.
Qed.

Lemma wrap_fold_inv : forall P n0 l done g Cs,
  good_limit (limit g) -> Forall (fun s => s < n0) l -> n0 <= num_syms g ->
  wrap_inv P n0 done g Cs ->
  exists g' Cs', fold_res wrap_one l g = Ok g' /\ wrap_inv P n0 (done ++ l) g' Cs' /\ limit g' = limit g.
Proof.
  intros P n0. induction l; intros done g Cs HL HF Hn HI.
  - exists g, Cs. rewrite app_nil_r. auto.
  - inversion HF; subst.
    destruct (wrap_one_inv P n0 done g Cs a HL H1 Hn HI) as [g1 [C1 [E1 [I1 [N1 L1]]]]].
    destruct (IHl (done ++ [a]) g1 C1) as [g2 [C2 [E2 [I2 L2]]]]; auto.
    { rewrite L1; auto. }
    exists g2, C2. simpl. rewrite E1. simpl. split; auto. split; [|congruence].
    rewrite <- app_assoc in I2. exact I2.
Qed.

Lemma wrap_input_inv : forall g, closed_rules g -> Forall (fun s => s < num_syms g) (roots g) ->
  good_limit (limit g) ->
  exists g' Cs, wrap_input g = Ok g' /\ wrap_inv (prods g) (num_syms g) (roots g) g' Cs /\ limit g' = limit g.
Proof.
  intros. unfold wrap_input.
  destruct (wrap_fold_inv (prods g) (num_syms g) (roots g) []
              (mkCfg (src g) (rules g) [] [] (limit g)) (fun _ => False)) as [g' [C' [E [I L]]]]; auto.
  { constructor; simpl; auto; try tauto.
    - eapply Repr_ext; [apply (closed_Repr (mkCfg (src g) (rules g) [] [] (limit g))); exact H | |tauto].
      intros; unfold prods; simpl; tauto.
    - constructor. }
  exists g', C'. auto.
Qed.

Lemma flat_nodup_rows : forall l i j W W' x, NoDup (flat_map wsyms l) ->
  nth_error l i = Some W -> nth_error l j = Some W' -> In x (wsyms W) -> In x (wsyms W') -> i = j.
Proof.
  induction l; intros; [destruct i; discriminate|].
  cbn [flat_map] in H.
  apply NoDup_app in H. destruct H as [_ [ND DJ]].
  destruct i, j; auto; cbn [nth_error] in *.
  - inversion H0; subst. exfalso. eapply DJ; eauto. apply in_flat_map. exists W'. split; auto.
    eapply nth_error_In; eauto.
  - inversion H1; subst. exfalso. eapply DJ; eauto. apply in_flat_map. exists W. split; auto.
    eapply nth_error_In; eauto.
  - f_equal. eapply IHl; eauto.
Qed.

Lemma flat_nodup_row : forall l W, NoDup (flat_map wsyms l) -> In W l -> NoDup (wsyms W).
Proof.
  induction l; simpl; intros; [tauto|].
  change (wr_root a :: wr_start a :: wr_end a :: flat_map wsyms l) with (wsyms a ++ flat_map wsyms l) in H.
  apply NoDup_app in H. destruct H as [? [? ?]]. destruct H0; subst; auto.
Qed.

Theorem wrap_input_spec : forall g, closed_rules g -> Forall (fun s => s < num_syms g) (roots g) ->
  good_limit (limit g) ->
  exists g', wrap_input g = Ok g' /\
    roots g' = map wr_root (wroots g') /\
    map wr_inner (wroots g') = roots g /\
    (forall W, In W (wroots g') ->
       NoDup [wr_root W; wr_start W; wr_end W] /\
       num_syms g <= wr_root W /\ num_syms g <= wr_start W /\ num_syms g <= wr_end W /\
       terminal (prods g') (wr_start W) /\ terminal (prods g') (wr_end W) /\
       forall w, language (prods g') (wr_root W) w <->
                 exists v, language (prods g) (wr_inner W) v /\ w = wr_start W :: v ++ [wr_end W]) /\
    (forall s w, s < num_syms g -> (language (prods g') s w <-> language (prods g) s w)).
Proof.
  intros g HC HRo HL.
  destruct (wrap_input_inv g HC HRo HL) as [g' [Cs [E [[HR HR2 HI HND HF HCs] HLim]]]].
  exists g'. split; auto. split; auto. split; auto.
  set (V := fun A r => prods g A r \/ In (A, r) (map wroot_rule (wroots g'))) in *.
  assert (HPb : forall A r, prods g A r -> A < num_syms g /\ Forall (fun s => s < num_syms g) r).
  { intros A r [x [Hx [<- <-]]]. apply HC; auto. }
  assert (HVold : forall A r, A < num_syms g -> (V A r <-> prods g A r)).
  { intros. unfold V. split; auto. intros [?|Hin]; auto.
    apply in_map_iff in Hin. destruct Hin as [W [EW HW]]. inversion EW; subst.
    assert (num_syms g <= wr_root W < num_syms g'); [|lia].
    apply HF. apply in_flat_map. exists W; split; auto. left; auto. }
  assert (Hder : forall u w, Forall (fun s => s < num_syms g) u ->
                 (derives V u w <-> derives (prods g) u w)).
  { intros u w Hu. split.
    - intros D. revert Hu. induction D; intros; [constructor|].
      apply Forall_app in Hu as [Hu1 Hu2]. inversion Hu2; subst.
      apply HVold in H; auto. eapply derives_step; eauto. apply IHD.
      apply Forall_app; split; auto. apply Forall_app; split; auto. apply HPb in H; tauto.
    - apply derives_mono. intros; left; auto. }
  assert (Hbound : forall u w, Forall (fun s => s < num_syms g) u -> derives (prods g) u w ->
                   Forall (fun s => s < num_syms g) w).
  { intros u w Hu D. apply (derives_Forall (prods g) _ ) with (u := u); auto.
    intros. apply HPb in H; tauto. }
  assert (Hterm : forall a, a < num_syms g -> (terminal V a <-> terminal (prods g) a)).
  { intros. unfold terminal. split; intros X r Y; apply (X r); apply HVold; auto. }
  assert (Hlang : forall s w, s < num_syms g -> (language V s w <-> language (prods g) s w)).
  { intros. unfold language. rewrite Hder by auto. split; intros [D F]; split; auto;
    (assert (HB : Forall (fun s => s < num_syms g) w) by (apply (Hbound [s] w); [repeat constructor; auto | auto]));
    rewrite Forall_forall in *; intros; apply Hterm; auto. }
  pose proof (rp_rep _ _ _ HR) as Hrep.
  split.
  - intros W HW.
    assert (X1 : num_syms g <= wr_root W < num_syms g').
    { apply HF. apply in_flat_map. exists W; split; auto. left; auto. }
    assert (X2 : num_syms g <= wr_start W < num_syms g').
    { apply HF. apply in_flat_map. exists W; split; auto. right; left; auto. }
    assert (X3 : num_syms g <= wr_end W < num_syms g').
    { apply HF. apply in_flat_map. exists W; split; auto. right; right; left; auto. }
    pose proof (flat_nodup_row _ _ HND HW) as ND. unfold wsyms in ND.
    destruct (In_nth_error _ _ HW) as [i Hi].
    assert (TV : forall a, a = wr_start W \/ a = wr_end W -> terminal V a).
    { intros a Ha r [Hp | Hin].
      - apply HPb in Hp. destruct Ha; subst; lia.
      - apply in_map_iff in Hin. destruct Hin as [W' [EW HW']]. unfold wroot_rule in EW. inversion EW; subst.
        destruct (In_nth_error _ _ HW') as [j Hj].
        assert (i = j).
        { eapply (flat_nodup_rows _ i j W W' (wr_root W')); eauto.
          - destruct Ha as [E1|E1]; rewrite E1; simpl; auto.
          - simpl; auto. }
        subst j. rewrite Hi in Hj. inversion Hj; subst.
        inversion ND; subst. apply H1. destruct Ha as [E1|E1]; rewrite E1; simpl; auto. }
    assert (WV : V (wr_root W) [wr_start W; wr_inner W; wr_end W]).
    { right. apply in_map_iff. exists W; auto. }
    destruct (rep_voc _ _ _ Hrep _ _ WV) as [NC NCs].
    inversion NCs; subst. inversion H2; subst. inversion H4; subst.
    split; [exact ND|]. do 3 (split; [lia|]). split; [|split; [|intros w; split]].
    + apply (represents_terminal _ _ _ Hrep). auto.
    + apply (represents_terminal _ _ _ Hrep). auto.
    + intros Hw. rewrite (represents_language _ _ _ Hrep) in Hw by auto. destruct Hw as [D F].
      assert (Hinn : wr_inner W < num_syms g).
      { rewrite Forall_forall in HRo. apply HRo. rewrite <- HI. apply in_map; auto. }
      destruct (derives_single_inv _ _ _ D) as [-> | [r [Hr D']]].
      { inversion F; subst. exfalso. eapply H7; eauto. }
      assert (r = [wr_start W; wr_inner W; wr_end W]) as ->.
      { destruct Hr as [Hp | Hin]; [apply HPb in Hp; lia|].
        apply in_map_iff in Hin. destruct Hin as [W' [EW HW']]. inversion EW.
        destruct (In_nth_error _ _ HW') as [j Hj].
        assert (i = j).
        { eapply (flat_nodup_rows _ i j W W' (wr_root W')); eauto; simpl; auto. }
        subst j. rewrite Hi in Hj. inversion Hj; subst; auto. }
      apply derives_cons_inv in D'. destruct D' as [w1 [w2 [-> [D1 D2]]]].
      apply derives_cons_inv in D2. destruct D2 as [w3 [w4 [-> [D2 D3]]]].
      apply derives_terminal_inv in D1; [|repeat constructor; apply TV; auto].
      apply derives_terminal_inv in D3; [|repeat constructor; apply TV; auto]. subst.
      exists w3. split; auto. apply Hlang; auto. split; auto.
      apply Forall_app in F as [_ F]. apply Forall_app in F as [F _]. auto.
    + intros [v [Hv ->]]. rewrite (represents_language _ _ _ Hrep) by auto.
      assert (Hinn : wr_inner W < num_syms g).
      { rewrite Forall_forall in HRo. apply HRo. rewrite <- HI. apply in_map; auto. }
      apply Hlang in Hv; auto. destruct Hv as [D F]. split.
      * eapply derives_rule_then; [exact WV|]. apply derives_cons_same.
        apply (derives_cons V (wr_inner W) [wr_end W] v [wr_end W]); auto. constructor.
      * constructor; [apply TV; auto|]. apply Forall_app; split; auto.
  - intros s w Hs. rewrite (represents_language _ _ _ Hrep).
    + apply Hlang; auto.
    + intro X. apply HCs in X. lia.
Qed.

(** Without a limit below 3, wrap_input adds exactly one rule for each root. *)
Lemma wrap_fold_rules : forall l g g', (limit g = None \/ exists n, limit g = Some n /\ 3 <= n) ->
  fold_res wrap_one l g = Ok g' ->
  exists rs ws, rules g' = rules g ++ rs /\ wroots g' = wroots g ++ ws /\
    roots g' = roots g ++ map wr_root ws /\
    map (fun x => (lhs x, rhs x)) rs = map wroot_rule ws /\ length ws = length l.
Proof.
  induction l; intros g g' HL E.
  - simpl in E. inversion E; subst. exists [], []. simpl. rewrite !app_nil_r. auto.
  - cbn [fold_res] in E. apply bind_ok in E. destruct E as [g1 [E1 E2]].
    unfold wrap_one, next_sym, src_next in E1. cbn [fst snd src rules roots wroots limit] in E1.
    apply bind_ok in E1. destruct E1 as [g4 [E3 E4]].
    match type of E3 with add_rule ?gg ?rr = _ =>
      assert (E5 : add_rule gg rr = Ok (push_rule gg rr)) end.
    { unfold add_rule. destruct HL as [HL | [n [HL Hn]]].
      - rewrite add_rule_none; auto.
      - rewrite (add_rule_short _ _ n); auto; simpl; lia. }
    rewrite E5 in E3. inversion E3; subst g4; clear E3 E5. inversion E4; subst g1; clear E4.
    apply IHl in E2; [|exact HL]. destruct E2 as [rs [ws [R1 [R2 [R3 [R4 R5]]]]]].
    cbn in R1, R2, R3. rewrite <- app_assoc in R1, R2, R3. cbn in R1, R2, R3.
    eexists (_ :: rs), (_ :: ws). rewrite R1, R2, R3. split; [reflexivity|]. split; [reflexivity|].
    split; [reflexivity|]. cbn [map length]. rewrite R4, R5. split; reflexivity.
Qed.

Lemma cfg_is_empty_spec : forall g,
  cfg_is_empty g = true <->
  (wroots g = [] /\ rules g = []) \/
  (wroots g <> [] /\ forall x, In x (rules g) -> In (lhs x) (roots g)).
Proof.
  intros. unfold cfg_is_empty. destruct (is_nil (wroots g)) eqn:E.
  - apply is_nil_true in E. rewrite is_nil_true. split; [auto|]. intros [?|[? ?]]; tauto.
  - apply is_nil_false in E. rewrite forallb_forall. split.
    + intros. right. split; auto. intros x Hx. apply H in Hx. rewrite mem_In, sort_nat_In in Hx. auto.
    + intros [[? ?]|[_ H]]; [tauto|]. intros x Hx. rewrite mem_In, sort_nat_In. auto.
Qed.

Lemma is_empty_after_wrap : forall g g', closed_rules g ->
  Forall (fun s => s < num_syms g) (roots g) ->
  (limit g = None \/ exists n, limit g = Some n /\ 3 <= n) ->
  wrap_input g = Ok g' -> (cfg_is_empty g' = true <-> rules g = []).
Proof.
  intros g g' HC HR HL E.
  assert (HG : good_limit (limit g)).
  { destruct HL as [-> | [n [-> ?]]]; simpl; auto. lia. }
  destruct (wrap_input_spec g HC HR HG) as [g2 [E2 [R1 [R2 [R3 _]]]]].
  rewrite E in E2. inversion E2; subst g2; clear E2.
  destruct (wrap_fold_rules _ _ _ (HL : limit (mkCfg (src g) (rules g) [] [] (limit g)) = None \/ _) E)
    as [rs [ws [Q1 [Q2 [Q3 [Q4 Q5]]]]]].
  cbn in Q1, Q2, Q3. rewrite cfg_is_empty_spec. split.
  - intros [[A B] | [A B]].
    + rewrite Q1 in B. apply app_eq_nil in B. tauto.
    + destruct (rules g) as [|x l] eqn:ER; auto. exfalso.
      assert (In (lhs x) (roots g')) by (apply B; rewrite Q1; left; auto).
      rewrite R1 in H. apply in_map_iff in H. destruct H as [W [EW HW]].
      destruct (R3 W HW) as [_ [HB _]]. rewrite EW in HB.
      assert (lhs x < num_syms g) by (apply HC; rewrite ER; left; auto). lia.
  - intros ER. rewrite ER in Q1. simpl in Q1. destruct ws as [|W ws].
    + left. split; auto. rewrite Q1. destruct rs; auto. discriminate.
    + right. split; [rewrite Q2; discriminate|]. intros x Hx. rewrite Q1 in Hx.
      apply (in_map (fun x => (lhs x, rhs x))) in Hx. rewrite Q4 in Hx.
      apply in_map_iff in Hx. destruct Hx as [W' [EW HW]]. assert (EL : wr_root W' = lhs x) by (unfold wroot_rule in EW; congruence).
      rewrite Q3. rewrite <- EL. apply (in_map wr_root) in HW. exact HW.
Qed.

(** * reverse *)

Lemma prods_reverse : forall g A r, prods (cfg_reverse g) A r <-> reversed (prods g) A r.
Proof.
  intros. unfold prods, reversed, cfg_reverse. simpl. split.
  - intros [x [Hx [<- <-]]]. apply in_map_iff in Hx. destruct Hx as [y [<- Hy]]. simpl.
    exists y. rewrite rev_involutive. auto.
  - intros [x [Hx [<- E]]]. eexists. split; [apply in_map; exact Hx|]. simpl. split; auto.
    rewrite E, rev_involutive. auto.
Qed.

Lemma terminal_reversed : forall P a, terminal (reversed P) a <-> terminal P a.
Proof.
  unfold terminal, reversed. split; intros H r X; [apply (H (rev r)); rewrite rev_involutive; auto | eapply H; eauto].
Qed.

Theorem reverse_language : forall g s w,
  language (prods (cfg_reverse g)) s w <-> language (prods g) s (rev w).
Proof.
  intros. rewrite (language_ext _ _ (prods_reverse g)). unfold language.
  rewrite derives_reversed. simpl. rewrite !Forall_forall. split; intros [D F]; split; auto; intros x Hx.
  - apply (terminal_reversed (prods g)). apply F. apply in_rev; auto.
  - apply terminal_reversed. apply F. apply -> in_rev; auto.
Qed.

Theorem reverse_involutive : forall g, cfg_reverse (cfg_reverse g) = g.
Proof.
  intros. unfold cfg_reverse, set_rules. simpl. rewrite map_map. simpl.
  replace (map _ (rules g)) with (rules g); [destruct g; auto|].
  rewrite <- (map_id (rules g)) at 1. apply map_ext. intros [? ? ?]; simpl. rewrite rev_involutive; auto.
Qed.

(** * sort and dedup *)

Lemma rule_compare_eq : forall a b, rule_compare a b = Eq <-> lhs a = lhs b /\ rhs a = rhs b.
Proof.
  intros. unfold rule_compare. destruct (lhs a ?= lhs b) eqn:E.
  - apply Nat.compare_eq in E. rewrite list_compare_eq. tauto.
  - apply Nat.compare_lt_iff in E. split; [discriminate | intros [? _]; lia].
  - apply Nat.compare_gt_iff in E. split; [discriminate | intros [? _]; lia].
Qed.

Lemma rule_compare_total : forall a b, rule_compare a b = Gt -> le_cmp rule_compare b a.
Proof.
  unfold le_cmp, rule_compare. intros a b. rewrite (Nat.compare_antisym (lhs a)).
  destruct (lhs a ?= lhs b); simpl; try congruence.
  rewrite (list_compare_antisym (rhs a)). intros ->. simpl. congruence.
Qed.

Lemma rule_compare_trans : forall a b c,
  le_cmp rule_compare a b -> le_cmp rule_compare b c -> le_cmp rule_compare a c.
Proof.
  unfold le_cmp, rule_compare. intros a b c.
  destruct (lhs a ?= lhs b) eqn:E1; destruct (lhs b ?= lhs c) eqn:E2; try congruence.
  - apply Nat.compare_eq in E1, E2. rewrite E1, E2, Nat.compare_refl. apply list_compare_trans.
  - apply Nat.compare_eq in E1. rewrite E1, E2. congruence.
  - apply Nat.compare_eq in E2. rewrite <- E2, E1. congruence.
  - apply Nat.compare_lt_iff in E1, E2.
    assert (lhs a ?= lhs c = Lt) as -> by (apply Nat.compare_lt_iff; lia). congruence.
Qed.

Lemma list_compare_before : forall a b, list_compare a b = Lt <-> list_before a b.
Proof.
  induction a as [|x a IH]; intros [|y b]; cbn [list_compare].
  - split; [discriminate|]. intros [[y [q H]]|[p [x [y [q [q' [H _]]]]]]]; [discriminate|destruct p; discriminate].
  - split; auto. intros _. left. exists y, b. reflexivity.
  - split; [discriminate|]. intros [[y [q H]]|[p [z [y [q [q' [_ [H _]]]]]]]]; [discriminate|destruct p; discriminate].
  - destruct (x ?= y) eqn:E.
    + apply Nat.compare_eq in E. subst y. rewrite IH. split.
      * intros [[y [q ->]]|[p [u [v [q [q' [-> [-> H]]]]]]]]; [left; exists y, q; reflexivity|].
        right. exists (x :: p), u, v, q, q'. auto.
      * intros [[y [q H]]|[p [u [v [q [q' [H1 [H2 H]]]]]]]].
        -- injection H as ->. left. eauto.
        -- destruct p as [|z p]; [injection H1 as -> _; injection H2 as -> _; lia|]. injection H1 as _ ->. injection H2 as _ ->.
           right. exists p, u, v, q, q'. auto.
    + apply Nat.compare_lt_iff in E. split; auto. intros _. right. exists [], x, y, a, b. auto.
    + apply Nat.compare_gt_iff in E. split; [discriminate|]. intros [[z [q H]]|[p [u [v [q [q' [H1 [H2 H]]]]]]]].
      * injection H as -> _. lia.
      * destruct p as [|z p]; [injection H1 as -> _; injection H2 as -> _; lia|]. injection H1 as -> _. injection H2 as -> _. lia.
Qed.

Lemma rule_le_iff : forall a b, le_cmp rule_compare a b <-> rule_le a b.
Proof.
  intros. unfold le_cmp, rule_compare, rule_le. destruct (lhs a ?= lhs b) eqn:E.
  - apply Nat.compare_eq in E. destruct (list_compare (rhs a) (rhs b)) eqn:E2.
    + apply list_compare_eq in E2. split; [auto | congruence].
    + apply list_compare_before in E2. split; [auto | congruence].
    + split; [congruence|]. intros [?|[_ [E3|E3]]]; try lia; try congruence.
      * apply list_compare_before in E3. congruence.
      * apply list_compare_eq in E3. congruence.
  - apply Nat.compare_lt_iff in E. split; [auto | congruence].
  - apply Nat.compare_gt_iff in E. split; [congruence | intros [?|[? _]]; lia].
Qed.

Theorem sort_spec : forall g,
  Permutation (rules g) (rules (cfg_sort g)) /\ StronglySorted rule_le (rules (cfg_sort g)) /\
  (forall A r, filter (fun x => (lhs x =? A) && (if list_eq_dec Nat.eq_dec (rhs x) r then true else false)) (rules (cfg_sort g)) =
               filter (fun x => (lhs x =? A) && (if list_eq_dec Nat.eq_dec (rhs x) r then true else false)) (rules g)).
Proof.
  intros. simpl. split; [apply sort_perm|]. split.
  - assert (H : StronglySorted (le_cmp rule_compare) (sort_by rule_compare (rules g))).
    { apply sort_sorted; [apply rule_compare_total | apply rule_compare_trans]. }
    induction H; constructor; auto. eapply Forall_impl; [| exact H0]. intros; apply rule_le_iff; auto.
  - intros.
    assert (X : forall l, filter (fun x => (lhs x =? A) && (if list_eq_dec Nat.eq_dec (rhs x) r then true else false)) l =
                filter (same_as rule_compare (mkRule A r history_default)) l).
    { apply filter_ext. intros x. unfold same_as.
      destruct (rule_compare (mkRule A r history_default) x) eqn:E.
      - apply rule_compare_eq in E. simpl in E. destruct E as [<- <-]. rewrite Nat.eqb_refl. simpl.
        destruct (list_eq_dec Nat.eq_dec r r); auto.
      - destruct (lhs x =? A) eqn:E2; auto. simpl. destruct (list_eq_dec Nat.eq_dec (rhs x) r); auto.
        apply Nat.eqb_eq in E2. assert (rule_compare (mkRule A r history_default) x = Eq); [|congruence].
        apply rule_compare_eq. simpl; auto.
      - destruct (lhs x =? A) eqn:E2; auto. simpl. destruct (list_eq_dec Nat.eq_dec (rhs x) r); auto.
        apply Nat.eqb_eq in E2. assert (rule_compare (mkRule A r history_default) x = Eq); [|congruence].
        apply rule_compare_eq. simpl; auto. }
    rewrite !X. apply sort_stable. intros a b c. rewrite !rule_compare_eq. intuition congruence.
Qed.

Lemma same_key_iff : forall a b, same_key a b = true <-> lhs a = lhs b /\ rhs a = rhs b.
Proof.
  intros. unfold same_key. rewrite <- rule_compare_eq. destruct (rule_compare a b); split; intros; auto; discriminate.
Qed.

Lemma dedup_from_run : forall l x, exists run m, l = run ++ m /\
  Forall (fun y => lhs y = lhs x /\ rhs y = rhs x) run /\
  (forall y, hd_error m = Some y -> ~ (lhs y = lhs x /\ rhs y = rhs x)) /\
  dedup_rules_from x l = dedup_rules m.
Proof.
  induction l; intros.
  - exists [], []. repeat split; auto. simpl. intros; discriminate.
  - simpl. destruct (same_key x a) eqn:E.
    + apply same_key_iff in E. destruct (IHl x) as [run [m [-> [H1 [H2 H3]]]]].
      exists (a :: run), m. simpl. repeat split; auto. constructor; auto. intuition.
    + exists [], (a :: l). simpl. repeat split; auto. intros y Hy. inversion Hy; subst.
      intros [? ?]. assert (same_key x y = true); [|congruence]. apply same_key_iff; auto.
Qed.

Lemma dedup_spec : forall l, drops_repeats l (dedup_rules l).
Proof.
  intros l. remember (length l) as n. assert (length l <= n) by lia. clear Heqn.
  revert l H. induction n; intros.
  - destruct l; [constructor | simpl in H; lia].
  - destruct l as [|x l]; [constructor|]. cbn [dedup_rules].
    destruct (dedup_from_run l x) as [run [m [-> [H1 [H2 H3]]]]]. rewrite H3.
    constructor; auto. apply IHn. simpl in H. rewrite app_length in H. lia.
Qed.

Lemma drops_incl : forall l l', drops_repeats l l' -> forall x, In x l' -> In x l.
Proof.
  induction 1; simpl; auto. intros y [->|Hy]; auto. right. apply in_or_app; auto.
Qed.
Lemma drops_keys : forall l l', drops_repeats l l' ->
  forall x, In x l -> exists y, In y l' /\ lhs y = lhs x /\ rhs y = rhs x.
Proof.
  induction 1; simpl; [tauto|]. intros y [<-|Hy]; [exists x; auto|].
  apply in_app_or in Hy. destruct Hy as [Hy|Hy].
  - rewrite Forall_forall in H. apply H in Hy. exists x. intuition.
  - apply IHdrops_repeats in Hy. destruct Hy as [z [? ?]]. exists z; auto.
Qed.

Lemma drops_nodup : forall l l', drops_repeats l l' -> StronglySorted rule_le l ->
  NoDup (map (fun x => (lhs x, rhs x)) l').
Proof.
  induction 1; intros; simpl; [constructor|].
  apply StronglySorted_inv in H2. destruct H2 as [HS HF].
  assert (HS2 : StronglySorted rule_le l).
  { clear - HS. induction run; simpl in *; auto. apply StronglySorted_inv in HS. tauto. }
  apply Forall_app in HF. destruct HF as [_ HF].
  constructor; auto. intro Hin. apply in_map_iff in Hin. destruct Hin as [y [E Hy]].
  inversion E. pose proof (drops_incl _ _ H1 _ Hy) as Hyl.
  destruct l as [|z l2]; [destruct Hyl|]. specialize (H0 z eq_refl).
  inversion HF as [|? ? Hz _]; subst.
  assert (Hzy : rule_le z y).
  { destruct Hyl as [->|Hyl]. - unfold rule_le; auto.
    - apply StronglySorted_inv in HS2. destruct HS2 as [_ HS2]. rewrite Forall_forall in HS2; auto. }
  apply H0. apply rule_le_iff in Hz, Hzy.
  assert (HEq : rule_compare x z <> Gt /\ rule_compare z x <> Gt).
  { split; auto. unfold le_cmp in Hzy. unfold rule_compare in *. rewrite <- H3, <- H4. auto. }
  destruct HEq as [G1 G2].
  destruct (rule_compare z x) eqn:Ec; [apply rule_compare_eq in Ec; auto | | congruence].
  exfalso. apply G1. unfold rule_compare in *. rewrite (Nat.compare_antisym (lhs z)).
  destruct (lhs z ?= lhs x) eqn:E5; simpl; try discriminate; auto.
  rewrite (list_compare_antisym (rhs z)), Ec. auto.
Qed.

Lemma prods_perm : forall g g', Permutation (rules g) (rules g') -> forall A r, prods g A r <-> prods g' A r.
Proof.
  intros. unfold prods. split; intros [x [Hx ?]]; exists x; split; auto.
  - eapply Permutation_in; eauto.
  - eapply Permutation_in; [apply Permutation_sym|]; eauto.
Qed.

Lemma prods_dedup : forall g A r, prods (cfg_dedup g) A r <-> prods g A r.
Proof.
  intros. unfold prods; simpl. split; intros [x [Hx [E1 E2]]].
  - exists x; split; auto. eapply drops_incl; eauto using dedup_spec.
  - destruct (drops_keys _ _ (dedup_spec (rules g)) _ Hx) as [y [? [? ?]]]. exists y.
    split; auto. split; congruence.
Qed.

(** * equivalent *)

Lemma zip_eq_iff : forall a b, length a = length b ->
  (forallb (fun p => fst p =? snd p) (combine a b) = true <-> a = b).
Proof.
  induction a; destruct b; simpl; intros; try discriminate; [tauto|].
  rewrite andb_true_iff, Nat.eqb_eq, IHa by lia. split; [intros [-> ->]; auto | intros E; inversion E; auto].
Qed.

Lemma fold_and_forallb : forall {A} (f : A -> bool) l b,
  fold_left (fun e x => e && f x) l b = b && forallb f l.
Proof.
  induction l; simpl; intros; [rewrite andb_true_r; auto|]. rewrite IHl, andb_assoc. auto.
Qed.

Lemma equivalent_spec : forall g1 g2,
  Forall2 (fun a b => length (rhs a) = length (rhs b)) (rules g1) (rules g2) ->
  (equivalent g1 g2 = true <->
   map (fun x => (lhs x, rhs x)) (rules g1) = map (fun x => (lhs x, rhs x)) (rules g2)).
Proof.
  intros. unfold equivalent. rewrite fold_and_forallb. simpl.
  induction H; simpl; [tauto|]. unfold rule_zip_eq at 1. simpl.
  rewrite !andb_true_iff, IHForall2, Nat.eqb_eq, zip_eq_iff by auto. split.
  - intros [[-> ->] ->]; auto.
  - intros E; inversion E; auto.
Qed.

(** * Named rules *)

Lemma option_eqb_refl : forall {A} (eqb : A -> A -> bool) a, (forall x, eqb x x = true) -> option_eqb eqb a a = true.
Proof. destruct a; simpl; auto. Qed.
Lemma option_eqb_sym : forall {A} (eqb : A -> A -> bool) a b, (forall x y, eqb x y = eqb y x) -> option_eqb eqb a b = option_eqb eqb b a.
Proof. destruct a, b; simpl; auto. Qed.
Lemma option_eqb_eq : forall {A} (eqb : A -> A -> bool) a b, (forall x y, eqb x y = true <-> x = y) ->
  (option_eqb eqb a b = true <-> a = b).
Proof.
  destruct a, b; simpl; intros; split; intros; auto; try discriminate.
  - apply H in H0; subst; auto.
  - inversion H0; subst. apply H; auto.
Qed.

Lemma dot_eqb_eq : forall a b, dot_eqb a b = true <-> a = b.
Proof.
  intros [] []. unfold dot_eqb; simpl. rewrite !andb_true_iff, !N.eqb_eq. split.
  - intros [[[-> ->] ->] ->]; auto.
  - intros E; inversion E; auto.
Qed.
Lemma bool_eqb_eq : forall a b, Bool.eqb a b = true <-> a = b.
Proof. destruct a, b; simpl; split; intros; auto; discriminate. Qed.
Lemma seq_details_eqb_eq : forall a b, seq_details_eqb a b = true <-> a = b.
Proof.
  intros [] []. unfold seq_details_eqb; simpl.
  rewrite !andb_true_iff, bool_eqb_eq, Nat.eqb_eq, (option_eqb_eq Nat.eqb) by apply Nat.eqb_eq. split.
  - intros [[-> ->] ->]; auto.
  - intros E; inversion E; auto.
Qed.
Lemma history_eqb_eq : forall a b, history_eqb a b = true <-> a = b.
Proof.
  intros [] []. unfold history_eqb; simpl.
  rewrite !andb_true_iff, !dot_eqb_eq, N.eqb_eq, (option_eqb_eq N.eqb) by apply N.eqb_eq.
  rewrite (option_eqb_eq seq_details_eqb) by apply seq_details_eqb_eq.
  rewrite (option_eqb_eq (fun x y : nat * bool => _)).
  - split.
    + intros [[[[[[-> ->] ->] ->] ->] ->] ->]; auto.
    + intros E; inversion E; repeat split; auto.
  - intros [] []; simpl. rewrite andb_true_iff, Nat.eqb_eq, bool_eqb_eq. split.
    + intros [-> ->]; auto.
    + intros E; inversion E; auto.
Qed.

Lemma names_eq_ok : forall a b sa sb, sa < length (nr_names a) -> sb < length (nr_names b) ->
  names_eq a b sa sb = Ok (option_eqb String.eqb (name_at a sa) (name_at b sb)).
Proof.
  intros. unfold names_eq, get_ix, name_at.
  destruct (nth_error (nr_names a) sa) eqn:E1; [|apply nth_error_None in E1; lia].
  destruct (nth_error (nr_names b) sb) eqn:E2; [|apply nth_error_None in E2; lia]. reflexivity.
Qed.

Lemma names_all_ok : forall a b ra rb, Forall (fun s => s < length (nr_names a)) ra ->
  Forall (fun s => s < length (nr_names b)) rb -> length ra = length rb ->
  exists e, names_all a b (combine ra rb) = Ok e /\
    (e = true <-> map (name_at a) ra = map (name_at b) rb).
Proof.
  induction ra; destruct rb; simpl; intros Ha Hb HL; try discriminate.
  - exists true; tauto.
  - inversion Ha; subst. inversion Hb; subst. rewrite names_eq_ok by auto. simpl.
    destruct (option_eqb String.eqb (name_at a a0) (name_at b n)) eqn:E.
    + destruct (IHra rb) as [e [E2 He]]; auto. exists e. split; auto. rewrite He.
      apply (option_eqb_eq String.eqb) in E; [|apply String.eqb_eq].
      rewrite E. split; [intros ->; auto | intros X; inversion X; auto].
    + exists false. split; auto. split; [discriminate|]. intros X; inversion X.
      assert (option_eqb String.eqb (name_at a a0) (name_at b n) = true); [|congruence].
      apply (option_eqb_eq String.eqb); auto. apply String.eqb_eq.
Qed.

Theorem named_eq_spec : forall a b, named_ok a -> named_ok b ->
  exists e, named_eq a b = Ok e /\
   (e = true <->
    name_at a (nr_lhs a) = name_at b (nr_lhs b) /\
    map (name_at a) (nr_rhs a) = map (name_at b) (nr_rhs b) /\
    (forall ha hb, nr_hist a = Some ha -> nr_hist b = Some hb -> ha = hb)).
Proof.
  intros a b [A1 A2] [B1 B2]. unfold named_eq. rewrite names_eq_ok by auto. simpl.
  destruct (option_eqb String.eqb (name_at a (nr_lhs a)) (name_at b (nr_lhs b))) eqn:E; simpl.
  - apply (option_eqb_eq String.eqb) in E; [|apply String.eqb_eq].
    destruct (length (nr_rhs a) =? length (nr_rhs b)) eqn:EL; simpl.
    + apply Nat.eqb_eq in EL. destruct (names_all_ok a b _ _ A2 B2 EL) as [e2 [E2 He]]. rewrite E2. simpl.
      destruct e2; simpl.
      * eexists; split; [reflexivity|].
        destruct He as [He _]. specialize (He eq_refl).
        destruct (nr_hist a), (nr_hist b).
        -- rewrite history_eqb_eq. split.
           ++ intros ->. repeat split; auto. intros ? ? X Y; inversion X; inversion Y; congruence.
           ++ intros [_ [_ X]]. apply X; auto.
        -- split; auto. repeat split; auto. intros; discriminate.
        -- split; auto. repeat split; auto. intros; discriminate.
        -- split; auto. repeat split; auto. intros; discriminate.
      * eexists; split; [reflexivity|]. split; [discriminate|]. intros [_ [X _]]. apply He in X. discriminate.
    + exists false; split; auto. split; [discriminate|]. intros [_ [X _]].
      apply (f_equal (@length (option string))) in X. rewrite !map_length in X. apply Nat.eqb_neq in EL. lia.
  - exists false; split; auto. split; [discriminate|]. intros [X _].
    assert (option_eqb String.eqb (name_at a (nr_lhs a)) (name_at b (nr_lhs b)) = true); [|congruence].
    apply (option_eqb_eq String.eqb); auto. apply String.eqb_eq.
Qed.
