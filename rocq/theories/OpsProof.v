(** Every operation keeps a grammar closed and uses only its own symbols, its arguments and new symbols. *)

From Coq Require Import List Arith NArith Bool Lia String Permutation.
From Verif Require Import Base ListFacts Spec SpecSeq SpecPrec SymbolModel HistoryModel CfgModel View BitSetModel
  ClosureModel ElimModel PrecModel SeqModel MatrixModel ClassifyModel LRModel LoopModel LoopFacts RemapModel SpecRemap OpsModel.
Import ListNotations.
Local Notation length := List.length.

Ltac inv_bind E :=
  match type of E with
  | bind ?e _ = Ok _ => let x := fresh "x" in let H := fresh "Q" in
      destruct e as [x| |] eqn:H; [|discriminate E|discriminate E]; cbn [bind] in E
  end.

Lemma closed_in_cfg : forall g, closed g <-> forall s, in_cfg g s -> s < num_syms g.
Proof.
  intros g. split.
  - intros [H1 [H2 H3]] s [[r [Hr [->|Hs]]]|[Hs|[W [HW Hs]]]].
    + apply H1; auto.
    + destruct (H1 r Hr) as [_ H]. rewrite Forall_forall in H. auto.
    + rewrite Forall_forall in H2. auto.
    + rewrite Forall_forall in H3. destruct (H3 W HW) as [A [B [C D]]]. destruct Hs as [->|[->|[->| ->]]]; auto.
  - intros H. split; [|split].
    + intros r Hr. split; [apply H; left; exists r; split; auto; left; auto|].
      apply Forall_forall. intros s Hs. apply H. left. exists r. split; auto. right; auto.
    + apply Forall_forall. intros s Hs. apply H. right; left; auto.
    + apply Forall_forall. intros W HW. repeat split; apply H; right; right; exists W; split; auto; unfold in_wrapped; auto.
Qed.

Section Ops.
  Variable debug : bool.
  Variable P : nat -> Prop.
  Variable n0 : nat.
  Variable names0 : list (option string).
  Hypothesis HP : forall s, P s -> s < n0.

  (** A symbol that may be used: an old one in [P], or a new one. *)
  Definition fine (g : cfg) (s : nat) : Prop := (P s \/ n0 <= s) /\ s < num_syms g.
  Definition issued (g : cfg) : Prop :=
    exists l, names (src g) = names0 ++ l /\ num_syms g = n0 + length l.
  Definition inv (g : cfg) : Prop := issued g /\ forall s, in_cfg g s -> fine g s.

  Lemma issued_le : forall g, issued g -> n0 <= num_syms g.
  Proof. intros g [l [_ H]]. lia. Qed.

  Lemma fine_P : forall g s, issued g -> P s -> fine g s.
  Proof. intros g s HI H. split; auto. apply HP in H. apply issued_le in HI. lia. Qed.

  Lemma fine_le : forall g g' s, num_syms g <= num_syms g' -> fine g s -> fine g' s.
  Proof. intros g g' s H [A B]. split; auto. lia. Qed.
  Lemma fine_le_all : forall g g' l, num_syms g <= num_syms g' -> Forall (fine g) l -> Forall (fine g') l.
  Proof. intros g g' l H. apply Forall_impl. intros a. apply fine_le. auto. Qed.

  Lemma inv_src : forall g g', src g' = src g -> (forall s, in_cfg g' s -> in_cfg g s) -> inv g -> inv g'.
  Proof.
    intros g g' HS HI [HN HF]. assert (HE : num_syms g' = num_syms g) by (unfold num_syms; rewrite HS; auto). split.
    - destruct HN as [l [A B]]. exists l. rewrite HS, HE. auto.
    - intros s Hs. apply HI in Hs. apply HF in Hs. eapply fine_le; [|exact Hs]. lia.
  Qed.

  Lemma inv_rules : forall g l, inv g -> (forall r, In r l -> forall s, in_rule r s -> in_cfg g s) -> inv (set_rules g l).
  Proof.
    intros g l HI HL. apply (inv_src g); auto. intros s [[r [Hr Hs]]|[Hs|Hs]].
    - eapply HL; eauto.
    - right; left; auto.
    - right; right; auto.
  Qed.

  Lemma inv_sub : forall g l, inv g -> incl l (rules g) -> inv (set_rules g l).
  Proof. intros g l HI HL. apply inv_rules; auto. intros r Hr s Hs. left. exists r. auto. Qed.

  Lemma next_inv : forall g name s g', inv g -> next_sym g name = (s, g') ->
    inv g' /\ fine g' s /\ num_syms g' = S (num_syms g) /\ limit g' = limit g /\ roots g' = roots g /\ wroots g' = wroots g.
  Proof.
    intros g name s g' [[l [HN1 HN2]] HF] E. unfold next_sym, src_next in E. inversion E; subst s g'; clear E.
    unfold num_syms in *. cbn [src num].
    assert (HI : issued (mkCfg (mkSrc (S (num (src g))) (names (src g) ++ [name])) (rules g) (roots g) (wroots g) (limit g))).
    { exists (l ++ [name]). unfold num_syms. cbn [src num names]. rewrite HN1, app_assoc, app_length. split; auto. simpl. lia. }
    split; [|split]; auto.
    - split; auto. intros s Hs. assert (HS : in_cfg g s) by exact Hs. apply HF in HS.
      destruct HS as [A B]. split; auto. unfold num_syms in *. cbn [src num]. lia.
    - split; [right|]; unfold num_syms; cbn [src num]; lia.
  Qed.

  Lemma push_inv : forall g r, inv g -> fine g (lhs r) -> Forall (fine g) (rhs r) -> inv (push_rule g r).
  Proof.
    intros g r [HN HF] Hl Hr. split.
    - destruct HN as [l [A B]]. exists l. auto.
    - intros s [[x [Hx Hs]]|Hs].
      + cbn [rules push_rule set_rules] in Hx. apply in_app_or in Hx. destruct Hx as [Hx|[<-|[]]].
        * apply HF. left. eauto.
        * destruct Hs as [->|Hs]; auto. rewrite Forall_forall in Hr. apply Hr. auto.
      + apply HF. right. exact Hs.
  Qed.

  Lemma split_inv : forall fuel r l parts rest g k g', inv g -> fine g (lhs r) -> Forall (fine g) rest ->
    split_loop fuel r l parts rest g = Ok (k, g') ->
    inv g' /\ num_syms g <= num_syms g' /\ roots g' = roots g /\ wroots g' = wroots g.
  Proof.
    induction fuel as [|fuel IH]; intros r l parts rest g k g' HI Hl Hr E; cbn [split_loop] in E.
    - destruct (is_nil rest); inversion E; subst. auto.
    - destruct (is_nil rest) eqn:Nr; [inversion E; subst; auto|].
      set (ti := length rest - l) in *. destruct (is_nil (firstn ti rest)) eqn:Nf.
      + apply IH in E; [exact E| | |].
        * apply push_inv; auto. cbn [rhs]. apply Forall_forall. intros s Hs. apply in_rev in Hs.
          rewrite Forall_forall in Hr. apply Hr. rewrite <- (firstn_skipn ti rest). apply in_or_app. auto.
        * exact Hl.
        * destruct (firstn ti rest); [constructor|discriminate].
      + destruct (next_sym g None) as [s g1] eqn:En. destruct (next_inv g None s g1 HI En) as [I1 [Fs [N1 [L1 [R1 W1]]]]].
        apply IH in E; [destruct E as [E1 [E2 [E3 E4]]]; split; [exact E1|] | | |].
        * change (num_syms (push_rule g1 _)) with (num_syms g1) in E2. cbn [roots wroots push_rule set_rules] in E3, E4.
          split; [lia|]. split; congruence.
        * apply push_inv; auto. cbn [rhs]. apply Forall_forall. intros x Hx. apply in_rev in Hx.
          rewrite Forall_forall in Hr. apply (fine_le g); [lia|]. apply Hr. rewrite <- (firstn_skipn ti rest). apply in_or_app. auto.
        * apply (fine_le g); [|auto]. change (num_syms (push_rule g1 _)) with (num_syms g1). lia.
        * apply Forall_app. split; [|constructor; [exact Fs|constructor]].
          apply Forall_forall. intros x Hx. rewrite Forall_forall in Hr. apply (fine_le g).
          -- change (num_syms (push_rule g1 _)) with (num_syms g1). lia.
          -- apply Hr. rewrite <- (firstn_skipn ti rest). apply in_or_app. auto.
  Qed.

  Lemma add_inv : forall g r g', inv g -> fine g (lhs r) -> Forall (fine g) (rhs r) -> add_rule g r = Ok g' ->
    inv g' /\ num_syms g <= num_syms g' /\ roots g' = roots g /\ wroots g' = wroots g.
  Proof.
    intros g r g' HI Hl Hr E. unfold add_rule, add_rule_parts, add_rule_fuel in E.
    assert (HPush : Ok (push_rule g r) = Ok g' -> inv g' /\ num_syms g <= num_syms g' /\ roots g' = roots g /\ wroots g' = wroots g).
    { intros X. inversion X; subst. split; [apply push_inv; auto|]. auto. }
    destruct (limit g) as [l|]; cbn [bind] in E; auto.
    destruct (length (rhs r) <? l); cbn [bind] in E; auto.
    destruct (split_loop (length (rhs r)) r l 0 (rev (rhs r)) g) as [[k g1]| |] eqn:Es; cbn [bind] in E; try discriminate.
    inversion E; subst g1. eapply split_inv; [exact HI|exact Hl| |exact Es]. apply Forall_rev. auto.
  Qed.

  Lemma adds_inv : forall l g g', inv g -> Forall (fun r => fine g (lhs r) /\ Forall (fine g) (rhs r)) l ->
    fold_res add_rule l g = Ok g' -> inv g' /\ num_syms g <= num_syms g' /\ roots g' = roots g /\ wroots g' = wroots g.
  Proof.
    induction l as [|r l IH]; intros g g' HI HF E; cbn [fold_res] in E.
    - inversion E; subst. auto.
    - inversion HF as [|? ? [A B] HF']; subst. inv_bind E. destruct (add_inv g r x HI A B Q) as [I1 [N1 [R1 W1]]].
      destruct (IH x g' I1) as [I2 [N2 [R2 W2]]]; auto.
      + eapply Forall_impl; [|exact HF']. intros y [C D]. split; [eapply fine_le; eauto|eapply fine_le_all; eauto].
      + split; auto. split; [lia|]. split; congruence.
  Qed.

  Lemma rules_fine : forall g r, inv g -> In r (rules g) -> fine g (lhs r) /\ Forall (fine g) (rhs r).
  Proof.
    intros g r [_ HF] Hr. split.
    - apply HF. left. exists r. split; auto. left; auto.
    - apply Forall_forall. intros s Hs. apply HF. left. exists r. split; auto. right; auto.
  Qed.

  (** * The operations *)

  Lemma limit_inv : forall g lim g', inv g -> limit_rhs_len g lim = Ok g' ->
    inv g' /\ num_syms g <= num_syms g' /\ roots g' = roots g /\ wroots g' = wroots g.
  Proof.
    intros g lim g' HI E. unfold limit_rhs_len in E.
    set (g0 := mkCfg (src g) [] (roots g) (wroots g) lim) in E.
    assert (I0 : inv g0).
    { apply (inv_src g); auto. intros s [[r [[] _]]|H]. right. exact H. }
    apply adds_inv in E; auto. apply Forall_forall. intros r Hr. exact (rules_fine g r HI Hr).
  Qed.

  Lemma roots_inv : forall g l, inv g -> Forall (fine g) l -> inv (set_roots g l).
  Proof.
    intros g l [HN HF] HL. split; [exact HN|]. intros s [H|[H|H]].
    - apply HF. left. exact H.
    - cbn [roots set_roots] in H. rewrite Forall_forall in HL. apply HL. auto.
    - apply HF. right; right. exact H.
  Qed.

  Lemma wroots_inv : forall g l, inv g -> (forall W s, In W l -> in_wrapped W s -> fine g s) -> inv (set_wrapped_roots g l).
  Proof.
    intros g l [HN HF] HL. split; [exact HN|]. intros s [H|[H|[W [HW Hs]]]].
    - apply HF. left. exact H.
    - apply HF. right; left. exact H.
    - exact (HL W s HW Hs).
  Qed.

  Lemma wrap_one_inv : forall g i g', inv g -> fine g i -> wrap_one g i = Ok g' -> inv g' /\ num_syms g <= num_syms g'.
  Proof.
    intros g i g' HI Fi E. unfold wrap_one in E.
    destruct (next_sym g (nm "root")) as [root g1] eqn:E1. destruct (next_inv g _ _ _ HI E1) as [I1 [F1 [N1 _]]].
    destruct (next_sym g1 (nm "start_of_input")) as [soi g2] eqn:E2. destruct (next_inv g1 _ _ _ I1 E2) as [I2 [F2 [N2 _]]].
    destruct (next_sym g2 (nm "end_of_input")) as [eoi g3] eqn:E3. destruct (next_inv g2 _ _ _ I2 E3) as [I3 [F3 [N3 _]]].
    inv_bind E. rename x into g4. inversion E; subst g'; clear E.
    assert (G1 : fine g3 root) by (apply (fine_le g1); auto; lia).
    assert (G2 : fine g3 soi) by (apply (fine_le g2); auto; lia).
    assert (G3 : fine g3 i) by (apply (fine_le g); auto; lia).
    pose proof (add_inv g3 (mkRule root [soi; i; eoi] (process_root (RRule root))) g4 I3 G1) as HA. cbn [rhs] in HA.
    destruct HA as [I4 [N4 [R4 W4]]]; auto.
    change (num_syms (mkCfg (src g4) (rules g4) (roots g4 ++ [root]) (wroots g4 ++ [mkWrapped soi i eoi root]) (limit g4)))
      with (num_syms g4).
    split; [|lia].
    change (inv (set_wrapped_roots (set_roots g4 (roots g4 ++ [root])) (wroots g4 ++ [mkWrapped soi i eoi root]))).
    assert (K : forall s, fine g3 s -> fine g4 s) by (intros s; apply fine_le; auto).
    apply wroots_inv.
    - apply roots_inv; auto. apply Forall_app. split; [|constructor; [apply K; auto|constructor]].
      apply Forall_forall. intros s Hs. apply I4. right; left. auto.
    - intros W s HW Hs. change (fine (set_roots g4 (roots g4 ++ [root])) s) with (fine g4 s). apply in_app_or in HW. destruct HW as [HW|[<-|[]]].
      + apply I4. right; right. exists W. auto.
      + destruct Hs as [->|[->|[->| ->]]]; cbn; apply K; auto.
  Qed.

  Lemma wrap_inv : forall g g', inv g -> wrap_input g = Ok g' -> inv g'.
  Proof.
    intros g g' HI E. unfold wrap_input in E.
    assert (HR : Forall (fine g) (roots g)).
    { apply Forall_forall. intros s Hs. apply HI. right; left; auto. }
    assert (I0 : inv (mkCfg (src g) (rules g) [] [] (limit g))).
    { apply (inv_src g); auto. intros s [H|[[]|[W [[] _]]]]. left. exact H. }
    change (Forall (fine (mkCfg (src g) (rules g) [] [] (limit g))) (roots g)) in HR.
    remember (mkCfg (src g) (rules g) [] [] (limit g)) as g0 eqn:X. clear X HI.
    revert g0 HR I0 E. induction (roots g) as [|i l IH]; intros g0 HR I0 E; cbn [fold_res] in E.
    - inversion E; subst; auto.
    - inv_bind E. inversion HR; subst. destruct (wrap_one_inv g0 i x I0) as [I1 N1]; auto.
      apply (IH x); auto. eapply fine_le_all; eauto.
  Qed.

  (** Rule builder *)
  Lemma rules_inv : forall calls b b', inv (b_cfg b) ->
    (forall l, b_lhs b = Some l -> fine (b_cfg b) l) ->
    (forall s, given (OpRules calls) s -> P s) ->
    fold_res builder_call calls b = Ok b' -> inv (b_cfg b').
  Proof.
    induction calls as [|c calls IH]; intros b b' HI HL HG E; cbn [fold_res] in E.
    - inversion E; subst; auto.
    - inv_bind E. rename x into b1.
      assert (HG1 : forall s, given (OpRules calls) s -> P s).
      { intros s [c' [Hc' Hs]]. apply HG. exists c'. split; [right|]; auto. }
      assert (HGc : forall s, match c with BRule l => s = l | BHistory _ => False | BRhs r | BRhsHistory r _ | BRhsLinked r _ => In s r end -> fine (b_cfg b) s).
      { intros s Hs. apply fine_P; [apply HI|]. apply HG. exists c. split; [left|]; auto. }
      assert (HR : forall b0 r h, b_cfg b0 = b_cfg b -> b_lhs b0 = b_lhs b -> Forall (fine (b_cfg b)) r ->
                builder_rhs_with_history b0 r h = Ok b1 -> inv (b_cfg b1) /\ forall l, b_lhs b1 = Some l -> fine (b_cfg b1) l).
      { intros b0 r h E1 E2 Hr E3. unfold builder_rhs_with_history in E3. rewrite E2 in E3.
        destruct (b_lhs b) as [l|] eqn:El; [|discriminate]. inv_bind E3. inversion E3; subst b1; clear E3. cbn [b_cfg b_lhs].
        rewrite E1 in Q0.
        pose proof (add_inv (b_cfg b) (mkRule l r h) x HI (HL l eq_refl) Hr Q0) as [I1 [N1 _]]. split; auto.
        intros l0 X. try rewrite E2 in X. inversion X; subst. eapply fine_le; eauto. }
      assert (HB : inv (b_cfg b1) /\ forall l, b_lhs b1 = Some l -> fine (b_cfg b1) l).
      { destruct c as [l|h|r|r h|r node]; cbn [builder_call] in Q.
        - inversion Q; subst b1. cbn [b_cfg b_lhs]. split; auto. intros l0 X. inversion X; subst. apply HGc. auto.
        - inversion Q; subst b1. cbn [b_cfg b_lhs]. split; auto.
        - assert (Hr : Forall (fine (b_cfg b)) r) by (apply Forall_forall; intros; apply HGc; auto).
          destruct (b_hist b) as [h|].
          + apply (HR _ r h) in Q; auto.
          + destruct (b_lhs b) as [l|] eqn:El; [|discriminate]. rewrite <- El in *. apply (HR b r (process_root (RRule l))) in Q; auto.
        - assert (Hr : Forall (fine (b_cfg b)) r) by (apply Forall_forall; intros; apply HGc; auto).
          apply (HR b r h) in Q; auto.
        - assert (Hr : Forall (fine (b_cfg b)) r) by (apply Forall_forall; intros; apply HGc; auto).
          destruct (b_lhs b) as [l|] eqn:El; [|discriminate]. rewrite <- El in *. inv_bind Q.
          apply (HR b r x) in Q; auto. }
      destruct HB as [I1 L1]. apply (IH b1 b'); auto.
  Qed.

  (** Precedence builder *)
  Record pinv (b : prec_builder) : Prop := {
    pi_cfg : inv (pb_cfg b);
    pi_lhs : fine (pb_cfg b) (pb_lhs b);
    pi_tight : fine (pb_cfg b) (pb_tighter b);
    pi_cur : fine (pb_cfg b) (pb_current b);
    pi_group : Forall (fun r => fine (pb_cfg b) (lhs r) /\ Forall (fine (pb_cfg b)) (rhs r)) (pb_group b)
  }.

  Lemma replace_fine : forall (Q : nat -> Prop) l cur tight syms, Q cur -> Q tight -> Forall Q syms ->
    Forall Q (replace_leftmost l cur tight syms).
  Proof.
    intros Q l cur tight syms HC HT. induction syms as [|s syms IH]; intros HF; cbn [replace_leftmost]; auto.
    inversion HF; subst. destruct (s =? l); constructor; auto.
    apply Forall_forall. intros x Hx. apply in_map_iff in Hx. destruct Hx as [y [<- Hy]]. destruct (y =? l); auto.
    rewrite Forall_forall in H2. auto.
  Qed.

  Lemma group_le : forall g g' l, num_syms g <= num_syms g' ->
    Forall (fun r => fine g (lhs r) /\ Forall (fine g) (rhs r)) l ->
    Forall (fun r => fine g' (lhs r) /\ Forall (fine g') (rhs r)) l.
  Proof. intros g g' l H. apply Forall_impl. intros r [A B]. split; [eapply fine_le; eauto|eapply fine_le_all; eauto]. Qed.

  Lemma prec_rhs_inv : forall b syms h b', pinv b -> Forall (fine (pb_cfg b)) syms ->
    prec_rhs_with_history b syms h = Ok b' -> pinv b'.
  Proof.
    intros b syms h b' [I1 I2 I3 I4 I5] HS E. unfold prec_rhs_with_history in E. inv_bind E. rename x into h'.
    assert (HA : forall syms', Forall (fine (pb_cfg b)) syms' ->
              (do g <- add_rule (pb_cfg b) (mkRule (pb_current b) syms' h');
               Ok (mkPrec g (pb_lhs b) (pb_tighter b) (pb_current b) None default_assoc (pb_loose b) (pb_group b))) = Ok b' -> pinv b').
    { intros syms' HS' E'. inv_bind E'. inversion E'; subst b'; clear E'.
      destruct (add_inv _ (mkRule (pb_current b) syms' h') x I1 I4 HS' Q0) as [A [B _]].
      constructor; cbn; auto; try (eapply fine_le; eauto). eapply group_le; eauto. }
    destruct (pb_assoc b).
    - apply (HA _ (replace_fine _ _ _ _ _ I4 I3 HS) E).
    - refine (HA _ _ E). unfold replace_rightmost. apply Forall_rev. apply replace_fine; auto. apply Forall_rev. auto.
    - inversion E; subst b'. constructor; cbn; auto. apply Forall_app. split; auto.
  Qed.

  Lemma prec_steps_inv : forall calls b b', pinv b -> (forall s, given (OpPrecedence (pb_lhs b) calls) s -> P s) ->
    fold_res prec_step calls b = Ok b' -> pinv b'.
  Proof.
    induction calls as [|c calls IH]; intros b b' HI HG E; cbn [fold_res] in E.
    - inversion E; subst; auto.
    - inv_bind E. rename x into b1.
      assert (HL : pb_lhs b1 = pb_lhs b).
      { destruct c; cbn [prec_step] in Q; try (inversion Q; subst b1; reflexivity).
        - unfold prec_rhs_with_history in Q. inv_bind Q. destruct (pb_assoc b); try (inv_bind Q); inversion Q; subst b1; reflexivity.
        - unfold prec_rhs_with_history in Q. inv_bind Q. destruct (pb_assoc b); try (inv_bind Q); inversion Q; subst b1; reflexivity.
        - destruct (next_sym (pb_cfg b) None). inv_bind Q. inversion Q; subst b1; reflexivity. }
      assert (HG1 : forall s, given (OpPrecedence (pb_lhs b1) calls) s -> P s).
      { rewrite HL. intros s [->|[c' [Hc' Hs]]]; apply HG; [left; auto|]. right. exists c'. split; [right|]; auto. }
      apply (IH b1 b'); auto. clear IH HG1 HL E.
      assert (HGc : forall l, (forall s, In s l -> match c with PRhs l | PRhsHistory l _ => In s l | _ => False end) -> Forall (fine (pb_cfg b)) l).
      { intros l Hl. apply Forall_forall. intros s Hs. apply fine_P; [apply (pi_cfg _ HI)|]. apply HG. right. exists c.
        split; [left; auto|]. apply Hl in Hs. destruct c; auto. }
      destruct c as [h|syms|syms h|a|]; cbn [prec_step] in Q.
      + inversion Q; subst b1. destruct HI. constructor; auto.
      + eapply prec_rhs_inv; [exact HI| |exact Q]. apply HGc. auto.
      + eapply prec_rhs_inv; [exact HI| |exact Q]. apply HGc. auto.
      + inversion Q; subst b1. destruct HI. constructor; auto.
      + destruct HI as [I1 I2 I3 I4 I5]. destruct (next_sym (pb_cfg b) None) as [cur g1] eqn:En.
        destruct (next_inv _ _ _ _ I1 En) as [J1 [J2 [J3 _]]]. inv_bind Q. inversion Q; subst b1; clear Q.
        assert (K : fine g1 (pb_current b)) by (apply (fine_le (pb_cfg b)); auto; lia).
        destruct (add_inv g1 (mkRule cur [pb_current b] (process_root RNoOp)) x J1 J2 (Forall_cons _ K (Forall_nil _)) Q0) as [A [B _]].
        constructor; cbn; auto.
        * apply (fine_le (pb_cfg b)); auto; lia.
        * apply (fine_le (pb_cfg b)); auto; lia.
        * apply (fine_le g1); auto.
        * apply (group_le (pb_cfg b)); auto. lia.
  Qed.

  Lemma prec_inv : forall g E calls g', inv g -> (forall s, given (OpPrecedence E calls) s -> P s) ->
    prec_build g E calls = Ok g' -> inv g'.
  Proof.
    intros g E calls g' HI HG H. unfold prec_build in H. inv_bind H. rename x into b.
    assert (HB : pinv (prec_new g E)).
    { unfold prec_new. destruct (next_sym g None) as [s g1] eqn:En. destruct (next_inv _ _ _ _ HI En) as [J1 [J2 [J3 _]]].
      constructor; cbn; auto. apply fine_P; [apply J1|]. apply HG. left; auto. }
    assert (HL : pb_lhs (prec_new g E) = E) by (unfold prec_new; destruct (next_sym g None); reflexivity).
    apply prec_steps_inv in Q; auto. destruct Q as [I1 I2 I3 I4 I5].
    unfold prec_finalize in H. inv_bind H. rename x into g1.
    assert (K : inv g1 /\ num_syms (pb_cfg b) <= num_syms g1).
    { clear H. set (f := fun x => if x =? pb_lhs b then pb_current b else x) in *.
      assert (HF : forall l g0 g2, inv g0 -> num_syms (pb_cfg b) <= num_syms g0 ->
                Forall (fun r => fine (pb_cfg b) (lhs r) /\ Forall (fine (pb_cfg b)) (rhs r)) l ->
                fold_res (fun g r => add_rule g (mkRule (lhs r) (map f (rhs r)) (hist r))) l g0 = Ok g2 ->
                inv g2 /\ num_syms (pb_cfg b) <= num_syms g2).
      { induction l as [|r l IH]; intros g0 g2 J1 J2 J3 J4; cbn [fold_res] in J4.
        - inversion J4; subst; auto.
        - inversion J3 as [|? ? [A B] C]; subst. inv_bind J4.
          assert (M : Forall (fine g0) (map f (rhs r))).
          { apply Forall_forall. intros s Hs. apply in_map_iff in Hs. destruct Hs as [t [<- Ht]]. apply (fine_le (pb_cfg b)); auto.
            unfold f. destruct (t =? pb_lhs b); auto. rewrite Forall_forall in B. auto. }
          destruct (add_inv g0 (mkRule (lhs r) (map f (rhs r)) (hist r)) x J1 (fine_le _ _ _ J2 A) M Q0) as [D1 [D2 _]].
          apply (IH x g2); auto. lia. }
      apply (HF _ _ _ I1 (le_n _) I5 Q). }
    destruct K as [K1 K2].
    refine (proj1 (add_inv g1 _ g' K1 _ _ H)); cbn [lhs rhs].
    - eapply fine_le; eauto.
    - constructor; [|constructor]. eapply fine_le; eauto.
  Qed.
  (** Sequences *)
  Definition sep_fine (g : cfg) (sep : separator) : Prop := forall s, in_separator sep s -> fine g s.
  Definition seq_fine (g : cfg) (q : sequence) : Prop :=
    fine g (sq_lhs q) /\ fine g (sq_rhs q) /\ sep_fine g (sq_sep q).
  Record sinv (st : seq_state) : Prop := {
    si_cfg : inv (ss_cfg st);
    si_stack : Forall (seq_fine (ss_cfg st)) (ss_stack st);
    si_map : Forall (fun p => fine (ss_cfg st) (snd p)) (ss_map st)
  }.
  Definition later (st st' : seq_state) : Prop := num_syms (ss_cfg st) <= num_syms (ss_cfg st').

  Lemma seq_fine_le : forall g g' q, num_syms g <= num_syms g' -> seq_fine g q -> seq_fine g' q.
  Proof.
    intros g g' q H [A [B C]]. split; [eapply fine_le; eauto|]. split; [eapply fine_le; eauto|].
    intros s Hs. eapply fine_le; eauto.
  Qed.

  Lemma lookup_fine : forall (Q : nat -> Prop) m k l, Forall (fun p => Q (snd p)) m -> key_lookup m k = Some l -> Q l.
  Proof.
    induction m as [|[k' s] m IH]; intros k l HF E; cbn [key_lookup] in E; [discriminate|].
    inversion HF; subst. destruct (key_eqb k' k); [inversion E; subst; auto|]. eapply IH; eauto.
  Qed.

  Lemma recurse_inv : forall st q l st', sinv st -> fine (ss_cfg st) (sq_rhs q) -> sep_fine (ss_cfg st) (sq_sep q) ->
    seq_recurse st q = (l, st') -> sinv st' /\ later st st' /\ fine (ss_cfg st') l.
  Proof.
    intros st q l st' [I1 I2 I3] HR HS E. unfold seq_recurse in E.
    destruct (key_lookup (ss_map st) (key_of q)) as [l0|] eqn:El.
    - inversion E; subst. split; [constructor; auto|]. split; [unfold later; auto|].
      eapply (lookup_fine (fine (ss_cfg st'))); eauto.
    - destruct (next_sym (ss_cfg st) None) as [l1 g] eqn:En. inversion E; subst; clear E.
      destruct (next_inv _ _ _ _ I1 En) as [J1 [J2 [J3 _]]].
      assert (HLe : num_syms (ss_cfg st) <= num_syms g) by lia.
      split; [|split; [exact HLe|exact J2]]. constructor; cbn [ss_cfg ss_stack ss_map]; auto.
      + constructor.
        * split; [exact J2|]. split; [exact (fine_le _ _ _ HLe HR)|]. intros s Hs. exact (fine_le _ _ _ HLe (HS s Hs)).
        * eapply Forall_impl; [|exact I2]. intros a. apply seq_fine_le. auto.
      + constructor; [exact J2|]. eapply Forall_impl; [|exact I3]. intros a. apply fine_le. auto.
  Qed.

  Lemma seq_rhs_inv : forall h l st r st', sinv st -> fine (ss_cfg st) l -> Forall (fine (ss_cfg st)) r ->
    seq_rhs h l st r = Ok st' -> sinv st' /\ later st st'.
  Proof.
    intros h l st r st' [I1 I2 I3] HL HR E. unfold seq_rhs in E. destruct (negb (length r <=? 3)); [discriminate|].
    inv_bind E. inv_bind E. inversion E; subst st'; clear E. unfold rule_history_rhs in Q0.
    destruct (add_inv (ss_cfg st) (mkRule l r x) x0 I1 HL HR Q0) as [J1 [J2 _]].
    split; [|exact J2]. constructor; cbn [ss_cfg ss_stack ss_map]; auto.
    - eapply Forall_impl; [|exact I2]. intros a. apply seq_fine_le. auto.
    - eapply Forall_impl; [|exact I3]. intros a. apply fine_le. auto.
  Qed.

  (** Goes through the recursive calls and rules of a branch of [seq_reduce]. *)
  Ltac fine_tac :=
    match goal with
    | H : fine (ss_cfg ?a) ?x |- fine (ss_cfg ?a) ?x => exact H
    | H : fine (ss_cfg ?a) ?x |- fine (ss_cfg ?b) ?x => apply (fine_le (ss_cfg a)); [unfold later in *; lia|exact H]
    end.
  Ltac sep_tac := let s := fresh "s" in let Hs := fresh "Hs" in
    intros s Hs; cbn in Hs; first [contradiction | subst s; fine_tac].
  Ltac seq_step_tac E :=
    match type of E with
    | (match seq_recurse ?st ?q with _ => _ end) = Ok _ =>
        let l := fresh "sym" in let st' := fresh "st" in let R := fresh "R" in
        let I1 := fresh "I" in let I2 := fresh "L" in let I3 := fresh "F" in
        destruct (seq_recurse st q) as [l st'] eqn:R;
        apply recurse_inv in R; [destruct R as [I1 [I2 I3]] | assumption | cbn; fine_tac | cbn; try sep_tac]
    | bind (seq_rhs ?h ?l ?st ?r) _ = Ok _ =>
        let st' := fresh "st" in let R := fresh "R" in let I1 := fresh "I" in let I2 := fresh "L" in
        destruct (seq_rhs h l st r) as [st'| |] eqn:R; [|discriminate E|discriminate E]; cbn [bind] in E;
        apply seq_rhs_inv in R; [destruct R as [I1 I2] | assumption | fine_tac | repeat (constructor; try fine_tac)]
    | seq_rhs ?h ?l ?st ?r = Ok _ =>
        apply seq_rhs_inv in E; [exact (proj1 E) | assumption | fine_tac | repeat (constructor; try fine_tac)]
    end.

  Lemma reduce_inv : forall h st q st', sinv st -> seq_fine (ss_cfg st) q -> seq_reduce debug h st q = Ok st' -> sinv st'.
  Proof.
    intros h st q st' HI [HL [HR HS]] E. unfold seq_reduce in E. destruct q as [l x start end_ sep hs]. cbn [sq_lhs sq_rhs sq_start sq_end sq_sep] in *.
    set (q := mkSeq l x start end_ sep hs) in *.
    assert (HT : sep_fine (ss_cfg st) sep) by exact HS. clear HS. unfold sep_fine in HT.
    destruct sep as [t|t|t|]; cbn [sq_sep q] in *.
    all: try (assert (HS : fine (ss_cfg st) t) by (apply HT; reflexivity)); clear HT.
    3: repeat seq_step_tac E.
    all: destruct (start =? 0)%N; [destruct end_ as [[|e]|]; repeat seq_step_tac E|].
    1: repeat seq_step_tac E.
    all: destruct (start =? 1)%N.
    1, 3: destruct end_ as [[|[e|[e|e|]|]]|]; repeat first [seq_step_tac E | inv_bind E].
    all: destruct ((start =? 2)%N && option_eqb N.eqb end_ (Some 2%N)); [repeat seq_step_tac E|].
    all: inv_bind E; destruct x0 as [q1 q2].
    all: assert (HQ : sq_rhs q1 = x /\ sq_rhs q2 = x)
      by (destruct (option_eqb N.eqb (Some start) end_); repeat inv_bind Q; inversion Q; subst; split; reflexivity).
    all: destruct HQ as [HQ1 HQ2].
    all: destruct (seq_recurse st _) as [r1 st1] eqn:R1; apply recurse_inv in R1;
         [destruct R1 as [I1 [L1 F1]] | assumption | cbn; rewrite HQ1; fine_tac | cbn; try sep_tac].
    all: destruct (seq_recurse st1 _) as [r2 st2] eqn:R2; apply recurse_inv in R2;
         [destruct R2 as [I2 [L2 F2]] | assumption | cbn; rewrite HQ2; fine_tac | cbn; try sep_tac].
    all: seq_step_tac E.
  Qed.

  Lemma seq_loop_inv : forall h p st st', sinv st -> run_loop (seq_step debug h) p st = Ok st' -> sinv st'.
  Proof.
    intros h p st st' HI E. unfold run_loop in E. destruct (iter_pow (seq_step debug h) p st) as [s|r] eqn:Ei; [discriminate|].
    subst r. assert (HS : forall s s', sinv s -> seq_step debug h s = inl s' -> sinv s').
    { intros s s' HSi Es. unfold seq_step in Es. destruct (ss_stack s) as [|q stack] eqn:Ek; [discriminate|].
      destruct (_ <=? _)%N; [|discriminate].
      destruct (seq_reduce debug h (mkSS (ss_cfg s) stack (ss_map s)) q) eqn:Er; try discriminate. inversion Es; subst; clear Es.
      destruct HSi as [I1 I2 I3]. rewrite Ek in I2. inversion I2; subst. eapply reduce_inv; [| |exact Er]; [constructor; auto|auto]. }
    destruct (iter_pow_inv _ sinv HS p st (Ok st') HI Ei) as [s [HSs Es]].
    unfold seq_step in Es. destruct (ss_stack s) as [|q stack]; [inversion Es; subst; auto|].
    destruct (_ <=? _)%N; [|discriminate]. destruct (seq_reduce debug h _ q); discriminate.
  Qed.

  (** The rest *)
  Lemma filter_incl : forall {A} (f : A -> res bool) l l', filter_res f l = Ok l' -> incl l' l.
  Proof.
    intros A f. induction l as [|x l IH]; intros l' E; cbn [filter_res] in E.
    - inversion E; subst. apply incl_refl.
    - inv_bind E. inv_bind E. inversion E; subst. destruct x0.
      + intros y [<-|Hy]; [left; auto|right; eapply IH; eauto].
      + intros y Hy. right. eapply IH; eauto.
  Qed.

  Lemma dedup_incl : forall l, incl (dedup_rules l) l.
  Proof.
    assert (H : forall l x, incl (dedup_rules_from x l) l).
    { induction l as [|y l IH]; intros x; cbn [dedup_rules_from]; [apply incl_refl|].
      destruct (same_key x y).
      - intros z Hz. right. eapply IH; eauto.
      - intros z [<-|Hz]; [left; auto|right; eapply IH; eauto]. }
    intros [|x l]; [apply incl_refl|]. intros z [<-|Hz]; [left; auto|right; eapply H; eauto].
  Qed.

  (** [seq_rewrite] with any bound on the loop. *)
  Lemma rewrite_inv_any : forall p g q g', inv g -> seq_fine g q ->
    (let prev := match sq_hist q with Some h => h | None => process_root (RRule (sq_lhs q)) end in
     do h_top <- process_linked (LRewriteSequence true (sq_rhs q) (separator_to_option (sq_sep q))) prev;
     do st <- seq_reduce debug h_top (mkSS g [] []) q;
     let prev2 := match sq_hist q with Some h => h | None => process_root RNoOp end in
     do h_bot <- process_linked (LRewriteSequence false (sq_rhs q) (separator_to_option (sq_sep q))) prev2;
     do st' <- run_loop (seq_step debug h_bot) p st;
     Ok (ss_cfg st')) = Ok g' -> inv g'.
  Proof.
    intros p g q g' HI HF E. cbn zeta in E. inv_bind E. inv_bind E. inv_bind E. inv_bind E.
    injection E as <-. apply si_cfg. eapply seq_loop_inv; [|exact Q2]. eapply reduce_inv; [| |exact Q0].
    - constructor; cbn; auto.
    - exact HF.
  Qed.

  Lemma rewrite_inv : forall g q g', inv g -> seq_fine g q -> seq_rewrite debug g q = Ok g' -> inv g'.
  Proof. intros g q g' HI HF E. exact (rewrite_inv_any 80 g q g' HI HF E). Qed.

  Lemma rewrite_issued : forall g q g', inv g -> seq_fine g q -> seq_rewrite debug g q = Ok g' -> n0 <= num_syms g'.
  Proof. intros g q g' HI HF E. apply issued_le. apply (rewrite_inv g q g' HI HF E). Qed.
End Ops.

(** A later grammar has at least the symbols of an earlier one. *)
Lemma rewrite_le : forall debug g q g', seq_rewrite debug g q = Ok g' ->
  closed g -> (forall s, s = sq_lhs q \/ s = sq_rhs q \/ in_separator (sq_sep q) s -> s < num_syms g) ->
  names_wf g -> num_syms g <= num_syms g'.
Proof.
  intros debug g q g' E HC0 HQ HN. pose proof (proj1 (closed_in_cfg g) HC0) as HC.
  apply (rewrite_issued debug (fun s => s < num_syms g) (num_syms g) (names (src g)) g q g').
  - split; [exists []; rewrite app_nil_r, Nat.add_0_r; auto|]. intros s Hs. apply HC in Hs. split; auto.
  - split; [|split]; [| |intros s Hs]; (split; [left|]; apply HQ; auto).
  - exact E.
Qed.

Section Ops2.
  Variable debug : bool.
  Variable P : nat -> Prop.
  Variable n0 : nat.
  Variable names0 : list (option string).
  Hypothesis HP : forall s, P s -> s < n0.
  Hypothesis HN0 : (length names0 =? n0) = true.
  Local Notation fine := (fine P n0).
  Local Notation inv := (inv P n0 names0).

  Lemma inv_wf : forall g, inv g -> names_wf g.
  Proof. intros g [[l [A B]] _]. unfold names_wf. rewrite A, app_length. apply Nat.eqb_eq in HN0. lia. Qed.
  Lemma inv_closed : forall g, inv g -> closed g.
  Proof. intros g [_ H]. apply closed_in_cfg. intros s Hs. apply H in Hs. apply Hs. Qed.

  (** Sequence builder *)
  Lemma sequences_inv : forall calls b b', inv (sb_dest b) ->
    (forall l, sb_lhs b = Some l -> fine (sb_dest b) l) -> sep_fine P n0 (sb_dest b) (sb_sep b) ->
    (forall s, given (OpSequences calls) s -> P s) ->
    fold_res (seq_builder_call (add_to_cfg debug)) calls b = Ok b' -> inv (sb_dest b').
  Proof.
    induction calls as [|c calls IH]; intros b b' HI HL HS HG E; cbn [fold_res] in E.
    - inversion E; subst; auto.
    - inv_bind E. rename x into b1.
      assert (HG1 : forall s, given (OpSequences calls) s -> P s).
      { intros s [c' [Hc' Hs]]. apply HG. exists c'. split; [right|]; auto. }
      assert (HGc : forall s, given (OpSequences [c]) s -> fine (sb_dest b) s).
      { intros s [c' [[<-|[]] Hs]]. apply (fine_P P n0 names0 HP); [apply HI|]. apply HG. exists c. split; [left|]; auto. }
      assert (HR : forall b0 x h, sb_dest b0 = sb_dest b -> sb_lhs b0 = sb_lhs b -> sb_sep b0 = sb_sep b -> fine (sb_dest b) x ->
                sb_rhs_with_history (add_to_cfg debug) b0 x h = Ok b1 ->
                inv (sb_dest b1) /\ (forall l, sb_lhs b1 = Some l -> fine (sb_dest b1) l) /\ sep_fine P n0 (sb_dest b1) (sb_sep b1)).
      { intros b0 x h E1 E2 E3 Hx E4. unfold sb_rhs_with_history in E4. rewrite E1, E2, E3 in E4.
        destruct (sb_range b0) as [[lo hi]|]; [|discriminate]. destruct (sb_lhs b) as [l|] eqn:El; [|discriminate].
        inv_bind E4. inversion E4; subst b1; clear E4. cbn [sb_dest sb_lhs sb_sep]. unfold add_to_cfg in Q0.
        assert (HF : seq_fine P n0 (sb_dest b) (mkSeq l x lo hi (sb_sep b) h)) by (split; [|split]; cbn; auto).
        pose proof (rewrite_inv debug P n0 names0 _ _ _ HI HF Q0) as J.
        assert (HLe : num_syms (sb_dest b) <= num_syms x0).
        { eapply rewrite_le; [exact Q0|eapply inv_closed; eauto| |eapply inv_wf; eauto].
          destruct HF as [F1 [F2 F3]]. intros s [->|[->|Hs]]; [apply F1|apply F2|apply F3; auto]. }
        split; auto. split.
        - intros l0 X. inversion X; subst. eapply fine_le; eauto.
        - intros s Hs. eapply fine_le; eauto. }
      assert (HB : inv (sb_dest b1) /\ (forall l, sb_lhs b1 = Some l -> fine (sb_dest b1) l) /\ sep_fine P n0 (sb_dest b1) (sb_sep b1)).
      { destruct c as [l|sp|h|lo hi|lo hi|x|x h]; cbn [seq_builder_call] in Q; try (inversion Q; subst b1; cbn; auto; fail).
        - inversion Q; subst b1. cbn. split; auto. split; [|intros s []]. intros l0 X. inversion X; subst. apply HGc.
          eexists. split; [left; reflexivity|]. reflexivity.
        - inversion Q; subst b1. cbn. split; auto. split; auto. intros s Hs. apply HGc.
          eexists. split; [left; reflexivity|]. exact Hs.
        - eapply HR in Q; auto. apply HGc. eexists. split; [left; reflexivity|]. reflexivity.
        - eapply HR in Q; auto. apply HGc. eexists. split; [left; reflexivity|]. reflexivity. }
      destruct HB as [I1 [L1 S1]]. apply (IH b1 b'); auto.
  Qed.

  (** Elimination of nulling rules *)
  Definition sub_rule (g : cfg) (x : rule) : Prop := exists r, In r (rules g) /\ lhs x = lhs r /\ incl (rhs x) (rhs r).

  Lemma add_free : forall g r g', limit g = None -> add_rule g r = Ok g' -> rules g' = rules g ++ [r] /\ limit g' = None.
  Proof. intros g r g' HL E. unfold add_rule, add_rule_parts, add_rule_fuel in E. rewrite HL in E. inversion E; subst. auto. Qed.

  Lemma firstn_in : forall {A} n (l : list A) x, In x (firstn n l) -> In x l.
  Proof. intros. rewrite <- (firstn_skipn n l). apply in_or_app. auto. Qed.
  Lemma skipn_in : forall {A} n (l : list A) x, In x (skipn n l) -> In x l.
  Proof. intros. rewrite <- (firstn_skipn n l). apply in_or_app. auto. Qed.

  Lemma slice_incl : forall k l, incl (range_slice k l) l.
  Proof.
    intros [| |n] l x Hx; cbn [range_slice] in Hx; eauto using firstn_in, skipn_in.
  Qed.

  Lemma elim_fold_sub : forall g p l st st', incl l (rules g) ->
    limit (fst st) = None /\ Forall (sub_rule g) (rules (fst st)) ->
    fold_res (elim_rule p) l st = Ok st' -> limit (fst st') = None /\ Forall (sub_rule g) (rules (fst st')).
  Proof.
    intros g p l. induction l as [|r l IH]; intros st st' HL HI E; cbn [fold_res] in E.
    - inversion E; subst; auto.
    - inv_bind E. apply (IH x st'); auto. { intros y Hy. apply HL. right; auto. } clear E IH.
      assert (Hr : In r (rules g)) by (apply HL; left; auto).
      assert (HA : forall w w' h y, limit w = None /\ Forall (sub_rule g) (rules w) -> incl y (rhs r) ->
                rule_history_rhs w (lhs r) h y = Ok w' -> limit w' = None /\ Forall (sub_rule g) (rules w')).
      { intros w w' h y [A B] C D. unfold rule_history_rhs in D. apply add_free in D; auto. destruct D as [D1 D2]. split; auto.
        rewrite D1. apply Forall_app. split; auto. constructor; [|constructor]. exists r. auto. }
      destruct st as [work result]. unfold elim_rule in Q. destruct (negb (length (rhs r) <=? 2)); [discriminate|].
      inv_bind Q. destruct x0 as [k|]; [|inversion Q; subst; auto]. inv_bind Q. rename x0 into h.
      assert (F1 : incl (firstn 1 (rhs r)) (rhs r)) by (intros y; apply firstn_in).
      assert (F2 : incl (firstn 1 (skipn 1 (rhs r))) (rhs r)) by (intros y Hy; apply firstn_in in Hy; apply skipn_in in Hy; auto).
      cbn [fst] in HI.
      destruct k as [| |n].
      + inv_bind Q. inv_bind Q. inversion Q; subst. cbn [fst]. eapply HA; [exact HI| |exact Q3]. apply slice_incl.
      + inv_bind Q. inv_bind Q. inversion Q; subst. cbn [fst]. eapply HA; [exact HI| |exact Q3]. apply slice_incl.
      + inv_bind Q. inv_bind Q. inversion Q; subst. cbn [fst]. destruct (n =? 2).
        * inv_bind Q2. eapply HA; [| |exact Q2]; auto. eapply HA; [| |exact Q4]; auto.
        * inversion Q2; subst; auto.
  Qed.

  Lemma eliminate_inv : forall g g' result, inv g -> eliminate_nulling g = Ok (g', result) -> inv g'.
  Proof.
    intros g g' result HI E. unfold eliminate_nulling in E. inv_bind E. rename x into g1.
    apply (limit_inv P n0 names0) in Q; auto. destruct Q as [I1 _]. inv_bind E. inv_bind E. rename x0 into p.
    destruct (length (bs_iter p) =? 0); [inversion E; subst; auto|].
    inv_bind E. destruct x0 as [work result1]. inv_bind E. inv_bind E. inv_bind E. inversion E; subst; clear E.
    destruct (elim_fold_sub g1 p (rules g1) (cfg_new, cfg_with_source (src g1)) (work, result)) as [_ HW]; auto.
    { apply incl_refl. } { split; auto. constructor. }
    cbn [fst] in HW.
    change (inv (set_rules g1 (filter (fun r => nth (lhs r) x2 false) (filter (fun r => negb (is_nil (rhs r))) (rules g1 ++ rules work))))).
    apply inv_rules; auto. intros r Hr s Hs. apply filter_In in Hr. destruct Hr as [Hr _]. apply filter_In in Hr. destruct Hr as [Hr _].
    apply in_app_or in Hr. destruct Hr as [Hr|Hr]; [left; eauto|].
    rewrite Forall_forall in HW. destruct (HW r Hr) as [y [Hy [E1 E2]]]. left. exists y. split; auto.
    destruct Hs as [->|Hs]; [left; auto|right; auto].
  Qed.

  (** Cycles *)
  Lemma cycle_free_grammar : forall c b c', cycle_free c = Ok (b, c') -> cy_grammar c' = cy_grammar c.
  Proof.
    intros c b c' E. unfold cycle_free in E. destruct (cy_free c); [inversion E; subst; auto|]. inv_bind E. inversion E; subst; auto.
  Qed.

  Lemma rewrite_scan_inv : forall g m l st st', incl l (rules g) ->
    (forall s n, fst st s = Some (Some n) -> in_cfg g n) /\ incl (snd st) (rules g) ->
    fold_res (rewrite_scan m) l st = Ok st' ->
    (forall s n, fst st' s = Some (Some n) -> in_cfg g n) /\ incl (snd st') (rules g).
  Proof.
    intros g m l. induction l as [|r l IH]; intros st st' HL HI E; cbn [fold_res] in E.
    - inversion E; subst; auto.
    - inv_bind E. apply (IH x st'); auto. { intros y Hy. apply HL. right; auto. } clear E IH.
      assert (Hr : In r (rules g)) by (apply HL; left; auto). destruct st as [t kept]. cbn [fst snd] in HI. destruct HI as [HT HK].
      unfold rewrite_scan in Q. inv_bind Q. destruct x0.
      + destruct (t (lhs r)) eqn:Et; [inversion Q; subst; auto|]. inv_bind Q. inversion Q; subst; clear Q. cbn [fst snd]. split; auto.
        assert (HF : forall row t0, (forall s n, t0 s = Some (Some n) -> in_cfg g n) ->
                  forall s n, fold_left (fun t s => tr_insert t s (Some (lhs r))) row t0 s = Some (Some n) -> in_cfg g n).
        { induction row as [|a row IH]; intros t0 H0 s n; cbn [fold_left]; [apply H0|]. apply IH. intros s0 m0 H.
          unfold tr_insert in H. destruct (s0 =? a); [|eapply H0; eauto]. inversion H; subst. left. exists r. split; auto. left; auto. }
        intros s n H. unfold tr_insert at 1 in H. destruct (s =? lhs r); [discriminate|]. eapply HF; eauto.
      + inversion Q; subst. cbn [fst snd]. split; auto. apply incl_app; auto. intros y [<-|[]]; auto.
  Qed.

  Lemma cycles_inv : forall g c c', inv g -> cycles_new g = Ok c -> remove_cycles c = Ok c' \/ rewrite_cycles c = Ok c' ->
    inv (cy_grammar c').
  Proof.
    intros g c c' HI EC E. assert (HG : cy_grammar c = g).
    { unfold cycles_new in EC. inv_bind EC. inversion EC; subst; auto. }
    destruct E as [E|E].
    - unfold remove_cycles in E. inv_bind E. destruct x as [free c1]. pose proof (cycle_free_grammar _ _ _ Q) as HG1.
      destruct free; [inversion E; subst c'; rewrite HG1, HG; auto|]. inv_bind E. inversion E; subst c'. cbn [cy_grammar].
      rewrite HG1, HG in *. apply filter_incl in Q0. apply inv_sub; auto.
    - unfold rewrite_cycles in E. inv_bind E. destruct x as [free c1]. pose proof (cycle_free_grammar _ _ _ Q) as HG1.
      destruct free; [inversion E; subst c'; rewrite HG1, HG; auto|]. inv_bind E. destruct x as [t kept]. inv_bind E. inversion E; subst c'. cbn [cy_grammar].
      rewrite HG1, HG in *. apply (rewrite_scan_inv g) in Q0; [|apply incl_refl|split; [discriminate|intros y []]]. cbn [fst snd] in Q0. destruct Q0 as [HT HK].
      apply (adds_inv P n0 names0) in Q1.
      + apply Q1.
      + apply inv_sub; auto. intros y Hy. apply filter_In in Hy. apply HK. apply Hy.
      + apply Forall_forall. intros y Hy. apply in_map_iff in Hy. destruct Hy as [r [<- Hr]]. apply filter_In in Hr. destruct Hr as [Hr _]. apply HK in Hr.
        change (OpsProof.fine P n0 (set_rules g (filter (fun r => negb (snd (rewrite_rule t r))) kept))) with (fine g).
        assert (HTr : forall s, in_cfg g s -> fine g (fst (translate t s))).
        { intros s Hs. apply HI. unfold translate. destruct (t s) as [[n|]|] eqn:Et; cbn [fst]; auto. eapply HT; eauto. }
        unfold rewrite_rule. destruct (translate t (lhs r)) as [l b] eqn:El. cbn [fst lhs rhs]. split.
        * replace l with (fst (translate t (lhs r))) by (rewrite El; auto). apply HTr. left. exists r. split; auto. left; auto.
        * apply Forall_forall. intros s Hs. apply in_map_iff in Hs. destruct Hs as [s0 [<- Hs0]]. apply HTr. left. exists r. split; auto. right; auto.
  Qed.

  Lemma useless_inv : forall g u g', inv g -> us_remove_useless_rules u g = Ok g' -> inv g'.
  Proof.
    intros g u g' HI E. unfold us_remove_useless_rules in E. destruct (us_all_useful u); [inversion E; subst; auto|].
    inv_bind E. inversion E; subst. apply filter_incl in Q. apply inv_sub; auto.
  Qed.

  Theorem step_inv : forall g o g', inv g -> renumbers o = false -> (forall s, given o s -> P s) ->
    op_step debug g o = Ok g' -> inv g'.
  Proof.
    intros g o g' HI HR HG E.
    assert (HF : forall s, given o s -> fine g s) by (intros s Hs; apply (fine_P P n0 names0 HP); [apply HI|auto]).
    destruct o; cbn [op_step] in E; try discriminate.
    - destruct (next_sym g name) as [s g1] eqn:En. apply (next_inv P n0 names0) in En; auto. cbn [snd] in E. injection E as <-. apply En.
    - apply (add_inv P n0 names0) in E; auto; [apply E| |].
      + apply HF. left; auto.
      + apply Forall_forall. intros s Hs. apply HF. right; auto.
    - inv_bind E. inversion E; subst. eapply (rules_inv P n0 names0 HP); [| | |exact Q]; auto. discriminate.
    - inv_bind E. inversion E; subst. eapply sequences_inv; [| | | |exact Q]; auto; [discriminate|intros s []].
    - eapply (prec_inv P n0 names0 HP); eauto.
    - inversion E; subst. apply roots_inv; auto. apply Forall_forall. intros s Hs. apply HF. auto.
    - inversion E; subst. apply wroots_inv; auto. intros W s HW Hs. apply HF. exists W. auto.
    - apply (limit_inv P n0 names0) in E; auto. apply E.
    - inversion E; subst. apply inv_sub; auto. intros x Hx. apply sort_In in Hx. auto.
    - inversion E; subst. apply inv_sub; auto. intros x Hx. apply sort_In in Hx. auto.
    - inversion E; subst. apply inv_sub; auto. apply dedup_incl.
    - inversion E; subst. apply inv_sub; auto. intros x Hx. apply filter_In in Hx. apply Hx.
    - inversion E; subst. destruct HI as [HN HI]. split; [exact HN|]. intros s [[r [Hr Hs]]|Hs].
      + cbn in Hr. apply in_app_or in Hr. destruct Hr as [Hr|Hr]; [apply HI; left; eauto|]. apply HF. exists r. auto.
      + apply HI. right. exact Hs.
    - inversion E; subst. apply inv_sub; auto. intros x [].
    - inversion E; subst. apply inv_rules; auto. intros r Hr s Hs. apply in_map_iff in Hr. destruct Hr as [y [<- Hy]]. left. exists y. split; auto.
      destruct Hs as [->|Hs]; [left; auto|right]. cbn in Hs. apply in_rev in Hs. auto.
    - eapply wrap_inv; eauto.
    - inv_bind E. destruct x. inversion E; subst. eapply eliminate_inv; eauto.
    - inv_bind E. destruct x. inversion E; subst. unfold make_proper in Q. inv_bind Q. inv_bind Q. inversion Q; subst.
      destruct (negb (us_all_useful x)); [eapply useless_inv; eauto|inversion Q1; subst; auto].
    - inv_bind E. eapply useless_inv; eauto.
    - inv_bind E. inv_bind E. inversion E; subst. eapply cycles_inv; eauto.
    - inv_bind E. inv_bind E. inversion E; subst. eapply cycles_inv; eauto.
    - inv_bind E. destruct x. inversion E; subst. unfold make_lr0_fsm in Q. inv_bind Q. inv_bind Q. destruct x0 as [[ns rid] g2].
      inv_bind Q. inv_bind Q. inversion Q; subst. unfold augment_grammar in Q1. destruct (next_sym g None) as [s g1] eqn:En.
      inv_bind Q1. inversion Q1; subst. apply (next_inv P n0 names0) in En; auto. destruct En as [J1 [J2 [J3 _]]].
      apply (add_inv P n0 names0) in Q4; auto; [apply Q4|]. constructor; [|constructor]. apply (fine_le P n0 g); [lia|]. apply HF. reflexivity.
  Qed.
End Ops2.
