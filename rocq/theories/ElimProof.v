(** Elimination of nulling rules. *)

From Coq Require Import List Arith NArith Bool Lia.
From Verif Require Import Base Spec SetView ListFacts GrammarFacts SymbolModel HistoryModel CfgModel View
  BitSetModel ClosureModel ElimModel CfgProof CfgProof2 SetProof.
Import ListNotations.
Local Notation length := List.length.

(** * Nullable symbols *)

Lemma closure_nullable : forall P s, closure_all P (fun A => P A []) s <-> nullable P s.
Proof.
  intros P s. unfold nullable. split.
  - revert s. fix IH 2. intros s H. destruct H as [s H|A r HP Hne HF].
    + apply derives_rule; auto.
    + eapply derives_rule_then; [exact HP|]. clear HP Hne. induction HF as [|a l Ha _ IHl].
      * constructor.
      * change (derives P ([a] ++ l) ([] ++ [])). apply derives_app; auto.
  - intros H. apply derives_yields in H.
    assert (HX : forall u w, yields P u w -> w = [] -> Forall (closure_all P (fun A => P A [])) u).
    { induction 1; intros E; auto.
      - discriminate.
      - apply app_eq_nil in E. destruct E. constructor; auto.
        destruct r; [apply ca_init; auto|]. eapply ca_rule; eauto. discriminate. }
    specialize (HX _ _ H eq_refl). inversion HX; auto.
Qed.

Lemma closure_all_ext : forall P S1 S2 s, (forall x, S1 x <-> S2 x) ->
  closure_all P S1 s -> closure_all P S2 s.
Proof.
  intros P S1 S2 s HE. revert s. fix IH 2. intros s H. destruct H as [s H|A r HP Hne HF].
  - apply ca_init, HE, H.
  - eapply ca_rule; [exact HP|exact Hne|]. clear HP Hne. induction HF; constructor; auto.
Qed.

(** * The loop *)

Definition bit (p : bitset) (s : nat) : bool := nth s p false.

Lemma bit_member : forall p s, bit p s = true <-> member p s.
Proof.
  unfold bit, member. intros p s. destruct (nth_error p s) eqn:E.
  - rewrite (nth_error_nth _ _ _ E). split; congruence.
  - rewrite nth_overflow; [split; discriminate|]. apply nth_error_None; auto.
Qed.

Lemma bs_get_bit : forall p s, s < length p -> bs_get p s = Ok (bit p s).
Proof.
  intros. unfold bs_get, get_ix, bit. destruct (nth_error p s) eqn:E.
  - rewrite (nth_error_nth _ _ _ E). auto.
  - apply nth_error_None in E. lia.
Qed.

Definition drop_history (h : history) (sym : nat) (right : bool) : history :=
  mkHistory (h_dot0 h) (h_dot1 h) (h_dot2 h) (h_origin h) (Some (sym, right)) (h_weight h) (h_sequence h).
Definition all_history (h : history) : history :=
  mkHistory dot_default dot_default dot_default (h_origin h) None None None.

Definition works (p : bitset) (r : rule) : list rule :=
  match rhs r with
  | [a; b] =>
      match bit p a, bit p b with
      | true, true => [mkRule (lhs r) [a] (all_history (hist r)); mkRule (lhs r) [b] (all_history (hist r))]
      | true, false => [mkRule (lhs r) [b] (drop_history (hist r) a false)]
      | false, true => [mkRule (lhs r) [a] (drop_history (hist r) b true)]
      | false, false => []
      end
  | _ => []
  end.

Definition results (p : bitset) (r : rule) : list rule :=
  if forallb (bit p) (rhs r) then [mkRule (lhs r) (rhs r) (all_history (hist r))] else [].

Definition app_rules (g : cfg) (l : list rule) : cfg := set_rules g (rules g ++ l).

Lemma add_rule_unlimited : forall g r, limit g = None -> add_rule g r = Ok (push_rule g r).
Proof. intros. unfold add_rule. rewrite add_rule_none; auto. Qed.

Lemma app_rules_nil : forall g, app_rules g [] = g.
Proof. intros. unfold app_rules, set_rules. rewrite app_nil_r. destruct g; auto. Qed.

Lemma elim_rule_spec : forall p work result r,
  limit work = None -> limit result = None -> length (rhs r) <= 2 ->
  Forall (fun s => s < length p) (rhs r) ->
  elim_rule p (work, result) r = Ok (app_rules work (works p r), app_rules result (results p r)).
Proof.
  intros p work result r HW HR HL HF. unfold elim_rule.
  replace (length (rhs r) <=? 2) with true by (symmetry; apply Nat.leb_le; auto). cbn [negb].
  unfold elim_which, works, results, rule_history_rhs.
  destruct (rhs r) as [|a [|b [|c w]]]; simpl in HL; try lia.
  - cbn. rewrite add_rule_unlimited; auto. cbn. rewrite app_rules_nil. auto.
  - inversion HF; subst. cbn [nth_error opt_nullable]. rewrite bs_get_bit; auto. cbn.
    destruct (bit p a); cbn.
    + rewrite add_rule_unlimited; auto. cbn. rewrite app_rules_nil. auto.
    + rewrite !app_rules_nil. auto.
  - inversion HF; subst. inversion H2; subst. cbn [nth_error opt_nullable].
    rewrite !bs_get_bit; auto. cbn.
    destruct (bit p a), (bit p b); cbn;
      rewrite ?add_rule_unlimited; cbn; auto; rewrite ?add_rule_unlimited; cbn; auto;
      rewrite ?add_rule_unlimited; cbn; auto; rewrite ?app_rules_nil; auto.
    unfold app_rules, push_rule, set_rules. cbn. rewrite <- app_assoc. auto.
Qed.

Lemma elim_fold_spec : forall p l work result,
  limit work = None -> limit result = None ->
  Forall (fun r => length (rhs r) <= 2 /\ Forall (fun s => s < length p) (rhs r)) l ->
  fold_res (elim_rule p) l (work, result) =
  Ok (app_rules work (flat_map (works p) l), app_rules result (flat_map (results p) l)).
Proof.
  induction l; cbn [fold_res flat_map]; intros work result HW HR HF.
  - rewrite !app_rules_nil. auto.
  - inversion HF; subst. destruct H1. rewrite elim_rule_spec; auto. cbn [bind].
    rewrite IHl; auto. unfold app_rules, set_rules. cbn. rewrite <- !app_assoc. auto.
Qed.

(** * The result *)

(** The rules before unproductive ones are dropped. *)
Definition pre_rules (p : bitset) (l : list rule) : list rule :=
  filter (fun r => negb (is_nil (rhs r))) (l ++ flat_map (works p) l).

Definition pre_prods (p : bitset) (l : list rule) : productions :=
  fun A r => exists x, In x (pre_rules p l) /\ lhs x = A /\ rhs x = r.

Record eliminated (g g1 g' result : cfg) (p q : bitset) : Prop := {
  el_limit : limit_rhs_len g (Some 2) = Ok g1;
  el_nullable : forall s, member p s <-> nullable (prods g1) s;
  el_lenp : length p = num_syms g1;
  el_src : src g' = src g1;
  el_rsrc : src result = src g1;
  el_roots : roots g' = roots g /\ wroots g' = wroots g /\ limit g' = Some 2;
  el_rroots : roots result = [] /\ wroots result = [] /\ limit result = None;
  el_result : rules result = flat_map (results p) (rules g1);
  el_cases : ((forall s, ~ member p s) /\ g' = g1) \/
             (rules g' = filter (fun r => bit q (lhs r)) (pre_rules p (rules g1)) /\
              forall s, member q s <-> closure_all (pre_prods p (rules g1))
                (fun x => x < num_syms g1 /\ terminal (pre_prods p (rules g1)) x /\
                          ~ (exists r, In r (rules result) /\ lhs r = x)) s)
}.

Lemma works_In : forall p r x, In x (works p r) ->
  lhs x = lhs r /\ exists a b, rhs r = [a; b] /\
   ((bit p a = true /\ bit p b = true /\ hist x = all_history (hist r) /\ (rhs x = [a] \/ rhs x = [b])) \/
    (bit p a = true /\ bit p b = false /\ rhs x = [b] /\ hist x = drop_history (hist r) a false) \/
    (bit p a = false /\ bit p b = true /\ rhs x = [a] /\ hist x = drop_history (hist r) b true)).
Proof.
  intros p r x H. unfold works in H. destruct (rhs r) as [|a [|b [|c w]]]; try destruct H.
  destruct (bit p a) eqn:Ea, (bit p b) eqn:Eb; simpl in H.
  - destruct H as [<-|[<-|[]]]; simpl; split; auto; exists a, b; rewrite Ea, Eb; split; auto; left; auto.
  - destruct H as [<-|[]]; simpl; split; auto; exists a, b; rewrite Ea, Eb; split; auto; right; left; auto.
  - destruct H as [<-|[]]; simpl; split; auto; exists a, b; rewrite Ea, Eb; split; auto; right; right; auto.
  - destruct H.
Qed.

Lemma works_closed : forall g p r, closed_rules g -> In r (rules g) -> forall x, In x (works p r) ->
  lhs x < num_syms g /\ Forall (fun s => s < num_syms g) (rhs x).
Proof.
  intros g p r HC Hr x Hx. destruct (HC r Hr) as [H1 H2].
  apply works_In in Hx. destruct Hx as [-> [a [b [E H]]]]. split; auto.
  rewrite E in H2. rewrite Forall_forall in H2.
  assert (a < num_syms g /\ b < num_syms g) as [Ha Hb] by (split; apply H2; simpl; auto).
  destruct H as [[_ [_ [_ [H|H]]]]|[[_ [_ [H _]]]|[_ [_ [H _]]]]]; rewrite H; constructor; auto.
Qed.

Lemma pre_In : forall p l x, In x (pre_rules p l) <->
  rhs x <> [] /\ (In x l \/ exists r, In r l /\ In x (works p r)).
Proof.
  intros. unfold pre_rules. rewrite filter_In, in_app_iff, in_flat_map, negb_true_iff, is_nil_false. tauto.
Qed.

Lemma results_In : forall p r x, In x (results p r) <->
  Forall (fun s => bit p s = true) (rhs r) /\ x = mkRule (lhs r) (rhs r) (all_history (hist r)).
Proof.
  intros. unfold results. destruct (forallb (bit p) (rhs r)) eqn:E.
  - rewrite forallb_forall in E. rewrite Forall_forall. simpl. split.
    + intros [<-|[]]; auto.
    + intros [_ ->]; auto.
  - split; [intros []|]. intros [H _]. rewrite Forall_forall in H. apply forallb_forall in H. congruence.
Qed.

Theorem eliminate_spec : forall g, closed_rules g ->
  exists g1 g' result p q, eliminate_nulling g = Ok (g', result) /\ eliminated g g1 g' result p q.
Proof.
  intros g HC.
  assert (HG : good_limit (Some 2)) by (simpl; lia).
  destruct (limit_rhs_len_Repr g (Some 2) HC HG) as [g1 [E1 [R1 [R2 [R3 [_ RP]]]]]].
  pose proof (rp_closed _ _ _ RP) as HC1.
  pose proof (limit_rhs_len_bound g 2 g1 (le_n 2) E1) as HB.
  destruct (nulling_symbols_spec g1 HC1) as [nl [E2 [L2 M2]]].
  destruct (rhs_closure_all_spec g1 nl HC1) as [p [E3 [L3 M3]]]; [lia|].
  assert (MP : forall s, member p s <-> nullable (prods g1) s).
  { intros s. rewrite M3, <- closure_nullable. split; apply closure_all_ext; firstorder. }
  assert (HLP : length p = num_syms g1) by lia.
  assert (HF : Forall (fun r => length (rhs r) <= 2 /\ Forall (fun s => s < length p) (rhs r)) (rules g1)).
  { apply Forall_forall. intros x Hx. split; [rewrite Forall_forall in HB; auto|].
    rewrite HLP. apply (HC1 x Hx). }
  unfold eliminate_nulling. rewrite E1. cbn [bind]. rewrite E2. cbn [bind]. rewrite E3. cbn [bind].
  destruct (length (bs_iter p) =? 0) eqn:EZ.
  - exists g1, g1, (cfg_with_source (src g1)), p, []. split; auto.
    assert (HN : forall s, ~ member p s).
    { intros s Hs. apply bs_iter_In in Hs. apply Nat.eqb_eq in EZ. destruct (bs_iter p); [destruct Hs|discriminate]. }
    constructor; auto.
    + cbn. symmetry.
      assert (HE : forall l, Forall (fun r => results p r = []) l -> flat_map (results p) l = []).
      { induction 1; simpl; auto. rewrite H; auto. }
      apply HE, Forall_forall. intros x Hx. unfold results.
      destruct (forallb (bit p) (rhs x)) eqn:EF; auto. exfalso.
      rewrite forallb_forall in EF. destruct (rhs x) as [|a w] eqn:Er.
      * apply (HN (lhs x)). apply MP, derives_rule. exists x; auto.
      * apply (HN a). apply bit_member, EF. simpl; auto.
  - rewrite elim_fold_spec; auto. cbn [bind].
    set (result1 := app_rules (cfg_with_source (src g1)) (flat_map (results p) (rules g1))).
    set (g3 := cfg_retain (fun r => negb (is_nil (rhs r)))
                 (cfg_extend g1 (app_rules cfg_new (flat_map (works p) (rules g1))))).
    assert (HR3 : rules g3 = pre_rules p (rules g1)) by reflexivity.
    assert (HC3 : closed_rules g3).
    { intros x Hx. rewrite HR3 in Hx. apply pre_In in Hx. destruct Hx as [_ [Hx|[r [Hr Hx]]]].
      - exact (HC1 x Hx).
      - exact (works_closed g1 p r HC1 Hr x Hx). }
    assert (HCR : closed_rules result1).
    { intros x Hx. cbn in Hx. apply in_flat_map in Hx. destruct Hx as [r [Hr Hx]].
      apply results_In in Hx. destruct Hx as [_ ->]. exact (HC1 r Hr). }
    destruct (bs_terminal_spec g3 HC3) as [t [E4 [L4 M4]]].
    destruct (bs_subtract_spec result1 t HCR) as [u [E5 [L5 M5]]]; [exact L4|].
    destruct (rhs_closure_all_spec g3 u HC3) as [q [E6 [L6 M6]]].
    { rewrite L5. apply Nat.le_refl. }
    exists g1, (cfg_retain (fun r => bit q (lhs r)) g3), result1, p, q. split.
    + fold result1 g3. rewrite E4. cbn [bind]. rewrite E5. cbn [bind]. rewrite E6. reflexivity.
    + constructor; auto.
      right. split; auto.
      intros s. rewrite M6. 
      assert (HS : forall x, member u x <-> x < num_syms g1 /\ terminal (pre_prods p (rules g1)) x /\
                          ~ (exists r, In r (rules result1) /\ lhs r = x)).
      { intros x. rewrite M5, M4, and_assoc. unfold nonterminal, prods.
        change (num_syms g3) with (num_syms g1).
        change (terminal (fun A r => exists x0, In x0 (rules g3) /\ lhs x0 = A /\ rhs x0 = r) x)
          with (terminal (pre_prods p (rules g1)) x).
        split; intros [H1 [H2 H3]]; repeat split; auto; intros HX; apply H3.
        - destruct HX as [r [Hr <-]]. exists (rhs r), r. auto.
        - destruct HX as [w [r [Hr [<- _]]]]. eauto. }
      change (prods g3) with (pre_prods p (rules g1)).
      split; apply closure_all_ext; auto. intros. symmetry. auto.
Qed.

(** * Languages *)

Section Languages.
  Context (g g1 g' result : cfg) (p q : bitset).
  Hypothesis (HC : closed_rules g) (EL : eliminated g g1 g' result p q).

  Notation P1 := (prods g1).
  Notation PP := (pre_prods p (rules g1)).

  (** Terminals of the original grammar. *)
  Definition old_terminal (s : nat) : Prop := s < num_syms g /\ terminal (prods g) s.

  Lemma g1_Repr : Repr g1 (prods g) (fun s => num_syms g <= s < num_syms g1).
  Proof.
    assert (HG : good_limit (Some 2)) by (simpl; lia).
    destruct (limit_rhs_len_Repr g (Some 2) HC HG) as [g2 [E [_ [_ [_ [_ R]]]]]].
    rewrite (el_limit _ _ _ _ _ _ EL) in E. inversion E; subst; auto.
  Qed.

  Lemma g1_num : num_syms g <= num_syms g1.
  Proof.
    assert (HG : good_limit (Some 2)) by (simpl; lia).
    destruct (limit_rhs_len_Repr g (Some 2) HC HG) as [g2 [E [_ [_ [_ [[k K] _]]]]]].
    rewrite (el_limit _ _ _ _ _ _ EL) in E. inversion E; subst. unfold num_syms at 2. rewrite K. simpl.
    unfold num_syms. lia.
  Qed.

  Lemma g1_len : Forall (fun x => length (rhs x) <= 2) (rules g1).
  Proof. apply (limit_rhs_len_bound g 2 g1); auto. apply (el_limit _ _ _ _ _ _ EL). Qed.

  Lemma g1_closed : closed_rules g1.
  Proof. apply (rp_closed _ _ _ g1_Repr). Qed.

  Lemma old_terminal_P1 : forall s, old_terminal s -> terminal P1 s.
  Proof.
    intros s [H1 H2]. apply (represents_terminal _ _ _ (rp_rep _ _ _ g1_Repr)). split; auto. lia.
  Qed.

  Lemma PP_sound : forall A r, PP A r -> derives P1 [A] r.
  Proof.
    intros A r [x [Hx [<- <-]]]. apply pre_In in Hx. destruct Hx as [_ [Hx|[y [Hy Hx]]]].
    - apply derives_rule. exists x; auto.
    - apply works_In in Hx. destruct Hx as [-> [a [b [E H]]]].
      eapply derives_rule_then; [exists y; split; [exact Hy|split; [reflexivity|exact E]]|].
      assert (HN : forall s, bit p s = true -> derives P1 [s] []).
      { intros s Hs. apply bit_member in Hs. apply (el_nullable _ _ _ _ _ _ EL) in Hs. exact Hs. }
      assert (HL : bit p a = true -> derives P1 [a; b] [b]).
      { intros Ha. change (derives P1 ([a] ++ [b]) ([] ++ [b])). apply derives_app; [auto|constructor]. }
      assert (HR : bit p b = true -> derives P1 [a; b] [a]).
      { intros Hb. change (derives P1 ([a] ++ [b]) ([a] ++ [])). apply derives_app; [constructor|auto]. }
      destruct H as [[H1 [H2 [_ [H|H]]]]|[[H1 [_ [H _]]]|[_ [H1 [H _]]]]]; rewrite H; auto.
  Qed.

  Lemma elim_sound : forall u w, derives (prods g') u w -> derives P1 u w.
  Proof.
    destruct (el_cases _ _ _ _ _ _ EL) as [[_ ->]|[HR _]]; auto.
    apply derives_sim. intros A r [x [Hx [<- <-]]]. rewrite HR in Hx. apply filter_In in Hx.
    apply PP_sound. exists x; tauto.
  Qed.

  Lemma PP_rule : forall A r, P1 A r -> r <> [] -> PP A r.
  Proof.
    intros A r [x [Hx [<- <-]]] Hne. exists x. split; auto. apply pre_In. auto.
  Qed.

  Lemma PP_left : forall A a b, P1 A [a; b] -> member p a -> PP A [b].
  Proof.
    intros A a b [x [Hx [<- E]]] Ha. apply bit_member in Ha.
    destruct (bit p b) eqn:Hb.
    - exists (mkRule (lhs x) [b] (all_history (hist x))). split; auto. apply pre_In; split; [discriminate|].
      right. exists x; split; auto. unfold works. rewrite E, Ha, Hb. simpl; auto.
    - exists (mkRule (lhs x) [b] (drop_history (hist x) a false)). split; auto. apply pre_In; split; [discriminate|].
      right. exists x; split; auto. unfold works. rewrite E, Ha, Hb. simpl; auto.
  Qed.

  Lemma PP_right : forall A a b, P1 A [a; b] -> member p b -> PP A [a].
  Proof.
    intros A a b [x [Hx [<- E]]] Hb. apply bit_member in Hb.
    destruct (bit p a) eqn:Ha.
    - exists (mkRule (lhs x) [a] (all_history (hist x))). split; auto. apply pre_In; split; [discriminate|].
      right. exists x; split; auto. unfold works. rewrite E, Ha, Hb. simpl; auto.
    - exists (mkRule (lhs x) [a] (drop_history (hist x) b true)). split; auto. apply pre_In; split; [discriminate|].
      right. exists x; split; auto. unfold works. rewrite E, Ha, Hb. simpl; auto.
  Qed.

  Definition splits (s : nat) (x : list nat) : Prop :=
    (x = [] /\ member p s) \/ (x <> [] /\ yields PP [s] x).

  Lemma yields_splits : forall u w, yields P1 u w -> lift splits u w.
  Proof.
    induction 1.
    - constructor.
    - change (s :: w) with ([s] ++ w). constructor; auto. right. split; [discriminate|]. apply yields_refl.
    - constructor; auto. destruct w1 as [|c w1].
      + left. split; auto. apply (el_nullable _ _ _ _ _ _ EL). eapply derives_rule_then; eauto.
        apply yields_derives; auto.
      + right. split; [discriminate|].
        assert (HB : length r <= 2).
        { destruct H as [x [Hx [_ <-]]]. pose proof g1_len as HL. rewrite Forall_forall in HL. auto. }
        assert (HY : forall r', PP A r' -> yields PP r' (c :: w1) -> yields PP [A] (c :: w1)).
        { intros r' Hr' Hy. rewrite <- (app_nil_r (c :: w1)). econstructor; eauto. constructor. }
        destruct r as [|a [|b [|? ?]]]; simpl in HB; try lia.
        * inversion IHyields1.
        * apply lift_single in IHyields1. destruct IHyields1 as [[? _]|[_ HS]]; [discriminate|].
          eapply HY; eauto. apply PP_rule; auto. discriminate.
        * change [a; b] with ([a] ++ [b]) in IHyields1. apply lift_app_inv in IHyields1.
          destruct IHyields1 as [x1 [x2 [E [L1 L2]]]]. apply lift_single in L1. apply lift_single in L2.
          rewrite E in *. destruct L1 as [[-> Ha]|[N1 Y1]], L2 as [[-> Hb]|[N2 Y2]].
          -- discriminate.
          -- simpl in *. eapply HY; [eapply PP_left; eauto|]. auto.
          -- rewrite app_nil_r in *. eapply HY; [eapply PP_right; eauto|]. auto.
          -- eapply HY; [apply PP_rule; [eauto|discriminate]|].
             change [a; b] with ([a] ++ [b]). apply yields_app; auto.
  Qed.

  Notation live := (closure_all PP
                (fun x => x < num_syms g1 /\ terminal PP x /\
                          ~ (exists r, In r (rules result) /\ lhs r = x))).

  Lemma old_terminal_live : forall s, old_terminal s -> live s.
  Proof.
    intros s HT. pose proof (old_terminal_P1 s HT) as HT1. apply ca_init. split; [|split].
    - destruct HT. pose proof g1_num. lia.
    - intros r [x [Hx [<- <-]]]. apply pre_In in Hx. destruct Hx as [_ [Hx|[y [Hy Hx]]]].
      + apply (HT1 (rhs x)). exists x; auto.
      + apply works_In in Hx. destruct Hx as [E _]. apply (HT1 (rhs y)). exists y; auto.
    - intros [r [Hr E]]. rewrite (el_result _ _ _ _ _ _ EL) in Hr. apply in_flat_map in Hr.
      destruct Hr as [y [Hy Hr]]. apply results_In in Hr. destruct Hr as [_ ->]. simpl in E.
      apply (HT1 (rhs y)). exists y; auto.
  Qed.

  Lemma live_derives : forall u w, yields PP u w -> Forall live w ->
    (forall s, member q s <-> live s) ->
    rules g' = filter (fun r => bit q (lhs r)) (pre_rules p (rules g1)) ->
    Forall live u /\ yields (prods g') u w.
  Proof.
    intros u w H HL HQ HR. induction H.
    - split; auto. constructor.
    - inversion HL; subst. destruct IHyields as [IH1 IH2]; auto. split; constructor; auto.
    - apply Forall_app in HL. destruct HL as [HL1 HL2].
      destruct IHyields1 as [A1 A2]; auto. destruct IHyields2 as [B1 B2]; auto.
      assert (HA : live A).
      { eapply ca_rule; [exact H| |auto]. destruct H as [x [Hx [_ <-]]]. apply pre_In in Hx. tauto. }
      split; [constructor; auto|]. econstructor; [|exact A2|exact B2].
      destruct H as [x [Hx [<- <-]]]. exists x. split; auto. rewrite HR. apply filter_In. split; auto.
      apply bit_member, HQ. auto.
  Qed.

  Lemma elim_complete : forall s w, derives P1 [s] w -> w <> [] -> Forall old_terminal w ->
    derives (prods g') [s] w.
  Proof.
    intros s w HD Hne HT.
    destruct (el_cases _ _ _ _ _ _ EL) as [[_ ->]|[HR HQ]]; auto.
    apply derives_yields in HD. apply yields_splits in HD. apply lift_single in HD.
    destruct HD as [[? _]|[_ HY]]; [contradiction|].
    apply yields_derives. eapply live_derives; eauto.
    eapply Forall_impl; [|exact HT]. apply old_terminal_live.
  Qed.

  Theorem elim_language : forall s w, s < num_syms g -> w <> [] ->
    (language_over old_terminal (prods g') s w <-> language_over old_terminal (prods g) s w).
  Proof.
    intros s w Hs Hne. unfold language_over.
    assert (HX : Forall old_terminal w -> (derives P1 [s] w <-> derives (prods g) [s] w)).
    { intros HT. apply (represents_derives _ _ _ (rp_rep _ _ _ g1_Repr)).
      - constructor; auto. lia.
      - eapply Forall_impl; [|exact HT]. intros a [Ha _]. lia. }
    split; intros [HD HT]; split; auto; apply HX in HT as HE.
    - apply HE. apply elim_sound; auto.
    - apply elim_complete; auto. apply HE; auto.
  Qed.

  (** * The empty string *)

  Theorem elim_shape : Forall (fun x => 1 <= length (rhs x) <= 2) (rules g').
  Proof.
    pose proof g1_len as HL. rewrite Forall_forall in *.
    destruct (el_cases _ _ _ _ _ _ EL) as [[HN ->]|[HR HQ]].
    - intros x Hx. split; [|auto]. destruct (rhs x) eqn:E; simpl; [|lia].
      exfalso. apply (HN (lhs x)). apply (el_nullable _ _ _ _ _ _ EL). apply derives_rule. exists x; auto.
    - intros x Hx. rewrite HR in Hx. apply filter_In in Hx. destruct Hx as [Hx _].
      apply pre_In in Hx. destruct Hx as [Hne Hx]. split.
      + destruct (rhs x); simpl; [congruence|lia].
      + destruct Hx as [Hx|[y [Hy Hx]]]; auto. apply works_In in Hx.
        destruct Hx as [_ [a [b [_ H]]]].
        destruct H as [[_ [_ [_ [H|H]]]]|[[_ [_ [H _]]]|[_ [_ [H _]]]]]; rewrite H; simpl; lia.
  Qed.

  Theorem elim_no_empty : forall u, derives (prods g') u [] -> u = [].
  Proof.
    intros u H. apply derives_yields in H. remember [] as w. revert Heqw. induction H; intros E; auto.
    - discriminate.
    - apply app_eq_nil in E. destruct E as [-> ->].
      specialize (IHyields1 eq_refl). subst r. exfalso.
      destruct H as [x [Hx [_ E]]]. pose proof elim_shape as HS. rewrite Forall_forall in HS.
      specialize (HS x Hx). rewrite E in HS. simpl in HS. lia.
  Qed.

  Lemma result_prods : forall A r, prods result A r <-> P1 A r /\ Forall (member p) r.
  Proof.
    intros A r. unfold prods. rewrite (el_result _ _ _ _ _ _ EL). split.
    - intros [x [Hx [<- <-]]]. apply in_flat_map in Hx. destruct Hx as [y [Hy Hx]].
      apply results_In in Hx. destruct Hx as [HF ->]. simpl. split; [exists y; auto|].
      eapply Forall_impl; [|exact HF]. intros a. apply bit_member.
    - intros [[x [Hx [<- <-]]] HF].
      exists (mkRule (lhs x) (rhs x) (all_history (hist x))). split; auto.
      apply in_flat_map. exists x; split; auto. apply results_In. split; auto.
      eapply Forall_impl; [|exact HF]. intros a. apply bit_member.
  Qed.

  Theorem result_nullable : forall s, s < num_syms g ->
    (nullable (prods result) s <-> nullable (prods g) s).
  Proof.
    intros s Hs. unfold nullable.
    rewrite <- (represents_derives _ _ _ (rp_rep _ _ _ g1_Repr) [s] []); auto; [|constructor; auto; lia].
    split.
    - apply derives_mono. intros A r H. apply result_prods in H. tauto.
    - intros H. apply derives_yields in H. apply yields_derives.
      remember [] as w. revert Heqw. induction H; intros E; auto.
      + constructor.
      + discriminate.
      + apply app_eq_nil in E. destruct E as [-> ->]. econstructor; eauto.
        apply result_prods. split; auto. apply yields_derives in H0.
        apply Forall_forall. intros a Ha. apply (el_nullable _ _ _ _ _ _ EL).
        apply in_split in Ha. destruct Ha as [l1 [l2 ->]].
        apply derives_app_inv in H0. destruct H0 as [w1 [w2 [E0 [_ H2]]]].
        change (a :: l2) with ([a] ++ l2) in H2. apply derives_app_inv in H2.
        destruct H2 as [w3 [w4 [E2 [H3 _]]]]. symmetry in E0. apply app_eq_nil in E0. destruct E0 as [-> ->].
        symmetry in E2. apply app_eq_nil in E2. destruct E2 as [-> ->]. exact H3.
  Qed.

  (** Every symbol that the returned grammar rewrites to a terminal string derives only the
      empty string there. *)
  Theorem result_only_empty : forall s w, language_over old_terminal (prods result) s w ->
    w = [] \/ (w = [s] /\ old_terminal s).
  Proof.
    intros s w [HD HT]. apply derives_yields in HD.
    inversion HD as [|s0 u0 w0 HY|A0 r0 u0 w1 w2 HP HY1 HY2]; subst.
    - inversion HY; subst. right. inversion HT; auto.
    - left. inversion HY2; subst. rewrite app_nil_r in *. clear HD HY2.
      apply result_prods in HP. destruct HP as [_ HF].
      revert HF HT. clear - EL HC HY1. induction HY1; intros HF HT; auto.
      + exfalso. apply Forall_inv in HT. apply Forall_inv in HF.
        apply (el_nullable _ _ _ _ _ _ EL) in HF. apply old_terminal_P1 in HT. unfold nullable in HF.
        assert ([] = [s]) by (eapply derives_terminal_inv; eauto). discriminate.
      + apply Forall_app in HT. destruct HT as [HT1 HT2]. inversion HF; subst.
        apply result_prods in H. destruct H as [_ HFr]. rewrite IHHY1_1, IHHY1_2; auto.
  Qed.

  (** * Terminals *)

  Theorem elim_terminals : forall t, occurs (prods g') t -> terminal (prods g') t ->
    old_terminal t \/
    (nonterminal P1 t /\ forall w, derives P1 [t] w -> w <> [] -> ~ Forall old_terminal w).
  Proof.
    intros t HO HT.
    assert (Ht : t < num_syms g1).
    { assert (HCg : closed_rules g').
      { pose proof g1_closed as HC1.
        destruct (el_cases _ _ _ _ _ _ EL) as [[_ ->]|[HR _]]; [exact HC1|].
        intros x Hx. rewrite HR in Hx. apply filter_In in Hx. destruct Hx as [Hx _].
        unfold num_syms. rewrite (el_src _ _ _ _ _ _ EL).
        apply pre_In in Hx. destruct Hx as [_ [Hx|[y [Hy Hx]]]].
        - exact (g1_closed x Hx).
        - exact (works_closed g1 p y g1_closed Hy x Hx). }
      apply occurs_lt in HO; auto. unfold num_syms in *. rewrite (el_src _ _ _ _ _ _ EL) in HO. auto. }
    destruct (nonterminal_dec g1 t) as [HN|HN].
    - right. split; auto. intros w HD Hne HF.
      pose proof (elim_complete t w HD Hne HF) as HD'.
      apply derives_yields in HD'. inversion HD' as [|s0 u0 w0 HY|A0 r0 u0 w1 w2 HP HY1 HY2]; subst.
      + inversion HF; subst. apply old_terminal_P1 in H1. destruct HN as [r Hr]. exact (H1 r Hr).
      + exact (HT _ HP).
    - left. apply terminal_not_nonterminal in HN.
      apply (represents_terminal _ _ _ (rp_rep _ _ _ g1_Repr)) in HN. destruct HN as [H1 H2].
      split; auto. lia.
  Qed.

  (** * Histories *)

  Theorem elim_history : forall x, In x (rules g') ->
    In x (rules g1) \/
    exists y a b, In y (rules g1) /\ lhs x = lhs y /\ rhs y = [a; b] /\ h_origin (hist x) = h_origin (hist y) /\
      ((nullable P1 a /\ ~ nullable P1 b /\ rhs x = [b] /\ h_nullable (hist x) = Some (a, false) /\
        h_weight (hist x) = h_weight (hist y)) \/
       (~ nullable P1 a /\ nullable P1 b /\ rhs x = [a] /\ h_nullable (hist x) = Some (b, true) /\
        h_weight (hist x) = h_weight (hist y)) \/
       (nullable P1 a /\ nullable P1 b /\ (rhs x = [a] \/ rhs x = [b]) /\ h_nullable (hist x) = None /\
        h_weight (hist x) = None)).
  Proof.
    intros x Hx. destruct (el_cases _ _ _ _ _ _ EL) as [[_ ->]|[HR _]]; auto.
    rewrite HR in Hx. apply filter_In in Hx. destruct Hx as [Hx _]. apply pre_In in Hx.
    destruct Hx as [_ [Hx|[y [Hy Hx]]]]; auto. right.
    apply works_In in Hx. destruct Hx as [E [a [b [Er H]]]]. exists y, a, b.
    assert (HT : forall s, bit p s = true -> nullable P1 s).
    { intros s Hs. apply (el_nullable _ _ _ _ _ _ EL), bit_member; auto. }
    assert (HF : forall s, bit p s = false -> ~ nullable P1 s).
    { intros s Hs HN. apply (el_nullable _ _ _ _ _ _ EL), bit_member in HN. congruence. }
    destruct H as [[H1 [H2 [H3 H4]]]|[[H1 [H2 [H3 H4]]]|[H1 [H2 [H3 H4]]]]];
      rewrite ?H3, ?H4; simpl; repeat (split; [solve [auto]|]).
    - right; right. auto 6.
    - left. auto 6.
    - right; left. auto 6.
  Qed.
End Languages.
