(** The names of the symbols of a translated expression. *)

From Coq Require Import String List Arith NArith Bool Lia.
From Verif Require Import Base ListFacts Spec SpecSeq SpecRegex GrammarFacts SymbolModel LoopModel LoopFacts HistoryModel
  CfgModel View SeqModel RegexModel LexProof RegexProof RegexProof2 OpsProof HistProof.
Import ListNotations.
Local Notation length := List.length.

(** Symbols without names are added. *)
Definition plainer (g g' : cfg) : Prop :=
  (limit g = None -> limit g' = None) /\ exists k, names (src g') = names (src g) ++ repeat None k /\ num_syms g' = num_syms g + k.

Lemma plainer_refl : forall g, plainer g g.
Proof. intros g. split; [auto|]. exists 0. cbn. rewrite app_nil_r. split; [reflexivity|lia]. Qed.
Lemma plainer_trans : forall a b c, plainer a b -> plainer b c -> plainer a c.
Proof.
  intros a b c [A1 [j [A2 A3]]] [B1 [k [B2 B3]]]. split; [auto|]. exists (j + k). rewrite B2, A2, repeat_app, app_assoc. split; [reflexivity|lia].
Qed.

Lemma next_plainer : forall g s g', next_sym g None = (s, g') -> plainer g g'.
Proof.
  intros g s g' E. unfold next_sym, src_next in E. injection E as <- <-. split; [auto|]. exists 1. unfold num_syms. cbn. split; [reflexivity|lia].
Qed.

Lemma recurse_plainer : forall st q s st', seq_recurse st q = (s, st') -> plainer (ss_cfg st) (ss_cfg st').
Proof.
  intros st q s st' E. unfold seq_recurse in E. destruct (key_lookup (ss_map st) (key_of q)).
  - injection E as <- <-. apply plainer_refl.
  - destruct (next_sym (ss_cfg st) None) as [l g] eqn:En. injection E as <- <-. apply (next_plainer _ _ _ En).
Qed.

Definition adds_plain (st st' : seq_state) : Prop := limit (ss_cfg st) = None -> plainer (ss_cfg st) (ss_cfg st').

Lemma add_plain_trans : forall a b c, adds_plain a b -> adds_plain b c -> adds_plain a c.
Proof.
  intros a b c H1 H2 HL. pose proof (H1 HL) as F1. eapply plainer_trans; [exact F1|]. apply H2. apply F1. exact HL.
Qed.

Lemma rhs_plainer : forall h l st r st', seq_rhs h l st r = Ok st' -> adds_plain st st'.
Proof.
  intros h l st r st' E HL. unfold seq_rhs in E. destruct (negb (length r <=? 3)); [discriminate|]. cbn [process_linked bind] in E.
  unfold rule_history_rhs, add_rule, add_rule_parts, add_rule_fuel in E. rewrite HL in E. cbn [bind] in E. injection E as <-.
  split; [auto|]. exists 0. unfold num_syms. cbn. rewrite app_nil_r. split; [reflexivity|lia].
Qed.

Ltac plain_tac :=
  match goal with
  | H : seq_rhs _ _ ?st _ = Ok ?st' |- adds_plain ?st ?st' => exact (rhs_plainer _ _ _ _ _ H)
  | H : seq_recurse ?st _ = (_, ?b) |- adds_plain ?st ?st' =>
      eapply add_plain_trans; [intros _; exact (recurse_plainer _ _ _ _ H)|plain_tac]
  | H : seq_rhs _ _ ?st _ = Ok ?b |- adds_plain ?st ?st' =>
      eapply add_plain_trans; [exact (rhs_plainer _ _ _ _ _ H)|plain_tac]
  end.

Lemma reduce_plainer : forall debug h st q st', seq_reduce debug h st q = Ok st' -> adds_plain st st'.
Proof.
  intros debug h st q st' E. unfold seq_reduce in E. destruct q as [l x start end_ sep hs]. cbn [sq_lhs sq_rhs sq_start sq_end sq_sep] in *.
  destruct sep as [t|t|t|].
  3: repeat adds_tac E; plain_tac.
  all: destruct (start =? 0)%N; [destruct end_ as [[|e]|]; repeat adds_tac E; plain_tac|].
  1: repeat adds_tac E; plain_tac.
  all: destruct (start =? 1)%N.
  1, 3: destruct end_ as [[|[e|[e|e|]|]]|]; repeat adds_tac E; plain_tac.
  all: destruct ((start =? 2)%N && option_eqb N.eqb end_ (Some 2%N)); [repeat adds_tac E; plain_tac|].
  all: inv_bind E; destruct x0 as [q1 q2]; clear Q; repeat adds_tac E; plain_tac.
Qed.

Lemma rewrite_plainer_any : forall p debug g q h1 h2 g', limit g = None ->
  (do st <- seq_reduce debug h1 (mkSS g [] []) q; do st' <- run_loop (seq_step debug h2) p st; Ok (ss_cfg st')) = Ok g' ->
  plainer g g'.
Proof.
  intros p debug g q h1 h2 g' HL E. inv_bind E. inv_bind E. injection E as <-. apply reduce_plainer in Q. specialize (Q HL). cbn [ss_cfg] in Q.
  unfold run_loop in Q0. destruct (iter_pow (seq_step debug h2) p x) as [s|r] eqn:Ei; [discriminate|]. subst r.
  assert (HS : forall s s', plainer g (ss_cfg s) -> seq_step debug h2 s = inl s' -> plainer g (ss_cfg s')).
  { intros s s' HF Es. unfold seq_step in Es. destruct (ss_stack s) as [|q' stack]; [discriminate|].
    destruct (_ <=? _)%N; [|discriminate]. destruct (seq_reduce debug h2 _ q') as [st1| |] eqn:Er; try discriminate. injection Es as <-.
    apply reduce_plainer in Er. eapply plainer_trans; [exact HF|]. apply Er. cbn. apply HF. exact HL. }
  destruct (iter_pow_inv _ (fun s => plainer g (ss_cfg s)) HS p x (Ok x0) Q Ei) as [s [HF Es]].
  unfold seq_step in Es. destruct (ss_stack s) as [|q' stack]; [injection Es as <-; exact HF|].
  destruct (_ <=? _)%N; [|discriminate]. destruct (seq_reduce debug h2 _ q'); discriminate.
Qed.

Lemma rewrite_plainer_wrap : forall p debug g q g', limit g = None ->
    (let prev := match sq_hist q with Some h => h | None => process_root (RRule (sq_lhs q)) end in
     do h_top <- process_linked (LRewriteSequence true (sq_rhs q) (separator_to_option (sq_sep q))) prev;
     do st <- seq_reduce debug h_top (mkSS g [] []) q;
     let prev2 := match sq_hist q with Some h => h | None => process_root RNoOp end in
     do h_bot <- process_linked (LRewriteSequence false (sq_rhs q) (separator_to_option (sq_sep q))) prev2;
     do st' <- run_loop (seq_step debug h_bot) p st;
     Ok (ss_cfg st')) = Ok g' -> plainer g g'.
Proof.
  intros p debug g q g' HL E. cbv zeta in E. inv_bind E. inv_bind E. inv_bind E. inv_bind E.
  apply (rewrite_plainer_any p debug g q x x1 g' HL). rewrite Q0. cbn [bind]. rewrite Q2. exact E.
Qed.

Lemma repetition_plainer : forall debug g l mi ma x g', limit g = None -> add_repetition debug g l mi ma x = Ok g' -> plainer g g'.
Proof. intros debug g l mi ma x g' HL E. rewrite add_repetition_eq in E. exact (rewrite_plainer_wrap 80 debug g _ g' HL E). Qed.

Lemma new_symbol_plainer : forall tr x s tr', limit (tr_cfg tr) = None -> new_symbol_with tr x = Ok (s, tr') ->
  plainer (tr_cfg tr) (tr_cfg tr') /\ tr_classes tr' = tr_classes tr.
Proof.
  intros tr x s tr' HL E. unfold new_symbol_with in E. destruct (next_sym (tr_cfg tr) None) as [s0 g] eqn:En.
  apply next_plainer in En. apply bind_ok in E. destruct E as [g' [E1 E2]]. injection E2 as <- <-. cbn [tr_cfg tr_classes]. split; [|reflexivity].
  assert (HL1 : limit g = None) by (apply En; exact HL). eapply plainer_trans; [exact En|]. clear En HL.
  revert g HL1 E1. induction x as [|r x IH]; intros g HL E1; cbn [fold_res] in E1; [injection E1 as <-; apply plainer_refl|].
  apply bind_ok in E1. destruct E1 as [g1 [E1 E2]]. unfold rule_rhs, add_rule, add_rule_parts, add_rule_fuel in E1. rewrite HL in E1. injection E1 as <-.
  eapply plainer_trans; [|apply IH; [|exact E2]; cbn; exact HL]. split; [auto|]. exists 0. unfold num_syms. cbn. rewrite app_nil_r. split; [reflexivity|lia].
Qed.

Lemma symbol_for_plainer : forall tr x s tr', limit (tr_cfg tr) = None -> symbol_for tr x = Ok (s, tr') ->
  plainer (tr_cfg tr) (tr_cfg tr') /\ tr_classes tr' = tr_classes tr.
Proof.
  intros tr x s tr' H E. destruct x as [|[|a [|b r]] [|r2 x]]; cbn [symbol_for] in E;
    try (apply (new_symbol_plainer _ _ _ _ H E)). injection E as <- <-. split; [apply plainer_refl|reflexivity].
Qed.

Section Names.
  Context (debug : bool) (B : N -> Prop) (C : list (N * N) -> Prop).

  Definition byte_name (b : N) : string := append "__byte" (string_of_nat (N.to_nat b)).

  (** Names come from bytes; a class comes from a byte that names its symbol, or from a class. *)
  Record named (tr : translator) : Prop := {
    n_limit : limit (tr_cfg tr) = None;
    n_len : length (names (src (tr_cfg tr))) = num_syms (tr_cfg tr);
    n_keys : NoDup (map fst (tr_classes tr));
    n_below : forall k s, In (k, s) (tr_classes tr) -> s < num_syms (tr_cfg tr);
    n_name : forall s n, nth_error (names (src (tr_cfg tr))) s = Some (Some n) ->
      exists b k, B b /\ classes_of_byte debug b = Ok k /\ In (k, s) (tr_classes tr) /\ n = byte_name b;
    n_class : forall k s, In (k, s) (tr_classes tr) ->
      (exists b, classes_of_byte debug b = Ok k /\ nth_error (names (src (tr_cfg tr))) s = Some (Some (byte_name b))) \/
      (exists r, C r /\ k = classes_of_class r)
  }.

  Lemma plainer_named : forall tr g', named tr -> plainer (tr_cfg tr) g' -> named (mkTr g' (tr_classes tr)).
  Proof.
    intros tr g' [A1 A2 A3 A4 A5 A6] [F1 [k [F2 F3]]]. constructor; cbn [tr_cfg tr_classes]; auto.
    - rewrite F2, app_length, repeat_length, A2. lia.
    - intros c s H. specialize (A4 c s H). lia.
    - intros s n H. rewrite F2 in H. destruct (le_lt_dec (length (names (src (tr_cfg tr)))) s) as [L|L].
      + rewrite nth_error_app2 in H by exact L. apply nth_error_In, repeat_spec in H. discriminate.
      + rewrite nth_error_app1 in H by exact L. auto.
    - intros c s H. destruct (A6 c s H) as [[b [E1 E2]]|H2]; [left|right; exact H2]. exists b. split; [exact E1|].
      rewrite F2, nth_error_app1; [exact E2|]. apply nth_error_Some. congruence.
  Qed.

  Lemma class_named : forall tr k n s tr', named tr -> class_sym tr k n = (s, tr') ->
    (exists b, B b /\ classes_of_byte debug b = Ok k /\ n = Some (byte_name b)) \/ (exists r, C r /\ k = classes_of_class r /\ n = None) -> named tr'.
  Proof.
    intros tr k n s tr' HN E HK. unfold class_sym in E. destruct (table_get (tr_classes tr) k) as [s0|] eqn:G; [injection E as <- <-; exact HN|].
    apply table_get_none in G. unfold next_sym, src_next in E. injection E as <- <-. destruct HN as [A1 A2 A3 A4 A5 A6].
    constructor; cbn [tr_cfg tr_classes src limit names num num_syms] in *; auto; unfold num_syms in *; cbn [num src names] in *.
    - rewrite app_length. cbn. lia.
    - apply table_put_nodup_keys; auto.
    - intros c s H. apply table_put_in in H; auto. destruct H as [H|H]; [injection H as _ ->; lia|specialize (A4 c s H); lia].
    - intros s m H. destruct (Nat.eq_dec s (num (src (tr_cfg tr)))) as [->|HS].
      + rewrite nth_error_app2, A2, Nat.sub_diag in H by lia. cbn in H. injection H as ->. destruct HK as [[b [HB [Ek En]]]|[r [_ [_ En]]]]; [|discriminate].
        injection En as ->. exists b, k. repeat (split; auto). apply table_put_in; auto.
      + destruct (lt_dec s (length (names (src (tr_cfg tr))))) as [L|L].
        * rewrite nth_error_app1 in H by exact L. destruct (A5 s m H) as [b [k' [HB [Ek [HI En]]]]]. exists b, k'. repeat (split; auto). apply table_put_in; auto.
        * exfalso. assert (X : nth_error (names (src (tr_cfg tr)) ++ [n]) s <> None) by congruence. apply nth_error_Some in X. rewrite app_length in X. cbn in X. lia.
    - intros c s H. apply table_put_in in H; auto. destruct H as [H|H].
      + injection H as -> ->. destruct HK as [[b [HB [Ek ->]]]|[r [HC [-> _]]]]; [left|right; eauto]. exists b. split; auto. rewrite nth_error_app2, A2, Nat.sub_diag by lia. reflexivity.
      + destruct (A6 c s H) as [[b [E1 E2]]|H2]; [left|right; exact H2]. exists b. split; [exact E1|]. rewrite nth_error_app1; [exact E2|]. apply nth_error_Some. congruence.
  Qed.

  Lemma literal_named : forall bytes acc tr l tr', named tr -> (forall b, In b bytes -> B b) -> fold_res (walk_byte debug) bytes (acc, tr) = Ok (l, tr') -> named tr'.
  Proof.
    induction bytes as [|b bytes IH]; intros acc tr l tr' H HB E.
    - injection E as _ <-. exact H.
    - cbn [fold_res] in E. apply bind_ok in E. destruct E as [[acc1 tr1] [H1 H2]].
      unfold walk_byte in H1. apply bind_ok in H1. destruct H1 as [k [E1 H1]]. cbn [fst snd] in H1.
      destruct (class_sym tr k _) as [s tr2] eqn:EC. injection H1 as <- <-.
      eapply IH; [|intros; apply HB; right; assumption|exact H2]. apply (class_named _ _ _ _ _ H EC). left. exists b. split; [apply HB; left; reflexivity|]. split; auto.
  Qed.

  Lemma walk_named : forall h tr x tr', named tr -> (forall b, written (TByte b) h -> B b) -> (forall r, written (TClass r) h -> C r) ->
    walk_hir debug h tr = Ok (x, tr') -> named tr'.
  Proof.
    intros h. induction h using hir_ind'; intros tr x tr' HK HB HC HE.
    - injection HE as _ <-. auto.
    - cbn [walk_hir] in HE. apply bind_ok in HE. destruct HE as [[l tr1] [E1 E2]]. injection E2 as _ <-.
      eapply literal_named; [exact HK| |exact E1]. intros c Hc. apply HB. econstructor; eauto.
    - cbn [walk_hir] in HE. destruct (class_sym tr (classes_of_class r) None) as [s tr1] eqn:EC. injection HE as _ <-.
      apply (class_named _ _ _ _ _ HK EC). right. exists r. split; auto. apply HC. constructor. reflexivity.
    - discriminate.
    - cbn [walk_hir] in HE. destruct (next_sym (tr_cfg tr) None) as [l g0] eqn:En. apply bind_ok in HE.
      destruct HE as [[x1 tr1] [E1 E2]]. assert (K1 : named tr1).
      { eapply IHh; [| | |exact E1].
        - apply plainer_named; [exact HK|]. apply (next_plainer _ _ _ En).
        - intros b Hw. apply HB. constructor. exact Hw.
        - intros r Hw. apply HC. constructor. exact Hw. }
      destruct x1; [discriminate|]. apply bind_ok in E2. destruct E2 as [[s tr2] [E2 E3]].
      apply symbol_for_plainer in E2; [|apply K1]. destruct E2 as [P1 P2]. apply bind_ok in E3. destruct E3 as [g' [E3 E4]]. injection E4 as _ <-.
      assert (HL2 : limit (tr_cfg tr2) = None) by (apply P1, K1). apply repetition_plainer in E3; [|exact HL2]. rewrite P2. apply plainer_named; [exact K1|].
      eapply plainer_trans; [exact P1|exact E3].
    - cbn [walk_hir] in HE. eapply IHh; [| | |exact HE]; auto; intros; [apply HB|apply HC]; constructor; assumption.
    - cbn [walk_hir] in HE. apply bind_ok in HE. destruct HE as [[r tr1] [E1 E2]]. injection E2 as _ <-.
      assert (HBl : forall h b, In h l -> written (TByte b) h -> B b) by (intros h b Hh Hw; apply HB; econstructor; eauto).
      assert (HCl : forall h r, In h l -> written (TClass r) h -> C r) by (intros h r0 Hh Hw; apply HC; econstructor; eauto).
      clear HB HC. revert E1. generalize (@nil nat) as acc. revert tr HK.
      induction H as [|h l Hh HF IH]; intros tr HK acc E1; cbn [walk_concat] in E1.
      + injection E1 as _ <-. auto.
      + apply bind_ok in E1. destruct E1 as [[x1 tr2] [E2 E3]]. apply bind_ok in E3. destruct E3 as [[acc2 tr3] [E3 E4]].
        assert (K2 : named tr2) by (eapply Hh; [exact HK| | |exact E2]; intros; [eapply HBl|eapply HCl]; [left; reflexivity|eassumption|left; reflexivity|eassumption]).
        assert (K3 : named tr3).
        { destruct x1 as [|r1 [|r2 x1]]; cbn [concat_part] in E3.
          - injection E3 as _ <-. auto.
          - injection E3 as _ <-. auto.
          - apply bind_ok in E3. destruct E3 as [[s tr4] [E5 E6]]. injection E6 as _ <-. apply new_symbol_plainer in E5; [|apply K2]. destruct E5 as [P1 P2].
            destruct tr4 as [g4 t4]. cbn in P1, P2. subst t4. apply plainer_named; auto. }
        eapply IH; [| |exact K3|exact E4]; intros; [eapply HBl|eapply HCl]; try (right; eassumption); eassumption.
    - cbn [walk_hir] in HE.
      assert (HBl : forall h b, In h l -> written (TByte b) h -> B b) by (intros h b Hh Hw; apply HB; econstructor; eauto).
      assert (HCl : forall h r, In h l -> written (TClass r) h -> C r) by (intros h r0 Hh Hw; apply HC; econstructor; eauto).
      clear HB HC. revert HE. generalize (@nil (list nat)) as acc. revert tr HK.
      induction H as [|h l Hh HF IH]; intros tr HK acc HE; cbn [walk_alt] in HE.
      + injection HE as _ <-. auto.
      + apply bind_ok in HE. destruct HE as [[x1 tr2] [E2 E3]].
        assert (K2 : named tr2) by (eapply Hh; [exact HK| | |exact E2]; intros; [eapply HBl|eapply HCl]; [left; reflexivity|eassumption|left; reflexivity|eassumption]).
        eapply IH; [| |exact K2|exact E3]; intros; [eapply HBl|eapply HCl]; try (right; eassumption); eassumption.
  Qed.
End Names.

Lemma from_hir_named : forall debug h g lm, cfg_from_hir debug h = Ok (g, lm) ->
  named debug (fun b => written (TByte b) h) (fun r => written (TClass r) h) (mkTr g (lm_classes lm)).
Proof.
  intros debug h g lm H. unfold cfg_from_hir in H. apply bind_ok in H. destruct H as [[x tr1] [E1 H]].
  apply bind_ok in H. destruct H as [[l tr2] [E2 H]]. injection H as <- <-. cbn [lm_classes].
  assert (K1 : named debug (fun b => written (TByte b) h) (fun r => written (TClass r) h) tr1).
  { eapply walk_named; [| | |exact E1]; auto. constructor; cbn; try reflexivity.
    - constructor.
    - intros k s [].
    - intros s n X. destruct s; discriminate.
    - intros k s []. }
  assert (P : plainer (tr_cfg tr1) (tr_cfg tr2) /\ tr_classes tr2 = tr_classes tr1).
  { destruct x; [eapply new_symbol_plainer; [apply K1|exact E2] | eapply symbol_for_plainer; [apply K1|exact E2]]. }
  destruct P as [P1 P2]. rewrite P2. apply (plainer_named _ _ _ tr1 (set_roots (tr_cfg tr2) [l]) K1). exact P1.
Qed.
