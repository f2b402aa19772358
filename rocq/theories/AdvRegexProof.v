(** A regular expression inside of a grammar. *)

From Coq Require Import String List Arith NArith Bool Lia Permutation.
From Verif Require Import Base ListFacts Spec SpecSeq SpecRegex SpecRemap GrammarFacts SymbolModel LoopModel LoopFacts HistoryModel
  CfgModel View SeqModel RegexModel RegexProof RegexProof2 RemapModel RemapProof OpsProof HistProof LoadModel LoadProof AdvModel.
Import ListNotations.
Local Notation length := List.length.

(** * The grammar of an expression *)

(** The history of a rule that no one wrote. *)
Definition helper_hist (h : history) : Prop := h_origin h = 0%N \/ h_origin h = not0.

(** The rest of a grammar that stays as it is. *)
Definition follows (g g' : cfg) : Prop :=
  (limit g = None -> limit g' = None) /\ (names_wf g -> names_wf g') /\ wroots g' = wroots g.

Lemma follows_refl : forall g, follows g g.
Proof. intros g. split; [auto|]. split; auto. Qed.
Lemma follows_trans : forall a b c, follows a b -> follows b c -> follows a c.
Proof. intros a b c [A1 [A2 A3]] [B1 [B2 B3]]. split; [auto|]. split; [auto|]. congruence. Qed.

Lemma next_follows : forall g n s g', next_sym g n = (s, g') -> follows g g'.
Proof.
  intros g n s g' E. unfold next_sym, src_next in E. injection E as <- <-. split; [auto|]. split; [|reflexivity].
  unfold names_wf, num_syms. cbn. intros H. rewrite app_length. cbn. lia.
Qed.

Lemma recurse_follows : forall st q s st', seq_recurse st q = (s, st') -> follows (ss_cfg st) (ss_cfg st').
Proof.
  intros st q s st' E. unfold seq_recurse in E. destruct (key_lookup (ss_map st) (key_of q)).
  - injection E as <- <-. apply follows_refl.
  - destruct (next_sym (ss_cfg st) None) as [l g] eqn:En. injection E as <- <-. apply (next_follows _ _ _ _ En).
Qed.

Definition adds_follow (st st' : seq_state) : Prop := limit (ss_cfg st) = None -> follows (ss_cfg st) (ss_cfg st').

Lemma add_follow_trans : forall a b c, adds_follow a b -> adds_follow b c -> adds_follow a c.
Proof.
  intros a b c H1 H2 HL. pose proof (H1 HL) as F1. eapply follows_trans; [exact F1|]. apply H2. apply F1. exact HL.
Qed.

Lemma rhs_follows : forall h l st r st', seq_rhs h l st r = Ok st' -> adds_follow st st'.
Proof.
  intros h l st r st' E HL. unfold seq_rhs in E. destruct (negb (length r <=? 3)); [discriminate|]. cbn [process_linked bind] in E.
  unfold rule_history_rhs, add_rule, add_rule_parts, add_rule_fuel in E. rewrite HL in E. cbn [bind] in E. injection E as <-. cbn.
  split; [auto|]. split; [auto|reflexivity].
Qed.

Ltac follow_tac :=
  match goal with
  | H : seq_rhs _ _ ?st _ = Ok ?st' |- adds_follow ?st ?st' => exact (rhs_follows _ _ _ _ _ H)
  | H : seq_recurse ?st _ = (_, ?b) |- adds_follow ?st ?st' =>
      eapply add_follow_trans; [intros _; exact (recurse_follows _ _ _ _ H)|follow_tac]
  | H : seq_rhs _ _ ?st _ = Ok ?b |- adds_follow ?st ?st' =>
      eapply add_follow_trans; [exact (rhs_follows _ _ _ _ _ H)|follow_tac]
  end.

Lemma reduce_follows : forall debug h st q st', seq_reduce debug h st q = Ok st' -> adds_follow st st'.
Proof.
  intros debug h st q st' E. unfold seq_reduce in E. destruct q as [l x start end_ sep hs]. cbn [sq_lhs sq_rhs sq_start sq_end sq_sep] in *.
  destruct sep as [t|t|t|].
  3: repeat adds_tac E; follow_tac.
  all: destruct (start =? 0)%N; [destruct end_ as [[|e]|]; repeat adds_tac E; follow_tac|].
  1: repeat adds_tac E; follow_tac.
  all: destruct (start =? 1)%N.
  1, 3: destruct end_ as [[|[e|[e|e|]|]]|]; repeat adds_tac E; follow_tac.
  all: destruct ((start =? 2)%N && option_eqb N.eqb end_ (Some 2%N)); [repeat adds_tac E; follow_tac|].
  all: inv_bind E; destruct x0 as [q1 q2]; clear Q; repeat adds_tac E; follow_tac.
Qed.

Lemma rewrite_follows_any : forall p debug g q h1 h2 g', limit g = None ->
  (do st <- seq_reduce debug h1 (mkSS g [] []) q; do st' <- run_loop (seq_step debug h2) p st; Ok (ss_cfg st')) = Ok g' ->
  follows g g'.
Proof.
  intros p debug g q h1 h2 g' HL E. inv_bind E. inv_bind E. injection E as <-. apply reduce_follows in Q. specialize (Q HL). cbn [ss_cfg] in Q.
  unfold run_loop in Q0. destruct (iter_pow (seq_step debug h2) p x) as [s|r] eqn:Ei; [discriminate|]. subst r.
  assert (HS : forall s s', follows g (ss_cfg s) -> seq_step debug h2 s = inl s' -> follows g (ss_cfg s')).
  { intros s s' HF Es. unfold seq_step in Es. destruct (ss_stack s) as [|q' stack]; [discriminate|].
    destruct (_ <=? _)%N; [|discriminate]. destruct (seq_reduce debug h2 _ q') as [st1| |] eqn:Er; try discriminate. injection Es as <-.
    apply reduce_follows in Er. eapply follows_trans; [exact HF|]. apply Er. cbn. apply HF. exact HL. }
  destruct (iter_pow_inv _ (fun s => follows g (ss_cfg s)) HS p x (Ok x0) Q Ei) as [s [HF Es]].
  unfold seq_step in Es. destruct (ss_stack s) as [|q' stack]; [injection Es as <-; exact HF|].
  destruct (_ <=? _)%N; [|discriminate]. destruct (seq_reduce debug h2 _ q'); discriminate.
Qed.

Lemma rewrite_follows_wrap : forall p debug g q g', limit g = None ->
    (let prev := match sq_hist q with Some h => h | None => process_root (RRule (sq_lhs q)) end in
     do h_top <- process_linked (LRewriteSequence true (sq_rhs q) (separator_to_option (sq_sep q))) prev;
     do st <- seq_reduce debug h_top (mkSS g [] []) q;
     let prev2 := match sq_hist q with Some h => h | None => process_root RNoOp end in
     do h_bot <- process_linked (LRewriteSequence false (sq_rhs q) (separator_to_option (sq_sep q))) prev2;
     do st' <- run_loop (seq_step debug h_bot) p st;
     Ok (ss_cfg st')) = Ok g' -> follows g g'.
Proof.
  intros p debug g q g' HL E. cbv zeta in E. inv_bind E. inv_bind E. inv_bind E. inv_bind E.
  apply (rewrite_follows_any p debug g q x x1 g' HL). rewrite Q0. cbn [bind]. rewrite Q2. exact E.
Qed.

Lemma rewrite_follows : forall debug g q g', limit g = None -> seq_rewrite debug g q = Ok g' -> follows g g'.
Proof. intros debug g q g' HL E. exact (rewrite_follows_wrap 80 debug g q g' HL E). Qed.

(** What holds of a grammar made of an expression. *)
Record kept (g : cfg) : Prop := {
  k_limit : limit g = None;
  k_names : names_wf g;
  k_wroots : wroots g = [];
  k_hist : Forall (fun r => helper_hist (hist r)) (rules g)
}.

Lemma kept_follows : forall g g', kept g -> follows g g' -> Forall (fun r => helper_hist (hist r)) (rules g') -> kept g'.
Proof.
  intros g g' [A B C D] [F1 [F2 F3]] H. constructor; auto. rewrite F3. exact C.
Qed.

Lemma next_kept : forall g n s g', kept g -> next_sym g n = (s, g') -> kept g'.
Proof.
  intros g n s g' H E. apply (kept_follows g g' H (next_follows _ _ _ _ E)). unfold next_sym, src_next in E. injection E as <- <-. apply H.
Qed.

Lemma rule_kept : forall g l r g', kept g -> rule_rhs g l r = Ok g' -> kept g'.
Proof.
  intros g l r g' H E. unfold rule_rhs, add_rule, add_rule_parts, add_rule_fuel in E. rewrite (k_limit _ H) in E. injection E as <-.
  constructor; try apply H. cbn. apply Forall_app. split; [apply H|]. constructor; [left; reflexivity|constructor].
Qed.

Lemma repetition_kept : forall debug g l mi ma x g', kept g -> add_repetition debug g l mi ma x = Ok g' -> kept g'.
Proof.
  intros debug g l mi ma x g' H E. rewrite add_repetition_eq in E.
  pose proof (rewrite_follows _ _ _ _ (k_limit _ H) E) as F. apply (kept_follows g g' H F).
  destruct (rewrite_hist _ _ _ _ (k_limit _ H) E) as [h1 [h2 [c [E1 [E2 [E3 E4]]]]]].
  rewrite E3. apply Forall_app. split; [apply H|]. cbn in E1, E2. injection E1 as <-. injection E2 as <-.
  eapply Forall_impl; [|exact E4]. intros r [[_ ->]|[_ ->]]; cbn; [left|right]; reflexivity.
Qed.

Lemma new_symbol_kept : forall tr x s tr', kept (tr_cfg tr) -> new_symbol_with tr x = Ok (s, tr') -> kept (tr_cfg tr').
Proof.
  intros tr x s tr' H E. unfold new_symbol_with in E. destruct (next_sym (tr_cfg tr) None) as [s0 g] eqn:En.
  apply (next_kept _ _ _ _ H) in En. apply bind_ok in E. destruct E as [g' [E1 E2]]. injection E2 as <- <-. cbn.
  clear H. revert g En E1. induction x as [|r x IH]; intros g H E1; cbn [fold_res] in E1; [injection E1 as <-; exact H|].
  apply bind_ok in E1. destruct E1 as [g1 [E1 E2]]. apply (IH g1); [|exact E2]. apply (rule_kept _ _ _ _ H E1).
Qed.

Lemma symbol_for_kept : forall tr x s tr', kept (tr_cfg tr) -> symbol_for tr x = Ok (s, tr') -> kept (tr_cfg tr').
Proof.
  intros tr x s tr' H E. destruct x as [|[|a [|b r]] [|r2 x]]; cbn [symbol_for] in E;
    try (apply (new_symbol_kept _ _ _ _ H E)). injection E as <- <-. exact H.
Qed.

Lemma class_kept : forall tr k n s tr', kept (tr_cfg tr) -> class_sym tr k n = (s, tr') -> kept (tr_cfg tr').
Proof.
  intros tr k n s tr' H E. unfold class_sym in E. destruct (table_get (tr_classes tr) k).
  - injection E as <- <-. exact H.
  - destruct (next_sym (tr_cfg tr) n) as [s0 g] eqn:En. injection E as <- <-. apply (next_kept _ _ _ _ H En).
Qed.

Lemma literal_kept : forall debug bytes acc tr l tr', kept (tr_cfg tr) -> fold_res (walk_byte debug) bytes (acc, tr) = Ok (l, tr') ->
  kept (tr_cfg tr').
Proof.
  intros debug bytes. induction bytes as [|b bytes IH]; intros acc tr l tr' H E.
  - injection E as _ <-. exact H.
  - cbn [fold_res] in E. apply bind_ok in E. destruct E as [[acc1 tr1] [H1 H2]].
    unfold walk_byte in H1. apply bind_ok in H1. destruct H1 as [k [E1 H1]]. cbn [fst snd] in H1.
    destruct (class_sym tr k _) as [s tr2] eqn:EC. injection H1 as <- <-.
    eapply IH; [|exact H2]. apply (class_kept _ _ _ _ _ H EC).
Qed.

Lemma walk_kept : forall debug h tr x tr', kept (tr_cfg tr) -> walk_hir debug h tr = Ok (x, tr') -> kept (tr_cfg tr').
Proof.
  intros debug h. induction h using hir_ind'; intros tr x tr' HK HE.
  - injection HE as _ <-. auto.
  - cbn [walk_hir] in HE. apply bind_ok in HE. destruct HE as [[l tr1] [E1 E2]]. injection E2 as _ <-.
    eapply literal_kept; [exact HK|exact E1].
  - cbn [walk_hir] in HE. destruct (class_sym tr (classes_of_class r) None) as [s tr1] eqn:EC. injection HE as _ <-.
    apply (class_kept _ _ _ _ _ HK EC).
  - discriminate.
  - cbn [walk_hir] in HE. destruct (next_sym (tr_cfg tr) None) as [l g0] eqn:En. apply bind_ok in HE.
    destruct HE as [[x1 tr1] [E1 E2]]. assert (K1 : kept (tr_cfg tr1)).
    { eapply IHh; [|exact E1]. apply (next_kept _ _ _ _ HK En). }
    destruct x1; [discriminate|]. apply bind_ok in E2. destruct E2 as [[s tr2] [E2 E3]].
    apply symbol_for_kept in E2; [|exact K1]. apply bind_ok in E3. destruct E3 as [g' [E3 E4]]. injection E4 as _ <-.
    apply (repetition_kept _ _ _ _ _ _ _ E2 E3).
  - cbn [walk_hir] in HE. eapply IHh; [|exact HE]; auto.
  - cbn [walk_hir] in HE. apply bind_ok in HE. destruct HE as [[r tr1] [E1 E2]]. injection E2 as _ <-.
    revert E1. generalize (@nil nat) as acc. revert tr HK.
    induction H as [|h l Hh HF IH]; intros tr HK acc E1; cbn [walk_concat] in E1.
    + injection E1 as _ <-. auto.
    + apply bind_ok in E1. destruct E1 as [[x1 tr2] [E2 E3]]. apply bind_ok in E3. destruct E3 as [[acc2 tr3] [E3 E4]].
      assert (K2 : kept (tr_cfg tr2)) by (eapply Hh; [|exact E2]; auto).
      assert (K3 : kept (tr_cfg tr3)).
      { destruct x1 as [|r1 [|r2 x1]]; cbn [concat_part] in E3.
        - injection E3 as _ <-. auto.
        - injection E3 as _ <-. auto.
        - apply bind_ok in E3. destruct E3 as [[s tr4] [E5 E6]]. injection E6 as _ <-. apply (new_symbol_kept _ _ _ _ K2 E5). }
      eapply IH; [|exact E4]; auto.
  - cbn [walk_hir] in HE. revert HE. generalize (@nil (list nat)) as acc. revert tr HK.
    induction H as [|h l Hh HF IH]; intros tr HK acc HE; cbn [walk_alt] in HE.
    + injection HE as _ <-. auto.
    + apply bind_ok in HE. destruct HE as [[x1 tr2] [E2 E3]].
      assert (K2 : kept (tr_cfg tr2)) by (eapply Hh; [|exact E2]; auto).
      eapply IH; [|exact E3]; auto.
Qed.

Lemma from_hir_kept : forall debug h g lm, cfg_from_hir debug h = Ok (g, lm) -> kept g.
Proof.
  intros debug h g lm H. unfold cfg_from_hir in H. apply bind_ok in H. destruct H as [[x tr1] [E1 H]].
  apply bind_ok in H. destruct H as [[l tr2] [E2 H]]. injection H as <- _.
  assert (K1 : kept (tr_cfg tr1)).
  { eapply walk_kept; [|exact E1]. constructor; try reflexivity. constructor. }
  assert (K2 : kept (tr_cfg tr2)).
  { destruct x; [eapply new_symbol_kept; [exact K1|exact E2] | eapply symbol_for_kept; [exact K1|exact E2]]. }
  constructor; apply K2.
Qed.
