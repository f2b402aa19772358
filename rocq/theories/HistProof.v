(** Where origins and sequence details are found after rewriting. *)

From Coq Require Import List Arith NArith Bool Lia.
From Verif Require Import Base ListFacts SpecSeq SymbolModel LoopModel LoopFacts HistoryModel CfgModel SeqModel OpsProof.
Import ListNotations.
Local Notation length := List.length.

(** * Splitting under limit 2 *)

Lemma binarize_origin : forall h a b t, h_origin (history_binarize h a b t) = if t then h_origin h else not0.
Proof.
  intros h a b t. unfold history_binarize. destruct t; [|reflexivity].
  destruct (b =? 2); [reflexivity|]. destruct (3 <=? b); reflexivity.
Qed.

(** [c ++ [x]] are the parts of [r]: [x] completes it, the others have symbols from [n] on. *)
Definition parts_of (n : nat) (r : rule) (b : list rule) : Prop :=
  exists c x, b = c ++ [x] /\ lhs x = lhs r /\ h_origin (hist x) = h_origin (hist r) /\
    Forall (fun y => n <= lhs y /\ h_origin (hist y) = not0) c.

Lemma split_parts : forall fuel r parts rest g k g', rest <> [] ->
  split_loop fuel r 2 parts rest g = Ok (k, g') ->
  exists b, rules g' = rules g ++ b /\ parts_of (num_syms g) r b /\ num_syms g <= num_syms g' /\ limit g' = limit g.
Proof.
  induction fuel as [|fuel IH]; intros r parts rest g k g' HN E; cbn [split_loop] in E.
  - destruct rest; [congruence|discriminate].
  - destruct (is_nil rest) eqn:Nr; [destruct rest; [congruence|discriminate]|].
    set (ti := length rest - 2) in *. destruct (is_nil (firstn ti rest)) eqn:Nf.
    + destruct (firstn ti rest) eqn:Ef; [|discriminate].
      assert (E2 : Ok (S parts, push_rule g (mkRule (lhs r) (rev (skipn ti rest))
                (if (parts =? 0) && true || negb (2 =? 2) then hist r else history_binarize (hist r) parts (length (rhs r)) true))) = Ok (k, g')).
      { rewrite <- E. destruct fuel; reflexivity. }
      injection E2 as _ <-. exists [mkRule (lhs r) (rev (skipn ti rest))
                (if (parts =? 0) && true || negb (2 =? 2) then hist r else history_binarize (hist r) parts (length (rhs r)) true)].
      split; [reflexivity|]. split; [|split; auto]. exists [], (mkRule (lhs r) (rev (skipn ti rest))
                (if (parts =? 0) && true || negb (2 =? 2) then hist r else history_binarize (hist r) parts (length (rhs r)) true)).
      split; auto. split; auto. split; auto. cbn [hist]. destruct ((parts =? 0) && true || negb (2 =? 2)); [auto|apply binarize_origin].
    + destruct (next_sym g None) as [s g1] eqn:En. unfold next_sym, src_next in En. injection En as <- <-.
      destruct (is_nil (firstn ti rest ++ [num (src g)])) eqn:Na; [destruct (firstn ti rest); discriminate|].
      rewrite andb_false_r in E. cbn [orb negb Nat.eqb] in E.
      apply IH in E; [|destruct (firstn ti rest); discriminate].
      destruct E as [b [E1 [[c [x [-> [X1 [X2 X3]]]]] [E3 E4]]]].
      exists (mkRule (num (src g)) (rev (skipn ti rest)) (history_binarize (hist r) parts (length (rhs r)) false) :: c ++ [x]).
      unfold num_syms in *. cbn [src num push_rule set_rules rules limit] in *.
      split; [rewrite E1, <- app_assoc; reflexivity|]. split; [|split; [lia|auto]].
      exists (mkRule (num (src g)) (rev (skipn ti rest)) (history_binarize (hist r) parts (length (rhs r)) false) :: c), x.
      split; auto. split; auto. split; auto. constructor.
      * cbn [lhs hist]. split; auto.
      * eapply Forall_impl; [|exact X3]. intros y [Y1 Y2]. split; auto. lia.
Qed.

Lemma add_parts : forall g r g', limit g = Some 2 -> add_rule g r = Ok g' ->
  exists b, rules g' = rules g ++ b /\ parts_of (num_syms g) r b /\ num_syms g <= num_syms g' /\ limit g' = Some 2.
Proof.
  intros g r g' HL E. unfold add_rule, add_rule_parts, add_rule_fuel in E. rewrite HL in E.
  destruct (length (rhs r) <? 2) eqn:El; cbn [bind] in E.
  - injection E as <-. exists [r]. split; auto. split; [|split; auto]. exists [], r. auto.
  - destruct (split_loop _ r 2 0 (rev (rhs r)) g) as [[k g1]| |] eqn:Es; cbn [bind] in E; try discriminate. injection E as <-.
    apply split_parts in Es; [rewrite HL in Es; exact Es|]. apply Nat.ltb_ge in El. intros X.
    apply (f_equal (@length nat)) in X. rewrite rev_length in X. cbn in X. lia.
Qed.

Lemma parts_le : forall n m r b, n <= m -> parts_of m r b -> parts_of n r b.
Proof.
  intros n m r b H [c [x [E [A [B C]]]]]. exists c, x. split; auto. split; auto. split; auto.
  eapply Forall_impl; [|exact C]. intros y [Y1 Y2]. split; auto. lia.
Qed.

Lemma adds_parts : forall l g g', limit g = Some 2 -> fold_res add_rule l g = Ok g' ->
  exists bs, rules g' = rules g ++ concat bs /\ Forall2 (parts_of (num_syms g)) l bs.
Proof.
  induction l as [|r l IH]; intros g g' HL E; cbn [fold_res] in E.
  - injection E as <-. exists []. split; [rewrite app_nil_r; auto|constructor].
  - destruct (add_rule g r) as [g1| |] eqn:Ea; cbn [bind] in E; try discriminate.
    destruct (add_parts g r g1 HL Ea) as [b [B1 [B2 [B3 B4]]]]. destruct (IH g1 g' B4 E) as [bs [S1 S2]].
    exists (b :: bs). split.
    + rewrite S1, B1. cbn [concat]. rewrite app_assoc. reflexivity.
    + constructor; auto. clear -S2 B3. induction S2; constructor; auto. eapply parts_le; eauto.
Qed.

(** * Sequences *)

(** The rules added between two states have the left-hand side [l] and history [h]; the sequences
    still to be rewritten have new left-hand sides. *)
Definition adds (l : nat) (h : history) (st st' : seq_state) : Prop :=
  limit (ss_cfg st) = None -> limit (ss_cfg st') = None /\ num_syms (ss_cfg st) <= num_syms (ss_cfg st') /\
  (exists c, rules (ss_cfg st') = rules (ss_cfg st) ++ c /\ Forall (fun x => lhs x = l /\ hist x = h) c) /\
  (exists k, ss_stack st' = k ++ ss_stack st /\ Forall (fun q => num_syms (ss_cfg st) <= sq_lhs q) k).

Lemma adds_trans : forall l h a b c, adds l h a b -> adds l h b c -> adds l h a c.
Proof.
  intros l h a b c H1 H2 HL. destruct (H1 HL) as [A1 [A2 [[c1 [A3 A4]] [k1 [A5 A6]]]]].
  destruct (H2 A1) as [B1 [B2 [[c2 [B3 B4]] [k2 [B5 B6]]]]]. split; auto. split; [lia|]. split.
  - exists (c1 ++ c2). rewrite B3, A3, app_assoc. split; auto. apply Forall_app. auto.
  - exists (k2 ++ k1). rewrite B5, A5, app_assoc. split; auto. apply Forall_app. split; auto.
    eapply Forall_impl; [|exact B6]. cbn. intros; lia.
Qed.

Lemma recurse_adds : forall l h st q s st', seq_recurse st q = (s, st') -> adds l h st st'.
Proof.
  intros l h st q s st' E HL. unfold seq_recurse in E. destruct (key_lookup (ss_map st) (key_of q)).
  - injection E as <- <-. split; auto. split; auto. split; [exists []|exists []]; cbn; rewrite ?app_nil_r; auto.
  - unfold next_sym, src_next in E. injection E as <- <-. unfold num_syms. cbn. split; auto. split; auto.
    split; [exists []; rewrite app_nil_r; auto|]. eexists [_]. split; [reflexivity|]. constructor; [|constructor]. cbn. auto.
Qed.

Lemma rhs_adds : forall h l st r st', seq_rhs h l st r = Ok st' -> adds l h st st'.
Proof.
  intros h l st r st' E HL. unfold seq_rhs in E. destruct (negb (length r <=? 3)); [discriminate|]. cbn [process_linked bind] in E.
  unfold rule_history_rhs, add_rule, add_rule_parts, add_rule_fuel in E. rewrite HL in E. cbn [bind] in E. injection E as <-. cbn.
  split; auto. split; auto. split; [|exists []; auto]. eexists. split; [reflexivity|]. constructor; auto.
Qed.

Ltac adds_tac E :=
  match type of E with
  | (match seq_recurse ?st ?q with _ => _ end) = Ok _ =>
      let R := fresh "R" in destruct (seq_recurse st q) eqn:R
  | bind (seq_rhs ?h ?l ?st ?r) _ = Ok _ =>
      let R := fresh "R" in destruct (seq_rhs h l st r) eqn:R; [|discriminate E|discriminate E]; cbn [bind] in E
  | seq_rhs ?h ?l ?st ?r = Ok _ => fail
  | bind _ _ = Ok _ => inv_bind E
  end.
Ltac chain_tac :=
  match goal with
  | H : seq_rhs _ _ ?st _ = Ok ?st' |- adds _ _ ?st ?st' => exact (rhs_adds _ _ _ _ _ H)
  | H : seq_recurse ?st _ = (_, ?b) |- adds _ _ ?st ?st' =>
      eapply adds_trans; [exact (recurse_adds _ _ _ _ _ _ H)|chain_tac]
  | H : seq_rhs _ _ ?st _ = Ok ?b |- adds _ _ ?st ?st' =>
      eapply adds_trans; [exact (rhs_adds _ _ _ _ _ H)|chain_tac]
  end.

Lemma reduce_adds : forall debug h st q st', seq_reduce debug h st q = Ok st' -> adds (sq_lhs q) h st st'.
Proof.
  intros debug h st q st' E. unfold seq_reduce in E. destruct q as [l x start end_ sep hs]. cbn [sq_lhs sq_rhs sq_start sq_end sq_sep] in *.
  destruct sep as [t|t|t|].
  3: repeat adds_tac E; chain_tac.
  all: destruct (start =? 0)%N; [destruct end_ as [[|e]|]; repeat adds_tac E; chain_tac|].
  1: repeat adds_tac E; chain_tac.
  all: destruct (start =? 1)%N.
  1, 3: destruct end_ as [[|[e|[e|e|]|]]|]; repeat adds_tac E; chain_tac.
  all: destruct ((start =? 2)%N && option_eqb N.eqb end_ (Some 2%N)); [repeat adds_tac E; chain_tac|].
  all: inv_bind E; destruct x0 as [q1 q2]; clear Q; repeat adds_tac E; chain_tac.
Qed.

(** The state of the loop: all rules since [g], with the histories of the top and bottom rules. *)
Definition seq_inv (g : cfg) (l : nat) (h1 h2 : history) (st : seq_state) : Prop :=
  limit (ss_cfg st) = None /\ num_syms g <= num_syms (ss_cfg st) /\
  (exists c, rules (ss_cfg st) = rules g ++ c /\
     Forall (fun x => (lhs x = l /\ hist x = h1) \/ (num_syms g <= lhs x /\ hist x = h2)) c) /\
  Forall (fun q => num_syms g <= sq_lhs q) (ss_stack st).

Lemma step_seq_inv : forall debug g l h1 h2 st st', seq_inv g l h1 h2 st -> seq_step debug h2 st = inl st' -> seq_inv g l h1 h2 st'.
Proof.
  intros debug g l h1 h2 st st' [A [B [[c [C1 C2]] D]]] E. unfold seq_step in E. destruct (ss_stack st) as [|q stack] eqn:Ek; [discriminate|].
  destruct (_ <=? _)%N; [|discriminate]. destruct (seq_reduce debug h2 _ q) as [st1| |] eqn:Er; try discriminate. injection E as <-.
  apply reduce_adds in Er. inversion D as [|? ? D1 D2]; subst. destruct (Er A) as [F1 [F2 [[c' [F3 F4]] [k [F5 F6]]]]]. cbn [ss_cfg ss_stack] in *.
  split; auto. split; [lia|]. split.
  - exists (c ++ c'). rewrite F3, C1, app_assoc. split; auto. apply Forall_app. split; auto.
    eapply Forall_impl; [|exact F4]. intros x [X1 X2]. right. rewrite X1. auto.
  - rewrite F5. apply Forall_app. split; auto. eapply Forall_impl; [|exact F6]. cbn. intros; lia.
Qed.

Lemma rewrite_hist_any : forall p debug g q h1 h2 g', limit g = None ->
  (do st <- seq_reduce debug h1 (mkSS g [] []) q; do st' <- run_loop (seq_step debug h2) p st; Ok (ss_cfg st')) = Ok g' ->
  exists c, rules g' = rules g ++ c /\
     Forall (fun x => (lhs x = sq_lhs q /\ hist x = h1) \/ (num_syms g <= lhs x /\ hist x = h2)) c.
Proof.
  intros p debug g q h1 h2 g' HL E. inv_bind E. inv_bind E. injection E as <-. apply reduce_adds in Q.
  destruct (Q HL) as [A1 [A2 [[c [A3 A4]] [k [A5 A6]]]]]. cbn [ss_cfg ss_stack] in *.
  assert (HI : seq_inv g (sq_lhs q) h1 h2 x).
  { split; auto. split; auto. split.
    - exists c. split; auto. eapply Forall_impl; [|exact A4]. auto.
    - rewrite A5, app_nil_r. auto. }
  unfold run_loop in Q0. destruct (iter_pow (seq_step debug h2) p x) as [s|r] eqn:Ei; [discriminate|]. subst r.
  destruct (iter_pow_inv _ (seq_inv g (sq_lhs q) h1 h2) (step_seq_inv debug g (sq_lhs q) h1 h2) p x (Ok x0) HI Ei) as [s [[_ [_ [HS _]]] Es]].
  unfold seq_step in Es. destruct (ss_stack s) as [|q' stack]; [injection Es as <-; exact HS|].
  destruct (_ <=? _)%N; [|discriminate]. destruct (seq_reduce debug h2 _ q'); discriminate.
Qed.

Definition rewrite_result (g : cfg) (q : sequence) (g' : cfg) : Prop :=
  exists h1 h2 c,
    process_linked (LRewriteSequence true (sq_rhs q) (separator_to_option (sq_sep q)))
      (match sq_hist q with Some h => h | None => process_root (RRule (sq_lhs q)) end) = Ok h1 /\
    process_linked (LRewriteSequence false (sq_rhs q) (separator_to_option (sq_sep q)))
      (match sq_hist q with Some h => h | None => process_root RNoOp end) = Ok h2 /\
    rules g' = rules g ++ c /\
    Forall (fun x => (lhs x = sq_lhs q /\ hist x = h1) \/ (num_syms g <= lhs x /\ hist x = h2)) c.

Lemma rewrite_hist_wrap : forall p debug g q g', limit g = None ->
    (let prev := match sq_hist q with Some h => h | None => process_root (RRule (sq_lhs q)) end in
     do h_top <- process_linked (LRewriteSequence true (sq_rhs q) (separator_to_option (sq_sep q))) prev;
     do st <- seq_reduce debug h_top (mkSS g [] []) q;
     let prev2 := match sq_hist q with Some h => h | None => process_root RNoOp end in
     do h_bot <- process_linked (LRewriteSequence false (sq_rhs q) (separator_to_option (sq_sep q))) prev2;
     do st' <- run_loop (seq_step debug h_bot) p st;
     Ok (ss_cfg st')) = Ok g' -> rewrite_result g q g'.
Proof.
  intros p debug g q g' HL E. cbv zeta in E. inv_bind E. inv_bind E. inv_bind E. inv_bind E. 
  destruct (rewrite_hist_any p debug g q x x1 g' HL) as [c [E1 E2]].
  - rewrite Q0. cbn [bind]. rewrite Q2. exact E.
  - exists x, x1, c. auto.
Qed.

Lemma rewrite_hist : forall debug g q g', limit g = None -> seq_rewrite debug g q = Ok g' -> rewrite_result g q g'.
Proof. intros debug g q g' HL E. exact (rewrite_hist_wrap 80 debug g q g' HL E). Qed.
