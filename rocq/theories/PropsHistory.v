(** Property C58: where the origin of a rule is found after rewriting. *)

From Coq Require Import List Arith NArith ZArith Bool Lia Permutation.
From Verif Require Import Base ListFacts Spec SpecSeq GrammarFacts SymbolModel HistoryModel CfgModel View
  CfgProof SeqModel PrecModel ElimModel SpecPrec HistProof PropsElim.
Import ListNotations.
Local Notation length := List.length.

(** [chained root nodes h]: the rewrites [nodes], first to last, of a rule that begins with [root]
    give the history [h]. *)
Inductive chained (root : root_node) : list linked_node -> history -> Prop :=
| ch_root : chained root [] (process_root root)
| ch_step : forall nodes n h h', chained root nodes h -> process_linked n h = Ok h' ->
    chained root (nodes ++ [n]) h'.

(** The origin that the user gave. *)
Definition given_origin (root : root_node) : N :=
  match root with
  | RNoOp => 4294967295
  | RRule _ => 0
  | ROrigin n => N.of_nat n mod 4294967296
  end.

(** Some rewrite split a part off that does not complete the rule. *)
Definition split_off (nodes : list linked_node) : Prop :=
  exists height len, In (LBinarize height len false) nodes.

(** ** C58 *)

(** Through any chain of rewrites the origin is kept, except by the parts that do not complete
    a split rule, which have none. *)
Theorem C58_chain : forall root nodes h, chained root nodes h ->
  (split_off nodes -> h_origin h = 4294967295%N) /\
  (~ split_off nodes -> h_origin h = given_origin root).
Proof.
  intros root nodes h H. induction H as [|nodes n h h' H [IH1 IH2] E].
  - split; [intros [a [b []]]|intros _; destruct root; reflexivity].
  - assert (HK : (exists a b, n = LBinarize a b false) \/ h_origin h' = h_origin h).
    { destruct n as [a b t|r0 r1 w| |t r s| |m]; cbn [process_linked] in E.
      2: { right. unfold history_eliminate_nulling in E. destruct w.
           - destruct r0; [|discriminate]. injection E as <-. reflexivity.
           - destruct r1; [|discriminate]. injection E as <-. reflexivity.
           - injection E as <-. reflexivity. }
      1: { injection E as <-. rewrite binarize_origin. destruct t; [auto|]. left. eauto. }
      all: right; injection E as <-; reflexivity. }
    destruct HK as [[a [b ->]]|HK].
    + cbn [process_linked] in E. injection E as <-. rewrite binarize_origin. split; auto.
      intros X. destruct X. exists a, b. apply in_or_app. right. left. auto.
    + rewrite HK. split.
      * intros [a [b X]]. apply in_app_or in X. destruct X as [X|[->|[]]]; [apply IH1; exists a, b; auto|].
        cbn [process_linked] in E. injection E as <-. rewrite <- HK. apply binarize_origin.
      * intros X. apply IH2. intros [a [b Y]]. apply X. exists a, b. apply in_or_app. auto.
Qed.
Print Assumptions C58_chain.

Example C58_chain_example :
  chained (ROrigin 7) [LAssignPrecedence 1; LBinarize 2 4 true; LEliminateNulling (Some 3) None RLeft; LWeight (SpecFloat.S754_finite false 4503599627370496%positive (-53)%Z)]
    (mkHistory (dot_new 7 0) (dot_new 7 2) (dot_new 7 3) 7 (Some (3, false)) (Some 500%N) None).
Proof.
  apply (ch_step _ [_; _; _] _ (mkHistory (dot_new 7 0) (dot_new 7 2) (dot_new 7 3) 7 (Some (3, false)) None None)); [|reflexivity].
  apply (ch_step _ [_; _] _ (mkHistory (dot_new 7 0) (dot_new 7 2) (dot_new 7 3) 7 None None None)); [|reflexivity].
  apply (ch_step _ [_] _ (history_new 7)); [|reflexivity].
  apply (ch_step _ [] _ (history_new 7)); [|reflexivity].
  exact (ch_root (ROrigin 7)).
Qed.

(** Limiting to two symbols replaces each rule, in order, by parts.  The last part has the rule's
    left-hand side and origin.  The other parts have new symbols and no origin. *)
Theorem C58_binarize_partial : forall g g', limit_rhs_len g (Some 2) = Ok g' ->
  exists parts, rules g' = concat parts /\
    Forall2 (fun r b => exists c x, b = c ++ [x] /\
      lhs x = lhs r /\ h_origin (hist x) = h_origin (hist r) /\
      Forall (fun y => num_syms g <= lhs y /\ h_origin (hist y) = 4294967295%N) c) (rules g) parts.
Proof.
  intros g g' E. apply adds_parts in E; [|reflexivity]. exact E.
Qed.
Print Assumptions C58_binarize_partial.

(** After nulling elimination (which limits first) a rule of an old symbol has the origin of a
    rule of that symbol, and a rule of a new symbol has none. *)
Theorem C58_eliminate_partial : forall g g' result, closed_rules g ->
  eliminate_nulling g = Ok (g', result) ->
  forall x, In x (rules g') ->
    (lhs x < num_syms g /\ exists r, In r (rules g) /\ lhs r = lhs x /\ h_origin (hist x) = h_origin (hist r)) \/
    (num_syms g <= lhs x /\ h_origin (hist x) = 4294967295%N).
Proof.
  intros g g' result HC E x Hx.
  assert (HB : exists g1, limit_rhs_len g (Some 2) = Ok g1).
  { unfold eliminate_nulling in E. destruct (limit_rhs_len g (Some 2)) as [g1| |] eqn:E1; try discriminate. eauto. }
  destruct HB as [g1 E1].
  assert (HY : exists y, In y (rules g1) /\ lhs x = lhs y /\ h_origin (hist x) = h_origin (hist y)).
  { destruct (C16_history_partial g g1 g' result HC E1 E x Hx) as [H|[y [a [b [H1 [H2 [_ [H3 _]]]]]]]]; eauto. }
  destruct HY as [y [Hy [-> ->]]]. destruct (C58_binarize_partial g g1 E1) as [parts [EP HF]].
  rewrite EP in Hy. apply in_concat in Hy. destruct Hy as [b [Hb Hy]].
  assert (HR : exists r, In r (rules g) /\ parts_of (num_syms g) r b).
  { clear -HF Hb. induction HF as [|r b' l l' H HF IH]; [destruct Hb|]. destruct Hb as [->|Hb].
    - exists r. split; [left; auto|exact H].
    - destruct (IH Hb) as [r' [A B]]. exists r'. split; [right; auto|auto]. }
  destruct HR as [r [Hr [c [z [-> [Z1 [Z2 Z3]]]]]]]. apply in_app_or in Hy. destruct Hy as [Hy|[<-|[]]].
  - right. rewrite Forall_forall in Z3. exact (Z3 y Hy).
  - left. split; [|exists r; auto]. rewrite Z1. destruct (HC r Hr) as [X _]. exact X.
Qed.
Print Assumptions C58_eliminate_partial.

(** The histories given to the builder of rules with precedence. *)
Fixpoint given_histories (pending : option history) (calls : list prec_call) : list history :=
  match calls with
  | [] => []
  | PHistory h :: calls' => given_histories (Some h) calls'
  | PRhs _ :: calls' => match pending with Some h => h | None => history_new 0 end :: given_histories None calls'
  | PRhsHistory _ h :: calls' => h :: given_histories None calls'
  | PAssoc _ :: calls' => given_histories pending calls'
  | PLower :: calls' => given_histories pending calls'
  end.

(** The rules that only connect levels. *)
Definition levels (calls : list prec_call) : nat :=
  length (filter (fun c => match c with PLower => true | _ => false end) calls).

Lemma add_none : forall g x, limit g = None -> add_rule g x = Ok (push_rule g x).
Proof. intros g x H. unfold add_rule, add_rule_parts, add_rule_fuel. rewrite H. reflexivity. Qed.

Lemma adds_none : forall (f : rule -> rule) l g, limit g = None ->
  fold_res (fun g r => add_rule g (f r)) l g = Ok (set_rules g (rules g ++ map f l)).
Proof.
  induction l as [|r l IH]; intros g H; cbn [fold_res].
  - rewrite app_nil_r. destruct g; reflexivity.
  - rewrite add_none by auto. cbn [bind]. rewrite IH by exact H. unfold push_rule, set_rules. cbn. rewrite <- app_assoc. reflexivity.
Qed.

(** What the builder has added so far. *)
Definition prec_hists (g : cfg) (hs : list history) (b : prec_builder) : Prop :=
  limit (pb_cfg b) = None /\ exists c, rules (pb_cfg b) = rules g ++ c /\ Permutation (map hist c ++ map hist (pb_group b)) hs.

Lemma rhs_hists : forall g hs b syms h b', prec_hists g hs b -> prec_rhs_with_history b syms h = Ok b' ->
  prec_hists g (h :: hs) b' /\ pb_hist b' = None.
Proof.
  intros g hs b syms h b' [HL [c [E1 E2]]] E. unfold prec_rhs_with_history in E. cbn [process_linked bind] in E.
  destruct (pb_assoc b); try (rewrite add_none in E by auto; cbn [bind] in E; injection E as <-; split; [|reflexivity];
    split; [exact HL|]; cbn; eexists (c ++ [_]); rewrite E1, app_assoc; split; [reflexivity|];
    rewrite map_app; cbn [map hist]; rewrite <- app_assoc; cbn [app];
    apply Permutation_sym, Permutation_cons_app, Permutation_sym; exact E2).
  injection E as <-. split; [|reflexivity]. split; [exact HL|]. cbn. exists c. split; auto.
  rewrite map_app. cbn [map hist]. rewrite app_assoc. apply Permutation_sym. apply Permutation_trans with (h :: (map hist c ++ map hist (pb_group b))).
  - constructor. apply Permutation_sym. exact E2.
  - apply Permutation_cons_append.
Qed.

Lemma steps_hists : forall calls g hs b b', prec_hists g hs b -> fold_res prec_step calls b = Ok b' ->
  prec_hists g (hs ++ given_histories (pb_hist b) calls ++ repeat (history_new 4294967295) (levels calls)) b'.
Proof.
  induction calls as [|c calls IH]; intros g hs b b' HI E; cbn [fold_res] in E.
  - injection E as <-. cbn. rewrite app_nil_r. exact HI.
  - destruct (prec_step b c) as [b1| |] eqn:Es; cbn [bind] in E; try discriminate.
    assert (HP : forall hs' l, Permutation hs' l -> prec_hists g hs' b' -> prec_hists g l b').
    { intros hs' l P [A [k [B C]]]. split; auto. exists k. split; auto. eapply Permutation_trans; eauto. }
    destruct c as [h|syms|syms h|a|]; cbn [prec_step] in Es; cbn [given_histories]; unfold levels in *; cbn [filter].
    + injection Es as <-. apply (IH g hs _ b') in E; [exact E|]. exact HI.
    + cbv zeta in Es. destruct (rhs_hists g hs b _ _ b1 HI Es) as [H1 H2]. apply (IH g _ _ b' H1) in E. rewrite H2 in E.
      eapply HP; [|exact E]. cbn [app]. apply Permutation_cons_app. apply Permutation_refl.
    + destruct (rhs_hists g hs b _ _ b1 HI Es) as [H1 H2]. apply (IH g _ _ b' H1) in E. rewrite H2 in E.
      eapply HP; [|exact E]. cbn [app]. apply Permutation_cons_app. apply Permutation_refl.
    + injection Es as <-. apply (IH g hs _ b') in E; [exact E|]. exact HI.
    + destruct HI as [HL [k [E1 E2]]]. cbn [next_sym src_next] in Es. unfold next_sym, src_next in Es. rewrite add_none in Es by exact HL. cbn [bind] in Es.
      injection Es as <-. eapply IH with (hs := history_new 4294967295 :: hs) in E.
      * cbn [pb_hist length repeat] in *. eapply HP; [|exact E]. cbn [app]. rewrite app_assoc. rewrite app_assoc.
        apply Permutation_cons_app. apply Permutation_refl.
      * split; [exact HL|]. eexists (k ++ [_]). cbn. rewrite E1, app_assoc. split; [reflexivity|].
        rewrite map_app. cbn [map hist]. rewrite <- app_assoc. cbn [app].
        apply Permutation_sym, Permutation_cons_app, Permutation_sym. exact E2.
Qed.

(** A rule with precedence: each given history is found on one rule, and the rules that connect
    the levels have no origin. *)
Theorem C58_precedence_partial : forall g E calls g', limit g = None -> prec_build g E calls = Ok g' ->
  exists c, rules g' = rules g ++ c /\
    Permutation (map hist c) (given_histories None calls ++ repeat (history_new 4294967295) (S (levels calls))).
Proof.
  intros g E calls g' HL H. unfold prec_build in H. destruct (fold_res prec_step calls (prec_new g E)) as [b| |] eqn:Eb; cbn [bind] in H; try discriminate.
  assert (H0 : prec_hists g [] (prec_new g E)).
  { split; [exact HL|]. exists []. cbn. rewrite app_nil_r. auto. }
  destruct (steps_hists calls g [] _ b H0 Eb) as [L [k [K1 K2]]]. cbn [app prec_new next_sym src_next pb_hist] in K2.
  unfold prec_finalize in H. cbv zeta in H. rewrite adds_none in H by exact L. cbn [bind] in H. rewrite add_none in H by exact L.
  injection H as <-. cbn. eexists (k ++ map _ (pb_group b) ++ [_]). rewrite K1, <- !app_assoc. split; [reflexivity|].
  rewrite !map_app, map_map. cbn [map hist]. rewrite app_assoc.
  apply Permutation_trans with (history_new 4294967295 :: (given_histories None calls ++ repeat (history_new 4294967295) (levels calls))).
  - apply Permutation_sym. eapply Permutation_trans; [|apply Permutation_cons_append]. constructor. apply Permutation_sym. exact K2.
  - apply Permutation_cons_app. apply Permutation_refl.
Qed.
Print Assumptions C58_precedence_partial.

(** A sequence rule: all added rules record the element and the separator, the latter only if it
    is trailing, and whether they are at the top, which is where the origin is unless the caller
    gave a history. *)
Theorem C58_sequence_partial : forall debug g s g', limit g = None -> seq_rewrite debug g s = Ok g' ->
  exists c, rules g' = rules g ++ c /\
    Forall (fun x =>
      (lhs x = sq_lhs s \/ num_syms g <= lhs x) /\
      exists top, h_sequence (hist x) =
          Some (mkSeqDetails top (sq_rhs s) (match sq_sep s with Trailing t => Some t | _ => None end)) /\
        (top = true -> lhs x = sq_lhs s) /\ (top = false -> num_syms g <= lhs x) /\
        h_origin (hist x) = match sq_hist s with
                            | Some h => h_origin h
                            | None => if top then 0%N else 4294967295%N
                            end) c.
Proof.
  intros debug g s g' HL E. destruct (rewrite_hist debug g s g' HL E) as [h1 [h2 [c [P1 [P2 [E1 E2]]]]]].
  exists c. split; auto. cbn [process_linked] in P1, P2. injection P1 as <-. injection P2 as <-.
  eapply Forall_impl; [|exact E2]. intros x [[A B]|[A B]]; rewrite B; cbn [h_sequence h_origin].
  - split; auto. exists true. split; [reflexivity|]. split; auto. split; [discriminate|]. destruct (sq_hist s); reflexivity.
  - split; auto. exists false. split; [reflexivity|]. split; [discriminate|]. split; auto. destruct (sq_hist s); reflexivity.
Qed.
Print Assumptions C58_sequence_partial.

Definition ex_h : cfg :=
  mkCfg (mkSrc 5 (repeat None 5)) [mkRule 0 [1; 2; 3; 4] (history_new 7); mkRule 0 [] (history_new 8)] [0] [] None.

(** A rule with four symbols, limited to two and to three.  With three, both parts have the
    origin: it is not on the rule that completes it only. *)
Example C58_binarize_example : exists g', limit_rhs_len ex_h (Some 2) = Ok g' /\
  map (fun x => (lhs x, h_origin (hist x))) (rules g') = [(5, 4294967295%N); (6, 4294967295%N); (0, 7%N); (0, 8%N)].
Proof. eexists. split; vm_compute; reflexivity. Qed.

Theorem C58_limit_refuted : exists g l g' x, closed_rules g /\ limit_rhs_len g (Some l) = Ok g' /\
  In x (rules g') /\ num_syms g <= lhs x /\ h_origin (hist x) = 7%N /\
  exists y, In y (rules g') /\ lhs y < num_syms g /\ h_origin (hist y) = 7%N.
Proof.
  exists ex_h, 3. eexists. eexists. split.
  { intros x Hx. simpl in Hx. unfold num_syms; simpl.
    repeat (destruct Hx as [<- | Hx]; [simpl; repeat constructor; lia|]). destruct Hx. }
  split; [vm_compute; reflexivity|]. split; [left; reflexivity|]. split; [cbn; repeat constructor|]. split; [reflexivity|].
  eexists. split; [right; left; reflexivity|]. split; [cbn; repeat constructor|reflexivity].
Qed.
Print Assumptions C58_limit_refuted.

(** X ::= A B C (origin 7), B ::= b (origin 8), B ::=  (origin 9) *)
Example C58_eliminate_example :
  let g := mkCfg (mkSrc 5 (repeat None 5))
    [mkRule 0 [1; 2; 3] (history_new 7); mkRule 2 [4] (history_new 8); mkRule 2 [] (history_new 9)] [0] [] None in
  exists g' result, eliminate_nulling g = Ok (g', result) /\
  map (fun x => (lhs x, rhs x, h_origin (hist x))) (rules g') =
    [(5, [1; 2], 4294967295%N); (0, [5; 3], 7%N); (2, [4], 8%N); (5, [1], 4294967295%N)].
Proof. cbv zeta. do 2 eexists. split; vm_compute; reflexivity. Qed.

Example C58_precedence_example : exists g',
  prec_build (mkCfg (mkSrc 3 (repeat None 3)) [] [] [] None) 0
    [PRhsHistory [1] (history_new 5); PLower; PAssoc ARight; PHistory (history_new 6); PRhs [0; 2; 0]] = Ok g' /\
  map (fun x => (lhs x, rhs x, h_origin (hist x))) (rules g') =
    [(3, [1], 5%N); (4, [3], 4294967295%N); (4, [3; 2; 4], 6%N); (0, [4], 4294967295%N)].
Proof. eexists. split; vm_compute; reflexivity. Qed.

Definition ex_hs (sep : separator) (h : option history) : sequence := mkSeq 0 1 2%N (Some 3%N) sep h.

Example C58_sequence_example : exists g', seq_rewrite true ex_h (ex_hs (Trailing 2) None) = Ok g' /\
  map (fun x => (lhs x, rhs x, h_origin (hist x), h_sequence (hist x))) (firstn 2 (skipn 2 (rules g'))) =
    [(0, [5; 2], 0%N, Some (mkSeqDetails true 1 (Some 2)));
     (5, [6; 7], 4294967295%N, Some (mkSeqDetails false 1 (Some 2)))].
Proof. eexists. split; vm_compute; reflexivity. Qed.

(** A history given with a sequence: new symbols' rules have the origin too. *)
Theorem C58_sequence_refuted : exists g s g' x, closed_rules g /\ limit g = None /\
  sq_hist s = Some (history_new 9) /\ seq_rewrite true g s = Ok g' /\
  In x (rules g') /\ num_syms g <= lhs x /\ h_origin (hist x) = 9%N.
Proof.
  exists ex_h, (ex_hs Null (Some (history_new 9))). eexists. eexists. split.
  { intros x Hx. simpl in Hx. unfold num_syms; simpl.
    repeat (destruct Hx as [<- | Hx]; [simpl; repeat constructor; lia|]). destruct Hx. }
  split; [reflexivity|]. split; [reflexivity|]. split; [vm_compute; reflexivity|].
  split; [do 4 right; left; reflexivity|]. split; [cbn; repeat constructor|reflexivity].
Qed.
Print Assumptions C58_sequence_refuted.

(** A separator between the elements is not recorded. *)
Theorem C58_separator_refuted : exists g s g', closed_rules g /\ limit g = None /\
  sq_sep s = Proper 2 /\ seq_rewrite true g s = Ok g' /\
  forall x, In x (skipn (length (rules g)) (rules g')) -> exists top, h_sequence (hist x) = Some (mkSeqDetails top 1 None).
Proof.
  exists ex_h, (ex_hs (Proper 2) None). eexists. split.
  { intros x Hx. simpl in Hx. unfold num_syms; simpl.
    repeat (destruct Hx as [<- | Hx]; [simpl; repeat constructor; lia|]). destruct Hx. }
  split; [reflexivity|]. split; [reflexivity|]. split; [vm_compute; reflexivity|].
  intros x Hx. cbn [ex_h rules length skipn] in Hx.
  repeat (destruct Hx as [<- | Hx]; [eexists; reflexivity|]). destruct Hx.
Qed.
Print Assumptions C58_separator_refuted.
