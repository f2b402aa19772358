(** Properties C56, C57 and C62: LR(0) closure and automaton. *)

From Coq Require Import List Arith NArith Bool Lia Sorted.
From Verif Require Import Base ListFacts Spec SpecLR GrammarFacts LoopModel HistoryModel SymbolModel CfgModel View CfgProof
  BitSetModel SetView SetProof SetsModel LRModel LRProof LRProof2 LRProof3 PropsGrammar PropsClassify PropsLL.
Import ListNotations.
Local Notation length := List.length.

(** Reading guide.  [plain g] is the list of rules of the grammar as pairs.  An item set [m] is a
    map from rule positions to items; [contains m (i, d)] says that rule [i] has an entry with its
    dot at [d], and [genuine (rules g) m] that [m] is ordered by its keys and that the entry of [i]
    holds the right-hand side of rule [i] and a dot inside it. *)

Lemma builder_terminals : forall g, closed_rules g -> exists ts, terminal_symbols g = Ok ts /\ length ts = num_syms g /\
  (forall s, member ts s <-> s < num_syms g /\ terminal (prods g) s) /\
  (forall s, s < length ts -> (member ts s <-> forall x, In x (rules g) -> lhs x <> s)) /\
  (forall x s, In x (rules g) -> In s (rhs x) -> s < length ts).
Proof.
  intros g HC. destruct (bs_terminal_spec g HC) as [ts [E [HL HM]]]. exists ts. split; [exact E|]. split; auto. split; auto.
  split.
  - intros s Hs. rewrite HM. rewrite HL in Hs. split.
    + intros [_ HT] x Hx <-. apply (HT (rhs x)). exists x. auto.
    + intros H. split; auto. intros r [x [Hx [H1 H2]]]. apply (H x); auto.
  - intros x s Hx Hs. rewrite HL. destruct (HC x Hx) as [_ HF]. rewrite Forall_forall in HF. auto.
Qed.

(** * C56 *)

(** The closure never fails.  Its result contains only items of the textbook closure, and contains
    all of them provided that the textbook closure has at most one item per rule.
    Missing: the full claim has no such condition; it is false, see below. *)
Theorem C56_closure_partial : forall g m, closed_rules g -> genuine (rules g) m ->
  exists m', lr0_closure g m = Ok m' /\ genuine (rules g) m' /\
    (forall x, contains m' x -> item_closure (plain g) (contains m) x) /\
    (one_per_rule (item_closure (plain g) (contains m)) ->
     forall x, contains m' x <-> item_closure (plain g) (contains m) x).
Proof.
  intros g m HC HG. destruct (builder_terminals g HC) as [ts [E [HL [HM [HT HR]]]]].
  destruct (closure_genuine ts (rules g) HT HR m HG) as [m' [E' [HG' _]]].
  exists m'. unfold lr0_closure. rewrite E. cbn [bind]. split; [auto|]. split; [auto|].
  assert (HS : forall x, contains m' x -> item_closure (plain g) (contains m) x).
  { intros x. apply (closure_sound ts (rules g) HT HR m m' x HG E'). }
  split; [auto|]. intros HO x. split; auto. apply (closure_complete ts (rules g) HT HR m m' HG E').
  intros i d Hd H0. apply (HO i d 0); auto. apply cl_given. auto.
Qed.
Print Assumptions C56_closure_partial.

(** Without the condition, the result is still known exactly: it is the closure that keeps one item
    per rule, see [stored_closure]. *)
Theorem C56_closure_stored_partial : forall g m m', closed_rules g -> genuine (rules g) m -> lr0_closure g m = Ok m' ->
  forall x, contains m' x <-> stored_closure (plain g) (contains m) x.
Proof.
  intros g m m' HC HG E x. destruct (builder_terminals g HC) as [ts [Et [HL [HM [HT HR]]]]].
  unfold lr0_closure in E. rewrite Et in E. cbn [bind] in E. apply (closure_stored ts (rules g) HT HR m m' x HG E).
Qed.
Print Assumptions C56_closure_stored_partial.

(** Advancing over a symbol gives nothing exactly if no item has the symbol after its dot; otherwise
    it gives the closure, in the same sense, of the items with the dot moved over the symbol. *)
Theorem C56_advance_partial : forall g m X, closed_rules g -> genuine (rules g) m ->
  (lr0_advance g m X = Ok None /\ forall x, ~ moved (plain g) (contains m) X x) \/
  (exists m', lr0_advance g m X = Ok (Some m') /\ (exists x, moved (plain g) (contains m) X x) /\
     (forall x, contains m' x <-> stored_closure (plain g) (moved (plain g) (contains m) X) x)).
Proof.
  intros g m X HC HG. destruct (builder_terminals g HC) as [ts [Et [HL [HM [HT HR]]]]].
  unfold lr0_advance. rewrite Et. cbn [bind]. pose proof (advance_stored ts (rules g) HT HR m X HG) as H.
  destruct (lr_advance ts (rules g) m X) as [[m'|]| |]; [right|left|contradiction|contradiction].
  - destruct H as [H1 H2]. exists m'. auto.
  - auto.
Qed.
Print Assumptions C56_advance_partial.

(** The repository's own example, and one that is not at the start. *)
Definition ex_lr : cfg :=
  mkCfg (mkSrc 6 []) [mkRule 0 [1; 2; 3] hd0; mkRule 0 [4] hd0; mkRule 3 [1; 1] hd0; mkRule 3 [1; 4] hd0;
                      mkRule 4 [2] hd0; mkRule 4 [5] hd0; mkRule 1 [] hd0] [0] [] None.
Example C56_example : closed_rules ex_lr /\ genuine (rules ex_lr) [(0, mkItem [1; 2; 3] 2)] /\
  lr0_closure ex_lr [(0, mkItem [1; 2; 3] 2)] =
    Ok [(0, mkItem [1; 2; 3] 2); (2, mkItem [1; 1] 0); (3, mkItem [1; 4] 0); (6, mkItem [] 0)] /\
  one_per_rule (item_closure (plain ex_lr) (contains [(0, mkItem [1; 2; 3] 2)])).
Proof.
  split; [closed_tac|]. split; [split; [repeat constructor|]|split; [vm_compute; reflexivity|]].
  - intros i it H. cbn [map_get] in H. destruct i; [|discriminate]. injection H as <-. exists (mkRule 0 [1; 2; 3] hd0). simpl. auto.
  - assert (HK : forall x, item_closure (plain ex_lr) (contains [(0, mkItem [1; 2; 3] 2)]) x ->
        x = (0, 2) \/ x = (2, 0) \/ x = (3, 0) \/ x = (6, 0)).
    { intros x H. induction H as [[i d] [it [H1 H2]]|x B j r Hx IH [A [q [H1 H2]]] Hj].
      - cbn [fst snd map_get] in *. destruct i; [|discriminate]. injection H1 as <-. cbn [it_dot] in H2. subst. auto.
      - destruct IH as [-> |[-> |[-> | ->]]]; cbn in H1; injection H1 as <- <-; cbn in H2; try discriminate;
          injection H2 as <-; repeat (destruct j as [|j]; cbn in Hj; try discriminate; auto). }
    intros i d d' H1 H2. apply HK in H1, H2.
    destruct H1 as [H1|[H1|[H1|H1]]], H2 as [H2|[H2|[H2|H2]]]; congruence.
Qed.

(** The full claim is false.  S ::= a S | b: the given item S ::= a . S is replaced by S ::= . a S.
    S ::= A S b | b with A ::= c: the rules of A are missing as well. *)
Theorem C56_closure_refuted :
  (exists g m m' x, closed_rules g /\ genuine (rules g) m /\ lr0_closure g m = Ok m' /\ contains m x /\ ~ contains m' x) /\
  (exists g m m' x j B, closed_rules g /\ genuine (rules g) m /\ lr0_closure g m = Ok m' /\
     contains m' x /\ after_dot (plain g) x B /\ (exists r, nth_error (plain g) j = Some (B, r)) /\
     forall d, ~ contains m' (j, d)).
Proof.
  split.
  - exists (mkCfg (mkSrc 3 []) [mkRule 0 [1; 0] hd0; mkRule 0 [2] hd0] [] [] None).
    exists [(0, mkItem [1; 0] 1)], [(0, mkItem [1; 0] 0); (1, mkItem [2] 0)], (0, 1).
    split; [closed_tac|]. split; [split; [repeat constructor|]|].
    + intros i it H. cbn [map_get] in H. destruct i; [|discriminate]. injection H as <-. exists (mkRule 0 [1; 0] hd0). simpl. auto.
    + split; [vm_compute; reflexivity|]. split; [exists (mkItem [1; 0] 1); auto|]. intros [it [H1 H2]].
      cbn in H1. injection H1 as <-. discriminate.
  - exists (mkCfg (mkSrc 4 []) [mkRule 0 [1; 0; 2] hd0; mkRule 0 [2] hd0; mkRule 1 [3] hd0] [] [] None).
    exists [(0, mkItem [1; 0; 2] 1)], [(0, mkItem [1; 0; 2] 0); (1, mkItem [2] 0)], (0, 0), 2, 1.
    split; [closed_tac|]. split; [split; [repeat constructor|]|].
    + intros i it H. cbn [map_get] in H. destruct i; [|discriminate]. injection H as <-. exists (mkRule 0 [1; 0; 2] hd0). simpl. auto.
    + split; [vm_compute; reflexivity|]. split; [exists (mkItem [1; 0; 2] 0); auto|].
      split; [exists 0, [1; 0; 2]; auto|]. split; [exists [3]; auto|]. intros d [it [H1 H2]]. discriminate.
Qed.
Print Assumptions C56_closure_refuted.

(** * C57 *)

(** The rule that the construction adds to the grammar *)
Definition start_rule (g : cfg) (start : nat) : rule := mkRule (num_syms g) [start] (process_root RNoOp).

Lemma start_facts : forall g start g' ts, closed_rules g -> start < num_syms g ->
  rules g' = rules g ++ [start_rule g start] -> terminal_symbols g = Ok ts ->
  (forall s, s < length ts -> (member ts s <-> forall x, In x (rules g') -> lhs x <> s)) /\
  (forall x s, In x (rules g') -> In s (rhs x) -> s < length ts) /\
  genuine (rules g') [(length (rules g), mkItem [start] 0)] /\ length ts = num_syms g.
Proof.
  intros g start g' ts HC Hs Hr Et. destruct (builder_terminals g HC) as [ts1 [Et1 [HLn [HM [HT HR]]]]].
  assert (ts1 = ts) by congruence. subst ts1. split; [|split; [|split; [|auto]]].
  - intros s Hs'. rewrite (HT s Hs'), Hr. split; intros H x Hx.
    + apply in_app_iff in Hx. destruct Hx as [Hx|[<-|[]]]; auto. cbn [start_rule lhs]. lia.
    + apply H. apply in_app_iff. auto.
  - intros x s Hx. rewrite Hr in Hx. apply in_app_iff in Hx. destruct Hx as [Hx|[<-|[]]]; [apply HR; auto|].
    cbn [start_rule rhs]. intros [<-|[]]. lia.
  - split; [repeat constructor|]. intros i it H. cbn [map_get] in H. destruct (Nat.eqb_spec (length (rules g)) i); [|discriminate].
    injection H as <-. subst i. exists (start_rule g start). rewrite Hr, nth_error_app2, Nat.sub_diag by lia. cbn. auto.
Qed.

Lemma item_closure_mono : forall l (I J : nat * nat -> Prop), (forall x, I x -> J x) ->
  forall x, item_closure l I x -> item_closure l J x.
Proof. intros l I J H x. induction 1; [apply cl_given; auto|eapply cl_rule; eauto]. Qed.

(** In terms of the functions of the model.  The construction ends without a panic.  The grammar gains the start rule.
    - The first node is the closure of the start item.
    - A link from a node over [t] exists exactly if [t] is a terminal over which the item set of the
      node can be advanced; its target exists and holds the advanced and closed set.
    - No two nodes hold the same set.
    - Every other node is the target of a link from an earlier node. *)
Lemma automaton_lemma : forall g start, closed_rules g -> start < num_syms g -> limit g <> Some 0 ->
  exists nodes g' ts, make_lr0_fsm g start = Ok (nodes, g') /\
    rules g' = rules g ++ [start_rule g start] /\
    terminal_symbols g = Ok ts /\
    (exists nd, nth_error nodes 0 = Some nd /\
       lr_closure ts (rules g') [(length (rules g), mkItem [start] 0)] = Ok (nd_items nd)) /\
    (forall k nd t, nth_error nodes k = Some nd ->
       match map_get (nd_link nd) t with
       | Some id => t < num_syms g /\ terminal (prods g) t /\
                    exists target, nth_error nodes id = Some target /\
                      lr_advance ts (rules g') (nd_items nd) t = Ok (Some (nd_items target))
       | None => t < num_syms g -> terminal (prods g) t -> lr_advance ts (rules g') (nd_items nd) t = Ok None
       end) /\
    NoDup (map nd_items nodes) /\
    (forall k nd, nth_error nodes k = Some nd -> genuine (rules g') (nd_items nd)) /\
    (forall id, 0 < id < length nodes ->
       exists k nd t, k < id /\ nth_error nodes k = Some nd /\ map_get (nd_link nd) t = Some id).
Proof.
  intros g start HC Hs HL. destruct (builder_terminals g HC) as [ts [E [HLn [HM [HT HR]]]]].
  set (g1 := snd (next_sym g None)).
  assert (Hg1 : next_sym g None = (num_syms g, g1) /\ rules g1 = rules g /\ limit g1 = limit g).
  { unfold g1, next_sym. destruct (src_next (src g) None) as [s sr] eqn:Es. cbn. unfold src_next in Es. injection Es as <- <-.
    auto. }
  destruct Hg1 as [N1 [N2 N3]].
  assert (HA : add_rule g1 (start_rule g start) = Ok (push_rule g1 (start_rule g start))).
  { unfold add_rule. destruct (limit g) as [lim|] eqn:El.
    - rewrite (add_rule_short g1 _ lim); [auto|congruence| |]; [|cbn [start_rule rhs length]]; destruct lim; try lia; congruence.
    - rewrite add_rule_none; auto. }
  set (g2 := push_rule g1 (start_rule g start)) in *.
  assert (Hr : rules g2 = rules g ++ [start_rule g start]) by (unfold g2, push_rule; cbn [rules]; rewrite N2; auto).
  assert (HT2 : forall s, s < length ts -> (member ts s <-> forall x, In x (rules g2) -> lhs x <> s)).
  { intros s Hs'. rewrite (HT s Hs'), Hr. split; intros H x Hx.
    - apply in_app_iff in Hx. destruct Hx as [Hx|[<-|[]]]; auto. cbn [start_rule lhs]. lia.
    - apply H. apply in_app_iff. auto. }
  assert (HR2 : forall x s, In x (rules g2) -> In s (rhs x) -> s < length ts).
  { intros x s Hx. rewrite Hr in Hx. apply in_app_iff in Hx. destruct Hx as [Hx|[<-|[]]]; [apply HR; auto|].
    cbn [start_rule rhs]. intros [<-|[]]. lia. }
  assert (HG0 : genuine (rules g2) [(length (rules g), mkItem [start] 0)]).
  { split; [repeat constructor|]. intros i it H. cbn [map_get] in H. destruct (Nat.eqb_spec (length (rules g)) i); [|discriminate].
    injection H as <-. subst i. exists (start_rule g start). rewrite Hr, nth_error_app2, Nat.sub_diag by lia. cbn. auto. }
  destruct (closure_genuine ts (rules g2) HT2 HR2 _ HG0) as [init [Ei [HGi _]]].
  destruct (fsm_total ts (rules g2) HT2 HR2 init HGi (fsm_exponent (rules g2)) (le_n _)) as [nodes [En HI]].
  exists nodes, g2, ts. split.
  { unfold make_lr0_fsm. rewrite E. cbn [bind]. unfold augment_grammar. rewrite N1.
    change (mkRule (num_syms g) [start] (process_root RNoOp)) with (start_rule g start). rewrite HA. cbn [bind].
    rewrite N2. cbn [map_put]. rewrite Ei. cbn [bind]. rewrite En. auto. }
  split; [auto|]. split; [auto|]. destruct HI as [I1 I2 I3 I4 I5 I6]. cbn [fst snd cached_sets sets_queue] in *.
  split; [|split; [|split; [|split]]].
  - rewrite nth_error_map in I4. destruct (nth_error nodes 0) as [nd|]; [|discriminate]. exists nd. split; auto.
    cbn [option_map] in I4. congruence.
  - intros k nd t Hk. destruct (I5 k nd Hk) as [_ K]. destruct (K t) as [K1 K2]. destruct (map_get (nd_link nd) t) as [id|] eqn:Em.
    + destruct (member_dec ts t) as [Ht|Ht]; [|apply K2 in Ht; discriminate].
      apply HM in Ht as Ht'. destruct Ht' as [T1 T2]. split; auto. split; auto. specialize (K1 Ht). unfold link_ok in K1.
      destruct (lr_advance ts (rules g2) (nd_items nd) t) as [[s|]| |]; try tauto; try congruence.
      destruct K1 as [id' [Q1 Q2]]. rewrite Em in Q1. injection Q1 as <-. rewrite nth_error_map in Q2.
      destruct (nth_error nodes id) as [target|]; [|discriminate]. exists target. split; auto. cbn [option_map] in Q2. congruence.
    + intros T1 T2. specialize (K1 (proj2 (HM t) (conj T1 T2))). unfold link_ok in K1.
      destruct (lr_advance ts (rules g2) (nd_items nd) t) as [[s|]| |]; try tauto; auto.
      destruct K1 as [id' [Q1 _]]. congruence.
  - auto.
  - intros k nd Hk. rewrite Forall_forall in I3. apply I3. apply in_map. eapply nth_error_In; eauto.
  - intros id Hid. apply I6. rewrite map_length. auto.
Qed.

(** The construction ends without a panic.  The grammar gains the start rule.
    - The first node holds the closure of the start item.
    - A link from a node over [t] exists exactly if [t] is a terminal over which an item of the node can
      be moved; the target of the link exists and holds the closure of the moved items.
    - No two nodes hold the same set.
    - Every other node is the target of a link from an earlier node.
    The closure is the one that C56 describes; it is the textbook closure wherever that has one item
    per rule (last clause). *)
Theorem C57_automaton : forall g start, closed_rules g -> start < num_syms g -> limit g <> Some 0 ->
  exists nodes g', make_lr0_fsm g start = Ok (nodes, g') /\
    rules g' = rules g ++ [start_rule g start] /\
    (exists nd, nth_error nodes 0 = Some nd /\
       forall x, contains (nd_items nd) x <-> stored_closure (plain g') (fun y => y = (length (rules g), 0)) x) /\
    (forall k nd t, nth_error nodes k = Some nd ->
       match map_get (nd_link nd) t with
       | Some id => t < num_syms g /\ terminal (prods g) t /\
                    (exists x, moved (plain g') (contains (nd_items nd)) t x) /\
                    exists target, nth_error nodes id = Some target /\
                      forall x, contains (nd_items target) x <->
                                stored_closure (plain g') (moved (plain g') (contains (nd_items nd)) t) x
       | None => t < num_syms g -> terminal (prods g) t -> forall x, ~ moved (plain g') (contains (nd_items nd)) t x
       end) /\
    NoDup (map nd_items nodes) /\
    (forall k nd, nth_error nodes k = Some nd -> genuine (rules g') (nd_items nd)) /\
    (forall id, 0 < id < length nodes ->
       exists k nd t, k < id /\ nth_error nodes k = Some nd /\ map_get (nd_link nd) t = Some id) /\
    (forall k nd t, nth_error nodes k = Some nd ->
       one_per_rule (item_closure (plain g') (moved (plain g') (contains (nd_items nd)) t)) ->
       forall x, stored_closure (plain g') (moved (plain g') (contains (nd_items nd)) t) x <->
                 item_closure (plain g') (moved (plain g') (contains (nd_items nd)) t) x).
Proof.
  intros g start HC Hs HL.
  destruct (automaton_lemma g start HC Hs HL) as [nodes [g' [ts [E1 [Hr [Et [[nd0 [Hn0 Hc0]] [Hlinks [HN [HG HRe]]]]]]]]]].
  destruct (start_facts g start g' ts HC Hs Hr Et) as [HT2 [HR2 [HG0 HM]]].
  exists nodes, g'. split; [auto|]. split; [auto|]. split; [|split; [|split; [auto|split; [auto|split; [auto|]]]]].
  - exists nd0. split; auto. intros x. rewrite (closure_stored ts (rules g') HT2 HR2 _ _ x HG0 Hc0).
    apply stored_ext. intros [i d]. unfold contains. cbn [fst snd map_get]. split.
    + intros [it [H1 H2]]. destruct (Nat.eqb_spec (length (rules g)) i); [|discriminate]. injection H1 as <-. cbn in H2. congruence.
    + intros E. injection E as -> ->. rewrite Nat.eqb_refl. eexists. split; [reflexivity|auto].
  - intros k nd t Hk. pose proof (Hlinks k nd t Hk) as HQ. pose proof (advance_stored ts (rules g') HT2 HR2 (nd_items nd) t (HG k nd Hk)) as HS.
    destruct (map_get (nd_link nd) t) as [id|].
    + destruct HQ as [T1 [T2 [target [Q1 Q2]]]]. rewrite Q2 in HS. destruct HS as [S1 S2].
      split; auto. split; auto. split; auto. exists target. auto.
    + intros T1 T2. rewrite (HQ T1 T2) in HS. auto.
  - intros k nd t Hk HO x. pose proof (moved_genuine (rules g') _ t (HG k nd Hk)) as HGm.
    destruct (closure_genuine ts (rules g') HT2 HR2 _ HGm) as [c [Ec [HGc _]]].
    assert (HX : forall y, contains (lr_moved (nd_items nd) t) y <-> moved (plain g') (contains (nd_items nd)) t y)
      by (intros y; exact (contains_moved (rules g') _ t y (HG k nd Hk))).
    split.
    + intros H. apply (stored_ext (rules g') _ _ HX) in H.
      apply (closure_stored ts (rules g') HT2 HR2 _ c x HGm Ec) in H.
      apply (closure_sound ts (rules g') HT2 HR2 _ c x HGm Ec) in H.
      revert H. apply item_closure_mono. intros y. apply HX.
    + intros H. apply (stored_textbook (rules g')); auto.
      * intros y. destruct (contains_dec (lr_moved (nd_items nd) t) y) as [Hy|Hy]; [left; apply HX; auto|].
        right. intros Hy'. apply Hy. apply HX. auto.
      * intros y Hy. apply HX in Hy. destruct Hy as [it [Hy _]]. destruct (proj2 HGm _ _ Hy) as [z [Hz _]].
        exists (lhs z), (rhs z). apply nth_pairs. eauto.
Qed.
Print Assumptions C57_automaton.

Example C57_example : closed_rules ex_lr /\ 0 < num_syms ex_lr /\ limit ex_lr <> Some 0 /\
  exists g', make_lr0_fsm ex_lr 0 = Ok ([
    mkNode [(0, mkItem [1; 2; 3] 0); (1, mkItem [4] 0); (4, mkItem [2] 0); (5, mkItem [5] 0); (6, mkItem [] 0);
            (7, mkItem [0] 0)] [(2, 1); (5, 2)];
    mkNode [(4, mkItem [2] 1)] [];
    mkNode [(5, mkItem [5] 1)] []], g').
Proof.
  split; [closed_tac|]. split; [unfold num_syms; simpl; lia|]. split; [discriminate|].
  eexists. vm_compute. reflexivity.
Qed.

(** * C62 *)

(** The links followed from the first node *)
Inductive lr_path (nodes : list lr_node) : list nat -> nat -> Prop :=
| lp_start : lr_path nodes [] 0
| lp_link : forall w k nd t id, lr_path nodes w k -> nth_error nodes k = Some nd -> map_get (nd_link nd) t = Some id ->
    lr_path nodes (w ++ [t]) id.

(** If every symbol is productive, then the items of a node are valid LR(0) items for every string
    that leads to the node.
    Missing: that all the valid items are there, and that every viable prefix leads to a node; both
    are false, see below. *)
Theorem C62_items_valid_partial : forall g start nodes g', closed_rules g -> start < num_syms g -> limit g <> Some 0 ->
  (forall s, s < num_syms g -> productive (prods g) s) ->
  make_lr0_fsm g start = Ok (nodes, g') ->
  forall w k nd x, lr_path nodes w k -> nth_error nodes k = Some nd -> contains (nd_items nd) x ->
    valid_item (plain g') (num_syms g) w x.
Proof.
  intros g start nodes g' HC Hs HL HP E0.
  destruct (automaton_lemma g start HC Hs HL) as [nodes1 [g1 [ts [E1 [Hr [Et [[nd0 [Hn0 Hc0]] [Hlinks [_ [HG _]]]]]]]]]].
  assert (nodes1 = nodes /\ g1 = g') as [-> ->] by (split; congruence).
  destruct (builder_terminals g HC) as [ts1 [Et1 [HLn [HM [HT HR]]]]]. assert (ts1 = ts) by congruence. subst ts1.
  assert (HT2 : forall s, s < length ts -> (member ts s <-> forall x, In x (rules g') -> lhs x <> s)).
  { intros s Hs'. rewrite (HT s Hs'), Hr. split; intros H x Hx.
    - apply in_app_iff in Hx. destruct Hx as [Hx|[<-|[]]]; auto. cbn [start_rule lhs]. lia.
    - apply H. apply in_app_iff. auto. }
  assert (HR2 : forall x s, In x (rules g') -> In s (rhs x) -> s < length ts).
  { intros x s Hx. rewrite Hr in Hx. apply in_app_iff in Hx. destruct Hx as [Hx|[<-|[]]]; [apply HR; auto|].
    cbn [start_rule rhs]. intros [<-|[]]. lia. }
  assert (HPQ : forall A r, prods g A r -> of_list (plain g') A r).
  { intros A r [x [Hx [H1 H2]]]. unfold of_list, plain. apply in_map_iff. exists x. split; [congruence|]. rewrite Hr. apply in_app_iff. auto. }
  assert (HPT : forall s, s < num_syms g -> terminal (prods g) s -> terminal (of_list (plain g')) s).
  { intros s Hs' HT' r Hin. unfold of_list, plain in Hin. apply in_map_iff in Hin. destruct Hin as [x [Ex Hx]]. injection Ex as E2 E3.
    rewrite Hr in Hx. apply in_app_iff in Hx. destruct Hx as [Hx|[<-|[]]].
    - apply (HT' r). exists x. auto.
    - cbn [start_rule lhs] in E2. lia. }
  assert (HP2 : forall s, s < length ts -> productive (of_list (plain g')) s).
  { intros s Hs'. rewrite HLn in Hs'. destruct (HP s Hs') as [w [D T]]. exists w. split; [eapply derives_mono; eauto|].
    assert (HF : Forall (fun s => s < num_syms g) w).
    { eapply (derives_Forall (prods g)); [|exact D|constructor; auto]. intros A r [x [Hx [_ H2]]] _. subst r. apply (HC x Hx). }
    rewrite Forall_forall in *. intros a Ha. apply HPT; auto. }
  assert (HGnd : forall k nd, nth_error nodes k = Some nd -> genuine (rules g') (nd_items nd)) by (intros; eapply HG; eauto).
  assert (HG0 : genuine (rules g') [(length (rules g), mkItem [start] 0)]).
  { split; [repeat constructor|]. intros i it H. cbn [map_get] in H. destruct (Nat.eqb_spec (length (rules g)) i); [|discriminate].
    injection H as <-. subst i. exists (start_rule g start). rewrite Hr, nth_error_app2, Nat.sub_diag by lia. cbn. auto. }
  intros w k nd x Hpath. revert nd x. induction Hpath as [|w k nd0' t id Hpath IH Hk Hlink]; intros nd x Hnd Hx.
  - rewrite Hn0 in Hnd. injection Hnd as <-.
    apply (closure_sound ts (rules g') HT2 HR2 _ _ x HG0 Hc0) in Hx.
    apply (valid_closure ts (rules g') HR2 HP2) with (I := contains [(length (rules g), mkItem [start] 0)]); auto.
    intros [i d] [it [H1 H2]]. cbn [fst snd map_get] in *. destruct (Nat.eqb_spec (length (rules g)) i) as [<-|]; [|discriminate].
    injection H1 as <-. cbn [it_dot] in H2. subst d. exists (num_syms g), [start], [], [].
    split; [|split; [simpl; lia|split; [constructor|split; [constructor|auto]]]].
    cbn [fst]. apply nth_pairs. exists (start_rule g start). rewrite Hr, nth_error_app2, Nat.sub_diag by lia. cbn. auto.
  - pose proof (Hlinks k nd0' t Hk) as HQ. rewrite Hlink in HQ. destruct HQ as [_ [_ [target [Q1 Q2]]]].
    rewrite Hnd in Q1. injection Q1 as <-. unfold lr_advance in Q2.
    destruct (is_nil (lr_moved (nd_items nd0') t)); [discriminate|].
    destruct (lr_closure ts (rules g') (lr_moved (nd_items nd0') t)) as [c| |] eqn:Ec; try discriminate.
    cbn [bind] in Q2. injection Q2 as ->.
    pose proof (moved_genuine (rules g') _ t (HGnd k nd0' Hk)) as HGm.
    apply (closure_sound ts (rules g') HT2 HR2 _ _ x HGm Ec) in Hx.
    apply (valid_closure ts (rules g') HR2 HP2) with (I := contains (lr_moved (nd_items nd0') t)); auto.
    intros y Hy. apply (contains_moved (rules g') _ t y (HGnd k nd0' Hk)) in Hy.
    eapply (valid_moved (rules g')); [|exact Hy]. intros z Hz. apply (IH nd0' z Hk Hz).
Qed.
Print Assumptions C62_items_valid_partial.

(** S ::= a b has an item after "a" that is valid and found. *)
Definition ex_lr2 : cfg := mkCfg (mkSrc 4 []) [mkRule 0 [1; 3; 2] hd0; mkRule 3 [2] hd0] [] [] None.
Example C62_example : closed_rules ex_lr2 /\ 0 < num_syms ex_lr2 /\ limit ex_lr2 <> Some 0 /\
  (forall s, s < num_syms ex_lr2 -> productive (prods ex_lr2) s) /\
  exists nodes g' nd, make_lr0_fsm ex_lr2 0 = Ok (nodes, g') /\ lr_path nodes [1; 2] 2 /\
    nth_error nodes 2 = Some nd /\ contains (nd_items nd) (1, 1).
Proof.
  split; [closed_tac|]. split; [unfold num_syms; simpl; lia|]. split; [discriminate|]. split.
  - assert (T : forall s, s = 1 \/ s = 2 -> terminal (prods ex_lr2) s).
    { intros s Hs r [x [Hx [HL _]]]. simpl in Hx. repeat (destruct Hx as [<-|Hx]; [simpl in HL; lia|]). destruct Hx. }
    assert (D3 : derives (prods ex_lr2) [3] [2]).
    { apply derives_rule. exists (mkRule 3 [2] hd0). simpl. auto. }
    assert (D0 : derives (prods ex_lr2) [0] [1; 2; 2]).
    { apply derives_rule_then with [1; 3; 2]; [exists (mkRule 0 [1; 3; 2] hd0); simpl; auto|].
      apply (derives_ctx _ [1] [2] [3] [2] D3). }
    intros s Hs. change (s < 4) in Hs. destruct s as [|[|[|[|s]]]]; try lia.
    + exists [1; 2; 2]. split; auto. repeat (apply Forall_cons; [apply T; auto|]). apply Forall_nil.
    + exists [1]. split; [constructor|]. repeat (apply Forall_cons; [apply T; auto|]). apply Forall_nil.
    + exists [2]. split; [constructor|]. repeat (apply Forall_cons; [apply T; auto|]). apply Forall_nil.
    + exists [2]. split; [exact D3|]. repeat (apply Forall_cons; [apply T; auto|]). apply Forall_nil.
  - eexists. eexists. eexists. split; [vm_compute; reflexivity|]. split.
    + change [1; 2] with (([] ++ [1]) ++ [2]). eapply lp_link; [eapply lp_link; [constructor|reflexivity|reflexivity]|reflexivity|reflexivity].
    + split; [reflexivity|]. exists (mkItem [2] 1). auto.
Qed.

(** S ::= a S | b.  After "a", the item S ::= a . S is valid but is not in the node, and the viable
    prefix "a S" leads nowhere. *)
Definition ex_lr3 : cfg := mkCfg (mkSrc 3 []) [mkRule 0 [1; 0] hd0; mkRule 0 [2] hd0] [] [] None.
Theorem C62_items_complete_refuted : exists g start nodes g', closed_rules g /\ start < num_syms g /\
  (forall s, s < num_syms g -> productive (prods g) s) /\ make_lr0_fsm g start = Ok (nodes, g') /\
  (exists w k nd x, lr_path nodes w k /\ nth_error nodes k = Some nd /\ valid_item (plain g') (num_syms g) w x /\
     ~ contains (nd_items nd) x) /\
  (exists w x, valid_item (plain g') (num_syms g) w x /\ forall k, ~ lr_path nodes w k).
Proof.
  exists ex_lr3, 0. eexists. eexists. split; [closed_tac|]. split; [unfold num_syms; simpl; lia|]. split.
  - assert (T : forall s, s = 1 \/ s = 2 -> terminal (prods ex_lr3) s).
    { intros s Hs r [x [Hx [HL _]]]. simpl in Hx. repeat (destruct Hx as [<-|Hx]; [simpl in HL; lia|]). destruct Hx. }
    intros s Hs. change (s < 3) in Hs. destruct s as [|[|[|s]]]; try lia.
    + exists [2]. split; [apply derives_rule; exists (mkRule 0 [2] hd0); simpl; auto|].
      repeat (apply Forall_cons; [apply T; auto|]). apply Forall_nil.
    + exists [1]. split; [constructor|]. repeat (apply Forall_cons; [apply T; auto|]). apply Forall_nil.
    + exists [2]. split; [constructor|]. repeat (apply Forall_cons; [apply T; auto|]). apply Forall_nil.
  - split; [vm_compute; reflexivity|].
    assert (HV : forall w d, w = firstn d [1; 0] -> d <= 2 ->
      valid_item [(0, [1; 0]); (0, [2]); (3, [0])] 3 w (0, d)).
    { intros w d -> Hd. exists 0, [1; 0], [], []. cbn [fst snd app]. split; [auto|]. split; [simpl; lia|]. split; [|auto].
      apply (rm_step _ [3] [] 3 [] [0]); [constructor|cbv; auto|auto]. }
    split.
    + exists [1], 1. eexists. exists (0, 1). split.
      * change [1] with ([] ++ [1]). eapply lp_link; [constructor|reflexivity|reflexivity].
      * split; [reflexivity|]. split; [apply (HV [1] 1); auto|]. intros [it [H1 H2]]. cbn in H1. injection H1 as <-. discriminate.
    + exists [1; 0], (0, 2). split; [apply (HV [1; 0] 2); auto|]. intros k H. inversion H as [E1 E2|w' k' nd t id Hp Hk Hl Ew E2]. clear H Hp. subst id.
      apply (app_inj_tail w' [1] t 0) in Ew. destruct Ew as [_ ->].
      destruct k' as [|[|[|k']]]; cbn in Hk; try (injection Hk as <-; discriminate). destruct k'; discriminate.
Qed.
Print Assumptions C62_items_complete_refuted.
