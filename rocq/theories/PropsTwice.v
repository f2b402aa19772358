(** Property C106: a preparation step that was made needs not be made again. *)

From Coq Require Import List Arith NArith Bool Lia Permutation Sorted.
From Verif Require Import SpecClassify Base ListFacts Spec SpecRemap SetView SymbolModel HistoryModel CfgModel BitSetModel ClosureModel ElimModel MatrixModel ClassifyModel
  RemapModel View CfgProof CfgProof2 SetProof ElimProof RemapProof UsefulProof PropsGrammar PropsSets PropsElim PropsClassify PropsRemap GrammarFacts.
Import ListNotations.
Local Notation length := List.length.

(** ** Limiting the length of right-hand sides, with any limit *)
Lemma fold_small : forall l rs g g', limit g = Some l -> l < 2 -> fold_res add_rule rs g = Ok g' ->
  g' = set_rules g (rules g ++ if l =? 0 then [] else rs) /\ Forall (fun x => length (rhs x) <= l) rs.
Proof.
  induction rs as [|x rs IH]; intros g g' HL Hl E; cbn [fold_res] in E.
  - injection E as <-. split; [|constructor]. destruct (l =? 0); rewrite app_nil_r; destruct g; reflexivity.
  - rewrite (add_rule_small_limit g x l HL Hl) in E. destruct (length (rhs x) <=? l) eqn:EL; [|discriminate]. cbn [bind] in E.
    destruct (l =? 0) eqn:E0.
    + destruct (IH _ _ HL Hl E) as [H1 H2]. split; auto. constructor; auto. apply Nat.leb_le; auto.
    + destruct (IH (push_rule g x) g' HL Hl E) as [H1 H2]. split; [|constructor; auto; apply Nat.leb_le; auto].
      rewrite H1. unfold push_rule, set_rules. cbn. rewrite <- app_assoc. reflexivity.
Qed.

Lemma fold_none : forall rs g, limit g = None -> fold_res add_rule rs g = Ok (set_rules g (rules g ++ rs)).
Proof.
  induction rs as [|x rs IH]; intros g HL; cbn [fold_res].
  - rewrite app_nil_r. destruct g; reflexivity.
  - unfold add_rule at 1, add_rule_parts, add_rule_fuel. rewrite HL. cbn [bind]. rewrite (IH (push_rule g x) HL).
    unfold push_rule, set_rules. cbn. rewrite <- app_assoc. reflexivity.
Qed.

Theorem C106_limit : forall g lim g', limit_rhs_len g lim = Ok g' -> limit_rhs_len g' lim = Ok g'.
Proof.
  intros g [l|] g' E.
  - destruct (le_lt_dec 2 l) as [H|H]; [eapply C10_idempotent; eauto|]. unfold limit_rhs_len in *.
    destruct (fold_small l (rules g) (mkCfg (src g) [] (roots g) (wroots g) (Some l)) g' eq_refl H E) as [-> HF]. cbn [set_rules rules src roots wroots limit app] in *.
    destruct (l =? 0) eqn:E0; cbn [fold_res]; [reflexivity|]. apply Nat.eqb_neq in E0.
    rewrite (fold_short l) by (auto; cbn; lia). reflexivity.
  - unfold limit_rhs_len in *. rewrite fold_none in E by reflexivity. injection E as <-. cbn. rewrite fold_none by reflexivity. reflexivity.
Qed.
Print Assumptions C106_limit.

(** ** Eliminating nulling rules *)
Theorem C106_nulling : forall g g' n, closed_rules g -> eliminate_nulling g = Ok (g', n) ->
  exists n', eliminate_nulling g' = Ok (g', n') /\ rules n' = [].
Proof.
  intros g g' n HC E. destruct (C14_no_empty_rules g g' n HC E) as [HB HN]. destruct (elim_inv g g' n HC E) as [g1 [p [q EL]]].
  destruct (el_roots _ _ _ _ _ _ EL) as [_ [_ HL]].
  assert (HC1 : closed_rules g1).
  { destruct (limit_rhs_len_Repr g (Some 2) HC) as [g2 [E2 [_ [_ [_ [_ RP]]]]]]; [cbn; lia|].
    pose proof (el_limit _ _ _ _ _ _ EL) as EL1. rewrite E2 in EL1. injection EL1 as <-. exact (rp_closed _ _ _ RP). }
  assert (HC' : closed_rules g').
  { assert (HNS : num_syms g' = num_syms g1) by (unfold num_syms; rewrite (el_src _ _ _ _ _ _ EL); reflexivity).
    destruct (el_cases _ _ _ _ _ _ EL) as [[_ EG]|[ER _]]; [rewrite EG; exact HC1|].
    intros x Hx. rewrite HNS. rewrite ER in Hx. apply filter_In in Hx. destruct Hx as [Hx _]. apply pre_In in Hx.
    destruct Hx as [_ [Hx|[y [Hy Hx]]]]; [apply HC1; exact Hx|]. destruct (HC1 y Hy) as [Y1 Y2]. destruct (works_In p y x Hx) as [L [a [b [R W]]]].
    rewrite L. split; auto. rewrite R in Y2. inversion Y2 as [|? ? Y3 Y4]; subst. inversion Y4 as [|? ? Y5 _]; subst.
    destruct W as [[_ [_ [_ [->| ->]]]]|[[_ [_ [-> _]]]|[_ [_ [-> _]]]]]; repeat constructor; auto. }
  assert (HLim : limit_rhs_len g' (Some 2) = Ok g').
  { unfold limit_rhs_len. rewrite (fold_short 2); [|reflexivity|lia|]; cbn [set_rules rules src roots wroots limit app].
    - rewrite <- HL. destruct g'; reflexivity.
    - eapply Forall_impl; [|exact HB]. cbn. lia. }
  unfold eliminate_nulling. rewrite HLim. cbn [bind].
  destruct (nulling_symbols_spec g' HC') as [nl [E2 [L2 M2]]]. rewrite E2. cbn [bind].
  destruct (rhs_closure_all_spec g' nl HC') as [p' [E3 [L3 M3]]]; [lia|]. rewrite E3. cbn [bind].
  assert (HM : forall s, ~ member p' s).
  { intros s Hs. apply M3 in Hs. apply (HN s). apply closure_nullable. revert Hs. apply closure_all_ext; firstorder. }
  destruct (bs_iter p') as [|s l] eqn:EI.
  - cbn. eexists. split; reflexivity.
  - exfalso. apply (HM s). apply (proj1 (C05_iter p')). rewrite EI. simpl; auto.
Qed.
Print Assumptions C106_nulling.

(** ** Removing and rewriting cycles *)
Theorem C106_cycles : forall g c c', closed_rules g -> cycles_new g = Ok c -> remove_cycles c = Ok c' ->
  exists d d', cycles_new (cy_grammar c') = Ok d /\ remove_cycles d = Ok d' /\ cy_grammar d' = cy_grammar c'.
Proof.
  intros g c c' HC E1 E2. destruct (C34_removed g HC) as [c0 [c0' [F1 [F2 [_ [[d [d' [D1 D2]]] _]]]]]].
  rewrite E1 in F1. injection F1 as <-. rewrite E2 in F2. injection F2 as <-. exists d, d'. split; auto.
  unfold remove_cycles. rewrite D2. cbn [bind]. split; auto.
  unfold cycles_new in D1. destruct (unit_derivation_matrix _) as [m| |]; try discriminate. injection D1 as <-.
  unfold cycle_free in D2. cbn [cy_free cy_unit cy_grammar] in D2. destruct (all_res _ _) as [b| |]; try discriminate. injection D2 as _ <-. reflexivity.
Qed.
Print Assumptions C106_cycles.

Theorem C106_rewrite : forall g c c', closed_rules g -> good_limit (limit g) -> cycles_new g = Ok c -> rewrite_cycles c = Ok c' ->
  exists d d', cycles_new (cy_grammar c') = Ok d /\ rewrite_cycles d = Ok d' /\ cy_grammar d' = cy_grammar c'.
Proof.
  intros g c c' HC HL E1 E2. destruct (C34_rewritten g HC HL) as [c0 [c0' [F1 [F2 [_ [d [d' [D1 D2]]]]]]]].
  rewrite E1 in F1. injection F1 as <-. rewrite E2 in F2. injection F2 as <-. exists d, d'. split; auto.
  unfold rewrite_cycles. rewrite D2. cbn [bind]. split; auto.
  unfold cycles_new in D1. destruct (unit_derivation_matrix _) as [m| |]; try discriminate. injection D1 as <-.
  unfold cycle_free in D2. cbn [cy_free cy_unit cy_grammar] in D2. destruct (all_res _ _) as [b| |]; try discriminate. injection D2 as _ <-. reflexivity.
Qed.
Print Assumptions C106_rewrite.

(** ** Removing useless rules: not after one call (C33), but when every symbol is productive *)
Theorem C106_proper_refuted : exists g b g' b' g'', closed_rules g /\ roots g = [0] /\
  make_proper g = Ok (b, g') /\ make_proper g' = Ok (b', g'') /\ length (rules g'') < length (rules g').
Proof.
  exists ex_useless. do 4 eexists. split; [exact ex_useless_closed|]. split; [reflexivity|].
  split; [vm_compute; reflexivity|]. split; [vm_compute; reflexivity|]. cbn. lia.
Qed.
Print Assumptions C106_proper_refuted.

Theorem C106_proper_partial : forall g b g', closed_rules g -> Forall (fun s => s < num_syms g) (roots g) ->
  (forall s, reachable_from (prods g) (roots g) s -> productive (prods g) s) -> make_proper g = Ok (b, g') -> make_proper g' = Ok (true, g').
Proof.
  intros g b g' HC HL HP E. destruct (C33_one_pass_partial g HC HL HP) as [b1 [g1 [E1 HU]]]. rewrite E in E1. injection E1 as <- <-.
  destruct (make_proper_spec g HC HL) as [b2 [g2 [E2 [_ [M [_ [EG _]]]]]]]. rewrite E in E2. injection E2 as <- <-.
  assert (HR : roots g' = roots g) by (rewrite EG; auto). assert (HN : num_syms g' = num_syms g) by (rewrite EG; auto).
  assert (HC' : closed_rules g') by (intros x Hx; apply M in Hx; destruct Hx as [Hx _]; rewrite HN; apply HC; auto).
  destruct (make_proper_spec g' HC') as [b3 [g3 [E3 [B3 [_ [_ [_ EG3]]]]]]]; [rewrite HR, HN; auto|].
  rewrite E3. assert (b3 = true) by (apply B3; intros x Hx; apply HU; exact Hx). subst b3. rewrite EG3; auto.
Qed.
Print Assumptions C106_proper_partial.

(** ** Sorting, deduplicating; reversing twice *)
Lemma sort_again : forall {A : Type} (cmp : A -> A -> comparison) l, StronglySorted (le_cmp cmp) l -> sort_by cmp l = l.
Proof.
  intros A cmp l H. induction H as [|x l H IH HF]; cbn [sort_by]; auto. rewrite IH. destruct l as [|y l]; auto. cbn.
  inversion HF as [|? ? HX _]; subst. unfold le_cmp in HX. destruct (cmp x y); congruence.
Qed.

Theorem C106_sort : forall g, cfg_sort (cfg_sort g) = cfg_sort g.
Proof.
  intros g. unfold cfg_sort at 1. rewrite sort_again; [destruct g; reflexivity|].
  pose proof (proj2 (C21_sort g)) as H. induction H as [|x l H IH HF]; constructor; auto. eapply Forall_impl; [|exact HF]. intros y. apply rule_le_iff.
Qed.
Print Assumptions C106_sort.

Lemma dedup_again : forall l x, dedup_rules_from x (dedup_rules_from x l) = dedup_rules_from x l.
Proof.
  induction l as [|y l IH]; intros x; cbn [dedup_rules_from]; auto. destruct (same_key x y) eqn:E; auto.
  cbn [dedup_rules_from]. rewrite E. f_equal. apply IH.
Qed.

Theorem C106_dedup : forall g, cfg_dedup (cfg_dedup g) = cfg_dedup g.
Proof.
  intros [s [|x l] r w m]; unfold cfg_dedup, set_rules; cbn; [reflexivity|]. rewrite dedup_again. reflexivity.
Qed.
Print Assumptions C106_dedup.

Theorem C106_reverse : forall g, cfg_reverse (cfg_reverse g) = g.
Proof.
  intros [s l r w m]. unfold cfg_reverse, set_rules. cbn. f_equal. rewrite map_map. cbn.
  induction l as [|x l IH]; cbn; auto. rewrite IH, rev_involutive. destruct x; reflexivity.
Qed.
Print Assumptions C106_reverse.

(** ** Removing unused symbols *)
Lemma seq_self : forall n i, i < n -> nth_error (seq 0 n) i = Some i.
Proof. intros n i H. rewrite (nth_error_nth' _ 0) by (rewrite seq_length; lia). rewrite seq_nth by lia. reflexivity. Qed.

Lemma remap_names_same : forall (ns : list (option _)), remap_names (fun i => i) ns = ns.
Proof.
  intros ns. unfold remap_names.
  assert (G : forall l acc, remap_names_loop (fun i => i) (length acc) l acc = acc ++ l).
  { induction l as [|x l IH]; intros acc; cbn [remap_names_loop]; [symmetry; apply app_nil_r|].
    replace (S (length acc) - length acc) with 1 by lia. cbn [repeat].
    assert (U : upd (acc ++ [None]) (length acc) x = acc ++ [x]).
    { clear. induction acc as [|y acc IH]; cbn; auto. f_equal. exact IH. }
    rewrite U. replace (S (length acc)) with (length (acc ++ [x])) by (rewrite app_length; cbn; lia). rewrite IH, <- app_assoc. reflexivity. }
  apply (G ns []).
Qed.

Lemma remap_same : forall f g, closed g -> names_wf g -> (forall s, s < num_syms g -> f s = Ok s) -> remap_symbols f g = Ok g.
Proof.
  intros f g [HC [HR HW]] HN HF.
  assert (MR : forall l, Forall (fun s => s < num_syms g) l -> map_res f l = Ok l).
  { intros l H. induction H as [|s l Hs H IH]; cbn [map_res]; auto. rewrite HF by auto. cbn [bind]. rewrite IH. reflexivity. }
  assert (RR : forall l, (forall x, In x l -> In x (rules g)) -> remap_rules f l = Ok (l, [])).
  { induction l as [|x l IH]; intros HI; cbn [remap_rules]; auto. destruct (HC x) as [X1 X2]; [apply HI; simpl; auto|].
    unfold remap_rule. rewrite HF by auto. cbn [bind]. rewrite MR by auto. cbn [bind]. rewrite IH by (intros; apply HI; simpl; auto). cbn [bind].
    unfold same_symbols. cbn [lhs rhs]. rewrite Nat.eqb_refl. rewrite (proj2 (eqb_list_eq _ _) eq_refl). reflexivity. }
  unfold remap_symbols. rewrite RR by auto. cbn [bind fold_res]. unfold set_rules. cbn [roots]. rewrite MR by auto. cbn [bind].
  unfold set_roots. cbn [wroots].
  assert (MW : map_res (remap_wrapped f) (wroots g) = Ok (wroots g)).
  { clear - HW HF. induction HW as [|w l [W1 [W2 [W3 W4]]] HW IH]; cbn [map_res]; auto. unfold remap_wrapped at 1.
    rewrite !HF by auto. cbn [bind]. rewrite IH. destruct w; reflexivity. }
  rewrite MW. cbn [bind]. unfold set_wrapped_roots, src_remap. cbn [src names num rules roots wroots limit].
  assert (MS : map_res f (seq 0 (length (names (src g)))) = Ok (seq 0 (length (names (src g))))).
  { apply MR. apply Forall_forall. intros s Hs. apply in_seq in Hs. unfold names_wf in HN. lia. }
  rewrite MS. cbn [bind].
  assert (RN : remap_names (fun i => nth i (seq 0 (length (names (src g)))) 0) (names (src g)) = names (src g)).
  { transitivity (remap_names (fun i => i) (names (src g))); [|apply remap_names_same]. unfold remap_names.
    assert (G : forall (n : nat) l i acc, i + length l <= n ->
       remap_names_loop (fun i => nth i (seq 0 n) 0) i l acc = remap_names_loop (fun i => i) i l acc).
    { intros n. induction l as [|x l IH]; intros i acc H; cbn [remap_names_loop]; auto. cbn [length] in H. rewrite seq_nth by lia. cbn [Nat.add]. apply IH. lia. }
    apply G. lia. }
  rewrite RN. destruct g as [[n ns] rl rt wr lm]. reflexivity.
Qed.

(** If every symbol is used in a rule, nothing is renumbered. *)
Lemma all_used_same : forall g, closed g -> names_wf g -> 0 < num_syms g ->
  (forall s, s < num_syms g -> occurs (prods g) s) -> remove_unused_symbols (remap_new g) = Ok (remap_new g).
Proof.
  intros g HC HN HP HA. pose proof HC as [HC0 _]. unfold remove_unused_symbols. cbn [rm_grammar remap_new].
  destruct (C05_unused g HC0) as [b [E [L M]]]. rewrite E. cbn [bind].
  assert (HX : forall s, ~ member b s) by (intros s X; apply M in X; destruct X as [X1 X2]; exact (X2 (HA s X1))).
  assert (HB : forall s, nth s b false = false).
  { intros s. destruct (nth s b false) eqn:EN; auto. exfalso. apply (HX s).
    apply (proj1 (C05_iter b)). rewrite bs_iter_filter. apply filter_In. split; auto. apply in_seq. split; [lia|].
    destruct (le_lt_dec (length b) s); [rewrite nth_overflow in EN by auto; discriminate|lia]. }
  assert (HI : bs_iter b = []).
  { destruct (bs_iter b) as [|s l] eqn:EI; auto. exfalso. apply (HX s). apply (proj1 (C05_iter b)). rewrite EI. simpl; auto. }
  set (cmp := fun a b0 => bool_cmp (nth a b false) (nth b0 b false)).
  assert (TE : sort_by cmp (seq 0 (num_syms g)) = seq 0 (num_syms g)).
  { apply sort_again. generalize 0. generalize (num_syms g). intros n. induction n as [|n IH]; intros i; cbn [seq]; constructor; auto.
    apply Forall_forall. intros x _. unfold le_cmp, cmp. rewrite !HB. discriminate. }
  destruct (fill_spec (seq 0 (num_syms g)) (num_syms g)) as [ti [ET [LT MT]]].
  { apply seq_NoDup. }
  { intros x Hx. apply in_seq in Hx. lia. }
  { apply seq_length. }
  assert (TI : forall s, s < num_syms g -> nth_error ti s = Some (Some s)) by (intros s Hs; apply MT, seq_self; exact Hs).
  unfold reorder_symbols, remap_new. cbn [rm_grammar rm_mapping]. cbv zeta. rewrite TE, ET. cbn [bind].
  assert (EM : mapping_translate (mkMapping (map Some (seq 0 (num_syms g))) (seq 0 (num_syms g))) (mkMapping ti (seq 0 (num_syms g))) =
    Ok (mkMapping (map Some (seq 0 (num_syms g))) (seq 0 (num_syms g)))).
  { unfold mapping_translate. cbn [to_internal to_external]. rewrite map_map.
    assert (X1 : map (fun x => match nth_error ti x with Some y => y | None => None end) (seq 0 (num_syms g)) = map Some (seq 0 (num_syms g))).
    { apply map_ext_in. intros x Hx. apply in_seq in Hx. rewrite TI by lia. reflexivity. }
    rewrite X1.
    assert (X2 : forall n l, (forall x, In x l -> x < n) -> map_res (fun middle => get_ix (seq 0 n) middle) l = Ok l).
    { intros n. induction l as [|x l IH]; intros Hl; cbn [map_res]; auto. unfold get_ix at 1. rewrite seq_self by (apply Hl; simpl; auto). cbn [bind].
      rewrite IH by (intros; apply Hl; simpl; auto). reflexivity. }
    rewrite X2; [reflexivity|]. intros x Hx. apply in_seq in Hx. lia. }
  rewrite EM. cbn [bind]. rewrite (remap_same _ g HC HN).
  - cbn [bind rm_grammar rm_mapping]. rewrite HI. cbn [length]. rewrite Nat.sub_0_r. unfold src_truncate.
    destruct (num_syms g =? 0) eqn:E0; [apply Nat.eqb_eq in E0; lia|]. cbn [bind]. unfold names_wf in HN. rewrite <- HN at 2. rewrite firstn_all.
    destruct g as [[n ns] rl rt wr lm]. reflexivity.
  - intros s Hs. unfold get_ix. rewrite TI by exact Hs. reflexivity.
Qed.

(** If the roots are used in rules, a second removal with a new [Remap] changes nothing, and its mapping is the identity. *)
Theorem C106_unused_partial : forall g r, closed g -> fits g -> names_wf g -> rules g <> [] -> used_roots g ->
  remove_unused_symbols (remap_new g) = Ok r ->
  remove_unused_symbols (remap_new (rm_grammar r)) = Ok (remap_new (rm_grammar r)).
Proof.
  intros g r HC HF HN HR [HU1 HU2] E.
  destruct (C38_remove_unused_partial g (rm_mapping (remap_new g)) HC HF HN) as [r0 [U [h [E0 H]]]]; auto.
  { cbn. rewrite seq_length. lia. }
  change (mkRemap g (rm_mapping (remap_new g))) with (remap_new g) in E0. rewrite E in E0. injection E0 as <-.
  destruct H as [HS [HU [HNum [Hh [HP [HRt [HWr [HNm [HNl [HCr [HOcc _]]]]]]]]]]].
  assert (HB : forall s, occurs (prods g) s -> h s < num_syms (rm_grammar r)).
  { intros s Hs. apply HU in Hs. apply In_nth_error in Hs. destruct Hs as [i Hi]. rewrite (Hh i s Hi), HNum. apply nth_error_Some. congruence. }
  apply all_used_same; auto.
  - split; [exact HCr|]. split.
    + rewrite HRt. apply Forall_map. eapply Forall_impl; [|exact HU1]. auto.
    + rewrite HWr. apply Forall_map. eapply Forall_impl; [|exact HU2]. intros w [W1 [W2 [W3 W4]]]. cbn. auto.
  - unfold names_wf. rewrite HNl, HNum. reflexivity.
  - destruct (rules g) as [|x l] eqn:ER; [congruence|]. assert (X : occurs (prods g) (lhs x)).
    { exists (lhs x), (rhs x). split; auto. exists x. rewrite ER. simpl; auto. }
    specialize (HB _ X). lia.
Qed.
Print Assumptions C106_unused_partial.

(** A root that is used in no rule is left behind: a second removal with a new [Remap] panics. *)
Definition ex_unused : cfg := mkCfg (mkSrc 3 [None; None; None]) [mkRule 0 [1] hd0] [2] [] None.
Theorem C106_unused_refuted : exists g r, closed g /\ fits g /\ names_wf g /\ rules g <> [] /\
  remove_unused_symbols (remap_new g) = Ok r /\ remove_unused_symbols (remap_new (rm_grammar r)) = Panic.
Proof.
  exists ex_unused. eexists. split.
  { split; [|split; repeat constructor]. intros x [<-|[]]. cbn. repeat constructor. }
  split; [exact I|]. split; [reflexivity|]. split; [discriminate|]. split; vm_compute; reflexivity.
Qed.
Print Assumptions C106_unused_refuted.

(** ** A grammar on which each step has something to do:
    0 ::= 1 2 3 1 | 1 ; 1 ::= 0 | 4 | ; 2 ::= 4 4 ; 6 is used nowhere *)
Definition ex_work : cfg := mkCfg (mkSrc 7 (repeat None 7))
  [mkRule 2 [4; 4] hd0; mkRule 0 [1; 2; 3; 1] hd0; mkRule 0 [1] hd0; mkRule 1 [0] hd0; mkRule 1 [4] hd0; mkRule 1 [] hd0; mkRule 2 [4; 4] hd0; mkRule 3 [5] hd0] [0] [] None.
Lemma ex_work_closed : closed ex_work.
Proof.
  split; [|split; repeat constructor]. intros x Hx. simpl in Hx. repeat (destruct Hx as [<-|Hx]; [split; [cbn; lia|cbn; repeat constructor; lia]|]). destruct Hx.
Qed.
Example C106_example :
  (exists g', limit_rhs_len ex_work (Some 2) = Ok g' /\ length (rules g') = 10) /\
  (exists g' n, eliminate_nulling ex_work = Ok (g', n) /\ length (rules g') = 11 /\ length (rules n) = 3) /\
  (exists c c', cycles_new ex_work = Ok c /\ remove_cycles c = Ok c' /\ length (rules (cy_grammar c')) = 6) /\
  (exists c c', cycles_new ex_work = Ok c /\ rewrite_cycles c = Ok c' /\ length (rules (cy_grammar c')) = 6) /\
  (exists b g', make_proper ex_work = Ok (b, g') /\ length (rules g') = 8) /\
  map lhs (rules (cfg_sort ex_work)) = [0; 0; 1; 1; 1; 2; 2; 3] /\
  length (rules (cfg_dedup (cfg_sort ex_work))) = 7 /\
  fits ex_work /\ names_wf ex_work /\ used_roots ex_work /\
  (exists r, remove_unused_symbols (remap_new ex_work) = Ok r /\ num_syms (rm_grammar r) = 6).
Proof.
  split; [eexists; split; vm_compute; reflexivity|]. split; [do 2 eexists; repeat split; vm_compute; reflexivity|].
  split; [do 2 eexists; repeat split; vm_compute; reflexivity|]. split; [do 2 eexists; repeat split; vm_compute; reflexivity|].
  split; [do 2 eexists; split; vm_compute; reflexivity|]. split; [vm_compute; reflexivity|]. split; [vm_compute; reflexivity|].
  split; [exact I|]. split; [reflexivity|]. split; [|eexists; split; vm_compute; reflexivity].
  split; [|constructor]. constructor; [|constructor]. exists 0, [1]. split; auto. exists (mkRule 0 [1] hd0). simpl; auto 9.
Qed.
