(** Property C110: what the analyses say about the symbols of a grammar is not changed by limiting the
    length of its rules. *)

From Coq Require Import List Arith NArith Bool Lia Sorted Relations.
From Verif Require Import Base ListFacts Spec SpecClassify SpecPredict SetView GrammarFacts LoopModel SymbolModel HistoryModel CfgModel View
  CfgProof BitSetModel ClosureModel SetProof MatrixModel MatrixProof ClassifyModel UsefulProof CyclesProof SetsModel SetsProof FollowProof
  LLModel LLProof DistModel DistSem DistProof LengthProof LoadProof PropsGrammar PropsSets PropsClassify PropsPredict PropsLL PropsDist PropsDist2 DistTotal
  TreeLimit SplitProof PropsOrder.
Import ListNotations.
Local Notation length := List.length.

Lemma limited : forall g lim g', closed_rules g -> good_limit lim -> limit_rhs_len g lim = Ok g' ->
  closed_rules g' /\ num_syms g <= num_syms g' /\ roots g' = roots g /\ kept (num_syms g) (prods g) (prods g').
Proof.
  intros g lim g' HC HL E. destruct (limit_rhs_len_Repr g lim HC HL) as [h [E' [HR [_ [_ [[k HS] R]]]]]]. rewrite E in E'. injection E' as <-.
  split; [apply (rp_closed _ _ _ R)|]. split; [unfold num_syms at 2; rewrite HS; cbn; lia|]. split; auto. eapply limit_kept; eauto.
Qed.

Lemma bool_iff : forall a b : bool, (a = true <-> b = true) -> a = b.
Proof. intros [|] [|] H; auto; [symmetry|]; apply H; reflexivity. Qed.

Theorem C110_sets : forall g lim g', closed_rules g -> good_limit lim -> limit_rhs_len g lim = Ok g' ->
  exists us us' t t' n n' p p', bs_used g = Ok us /\ bs_used g' = Ok us' /\ terminal_symbols g = Ok t /\ terminal_symbols g' = Ok t' /\
  nulling_symbols g = Ok n /\ nulling_symbols g' = Ok n' /\ bs_productive g bs_new = Ok p /\ bs_productive g' bs_new = Ok p' /\
  forall s, s < num_syms g -> (member us' s <-> member us s) /\ (member t' s <-> member t s) /\ (member n' s <-> member n s) /\ (member p' s <-> member p s).
Proof.
  intros g lim g' HC HL E. destruct (limited g lim g' HC HL E) as [HC' [HN [_ K]]].
  destruct (C05_used g HC) as [us [E1 [_ M1]]]. destruct (C05_used g' HC') as [us' [E1' [_ M1']]].
  destruct (C05_terminal g HC) as [t [E2 [_ M2]]]. destruct (C05_terminal g' HC') as [t' [E2' [_ M2']]].
  destruct (C05_nulling g HC) as [n [E3 [_ [_ M3]]]]. destruct (C05_nulling g' HC') as [n' [E3' [_ [_ M3']]]].
  destruct (C05_productive g HC) as [p [E4 [_ M4]]]. destruct (C05_productive g' HC') as [p' [E4' [_ M4']]].
  exists us, us', t, t', n, n', p, p'. do 8 (split; [assumption|]). intros s Hs.
  rewrite M1, M1', M2, M2', M3, M3', M4, M4', (k_occurs _ _ _ K s Hs), (k_terminal _ _ _ K s Hs), (k_nulling _ _ _ K s Hs), (k_nonterminal _ _ _ K s Hs).
  assert (s < num_syms g') by lia. tauto.
Qed.
Print Assumptions C110_sets.

Theorem C110_matrices : forall g lim g', closed_rules g -> good_limit lim -> limit_rhs_len g lim = Ok g' ->
  exists m m' u u', reachability_matrix g = Ok m /\ reachability_matrix g' = Ok m' /\
  unit_derivation_matrix g = Ok u /\ unit_derivation_matrix g' = Ok u' /\
  forall a b, a < num_syms g -> b < num_syms g -> mx_get m' a b = mx_get m a b /\ mx_get u' a b = mx_get u a b.
Proof.
  intros g lim g' HC HL E. destruct (limited g lim g' HC HL E) as [HC' [HN [_ K]]].
  destruct (reachability_spec g HC) as [m [E1 [S1 B1]]]. destruct (reachability_spec g' HC') as [m' [E1' [S1' B1']]].
  destruct (unit_matrix_spec g HC) as [u [E2 [S2 B2]]]. destruct (unit_matrix_spec g' HC') as [u' [E2' [S2' B2']]].
  exists m, m', u, u'. do 4 (split; [assumption|]). intros a b Ha Hb. split.
  - destruct (mx_get_ok _ m a b S1 Ha Hb) as [x [Ex X]]. destruct (mx_get_ok _ m' a b S1') as [y [Ey Y]]; [lia|lia|].
    rewrite Ex, Ey. f_equal. apply bool_iff. rewrite X, Y, B1, B1'. symmetry. apply (k_reaches1 _ _ _ K); auto.
  - destruct (mx_get_ok _ u a b S2 Ha Hb) as [x [Ex X]]. destruct (mx_get_ok _ u' a b S2') as [y [Ey Y]]; [lia|lia|].
    rewrite Ex, Ey. f_equal. apply bool_iff. rewrite X, Y, B2, B2'. symmetry. apply (k_unit _ _ _ K); auto.
Qed.
Print Assumptions C110_matrices.

Theorem C110_cycle_free : forall g lim g', closed_rules g -> good_limit lim -> limit_rhs_len g lim = Ok g' ->
  exists c d b c' d', cycles_new g = Ok c /\ cycles_new g' = Ok d /\ cycle_free c = Ok (b, c') /\ cycle_free d = Ok (b, d').
Proof.
  intros g lim g' HC HL E. destruct (limited g lim g' HC HL E) as [HC' [HN [_ K]]].
  destruct (C34_cycle_free g HC) as [c [b [c' [E1 [F1 [M1 _]]]]]]. destruct (C34_cycle_free g' HC') as [d [b' [d' [E2 [F2 [M2 _]]]]]].
  assert (b' = b) as -> by (apply bool_iff; rewrite M1, M2; symmetry; apply (k_cycle_free _ _ _ K)). exists c, d, b, c', d'. auto.
Qed.
Print Assumptions C110_cycle_free.

(** Which symbols are productive, whether all rules are useful; for any set of roots. *)
Theorem C110_usefulness : forall g lim g' l, closed_rules g -> good_limit lim -> limit_rhs_len g lim = Ok g' ->
  Forall (fun s => s < num_syms g) l ->
  exists u u', usefulness_with_roots g l = Ok u /\ usefulness_with_roots g' l = Ok u' /\
  (forall s, s < num_syms g -> us_productive u' s = us_productive u s) /\ us_all_useful u' = us_all_useful u.
Proof.
  intros g lim g' l HC HL E Hl. destruct (limited g lim g' HC HL E) as [HC' [HN [_ K]]].
  assert (Hl' : Forall (fun s => s < num_syms g') l) by (eapply Forall_impl; [|exact Hl]; cbn; intros; lia).
  destruct (usefulness_spec g l HC Hl) as [u [E1 AN]]. destruct (usefulness_spec g' l HC' Hl') as [u' [E2 AN']].
  exists u, u'. split; auto. split; auto. split.
  - intros s Hs. destruct (us_productive_spec g l u AN s Hs) as [x [Ex X]]. destruct (us_productive_spec g' l u' AN' s) as [y [Ey Y]]; [lia|].
    rewrite Ex, Ey. f_equal. apply bool_iff. rewrite X, Y. unfold productive. split; intros [w W]; exists w; apply (k_language _ _ _ K); auto.
  - apply bool_iff. rewrite (all_useful_spec g l u HC AN), (all_useful_spec g' l u' HC' AN').
    assert (PR : forall h, (forall x, In x (rules h) -> useful (prods h) l (lhs x) (rhs x)) <-> (forall A r, prods h A r -> useful (prods h) l A r)).
    { intros h. split; [intros H A r [x [Hx [<- <-]]]; auto|]. intros H x Hx. apply H. exists x. auto. }
    rewrite !PR. symmetry. apply (k_useful _ _ _ K); auto.
Qed.
Print Assumptions C110_usefulness.

(** FIRST, LAST and FOLLOW of each symbol are the same sets. *)
Lemma val_eq : forall v v', StronglySorted lt (set_list v) -> StronglySorted lt (set_list v') ->
  (forall t, In t (set_list v) <-> In t (set_list v')) -> (has_none v = true <-> has_none v' = true) -> v = v'.
Proof. intros [a l] [b l'] S1 S2 HT HN. cbn in *. f_equal; [apply bool_iff; auto|apply sorted_eq; auto]. Qed.

Theorem C110_predict : forall g lim g', closed_rules g -> good_limit lim -> limit_rhs_len g lim = Ok g' ->
  exists fi fi' la la' fo fo', first_sets_new g = Ok fi /\ first_sets_new g' = Ok fi' /\
  last_sets_new g = Ok la /\ last_sets_new g' = Ok la' /\ follow_sets g = Ok fo /\ follow_sets g' = Ok fo' /\
  forall A, A < num_syms g -> map_get (fs_map fi') A = map_get (fs_map fi) A /\ map_get la' A = map_get la A /\ map_get fo' A = map_get fo A.
Proof.
  intros g lim g' HC HL E. destruct (limited g lim g' HC HL E) as [HC' [HN [HR K]]].
  destruct (C40_first_exact g HC) as [fi [E1 [K1 V1]]]. destruct (C40_first_exact g' HC') as [fi' [E1' [K1' V1']]].
  destruct (C41_last_exact g HC) as [la [E2 [K2 V2]]]. destruct (C41_last_exact g' HC') as [la' [E2' [K2' V2']]].
  destruct (follow_sets_spec g HC) as [fo [E3 [K3 V3]]]. destruct (follow_sets_spec g' HC') as [fo' [E3' [K3' V3']]].
  exists fi, fi', la, la', fo, fo'. do 6 (split; [assumption|]). intros A HA.
  pose proof (k_nonterminal _ _ _ K A HA) as NT. pose proof (k_nullable _ _ _ K A HA) as NU.
  assert (G : forall (m m' : set_map) (T T' : nat -> Prop) (O O' : Prop), (map_get m A <> None <-> nonterminal (prods g) A) -> (map_get m' A <> None <-> nonterminal (prods g') A) ->
    (forall v, map_get m A = Some v -> StronglySorted lt (set_list v) /\ (forall t, In t (set_list v) <-> T t) /\ (has_none v = true <-> O)) ->
    (forall v, map_get m' A = Some v -> StronglySorted lt (set_list v) /\ (forall t, In t (set_list v) <-> T' t) /\ (has_none v = true <-> O')) ->
    (forall t, T t <-> T' t) -> (O <-> O') -> map_get m' A = map_get m A).
  { intros m m' T T' O O' Hm Hm' HV HV' HT HO. destruct (map_get m A) as [v|] eqn:E4; destruct (map_get m' A) as [v'|] eqn:E5; auto.
    - destruct (HV v eq_refl) as [S1 [T1 O1]]. destruct (HV' v' eq_refl) as [S2 [T2 O2]]. f_equal. apply val_eq; auto.
      + intros t. rewrite T1, T2. symmetry. auto.
      + rewrite O1, O2. symmetry. auto.
    - exfalso. apply (proj2 Hm'); [apply NT, Hm; discriminate|reflexivity].
    - exfalso. apply (proj2 Hm); [apply NT, Hm'; discriminate|reflexivity]. }
  split; [|split].
  - apply (G (fs_map fi) (fs_map fi') (begins (prods g) [A]) (begins (prods g') [A]) _ _ (K1 A) (K1' A) (V1 A) (V1' A)); auto. intros t. apply (k_begins _ _ _ K); auto.
  - apply (G la la' (ends (prods g) [A]) (ends (prods g') [A]) _ _ (K2 A) (K2' A) (V2 A) (V2' A)); auto. intros t. apply (k_ends _ _ _ K); auto.
  - apply (G fo fo' (follows (prods g) A) (follows (prods g') A) _ _ (K3 A) (K3' A) (V3 A) (V3' A)); [intros t; apply (k_follows _ _ _ K); auto|]. rewrite HR. tauto.
Qed.
Print Assumptions C110_predict.

Theorem C110_lengths : forall g lim g' v v', closed_rules g -> good_limit lim -> limit_rhs_len g lim = Ok g' ->
  minimal_sentence_lengths true g (md_min_length (md_new g)) = Ok v ->
  minimal_sentence_lengths true g' (md_min_length (md_new g')) = Ok v' ->
  forall s, s < num_syms g -> value_of v' s = value_of v s.
Proof.
  intros g lim g' v v' HC HL E Ev Ev' s Hs. destruct (limited g lim g' HC HL E) as [HC' [HN [_ K]]].
  assert (HV : forall k s c, value_of (md_min_length (md_new k)) s = Some c -> False) by (intros k x c; cbn; rewrite value_none; discriminate).
  destruct (C45_lengths_exact_partial g _ v HC (repeat_length _ _) (fun s c X => False_ind _ (HV g s c X)) Ev) as [_ H1].
  destruct (C45_lengths_exact_partial g' _ v' HC' (repeat_length _ _) (fun s c X => False_ind _ (HV g' s c X)) Ev') as [_ H2].
  pose proof (H1 s Hs) as A. pose proof (H2 s ltac:(lia)) as B.
  assert (HQ : forall c, (exists x, language (prods g) s x /\ N.of_nat (length x) = c) <-> (exists x, language (prods g') s x /\ N.of_nat (length x) = c)).
  { intros c. split; intros [x [HX EX]]; exists x; (split; [|exact EX]); apply (k_language _ _ _ K); auto. }
  unfold least in A, B. destruct (value_of v s) as [a|]; destruct (value_of v' s) as [b|]; auto.
  - destruct A as [A1 A2]. destruct B as [B1 B2]. f_equal. apply N.le_antisymm; [apply B2, HQ|apply A2, HQ]; auto.
  - destruct A as [A1 _]. destruct (B a). apply HQ; auto.
  - destruct B as [B1 _]. destruct (A b). apply HQ; auto.
Qed.
Print Assumptions C110_lengths.

(** The LL(1) class can change:  S ::= B c d | c ;  B ::= b | ;  S B b c d = 0 1 2 3 4.  FIRST of B c d is taken
    to be {b} (C43), so no conflict is seen; FIRST of the new symbol for  B c  is {b, c}. *)
Definition ex_ll_split : cfg :=
  mkCfg (mkSrc 5 (repeat None 5)) [mkRule 0 [1; 3; 4] hd0; mkRule 0 [3] hd0; mkRule 1 [2] hd0; mkRule 1 [] hd0] [0] [] None.
Theorem C110_ll1_changes : exists g g' t t' c c', closed g /\ limit_rhs_len g (Some 2) = Ok g' /\
  ll_parse_table g = Ok t /\ ll_parse_table g' = Ok t' /\ ll_classify g t = Ok c /\ ll_classify g' t' = Ok c' /\
  map_get c 0 = Some Ll1 /\ map_get c' 0 = Some ContextFree.
Proof.
  exists ex_ll_split. do 5 eexists. split; [split; [closed_tac|split; repeat constructor]|]. do 5 (split; [vm_compute; reflexivity|]). split; vm_compute; reflexivity.
Qed.
Print Assumptions C110_ll1_changes.

(** S ::= B c d | c ;  B ::= b | ;  FIRST, LAST and FOLLOW before and after, with one new symbol. *)
Example C110_example : closed_rules ex_ll_split /\ exists g', limit_rhs_len ex_ll_split (Some 2) = Ok g' /\ num_syms g' = 6 /\
  exists f f', first_sets_new ex_ll_split = Ok f /\ first_sets_new g' = Ok f' /\
  fs_map f = [(0, mkSet false [2; 3]); (1, mkSet true [2])] /\
  fs_map f' = [(0, mkSet false [2; 3]); (1, mkSet true [2]); (5, mkSet false [2; 3])].
Proof. split; [closed_tac|]. eexists. split; [vm_compute; reflexivity|]. split; [reflexivity|]. do 2 eexists. do 3 (split; [vm_compute; reflexivity|]). vm_compute; reflexivity. Qed.
