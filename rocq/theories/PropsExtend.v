(** Property C112: rules for new symbols do not change what the analyses say about the earlier symbols. *)

From Coq Require Import List Arith NArith Bool Lia Sorted Relations.
From Verif Require Import Base ListFacts Spec SpecClassify SpecPredict SetView GrammarFacts LoopModel SymbolModel HistoryModel CfgModel View
  CfgProof BitSetModel ClosureModel SetProof MatrixModel MatrixProof ClassifyModel UsefulProof CyclesProof SetsModel SetsProof FollowProof
  LLModel LLProof DistModel DistSem DistProof LengthProof LoadProof PropsGrammar PropsSets PropsClassify PropsPredict PropsLL PropsDist PropsDist2 DistTotal
  SeqProof2 TreeLimit SplitProof PropsOrder PropsSplit.
Import ListNotations.
Local Notation length := List.length.

(** The second grammar has the symbols of the first, with the same rules, and any rules for further symbols. *)
Definition grows (g g' : cfg) : Prop :=
  num_syms g <= num_syms g' /\ forall A r, A < num_syms g -> (prods g' A r <-> prods g A r).

Section Grown.
  Context (g g' : cfg) (HC : closed_rules g) (HG : grows g g').
  Let n := num_syms g.
  Let P := prods g.
  Let Q := prods g'.

  Lemma gr_in : forall A r, P A r -> A < n /\ Forall (fun s => s < n) r.
  Proof. intros A r [x [Hx [<- <-]]]. apply (HC x Hx). Qed.
  Lemma gr_rule : forall A r, A < n -> (Q A r <-> P A r).
  Proof. exact (proj2 HG). Qed.
  Lemma gr_sub : forall A r, P A r -> Q A r.
  Proof. intros A r H. apply gr_rule; auto. apply (gr_in A r H). Qed.
  Lemma gr_bound : forall u w, Forall (fun s => s < n) u -> derives P u w -> Forall (fun s => s < n) w.
  Proof. intros u w Hu D. eapply derives_Forall; [|exact D|exact Hu]. intros A r HR _. apply (gr_in A r HR). Qed.
  Lemma gr_back : forall u w, derives Q u w -> Forall (fun s => s < n) u -> derives P u w.
  Proof.
    intros u w D. induction D as [u|u A v r w HR D IH]; intros Hu; [constructor|].
    apply Forall_app in Hu. destruct Hu as [H1 H2]. inversion H2 as [|? ? HA H3]; subst. apply gr_rule in HR; auto.
    eapply derives_step; [exact HR|]. apply IH. apply Forall_app. split; auto. apply Forall_app. split; auto. apply (gr_in A r HR).
  Qed.
  Lemma gr_derives : forall u w, Forall (fun s => s < n) u -> (derives Q u w <-> derives P u w).
  Proof. intros u w Hu. split; [intros D; apply gr_back; auto|]. apply derives_mono. exact gr_sub. Qed.
  Lemma gr_one : forall a, a < n -> Forall (fun s => s < n) [a].
  Proof. intros a H. constructor; auto. Qed.
  Lemma gr_terminal : forall a, a < n -> (terminal Q a <-> terminal P a).
  Proof. intros a Ha. split; intros H r HR; apply (H r); apply gr_rule; auto. Qed.
  Lemma gr_nonterminal : forall a, a < n -> (nonterminal Q a <-> nonterminal P a).
  Proof. intros a Ha. split; intros [r HR]; exists r; apply gr_rule; auto. Qed.
  Lemma gr_terminals : forall w, Forall (fun s => s < n) w -> (Forall (terminal Q) w <-> Forall (terminal P) w).
  Proof. intros w Hw. rewrite !Forall_forall in *. split; intros H x Hx; apply gr_terminal; auto. Qed.
  Lemma gr_strings : forall u w, Forall (fun s => s < n) u -> (derives Q u w /\ Forall (terminal Q) w <-> derives P u w /\ Forall (terminal P) w).
  Proof.
    intros u w Hu. rewrite (gr_derives u w Hu). split; intros [D T]; (split; [exact D|]); apply (gr_terminals w (gr_bound u w Hu D)); exact T.
  Qed.
  Lemma gr_language : forall a w, a < n -> (language Q a w <-> language P a w).
  Proof. intros a w Ha. apply gr_strings. apply gr_one, Ha. Qed.
  Lemma gr_derives1 : forall a w, a < n -> (derives1 Q [a] w <-> derives1 P [a] w).
  Proof.
    intros a w Ha. rewrite !derives1_single. split; intros [r [HR D]]; exists r.
    - apply gr_rule in HR; auto. split; auto. apply gr_derives; auto. apply (gr_in a r HR).
    - split; [apply gr_sub; auto|]. apply gr_derives; auto. apply (gr_in a r HR).
  Qed.
  Lemma gr_reaches1 : forall a b, a < n -> (reaches1 Q a b <-> reaches1 P a b).
  Proof. intros a b Ha. split; intros [u [v D]]; exists u, v; apply gr_derives1; auto. Qed.
  Lemma gr_reaches1_in : forall a b, a < n -> reaches1 P a b -> b < n.
  Proof. intros a b Ha [u [v D]]. apply derives1_derives in D. apply gr_bound in D; [|apply gr_one, Ha]. apply Forall_app in D. destruct D as [_ D]. inversion D; auto. Qed.
  Lemma gr_reaches : forall a b, a < n -> (reaches Q a b <-> reaches P a b).
  Proof. intros a b Ha. rewrite !reaches_iff, (gr_reaches1 a b Ha). tauto. Qed.
  Lemma gr_unit : forall a b, a < n -> (unit_derives Q a b <-> unit_derives P a b).
  Proof.
    intros a b Ha. split.
    - intros D. apply clos_trans_t1n in D. revert Ha. induction D as [x y [HR HN]|x y z [HR HN] D IH]; intros Ha; apply gr_rule in HR; auto.
      + apply t_step. split; auto.
      + apply (t_trans _ _ x y z); [apply t_step; split; auto|]. apply IH. destruct (gr_in _ _ HR) as [_ H]. inversion H; auto.
    - intros D. induction D as [x y [HR HN]|x y z D1 IH1 D2 IH2]; [apply t_step; split; auto; apply gr_sub; auto|].
      eapply t_trans; [apply IH1; auto|]. apply IH2. clear - D1 HC. apply clos_trans_tn1 in D1. destruct D1 as [y [HR _]|y z [HR _] _]; destruct (gr_in _ _ HR) as [_ H]; inversion H; auto.
  Qed.
  Lemma gr_begins : forall a t, a < n -> (begins Q [a] t <-> begins P [a] t).
  Proof.
    intros a t Ha. assert (Hb : forall v, derives P [a] (t :: v) -> t < n) by (intros v D; apply gr_bound in D; [inversion D; auto|apply gr_one, Ha]).
    split; intros [T [v D]]; [apply gr_derives in D; [|apply gr_one, Ha]|]; (split; [apply (gr_terminal t (Hb v D)); exact T|exists v; auto]).
    apply gr_derives; [apply gr_one, Ha|exact D].
  Qed.
  Lemma gr_ends : forall a t, a < n -> (ends Q [a] t <-> ends P [a] t).
  Proof.
    intros a t Ha. assert (Hb : forall v, derives P [a] (v ++ [t]) -> t < n).
    { intros v D. apply gr_bound in D; [|apply gr_one, Ha]. apply Forall_app in D. destruct D as [_ D]. inversion D; auto. }
    split; intros [T [v D]]; [apply gr_derives in D; [|apply gr_one, Ha]|]; (split; [apply (gr_terminal t (Hb v D)); exact T|exists v; auto]).
    apply gr_derives; [apply gr_one, Ha|exact D].
  Qed.
  Lemma gr_follows : forall a t, a < n -> follows P a t -> follows Q a t.
  Proof.
    intros a t Ha [T [C [u [v D]]]]. assert (HCn : C < n).
    { apply derives_inv1 in D. destruct D as [D|D]; [destruct u as [|x [|y u]]; discriminate|]. apply derives1_single in D. destruct D as [r [HR _]]. apply (gr_in C r HR). }
    pose proof (gr_bound _ _ (gr_one C HCn) D) as B. apply Forall_app in B. destruct B as [_ B]. inversion B as [|? ? _ B2]; subst. inversion B2 as [|? ? Ht _]; subst.
    split; [apply gr_terminal; auto|]. exists C, u, v. apply gr_derives; [apply gr_one; auto|exact D].
  Qed.
End Grown.

(** The sets of terminals, of symbols with an empty rule and of symbols with a rule; a symbol in use stays in use. *)
Theorem C112_sets : forall g g', closed_rules g -> closed_rules g' -> grows g g' ->
  exists us us' t t' n n' p p', bs_used g = Ok us /\ bs_used g' = Ok us' /\ terminal_symbols g = Ok t /\ terminal_symbols g' = Ok t' /\
  nulling_symbols g = Ok n /\ nulling_symbols g' = Ok n' /\ bs_productive g bs_new = Ok p /\ bs_productive g' bs_new = Ok p' /\
  forall s, s < num_syms g -> (member us s -> member us' s) /\ (member t' s <-> member t s) /\ (member n' s <-> member n s) /\ (member p' s <-> member p s).
Proof.
  intros g g' HC HC' HG.
  destruct (C05_used g HC) as [us [E1 [_ M1]]]. destruct (C05_used g' HC') as [us' [E1' [_ M1']]].
  destruct (C05_terminal g HC) as [t [E2 [_ M2]]]. destruct (C05_terminal g' HC') as [t' [E2' [_ M2']]].
  destruct (C05_nulling g HC) as [n [E3 [_ [_ M3]]]]. destruct (C05_nulling g' HC') as [n' [E3' [_ [_ M3']]]].
  destruct (C05_productive g HC) as [p [E4 [_ M4]]]. destruct (C05_productive g' HC') as [p' [E4' [_ M4']]].
  exists us, us', t, t', n, n', p, p'. do 8 (split; [assumption|]). intros s Hs.
  rewrite M1, M1', M2, M2', M3, M3', M4, M4', (gr_terminal g g' HG s Hs), (gr_nonterminal g g' HG s Hs), (gr_rule g g' HG s [] Hs).
  destruct HG as [HN HR]. split; [|split; [intuition lia|split; [tauto|tauto]]].
  intros [A [r [H HO]]]. exists A, r. split; [|exact HO]. apply (gr_sub g g' HC (conj HN HR)). exact H.
Qed.
Print Assumptions C112_sets.

(** The entries of the matrices; no new symbol is reached from an earlier one. *)
Theorem C112_matrices : forall g g', closed_rules g -> closed_rules g' -> grows g g' ->
  exists m m' u u', reachability_matrix g = Ok m /\ reachability_matrix g' = Ok m' /\
  unit_derivation_matrix g = Ok u /\ unit_derivation_matrix g' = Ok u' /\
  forall a, a < num_syms g ->
    (forall b, b < num_syms g -> mx_get m' a b = mx_get m a b /\ mx_get u' a b = mx_get u a b) /\
    (forall b, num_syms g <= b < num_syms g' -> mx_get m' a b = Ok false /\ mx_get u' a b = Ok false).
Proof.
  intros g g' HC HC' HG. pose proof (proj1 HG) as HN.
  destruct (reachability_spec g HC) as [m [E1 [S1 B1]]]. destruct (reachability_spec g' HC') as [m' [E1' [S1' B1']]].
  destruct (unit_matrix_spec g HC) as [u [E2 [S2 B2]]]. destruct (unit_matrix_spec g' HC') as [u' [E2' [S2' B2']]].
  exists m, m', u, u'. do 4 (split; [assumption|]). intros a Ha. split; intros b Hb.
  - split.
    + destruct (mx_get_ok _ m a b S1 Ha Hb) as [x [Ex X]]. destruct (mx_get_ok _ m' a b S1') as [y [Ey Y]]; [lia|lia|].
      rewrite Ex, Ey. f_equal. apply bool_iff. rewrite X, Y, B1, B1'. apply (gr_reaches1 g g' HC HG); auto.
    + destruct (mx_get_ok _ u a b S2 Ha Hb) as [x [Ex X]]. destruct (mx_get_ok _ u' a b S2') as [y [Ey Y]]; [lia|lia|].
      rewrite Ex, Ey. f_equal. apply bool_iff. rewrite X, Y, B2, B2'. apply (gr_unit g g' HC HG); auto.
  - split.
    + destruct (mx_get_ok _ m' a b S1') as [y [Ey Y]]; [lia|lia|]. rewrite Ey. f_equal. destruct y; auto. exfalso.
      assert (X : reaches1 (prods g) a b) by (apply (gr_reaches1 g g' HC HG); auto; apply B1', Y; reflexivity).
      apply (gr_reaches1_in g HC a b Ha) in X. lia.
    + destruct (mx_get_ok _ u' a b S2') as [y [Ey Y]]; [lia|lia|]. rewrite Ey. f_equal. destruct y; auto. exfalso.
      assert (X : unit_derives (prods g) a b) by (apply (gr_unit g g' HC HG); auto; apply B2', Y; reflexivity).
      apply B2 in X. apply (bit_lt _ _ _ _ S2) in X. lia.
Qed.
Print Assumptions C112_matrices.

(** A grammar with a cycle keeps it. *)
Theorem C112_cycles : forall g g', closed_rules g -> closed_rules g' -> grows g g' ->
  exists c d b b' c' d', cycles_new g = Ok c /\ cycles_new g' = Ok d /\ cycle_free c = Ok (b, c') /\ cycle_free d = Ok (b', d') /\ (b' = true -> b = true).
Proof.
  intros g g' HC HC' HG.
  destruct (C34_cycle_free g HC) as [c [b [c' [E1 [F1 [M1 _]]]]]]. destruct (C34_cycle_free g' HC') as [d [b' [d' [E2 [F2 [M2 _]]]]]].
  exists c, d, b, b', c', d'. do 4 (split; [assumption|]). rewrite M1, M2. intros H A D. apply (H A).
  assert (HA : A < num_syms g). { destruct (unit_matrix_spec g HC) as [u [_ [S B]]]. apply B in D. apply (bit_lt _ _ _ _ S) in D. lia. }
  apply (gr_unit g g' HC HG); auto.
Qed.
Print Assumptions C112_cycles.

(** Which symbols are productive, and whether a rule is reachable, productive and useful from roots among the earlier symbols. *)
Theorem C112_usefulness : forall g g' l, closed_rules g -> closed_rules g' -> grows g g' -> Forall (fun s => s < num_syms g) l ->
  exists u u', usefulness_with_roots g l = Ok u /\ usefulness_with_roots g' l = Ok u' /\
  (forall s, s < num_syms g -> us_productive u' s = us_productive u s) /\
  (forall x y, In x (rules g) -> In y (rules g') -> lhs y = lhs x -> rhs y = rhs x -> us_rule u' y = us_rule u x).
Proof.
  intros g g' l HC HC' HG Hl. pose proof (proj1 HG) as HN.
  assert (Hl' : Forall (fun s => s < num_syms g') l) by (eapply Forall_impl; [|exact Hl]; cbn; intros; lia).
  destruct (usefulness_spec g l HC Hl) as [u [E1 AN]]. destruct (usefulness_spec g' l HC' Hl') as [u' [E2 AN']].
  exists u, u'. split; auto. split; auto. split.
  - intros s Hs. destruct (us_productive_spec g l u AN s Hs) as [x [Ex X]]. destruct (us_productive_spec g' l u' AN' s) as [y [Ey Y]]; [lia|].
    rewrite Ex, Ey. f_equal. apply bool_iff. rewrite X, Y. unfold productive. split; intros [w W]; exists w; apply (gr_language g g' HC HG); auto.
  - intros x y Hx Hy EL ER. destruct (us_rule_spec g l u HC AN x Hx) as [v [Ev [R1 [R2 _]]]]. destruct (us_rule_spec g' l u' HC' AN' y Hy) as [v' [Ev' [R1' [R2' _]]]].
    rewrite Ev, Ev'. f_equal. rewrite EL in R1'. rewrite ER in R2'.
    assert (H1 : ru_reachable v' = ru_reachable v).
    { apply bool_iff. rewrite R1, R1'. rewrite Forall_forall in Hl. split; intros [R [HR HX]]; exists R; (split; [exact HR|]); apply (gr_reaches g g' HC HG); auto. }
    assert (H2 : ru_productive v' = ru_productive v).
    { apply bool_iff. rewrite R2, R2'. split; intros [w W]; exists w; apply (gr_strings g g' HC HG); auto; apply (HC x Hx). }
    destruct v as [v1 v2], v' as [v1' v2']. cbn in H1, H2. congruence.
Qed.
Print Assumptions C112_usefulness.

(** FIRST and LAST of the earlier symbols; FOLLOW can only grow. *)
Theorem C112_predict : forall g g', closed_rules g -> closed_rules g' -> grows g g' ->
  exists fi fi' la la' fo fo', first_sets_new g = Ok fi /\ first_sets_new g' = Ok fi' /\
  last_sets_new g = Ok la /\ last_sets_new g' = Ok la' /\ follow_sets g = Ok fo /\ follow_sets g' = Ok fo' /\
  forall A, A < num_syms g -> map_get (fs_map fi') A = map_get (fs_map fi) A /\ map_get la' A = map_get la A /\
    forall x t, map_get fo A = Some x -> In t (set_list x) -> exists x', map_get fo' A = Some x' /\ In t (set_list x').
Proof.
  intros g g' HC HC' HG.
  destruct (C40_first_exact g HC) as [fi [E1 [K1 V1]]]. destruct (C40_first_exact g' HC') as [fi' [E1' [K1' V1']]].
  destruct (C41_last_exact g HC) as [la [E2 [K2 V2]]]. destruct (C41_last_exact g' HC') as [la' [E2' [K2' V2']]].
  destruct (follow_sets_spec g HC) as [fo [E3 [K3 V3]]]. destruct (follow_sets_spec g' HC') as [fo' [E3' [K3' V3']]].
  exists fi, fi', la, la', fo, fo'. do 6 (split; [assumption|]). intros A HA.
  pose proof (gr_nonterminal g g' HG A HA) as NT. assert (NU : nullable (prods g) A <-> nullable (prods g') A).
  { symmetry. apply (gr_derives g g' HC HG [A] []). constructor; auto. }
  assert (G : forall (m m' : set_map) (T T' : nat -> Prop) (O O' : Prop), (map_get m A <> None <-> nonterminal (prods g) A) -> (map_get m' A <> None <-> nonterminal (prods g') A) ->
    (forall v, map_get m A = Some v -> StronglySorted lt (set_list v) /\ (forall t, In t (set_list v) <-> T t) /\ (has_none v = true <-> O)) ->
    (forall v, map_get m' A = Some v -> StronglySorted lt (set_list v) /\ (forall t, In t (set_list v) <-> T' t) /\ (has_none v = true <-> O')) ->
    (forall t, T t <-> T' t) -> (O <-> O') -> map_get m' A = map_get m A).
  { intros m m' T T' O O' Hm Hm' HV HV' HT HO. destruct (map_get m A) as [v|] eqn:E4; destruct (map_get m' A) as [v'|] eqn:E5; auto.
    - destruct (HV v eq_refl) as [S1 [T1 O1]]. destruct (HV' v' eq_refl) as [S2 [T2 O2]]. f_equal. apply val_eq; auto.
      + intros t. rewrite T1, T2. symmetry. auto.
      + rewrite O1, O2. symmetry. auto.
    - exfalso. apply (proj2 Hm'); [apply NT, Hm; discriminate|reflexivity].
    - exfalso. apply (proj2 Hm); [apply NT, Hm'; discriminate|reflexivity]. }
  split; [|split].
  - apply (G (fs_map fi) (fs_map fi') (begins (prods g) [A]) (begins (prods g') [A]) _ _ (K1 A) (K1' A) (V1 A) (V1' A)); auto. intros t. symmetry. apply (gr_begins g g' HC HG); auto.
  - apply (G la la' (ends (prods g) [A]) (ends (prods g') [A]) _ _ (K2 A) (K2' A) (V2 A) (V2' A)); auto. intros t. symmetry. apply (gr_ends g g' HC HG); auto.
  - intros x t EX HT. destruct (V3 A x EX) as [_ [T3 _]]. apply T3 in HT. apply (gr_follows g g' HC HG A t HA) in HT.
    destruct (map_get fo' A) as [x'|] eqn:E4.
    + exists x'. split; auto. apply (V3' A x' E4). exact HT.
    + exfalso. apply (proj2 (K3' A)); auto. apply NT, K3. congruence.
Qed.
Print Assumptions C112_predict.

Theorem C112_lengths : forall g g' v v', closed_rules g -> closed_rules g' -> grows g g' ->
  minimal_sentence_lengths true g (md_min_length (md_new g)) = Ok v ->
  minimal_sentence_lengths true g' (md_min_length (md_new g')) = Ok v' ->
  forall s, s < num_syms g -> value_of v' s = value_of v s.
Proof.
  intros g g' v v' HC HC' HG Ev Ev' s Hs. pose proof (proj1 HG) as HN.
  assert (HV : forall k s c, value_of (md_min_length (md_new k)) s = Some c -> False) by (intros k x c; cbn; rewrite value_none; discriminate).
  destruct (C45_lengths_exact_partial g _ v HC (repeat_length _ _) (fun s c X => False_ind _ (HV g s c X)) Ev) as [_ H1].
  destruct (C45_lengths_exact_partial g' _ v' HC' (repeat_length _ _) (fun s c X => False_ind _ (HV g' s c X)) Ev') as [_ H2].
  pose proof (H1 s Hs) as A. pose proof (H2 s ltac:(lia)) as B.
  assert (HQ : forall c, (exists x, language (prods g) s x /\ N.of_nat (length x) = c) <-> (exists x, language (prods g') s x /\ N.of_nat (length x) = c)).
  { intros c. split; intros [x [HX EX]]; exists x; (split; [|exact EX]); apply (gr_language g g' HC HG); auto. }
  unfold least in A, B. destruct (value_of v s) as [a|]; destruct (value_of v' s) as [b|]; auto.
  - destruct A as [A1 A2]. destruct B as [B1 B2]. f_equal. apply N.le_antisymm; [apply B2, HQ|apply A2, HQ]; auto.
  - destruct A as [A1 _]. destruct (B a). apply HQ; auto.
  - destruct B as [B1 _]. destruct (A b). apply HQ; auto.
Qed.
Print Assumptions C112_lengths.

(** ** Wrapping *)

Lemma prods_list : forall h A r, prods h A r <-> in_list (map pr (rules h)) A r.
Proof.
  intros h A r. unfold in_list, prods, pr. rewrite in_map_iff. split.
  - intros [x [Hx [<- <-]]]. exists x. auto.
  - intros [x [K Hx]]. injection K as <- <-. exists x. auto.
Qed.

Lemma closed_below : forall g, closed_rules g <-> Forall (below (num_syms g)) (map pr (rules g)).
Proof.
  intros g. rewrite Forall_forall. split.
  - intros HC [A r] Hx. apply in_map_iff in Hx. destruct Hx as [x [K Hx]]. injection K as <- <-. apply (HC x Hx).
  - intros H x Hx. apply (H (pr x)). apply in_map. exact Hx.
Qed.

(** The symbol [a] between two new terminals, for a new root. *)
Section Wrapper.
  Context (P V : productions) (n R s a e : nat).
  Context (HP : forall A r, P A r -> A < n /\ Forall (fun x => x < n) r).
  Context (HV : forall A r, V A r <-> P A r \/ (A = R /\ r = [s; a; e])).
  Context (Ha : a < n) (HR : n <= R) (Hs : n <= s) (He : n <= e) (Ns : s <> R) (Ne : e <> R).

  Lemma wp_terminal : forall x, x <> R -> (terminal V x <-> terminal P x).
  Proof. intros x Hx. split; intros H r K; apply (H r); [apply HV; auto|]. apply HV in K. destruct K as [K|[K _]]; [auto|contradiction]. Qed.
  Lemma wp_new : forall x, n <= x -> x <> R -> terminal V x.
  Proof. intros x Hx N. apply wp_terminal; auto. intros r K. apply HP in K. lia. Qed.
  Lemma wp_old : forall u w, derives V u w -> Forall (fun x => x < n) u -> derives P u w /\ Forall (fun x => x < n) w.
  Proof.
    intros u w D. induction D as [u|u A v r w K D IH]; intros Hu; [split; [constructor|exact Hu]|].
    apply Forall_app in Hu. destruct Hu as [H1 H2]. inversion H2 as [|? ? HA H3]; subst. apply HV in K. destruct K as [K|[K _]]; [|lia].
    destruct IH as [I1 I2]; [apply Forall_app; split; auto; apply Forall_app; split; auto; apply (HP A r K)|]. split; auto. eapply derives_step; eauto.
  Qed.
  Lemma wp_stuck : forall x w, terminal V x -> derives V [x] w -> w = [x].
  Proof. intros x w T D. apply derives_inv1 in D. destruct D as [D|D]; auto. apply derives1_single in D. destruct D as [r [K _]]. exfalso. exact (T r K). Qed.

  Lemma wp_follows : forall A t, A < n -> (follows V A t <-> follows P A t \/ (t = e /\ exists u, derives P [a] (u ++ [A]))).
  Proof.
    assert (TE : terminal V e) by (apply wp_new; auto). assert (TS : terminal V s) by (apply wp_new; auto).
    assert (MO : forall u w, derives P u w -> derives V u w) by (apply derives_mono; intros A r K; apply HV; auto).
    intros A t HA. split.
    - intros [T [C [u [w D]]]].
      assert (IN : forall y, derives P [C] y -> y = u ++ A :: t :: w -> Forall (fun x => x < n) y -> follows P A t).
      { intros y Dy -> B. apply Forall_app in B. destruct B as [_ B]. inversion B as [|? ? _ B2]; subst. inversion B2; subst.
        split; [apply wp_terminal; auto; lia|]. exists C, u, w. exact Dy. }
      destruct (Nat.lt_ge_cases C n) as [HCn|HCn].
      + left. destruct (wp_old _ _ D) as [D1 D2]; [constructor; auto|]. eapply IN; eauto.
      + destruct (Nat.eq_dec C R) as [->|NC].
        * apply derives_inv1 in D. destruct D as [D|D]; [destruct u as [|? [|? ?]]; discriminate|].
          apply derives1_single in D. destruct D as [r [K D]]. apply HV in K. destruct K as [K|[_ ->]]; [apply HP in K; lia|].
          apply (derives_app_inv V [s] [a; e]) in D. destruct D as [w1 [w2 [E1 [D1 D2]]]]. apply wp_stuck in D1; auto. subst w1.
          apply (derives_app_inv V [a] [e]) in D2. destruct D2 as [w3 [w4 [E2 [D3 D4]]]]. apply wp_stuck in D4; auto. subst w4 w2.
          destruct (wp_old _ _ D3) as [D5 B]; [constructor; auto|].
          destruct u as [|z u]; [injection E1 as E1 _; lia|]. injection E1 as _ E1.
          destruct w as [|w0 w] using rev_ind.
          -- right. change (u ++ [A; t]) with (u ++ [A] ++ [t]) in E1. rewrite app_assoc in E1. apply app_inj_tail in E1. destruct E1 as [<- ->]. split; auto. exists u. exact D5.
          -- left. clear IHw. replace (u ++ A :: t :: w ++ [w0]) with ((u ++ A :: t :: w) ++ [w0]) in E1 by (rewrite <- app_assoc; reflexivity).
             apply app_inj_tail in E1. destruct E1 as [<- _]. apply Forall_app in B. destruct B as [_ B]. inversion B as [|? ? _ B2]; subst. inversion B2; subst.
             split; [apply wp_terminal; auto; lia|]. exists a, u, w. exact D5.
        * exfalso. apply wp_stuck in D; [|apply wp_new; auto]. destruct u as [|? [|? ?]]; discriminate.
    - intros [[T [C [u [w D]]]]|[-> [u D]]].
      + assert (Ht : t < n).
        { apply derives_inv1 in D. destruct D as [D|D]; [destruct u as [|? [|? ?]]; discriminate|]. apply derives1_single in D. destruct D as [r [K D]].
          destruct (HP C r K) as [_ B0]. destruct (wp_old _ _ (MO _ _ D) B0) as [_ B]. apply Forall_app in B. destruct B as [_ B]. inversion B as [|? ? _ B2]; subst. inversion B2; auto. }
        split; [apply wp_terminal; auto; lia|]. exists C, u, w. apply MO. exact D.
      + split; auto. exists R, (s :: u), []. eapply derives_rule_then; [apply HV; right; split; reflexivity|]. cbn [app].
        apply derives_cons_same. replace (u ++ [A; e]) with ((u ++ [A]) ++ [e]) by (rewrite <- app_assoc; reflexivity). apply (derives_app V [a] [e]); [apply MO; exact D|constructor].
  Qed.
End Wrapper.

Lemma wrap_one_grows : forall g a g', closed_rules g -> good_limit (limit g) -> a < num_syms g -> wrap_one g a = Ok g' ->
  exists W, wroots g' = wroots g ++ [W] /\ roots g' = roots g ++ [wr_root W] /\ wr_inner W = a /\ num_syms g <= wr_root W /\ limit g' = limit g /\ closed_rules g' /\ grows g g' /\
  forall A t, A < num_syms g -> (follows (prods g') A t <-> follows (prods g) A t \/ (t = wr_end W /\ exists u, derives (prods g) [a] (u ++ [A]))).
Proof.
  intros g a g' HC HL Ha E. pose proof (proj1 (closed_below g) HC) as HB. unfold wrap_one, next_sym, src_next in E.
  cbn [src num names rules roots wroots limit] in E. set (n := num g.(src)) in *.
  match type of E with (do g4 <- add_rule ?x ?y; _) = _ => set (g3 := x) in E; set (r := y) in E end.
  destruct (add_rule g3 r) as [g4| |] eqn:EA; try discriminate. cbn [bind] in E.
  assert (Hn : num_syms g3 = S (S (S n))) by reflexivity.
  assert (HB3 : Forall (below (num_syms g3)) (map pr (rules g3))).
  { rewrite Hn. eapply Forall_impl; [|exact HB]. intros x Hx. eapply below_le; [|exact Hx]. unfold num_syms. fold n. lia. }
  assert (Han : a < n) by exact Ha.
  assert (HBr : below (num_syms g3) (pr r)). { rewrite Hn. split; cbn; [lia|]. repeat (apply Forall_cons; [lia|]). apply Forall_nil. }
  destruct (add_rule_same g3 r g4 [] HL EA HB3 (Forall_nil _) HBr) as [_ [HN [HLim HB4]]].
  pose proof (add_rule_kept g3 r g4 n [] HL EA ltac:(lia) HB3 (Forall_nil _) HBr) as K. rewrite !app_nil_r in K.
  destruct (CfgProof.add_rule_spec g3 r HL) as [k [c [E' [_ Hc]]]]. rewrite E' in EA. injection EA as <-. injection E as <-.
  exists (mkWrapped (S n) a (S (S n)) n). cbn [wr_inner wr_root wr_start wr_end]. split; [reflexivity|]. split; [reflexivity|]. split; [reflexivity|]. split; [unfold num_syms; fold n; lia|]. split; [exact HLim|].
  split; [apply closed_below; exact HB4|].
  assert (HH : Forall (fun x => n <= lhs x) c).
  { destruct Hc as [[-> _]|[l [_ [_ Hc]]]]; [constructor; [cbn; lia|constructor]|]. apply chain_lhs in Hc. eapply Forall_impl; [|exact Hc]. intros x [H|H]; [rewrite H; cbn; lia|].
    rewrite Hn in H. lia. }
  split.
  - split; [unfold num_syms in *; cbn in *; lia|]. intros A q HA. unfold prods. cbn [rules added]. split; intros [x [Hx HX]]; exists x; (split; [|exact HX]).
    + apply in_app_or in Hx. destruct Hx as [Hx|Hx]; auto. rewrite Forall_forall in HH. apply HH in Hx. destruct HX as [HX _]. unfold num_syms in HA. fold n in HA. lia.
    + apply in_or_app. auto.
  - intros A t HA. rewrite <- (wp_follows (prods g) (in_list (map pr (rules g3) ++ [pr r])) n n (S n) a (S (S n))); auto; try lia.
    + rewrite (k_follows _ _ _ K A t HA). unfold follows.
      set (h := mkCfg _ _ _ _ _). assert (X : forall B q, prods h B q <-> in_list (map pr (rules (added g3 k c))) B q) by (intros B q; exact (prods_list h B q)).
      rewrite (terminal_ext _ _ X). split; intros [T [C [u [v D]]]]; (split; [exact T|]); exists C, u, v; apply (derives_ext _ _ X); exact D.
    + intros B q [x [Hx [<- <-]]]. apply (HC x Hx).
    + intros B q. unfold in_list. rewrite in_app_iff. cbn [In]. rewrite (prods_list g B q). unfold in_list. change (rules g3) with (rules g).
      split; intros [H|H]; auto; [destruct H as [H|[]]; injection H as <- <-; auto|destruct H as [-> ->]; right; left; reflexivity].
Qed.

Lemma grows_refl : forall g, grows g g.
Proof. intros g. split; [lia|]. intros. tauto. Qed.
Lemma grows_trans : forall g h k, grows g h -> grows h k -> grows g k.
Proof. intros g h k [A1 A2] [B1 B2]. split; [lia|]. intros A r HA. rewrite B2 by lia. apply A2; auto. Qed.

Lemma wrap_fold_grows : forall l g g', closed_rules g -> good_limit (limit g) -> Forall (fun s => s < num_syms g) l -> fold_res wrap_one l g = Ok g' ->
  exists ws, wroots g' = wroots g ++ ws /\ roots g' = roots g ++ map wr_root ws /\ map wr_inner ws = l /\ Forall (fun W => num_syms g <= wr_root W) ws /\ closed_rules g' /\ grows g g' /\
  forall A t, A < num_syms g -> (follows (prods g') A t <->
    follows (prods g) A t \/ exists W u, In W ws /\ t = wr_end W /\ derives (prods g) [wr_inner W] (u ++ [A])).
Proof.
  induction l as [|a l IH]; intros g g' HC HL HF E.
  - injection E as <-. exists []. rewrite !app_nil_r. do 3 (split; [reflexivity|]). split; [constructor|]. split; auto. split; [apply grows_refl|].
    intros A t HA. split; auto. intros [H|[W [u [[] _]]]]. exact H.
  - cbn [fold_res] in E. destruct (wrap_one g a) as [g1| |] eqn:E1; try discriminate. cbn [bind] in E. inversion HF as [|? ? Ha HF']; subst.
    destruct (wrap_one_grows g a g1 HC HL Ha E1) as [W [W1 [W2 [W3 [W4 [W5 [W6 [W7 W8]]]]]]]]. pose proof (proj1 W7) as HN.
    destruct (IH g1 g') as [ws [V1 [V2 [V3 [V4 [V5 [V6 V7]]]]]]]; auto; [rewrite W5; exact HL|eapply Forall_impl; [|exact HF']; cbn; intros; lia|].
    exists (W :: ws). split; [rewrite V1, W1, <- app_assoc; reflexivity|]. split; [rewrite V2, W2, <- app_assoc; reflexivity|]. split; [cbn [map]; congruence|].
    split; [constructor; auto; eapply Forall_impl; [|exact V4]; cbn; intros; lia|]. split; auto. split; [eapply grows_trans; eauto|].
    intros A t HA. rewrite V7 by lia. rewrite W8 by exact HA.
    assert (HI : forall X u, In X ws -> (derives (prods g1) [wr_inner X] (u ++ [A]) <-> derives (prods g) [wr_inner X] (u ++ [A]))).
    { intros X u HX. apply (gr_derives g g1 HC W7). constructor; [|constructor]. rewrite Forall_forall in HF'. apply HF'. rewrite <- V3. apply in_map. exact HX. }
    split.
    + intros [[H|[-> [u D]]]|[X [u [HX [-> D]]]]]; auto.
      * right. exists W, u. rewrite W3. cbn. auto.
      * right. exists X, u. split; [right; auto|]. split; auto. apply HI; auto.
    + intros [H|[X [u [[<-|HX] [-> D]]]]]; auto.
      * left. right. split; auto. exists u. rewrite <- W3. exact D.
      * right. exists X, u. split; auto. split; auto. apply HI; auto.
Qed.

(** Wrapping is such a step: all of the above holds for it. *)
Theorem C112_wrap : forall g g', closed_rules g -> good_limit (limit g) -> Forall (fun s => s < num_syms g) (roots g) -> wrap_input g = Ok g' ->
  closed_rules g' /\ grows g g'.
Proof.
  intros g g' HC HL HR E. destruct (wrap_fold_grows _ (mkCfg (src g) (rules g) [] [] (limit g)) g' HC HL HR E) as [ws [_ [_ [_ [_ [H1 [H2 _]]]]]]]. auto.
Qed.
Print Assumptions C112_wrap.

(** Wrapping adds to the FOLLOW set of a symbol exactly the end markers of the roots whose forms it can end, in place of the mark for the
    end of input. *)
Theorem C112_wrap_follow : forall g g', closed_rules g -> good_limit (limit g) -> Forall (fun s => s < num_syms g) (roots g) -> wrap_input g = Ok g' ->
  exists fo fo', follow_sets g = Ok fo /\ follow_sets g' = Ok fo' /\
  forall A, A < num_syms g -> (map_get fo A = None <-> map_get fo' A = None) /\
    forall x x', map_get fo A = Some x -> map_get fo' A = Some x' -> has_none x' = false /\
    forall t, In t (set_list x') <-> In t (set_list x) \/ exists W u, In W (wroots g') /\ t = wr_end W /\ derives (prods g) [wr_inner W] (u ++ [A]).
Proof.
  intros g g' HC HL HR E. destruct (wrap_fold_grows _ (mkCfg (src g) (rules g) [] [] (limit g)) g' HC HL HR E) as [ws [H1 [H2 [H3 [H4 [H5 [H6 H7]]]]]]].
  cbn [wroots roots app] in H1, H2. change (grows g g') in H6. change (num_syms (mkCfg (src g) (rules g) [] [] (limit g))) with (num_syms g) in *.
  destruct (follow_sets_spec g HC) as [fo [E3 [K3 V3]]]. destruct (follow_sets_spec g' H5) as [fo' [E3' [K3' V3']]].
  exists fo, fo'. split; auto. split; auto. intros A HA. split.
  - pose proof (gr_nonterminal g g' H6 A HA) as NT. specialize (K3 A). specialize (K3' A).
    destruct (map_get fo A), (map_get fo' A); split; intros X; auto; try discriminate; exfalso.
    + apply (proj2 K3'); auto. apply NT, K3. discriminate.
    + apply (proj2 K3); auto. apply NT, K3'. discriminate.
  - intros x x' EX EX'. destruct (V3 A x EX) as [_ [T _]]. destruct (V3' A x' EX') as [_ [T' O']]. split.
    + destruct (has_none x'); auto. exfalso. assert (X : In A (roots g')) by (apply O'; reflexivity). rewrite H2 in X. apply in_map_iff in X. destruct X as [W [<- HW]].
      rewrite Forall_forall in H4. apply H4 in HW. lia.
    + intros t. rewrite T, T', H1. exact (H7 A t HA).
Qed.
Print Assumptions C112_wrap_follow.

(** E ::= E + T | T ;  T ::= x:  FOLLOW of E before and after wrapping. *)
Example C112_example : let g := mkCfg (mkSrc 4 (repeat None 4)) [mkRule 0 [0; 2; 1] hd0; mkRule 0 [1] hd0; mkRule 1 [3] hd0] [0] [] None in
  closed_rules g /\ exists g' fo fo', wrap_input g = Ok g' /\ map wr_end (wroots g') = [6] /\ follow_sets g = Ok fo /\ follow_sets g' = Ok fo' /\
  map_get fo 0 = Some (mkSet true [2]) /\ map_get fo' 0 = Some (mkSet false [2; 6]) /\ map_get fo' 1 = Some (mkSet false [2; 6]).
Proof. intros g. split; [closed_tac|]. do 3 eexists. do 6 (split; [vm_compute; reflexivity|]). vm_compute; reflexivity. Qed.
