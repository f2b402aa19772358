(** Property C109: analyses of a reversed grammar.  What does not look at the order inside a
    right-hand side is unchanged; what looks at one end of it is exchanged with what looks at the other. *)

From Coq Require Import List Arith NArith Bool Lia Sorted Relations.
From Verif Require Import Base ListFacts Spec SpecClassify SpecPredict SetView GrammarFacts LoopModel SymbolModel HistoryModel CfgModel View
  CfgProof2 BitSetModel ClosureModel SetProof MatrixModel MatrixProof ClassifyModel UsefulProof CyclesProof SetsModel SetsProof FollowProof
  DistModel DistSem DistProof LengthProof LoadProof PropsGrammar PropsSets PropsClassify PropsPredict PropsDist PropsDist2 DistTotal PropsOrder.
Import ListNotations.
Local Notation length := List.length.

Section Rev.
  Context (P Q : productions) (H : forall A r, P A r -> Q A (rev r)) (H' : forall A r, Q A r -> P A (rev r)).

  Lemma rv_terminal : forall a, terminal P a -> terminal Q a.
  Proof. intros a HT r X. apply (HT (rev r)), H', X. Qed.
  Lemma rv_nonterminal : forall a, nonterminal P a -> nonterminal Q a.
  Proof. intros a [r X]. exists (rev r). apply H, X. Qed.
  Lemma rv_derives : forall u w, derives P u w -> derives Q (rev u) (rev w).
  Proof.
    induction 1 as [|u A v r w HP _ IH]; [constructor|]. rewrite !rev_app_distr in *. cbn [rev] in *. rewrite <- app_assoc in *. cbn [app] in *.
    apply (derives_step Q (rev v) A (rev u) (rev r)); auto.
  Qed.
  Lemma rv_occurs : forall s, occurs P s -> occurs Q s.
  Proof. intros s [A [r [HP X]]]. exists A, (rev r). split; auto. cbn [In] in *. destruct X as [X|X]; auto. right. rewrite <- in_rev. auto. Qed.
  Lemma rv_all : forall S0 s, closure_all P S0 s -> closure_all Q S0 s.
  Proof.
    intros S0. fix IH 2. intros s [x Hx|A r HP HN HF]; [constructor; auto|]. apply (ca_rule _ _ _ (rev r)); auto.
    - intros X. apply HN. apply (f_equal (@rev nat)) in X. rewrite rev_involutive in X. exact X.
    - apply Forall_rev. clear HP HN. induction HF; constructor; auto.
  Qed.
  Lemma rv_any : forall S0 s, closure_any P S0 s -> closure_any Q S0 s.
  Proof. induction 1 as [s Hs|A r s HP Hs _ IH]; [constructor; auto|]. apply (cy_rule _ _ _ (rev r) s); auto. rewrite <- in_rev. auto. Qed.
  Lemma rv_derives1 : forall u w, derives1 P u w -> derives1 Q (rev u) (rev w).
  Proof.
    intros u w [x [A [y [r [-> [HP HD]]]]]]. exists (rev y), A, (rev x), (rev r). rewrite !rev_app_distr. cbn [rev]. rewrite <- app_assoc. split; auto. split; auto.
    apply rv_derives in HD. rewrite !rev_app_distr in HD. rewrite <- app_assoc in HD. exact HD.
  Qed.
  Lemma rv_reaches1 : forall A B, reaches1 P A B -> reaches1 Q A B.
  Proof. intros A B [u [v HD]]. exists (rev v), (rev u). apply rv_derives1 in HD. rewrite rev_app_distr in HD. cbn [rev] in HD. rewrite <- app_assoc in HD. exact HD. Qed.
  Lemma rv_reaches : forall A B, reaches P A B -> reaches Q A B.
  Proof. intros A B [u [v HD]]. exists (rev v), (rev u). apply rv_derives in HD. rewrite rev_app_distr in HD. cbn [rev] in HD. rewrite <- app_assoc in HD. exact HD. Qed.
  Lemma rv_unit : forall A B, unit_derives P A B -> unit_derives Q A B.
  Proof.
    intros A B HU. induction HU as [A B [HP HN]|A B C _ IH1 _ IH2].
    - apply t_step. split; auto. apply (H A [B]); auto.
    - eapply t_trans; eauto.
  Qed.
  Lemma rv_reachable : forall l A, reachable_from P l A -> reachable_from Q l A.
  Proof. intros l A [R [HR X]]. exists R. split; auto. apply rv_reaches; auto. Qed.
  Lemma rv_language : forall A w, language P A w -> language Q A (rev w).
  Proof. intros A w [HD HF]. split; [apply rv_derives in HD; exact HD|]. apply Forall_rev. eapply Forall_impl; [|exact HF]. apply rv_terminal. Qed.
  Lemma rv_productive : forall A, productive P A -> productive Q A.
  Proof. intros A [w HW]. exists (rev w). apply rv_language; auto. Qed.
  Lemma rv_nullable : forall A, nullable P A -> nullable Q A.
  Proof. intros A HN. apply rv_derives in HN. exact HN. Qed.
  Lemma rv_begins : forall A t, begins P [A] t -> ends Q [A] t.
  Proof. intros A t [HT [v HD]]. split; [apply rv_terminal; auto|]. exists (rev v). apply rv_derives in HD. exact HD. Qed.
  Lemma rv_ends : forall A t, ends P [A] t -> begins Q [A] t.
  Proof. intros A t [HT [v HD]]. split; [apply rv_terminal; auto|]. exists (rev v). apply rv_derives in HD. rewrite rev_app_distr in HD. exact HD. Qed.
End Rev.

Lemma rev_to : forall g A r, prods g A r -> prods (cfg_reverse g) A (rev r).
Proof. intros g A r H. apply prods_reverse. red. rewrite rev_involutive. exact H. Qed.
Lemma rev_of : forall g A r, prods (cfg_reverse g) A r -> prods g A (rev r).
Proof. intros g A r H. apply prods_reverse in H. exact H. Qed.

Lemma closed_reverse : forall g, closed_rules g -> closed_rules (cfg_reverse g).
Proof.
  intros g HC x Hx. cbn [cfg_reverse set_rules rules] in Hx. apply in_map_iff in Hx. destruct Hx as [y [<- Hy]].
  destruct (HC y Hy) as [A B]. cbn [lhs rhs]. split; auto. apply Forall_rev. auto.
Qed.

Ltac both g L := intros; split; [apply (L _ _ (rev_to g))|apply (L _ _ (rev_of g))].
Ltac both2 g L := intros; split; [apply (L _ _ (rev_to g) (rev_of g))|apply (L _ _ (rev_of g) (rev_to g))].

(** ** Symbol sets and closures are unchanged *)
Theorem C109_sets : forall g, closed_rules g -> let h := cfg_reverse g in
  bs_used h = bs_used g /\ unused_symbols h = unused_symbols g /\ terminal_symbols h = terminal_symbols g /\
  nulling_symbols h = nulling_symbols g /\ bs_productive h bs_new = bs_productive g bs_new.
Proof.
  intros g Cg h. pose proof (closed_reverse g Cg) as Ch. fold h in Ch. assert (HN : num_syms g = num_syms h) by reflexivity.
  assert (HO : forall s, occurs (prods g) s <-> occurs (prods h) s) by (both g rv_occurs).
  assert (HT : forall s, terminal (prods g) s <-> terminal (prods h) s) by (intros s; split; [apply (rv_terminal _ _ (rev_of g))|apply (rv_terminal _ _ (rev_to g))]).
  split; [symmetry; eapply same_bits; [apply C05_used|apply C05_used| |]; auto|].
  split; [symmetry; eapply same_bits; [apply C05_unused|apply C05_unused| |]; auto; intros s; rewrite HN, HO; tauto|].
  split; [symmetry; eapply same_bits; [apply C05_terminal|apply C05_terminal| |]; auto; intros s; rewrite HN, HT; tauto|].
  split; symmetry.
  - destruct (C05_nulling g Cg) as [b [E [_ B]]]. destruct (C05_nulling h Ch) as [b' [E' [_ B']]].
    eapply same_bits; [exists b; split; [exact E|exact B]|exists b'; split; [exact E'|exact B']| |]; auto.
    intros s. split; [apply (rev_to g s [])|apply (rev_of g s [])].
  - eapply same_bits; [apply C05_productive|apply C05_productive| |]; auto. both g rv_nonterminal.
Qed.
Print Assumptions C109_sets.

Theorem C109_closures : forall g b, closed_rules g -> num_syms g <= length b ->
  rhs_closure_for_all (cfg_reverse g) b = rhs_closure_for_all g b /\ rhs_closure_for_any (cfg_reverse g) b = rhs_closure_for_any g b.
Proof.
  intros g b Cg HB. pose proof (closed_reverse g Cg) as Ch. split; symmetry.
  - eapply same_bits; [apply C06_for_all; eauto|apply C06_for_all; eauto| |]; auto. both g rv_all.
  - eapply same_bits; [apply C06_for_any; eauto|apply C06_for_any; eauto| |]; auto. both g rv_any.
Qed.
Print Assumptions C109_closures.

(** ** So are the matrices, usefulness and cycles *)
Theorem C109_matrices : forall g, closed_rules g ->
  reachability_matrix (cfg_reverse g) = reachability_matrix g /\ unit_derivation_matrix (cfg_reverse g) = unit_derivation_matrix g.
Proof.
  intros g Cg. pose proof (closed_reverse g Cg) as Ch. split; symmetry.
  - eapply same_matrix; [apply reachability_spec; auto|apply reachability_spec; auto| |]; auto. both g rv_reaches1.
  - eapply same_matrix; [apply unit_matrix_spec; auto|apply unit_matrix_spec; auto| |]; auto. both g rv_unit.
Qed.
Print Assumptions C109_matrices.

Theorem C109_usefulness : forall g l, closed_rules g -> Forall (fun s => s < num_syms g) l ->
  usefulness_with_roots (cfg_reverse g) l = usefulness_with_roots g l.
Proof.
  intros g l Cg HL. pose proof (closed_reverse g Cg) as Ch. pose proof (C109_matrices g Cg) as [HM _].
  destruct (usefulness_spec g l Cg HL) as [u [E A]]. destruct (usefulness_spec _ l Ch HL) as [v [F B]].
  rewrite E, F. f_equal. pose proof (useful_matrix _ _ _ E) as X. pose proof (useful_matrix _ _ _ F) as Y. rewrite HM, X in Y.
  assert (X1 : us_reachability u = us_reachability v) by congruence.
  assert (X2 : us_reachable u = us_reachable v).
  { apply bits_eq; [rewrite (an_rlen _ _ _ A), (an_rlen _ _ _ B); auto|]. intros s. rewrite (an_reach _ _ _ A), (an_reach _ _ _ B).
    change (num_syms (cfg_reverse g)) with (num_syms g).
    assert (HO : occurs (prods g) s <-> occurs (prods (cfg_reverse g)) s) by (both g rv_occurs).
    assert (HR : reachable_from (prods g) l s <-> reachable_from (prods (cfg_reverse g)) l s) by (both g rv_reachable).
    tauto. }
  assert (X3 : us_productivity u = us_productivity v).
  { apply bits_eq; [rewrite (an_plen _ _ _ A), (an_plen _ _ _ B); auto|]. intros s. rewrite (an_prod _ _ _ A), (an_prod _ _ _ B).
    change (num_syms (cfg_reverse g)) with (num_syms g).
    assert (HR : productive (prods g) s <-> productive (prods (cfg_reverse g)) s) by (both2 g rv_productive).
    tauto. }
  destruct u, v. cbn in *. congruence.
Qed.
Print Assumptions C109_usefulness.

Theorem C109_cycle_free : forall g, closed_rules g ->
  exists c d b c' d', cycles_new g = Ok c /\ cycles_new (cfg_reverse g) = Ok d /\ cycle_free c = Ok (b, c') /\ cycle_free d = Ok (b, d').
Proof.
  intros g Cg. destruct (C34_cycle_free g Cg) as [c [b [c' [E [F [M _]]]]]].
  destruct (C34_cycle_free _ (closed_reverse g Cg)) as [d [b' [d' [E' [F' [M' _]]]]]].
  assert (HB : b = b').
  { assert (HX : b = true <-> b' = true).
    { rewrite M, M'. split; intros X A HU; apply (X A); [apply (rv_unit _ _ (rev_of g))|apply (rv_unit _ _ (rev_to g))]; auto. }
    destruct b, b'; auto; [symmetry|]; apply HX; reflexivity. }
  subst b'. exists c, d, b, c', d'. auto.
Qed.
Print Assumptions C109_cycle_free.

(** ** Left and right recursion are exchanged: rule by rule, in the same order *)
Definition reverse_rule (r : rule) : rule := mkRule (lhs r) (rev (rhs r)) (hist r).
Definition swap_ends (k : recursion_kind) : recursion_kind := mkRec (rk_right k) (rk_middle k) (rk_left k).

Theorem C109_recursion : forall g, closed_rules g ->
  exists l, recursive_rules g = Ok l /\
  recursive_rules (cfg_reverse g) = Ok (map (fun p => (reverse_rule (fst p), swap_ends (snd p))) l).
Proof.
  intros g HC. pose proof (closed_reverse g HC) as Ch. unfold recursive_rules. destruct (C109_matrices g HC) as [HM _]. rewrite HM.
  destruct (reachability_spec g HC) as [m [E [HS HB]]]. rewrite E. cbn [bind].
  assert (HB' : forall i j, bit m i j <-> reaches1 (prods (cfg_reverse g)) i j) by (intros i j; rewrite HB; revert i j; both g rv_reaches1).
  assert (HRc : forall a b, reaches (prods (cfg_reverse g)) a b <-> reaches (prods g) a b) by (intros a b; split; [apply (rv_reaches _ _ (rev_of g))|apply (rv_reaches _ _ (rev_to g))]).
  assert (HK : forall x, In x (rules g) -> exists k, rule_recursion m x = Ok k /\
    rule_recursion m (reverse_rule x) = Ok (option_map swap_ends k)).
  { intros x Hx. destruct (rule_recursion_spec g m x HC HS HB Hx) as [k [Ek K]].
    destruct (rule_recursion_spec _ m (reverse_rule x) Ch HS HB') as [k' [Ek' K']]; [cbn; apply in_map_iff; exists x; auto|].
    exists k. split; auto. rewrite Ek'. f_equal. cbn [rhs lhs reverse_rule] in K'. destruct k as [k|]; destruct k' as [k'|]; cbn [option_map]; auto.
    - destruct K as [_ [K1 [K2 K3]]]. destruct K' as [_ [J1 [J2 J3]]]. f_equal. destruct k as [a b c], k' as [a' b' c']. unfold swap_ends. cbn in *.
      assert (a' = c) as ->.
      { assert (X : a' = true <-> c = true); [rewrite J1, K2|destruct a', c; auto; [symmetry|]; apply X; reflexivity].
        split; intros [s [t [ER HR]]]; exists s.
        - exists (rev t). split; [|apply HRc; auto]. apply (f_equal (@rev nat)) in ER. rewrite rev_involutive in ER. exact ER.
        - exists (rev t). split; [rewrite ER, rev_app_distr; reflexivity|apply HRc; auto]. }
      assert (c' = a) as ->.
      { assert (X : c' = true <-> a = true); [rewrite J2, K1|destruct c', a; auto; [symmetry|]; apply X; reflexivity].
        split; intros [s [t [ER HR]]]; exists s.
        - exists (rev t). split; [|apply HRc; auto]. apply (f_equal (@rev nat)) in ER. rewrite rev_involutive, rev_app_distr in ER. exact ER.
        - exists (rev t). split; [rewrite ER; reflexivity|apply HRc; auto]. }
      assert (b' = b) as ->; auto.
      assert (X : b' = true <-> b = true); [rewrite J3, K3|destruct b', b; auto; [symmetry|]; apply X; reflexivity].
      assert (RR : forall (q : list nat) a t s u b, q = a :: t ++ s :: u ++ [b] -> rev q = b :: rev u ++ s :: rev t ++ [a]).
      { intros q p t s u d ->. cbn [rev]. rewrite rev_app_distr. cbn [rev]. rewrite rev_app_distr. cbn [rev app]. rewrite <- !app_assoc. reflexivity. }
      split; intros [p [t [s [u [d [ER HR]]]]]]; apply RR in ER; [rewrite rev_involutive in ER|]; exists d, (rev u), s, (rev t), p; (split; [exact ER|apply HRc; auto]).
    - destruct K as [[s [Hs HR]] _]. destruct (K' s); [rewrite <- in_rev; auto|apply HRc; auto].
    - destruct K' as [[s [Hs HR]] _]. destruct (K s); [rewrite in_rev; auto|apply HRc; auto]. }
  assert (HL : forall l, incl l (rules g) -> exists q, recursive_from m l = Ok q /\
    recursive_from m (map reverse_rule l) = Ok (map (fun p => (reverse_rule (fst p), swap_ends (snd p))) q)).
  { induction l as [|x l IH]; intros HI; [exists []; auto|]. destruct IH as [q [E1 E2]]; [intros y Hy; apply HI; right; auto|].
    destruct (HK x) as [k [Ek Ek']]; [apply HI; left; auto|]. cbn [map recursive_from]. rewrite Ek, Ek', E1, E2. cbn [bind].
    destruct k as [k|]; cbn [option_map]; eexists; split; reflexivity. }
  destruct (HL (rules g)) as [q [E1 E2]]; [intros x; auto|]. exists q. split; auto.
Qed.
Print Assumptions C109_recursion.

(** ** FIRST and LAST are exchanged *)
Theorem C109_first_last : forall g, closed_rules g ->
  exists f f' l l', first_sets_new g = Ok f /\ last_sets_new g = Ok l /\
  first_sets_new (cfg_reverse g) = Ok f' /\ last_sets_new (cfg_reverse g) = Ok l' /\
  forall A, map_get (fs_map f') A = map_get l A /\ map_get l' A = map_get (fs_map f) A.
Proof.
  intros g Cg. pose proof (closed_reverse g Cg) as Ch.
  destruct (C40_first_exact g Cg) as [f [E [K V]]]. destruct (C40_first_exact _ Ch) as [f' [E' [K' V']]].
  destruct (C41_last_exact g Cg) as [l [F [L W]]]. destruct (C41_last_exact _ Ch) as [l' [F' [L' W']]].
  assert (HNT : forall A, nonterminal (prods (cfg_reverse g)) A <-> nonterminal (prods g) A) by (intros A; split; [apply (rv_nonterminal _ _ (rev_of g))|apply (rv_nonterminal _ _ (rev_to g))]).
  assert (HNU : forall A, nullable (prods (cfg_reverse g)) A <-> nullable (prods g) A) by (intros A; split; [apply (rv_nullable _ _ (rev_of g))|apply (rv_nullable _ _ (rev_to g))]).
  exists f, f', l, l'. do 4 (split; [assumption|]). intros A. split.
  - revert A. apply (same_map _ _ _ _ (fun A t => begins (prods (cfg_reverse g)) [A] t) (fun A t => ends (prods g) [A] t) _ _ K' L V' W HNT); auto.
    intros A t. split; [apply (rv_begins _ _ (rev_of g) (rev_to g))|apply (rv_ends _ _ (rev_to g) (rev_of g))].
  - revert A. apply (same_map _ _ _ _ (fun A t => ends (prods (cfg_reverse g)) [A] t) (fun A t => begins (prods g) [A] t) _ _ L' K W' V HNT); auto.
    intros A t. split; [apply (rv_ends _ _ (rev_of g) (rev_to g))|apply (rv_begins _ _ (rev_to g) (rev_of g))].
Qed.
Print Assumptions C109_first_last.

(** ** Minimal lengths are the same when both calculations return *)
Theorem C109_lengths : forall g v w, closed_rules g ->
  minimal_sentence_lengths true g (md_min_length (md_new g)) = Ok v ->
  minimal_sentence_lengths true (cfg_reverse g) (md_min_length (md_new (cfg_reverse g))) = Ok w -> w = v.
Proof.
  intros g v w Cg E F. pose proof (closed_reverse g Cg) as Ch.
  assert (HV : forall k s c, value_of (md_min_length (md_new k)) s = Some c -> False) by (intros k s c; cbn; rewrite value_none; discriminate).
  destruct (C45_lengths_exact_partial g _ v Cg (repeat_length _ _) (fun s c X => False_ind _ (HV g s c X)) E) as [L1 H0].
  destruct (C45_lengths_exact_partial (cfg_reverse g) _ w Ch (repeat_length _ _) (fun s c X => False_ind _ (HV (cfg_reverse g) s c X)) F) as [L2 H2].
  change (num_syms (cfg_reverse g)) with (num_syms g) in *.
  apply nth_error_ext. intros i. destruct (le_lt_dec (num_syms g) i) as [Hi|Hi].
  - rewrite (proj2 (nth_error_None v i)), (proj2 (nth_error_None w i)); auto; lia.
  - assert (X : value_of w i = value_of v i).
    { pose proof (H0 i Hi) as A. pose proof (H2 i Hi) as B.
      assert (HQ : forall c, (exists x, language (prods g) i x /\ N.of_nat (length x) = c) <-> (exists x, language (prods (cfg_reverse g)) i x /\ N.of_nat (length x) = c)).
      { intros c. split; intros [x [HX HC]]; exists (rev x); rewrite rev_length; split; auto;
          [apply (rv_language _ _ (rev_to g) (rev_of g))|apply (rv_language _ _ (rev_of g) (rev_to g))]; auto. }
      unfold least in A, B. destruct (value_of v i) as [a|]; destruct (value_of w i) as [b|]; auto.
      - destruct A as [A1 A2]. destruct B as [B1 B2]. f_equal. apply N.le_antisymm; [apply B2, HQ|apply A2, HQ]; auto.
      - destruct A as [A1 _]. destruct (B a). apply HQ; auto.
      - destruct B as [B1 _]. destruct (A b). apply HQ; auto. }
    unfold value_of in X. destruct (nth_error v i) as [a|] eqn:EA; [|apply nth_error_None in EA; lia].
    destruct (nth_error w i) as [b|] eqn:EB; [|apply nth_error_None in EB; lia]. congruence.
Qed.
Print Assumptions C109_lengths.

(** An overflow can depend on which symbol comes first:  S ::= X X U  where X has 2^31 symbols and U ::= U. *)
Definition ex_huge : cfg :=
  mkCfg (mkSrc 35 []) (mkRule 0 [1; 1; 34] hd0 :: mkRule 34 [34] hd0 :: map (fun i => mkRule i [S i; S i] hd0) (seq 1 31)) [] [] None.
Theorem C109_overflow_depends : exists g v, closed g /\
  minimal_sentence_lengths true g (md_min_length (md_new g)) = Panic /\
  minimal_sentence_lengths true (cfg_reverse g) (md_min_length (md_new (cfg_reverse g))) = Ok v.
Proof.
  exists ex_huge. eexists. split; [split; [closed_tac|split; constructor]|]. split; vm_compute; reflexivity.
Qed.
Print Assumptions C109_overflow_depends.

(** The grammar of C40_example and a left-recursive rule *)
Definition ex_rev : cfg := set_rules ex_first (rules ex_first ++ [mkRule 0 [0; 4; 3] hd0]).
Example C109_example : closed ex_rev /\ cfg_reverse ex_rev <> ex_rev /\
  (exists f l f' v, first_sets_new ex_rev = Ok f /\ last_sets_new ex_rev = Ok l /\ first_sets_new (cfg_reverse ex_rev) = Ok f' /\
    fs_map f <> l /\ fs_map f' = l /\ minimal_sentence_lengths true ex_rev (md_min_length (md_new ex_rev)) = Ok v /\
    minimal_sentence_lengths true (cfg_reverse ex_rev) (md_min_length (md_new ex_rev)) = Ok v) /\
  exists k k', recursive_rules ex_rev = Ok k /\ In (mkRule 0 [0; 4; 3] hd0, mkRec true false false) k /\
    recursive_rules (cfg_reverse ex_rev) = Ok k' /\ In (mkRule 0 [3; 4; 0] hd0, mkRec false false true) k'.
Proof.
  split; [split; [closed_tac|split; repeat constructor]|]. split; [discriminate|]. split.
  - do 4 eexists. do 3 (split; [vm_compute; reflexivity|]). split; [discriminate|]. split; [reflexivity|]. split; vm_compute; reflexivity.
  - do 2 eexists. split; [vm_compute; reflexivity|]. split; [simpl; auto 9|]. split; [vm_compute; reflexivity|]. simpl; auto 9.
Qed.
