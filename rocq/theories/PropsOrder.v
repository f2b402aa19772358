(** Property C107: what the analyses report does not depend on the order of the rules, nor on rules that
    are stated more than once. *)

From Coq Require Import List Arith NArith Bool Lia Permutation Sorted Relations.
From Verif Require Import Base ListFacts Spec SpecClassify SpecPredict SetView GrammarFacts LoopModel SymbolModel HistoryModel CfgModel View
  BitSetModel ClosureModel SetProof MatrixModel MatrixProof ClassifyModel UsefulProof CyclesProof SetsModel SetsProof FollowProof
  LLModel LLProof DistModel DistSem DistProof LengthProof LoadProof PropsGrammar PropsSets PropsClassify PropsPredict PropsLL PropsDist PropsDist2 DistTotal.
Import ListNotations.
Local Notation length := List.length.

(** The two grammars issued equally many symbols and state the same rules, in any order and any number of times. *)
Definition same_rules (g h : cfg) : Prop :=
  num_syms g = num_syms h /\ forall A r, prods g A r <-> prods h A r.

Lemma bits_eq : forall a b : list bool, length a = length b -> (forall s, member a s <-> member b s) -> a = b.
Proof.
  intros a b HL HM. apply nth_error_ext. intros i. specialize (HM i). unfold member in HM.
  destruct (nth_error a i) as [x|] eqn:EA; destruct (nth_error b i) as [y|] eqn:EB; auto.
  - f_equal. destruct x, y; auto; [symmetry|]; (assert (HX : forall z w : bool, Some z = Some w -> z = w) by congruence); apply HX, HM; reflexivity.
  - apply nth_error_None in EB. assert (i < length a) by (apply nth_error_Some; congruence). lia.
  - apply nth_error_None in EA. assert (i < length b) by (apply nth_error_Some; congruence). lia.
Qed.

Lemma same_bits : forall (r r' : res bitset) n n' (P P' : nat -> Prop),
  (exists b, r = Ok b /\ length b = n /\ forall s, member b s <-> P s) ->
  (exists b, r' = Ok b /\ length b = n' /\ forall s, member b s <-> P' s) ->
  n = n' -> (forall s, P s <-> P' s) -> r = r'.
Proof.
  intros r r' n n' P P' [b [-> [L M]]] [b' [-> [L' M']]] HN HP. f_equal. apply bits_eq; [congruence|].
  intros s. rewrite M, M'. apply HP.
Qed.

Lemma square_eq : forall n m m', square n m -> square n m' -> (forall i j, bit m i j <-> bit m' i j) -> m = m'.
Proof.
  intros n m m' [L F] [L' F'] H. apply nth_error_ext. intros i.
  destruct (nth_error m i) as [r|] eqn:E; destruct (nth_error m' i) as [r'|] eqn:E'; auto.
  - f_equal. rewrite Forall_forall in F, F'. apply bits_eq.
    + rewrite (F r), (F' r'); auto; eapply nth_error_In; eauto.
    + intros s. specialize (H i s). unfold bit in H. rewrite E, E' in H. unfold member. split; intros X.
      * destruct H as [H _]. destruct H as [q [Eq Hq]]; [exists r; auto|]. congruence.
      * destruct H as [_ H]. destruct H as [q [Eq Hq]]; [exists r'; auto|]. congruence.
  - apply nth_error_None in E'. assert (i < length m) by (apply nth_error_Some; congruence). lia.
  - apply nth_error_None in E. assert (i < length m') by (apply nth_error_Some; congruence). lia.
Qed.

Lemma same_matrix : forall (r r' : res matrix) n n' (P P' : nat -> nat -> Prop),
  (exists m, r = Ok m /\ square n m /\ forall i j, bit m i j <-> P i j) ->
  (exists m, r' = Ok m /\ square n' m /\ forall i j, bit m i j <-> P' i j) ->
  n = n' -> (forall i j, P i j <-> P' i j) -> r = r'.
Proof.
  intros r r' n n' P P' [m [-> [S M]]] [m' [-> [S' M']]] <- HP. f_equal. apply (square_eq n); auto.
  intros i j. rewrite M, M'. apply HP.
Qed.

Section Ext.
  Context (P Q : productions) (H : forall A r, P A r <-> Q A r).

  Lemma occurs_mono : forall s, occurs P s -> occurs Q s.
  Proof. intros s [A [r [HP X]]]. exists A, r. split; auto. apply H; auto. Qed.
  Lemma ca_mono : forall S0 s, closure_all P S0 s -> closure_all Q S0 s.
  Proof.
    intros S0. fix IH 2. intros s [x Hx|A r HP HN HF]; [constructor; auto|]. apply (ca_rule _ _ _ r); auto; [apply H; auto|].
    clear HP HN. induction HF; constructor; auto.
  Qed.
  Lemma cy_mono : forall S0 s, closure_any P S0 s -> closure_any Q S0 s.
  Proof. induction 1 as [s Hs|A r s HP Hs _ IH]; [constructor; auto|]. eapply cy_rule; eauto. apply H; auto. Qed.
  Lemma cy_mono2 : forall (S0 S1 : nat -> Prop), (forall s, S0 s -> S1 s) -> forall s, closure_any P S0 s -> closure_any Q S1 s.
  Proof. intros S0 S1 HS. induction 1 as [s Hs|A r s HP Hs _ IH]; [constructor; auto|]. eapply cy_rule; eauto. apply H; auto. Qed.
  Lemma derives1_mono : forall u w, derives1 P u w -> derives1 Q u w.
  Proof. intros u w [x [A [y [r [E [HP HD]]]]]]. exists x, A, y, r. split; auto. split; [apply H; auto|]. apply (derives_ext P Q H); auto. Qed.
  Lemma reaches1_mono : forall A B, reaches1 P A B -> reaches1 Q A B.
  Proof. intros A B [u [v HD]]. exists u, v. apply derives1_mono; auto. Qed.
  Lemma unit_mono : forall A B, unit_derives P A B -> unit_derives Q A B.
  Proof.
    intros A B HU. induction HU as [A B [HP HN]|A B C _ IH1 _ IH2].
    - apply t_step. split; auto. apply H; auto.
    - eapply t_trans; eauto.
  Qed.
  Lemma begins_mono : forall u t, begins P u t -> begins Q u t.
  Proof. intros u t [HT [v HD]]. split; [apply (terminal_ext P Q H); auto|]. exists v. apply (derives_ext P Q H); auto. Qed.
  Lemma ends_mono : forall u t, ends P u t -> ends Q u t.
  Proof. intros u t [HT [v HD]]. split; [apply (terminal_ext P Q H); auto|]. exists v. apply (derives_ext P Q H); auto. Qed.
  Lemma follows_mono : forall A t, follows P A t -> follows Q A t.
  Proof. intros A t [HT [C [u [v HD]]]]. split; [apply (terminal_ext P Q H); auto|]. exists C, u, v. apply (derives_ext P Q H); auto. Qed.
  Lemma reachable_mono : forall l A, reachable_from P l A -> reachable_from Q l A.
  Proof. intros l A [R [HR [u [v HD]]]]. exists R. split; auto. exists u, v. apply (derives_ext P Q H); auto. Qed.
  Lemma productive_mono : forall A, productive P A -> productive Q A.
  Proof. intros A [w HW]. exists w. apply (language_ext P Q H); auto. Qed.
End Ext.

Lemma same_sym : forall g h, same_rules g h -> same_rules h g.
Proof. intros g h [HN HP]. split; auto. intros A r. symmetry. apply HP. Qed.

Ltac two_ways HP L := intros; split; [apply (L _ _ HP)|apply (L _ _ (fun A r => iff_sym (HP A r)))].

(** ** Symbol sets and closures: the same sets *)
Theorem C107_sets : forall g h, closed_rules g -> closed_rules h -> same_rules g h ->
  bs_used g = bs_used h /\ unused_symbols g = unused_symbols h /\ terminal_symbols g = terminal_symbols h /\
  nulling_symbols g = nulling_symbols h /\ bs_productive g bs_new = bs_productive h bs_new.
Proof.
  intros g h Cg Ch [HN HP].
  assert (HO : forall s, occurs (prods g) s <-> occurs (prods h) s) by (two_ways HP occurs_mono).
  split; [eapply same_bits; [apply C05_used|apply C05_used| |]; auto|].
  split; [eapply same_bits; [apply C05_unused|apply C05_unused| |]; auto; intros s; rewrite HN, HO; tauto|].
  split; [eapply same_bits; [apply C05_terminal|apply C05_terminal| |]; auto; intros s; rewrite HN, (terminal_ext _ _ HP); tauto|].
  split.
  - destruct (C05_nulling g Cg) as [b [E [_ B]]]. destruct (C05_nulling h Ch) as [b' [E' [_ B']]].
    eapply same_bits; [exists b; split; [exact E|exact B]|exists b'; split; [exact E'|exact B']| |]; auto. intros s. apply HP.
  - eapply same_bits; [apply C05_productive|apply C05_productive| |]; auto. intros s. apply nonterminal_ext. exact HP.
Qed.
Print Assumptions C107_sets.

Theorem C107_closures : forall g h b, closed_rules g -> closed_rules h -> same_rules g h -> num_syms g <= length b ->
  rhs_closure_for_all g b = rhs_closure_for_all h b /\ rhs_closure_for_any g b = rhs_closure_for_any h b.
Proof.
  intros g h b Cg Ch [HN HP] HB. assert (HB' : num_syms h <= length b) by lia. split.
  - eapply same_bits; [apply C06_for_all; eauto|apply C06_for_all; eauto| |]; auto. two_ways HP ca_mono.
  - eapply same_bits; [apply C06_for_any; eauto|apply C06_for_any; eauto| |]; auto. two_ways HP cy_mono.
Qed.
Print Assumptions C107_closures.

(** ** Matrices, usefulness, cycles, recursion *)
Theorem C107_matrices : forall g h, closed_rules g -> closed_rules h -> same_rules g h ->
  reachability_matrix g = reachability_matrix h /\ unit_derivation_matrix g = unit_derivation_matrix h.
Proof.
  intros g h Cg Ch [HN HP]. split.
  - eapply same_matrix; [apply reachability_spec; auto|apply reachability_spec; auto| |]; auto. two_ways HP reaches1_mono.
  - eapply same_matrix; [apply unit_matrix_spec; auto|apply unit_matrix_spec; auto| |]; auto. two_ways HP unit_mono.
Qed.
Print Assumptions C107_matrices.

Lemma added_reachability : forall l u v, us_add_reachable u l = Ok v -> us_reachability v = us_reachability u.
Proof. intros l u v E. unfold us_add_reachable in E. destruct (fold_res _ l _) as [b| |]; [|discriminate..]. injection E as <-. reflexivity. Qed.

Lemma useful_matrix : forall g l u, usefulness_with_roots g l = Ok u ->
  (do m <- reachability_matrix g; reflexive m) = Ok (us_reachability u).
Proof.
  intros g l u E. unfold usefulness_with_roots, usefulness_new in E.
  destruct (productive_syms g) as [p| |]; [|discriminate..]. cbn [bind] in E.
  destruct (reachability_matrix g) as [m| |]; [|discriminate..]. cbn [bind] in *.
  destruct (reflexive m) as [x| |]; [|discriminate..]. cbn [bind] in E.
  destruct (bs_unused g) as [n| |]; [|discriminate..]. cbn [bind] in E.
  destruct (bs_union p n) as [q| |]; [|discriminate..]. cbn [bind] in E.
  destruct (bs_union (bs_from_elem g false) n) as [k| |]; [|discriminate..]. cbn [bind] in E.
  destruct (length x =? bs_space q); [|discriminate]. cbn [bind] in E.
  apply added_reachability in E. cbn in E. congruence.
Qed.

(** All that is known about usefulness, and so the answer for each symbol and each rule. *)
Theorem C107_usefulness : forall g h l, closed_rules g -> closed_rules h -> same_rules g h ->
  Forall (fun s => s < num_syms g) l -> usefulness_with_roots g l = usefulness_with_roots h l.
Proof.
  intros g h l Cg Ch HS HL. pose proof (C107_matrices g h Cg Ch HS) as [HM _]. destruct HS as [HN HP].
  destruct (usefulness_spec g l Cg HL) as [u [E A]]. destruct (usefulness_spec h l Ch) as [v [F B]]; [rewrite <- HN; auto|].
  rewrite E, F. f_equal. pose proof (useful_matrix _ _ _ E) as X. pose proof (useful_matrix _ _ _ F) as Y. rewrite HM, Y in X.
  assert (X1 : us_reachability u = us_reachability v) by congruence.
  assert (X2 : us_reachable u = us_reachable v).
  { apply bits_eq; [rewrite (an_rlen _ _ _ A), (an_rlen _ _ _ B); auto|]. intros s. rewrite (an_reach _ _ _ A), (an_reach _ _ _ B), HN.
    assert (HO : occurs (prods g) s <-> occurs (prods h) s) by (split; [apply (occurs_mono _ _ HP)|apply (occurs_mono _ _ (fun A r => iff_sym (HP A r)))]).
    assert (HR : reachable_from (prods g) l s <-> reachable_from (prods h) l s)
      by (split; [apply (reachable_mono _ _ HP)|apply (reachable_mono _ _ (fun A r => iff_sym (HP A r)))]).
    tauto. }
  assert (X3 : us_productivity u = us_productivity v).
  { apply bits_eq; [rewrite (an_plen _ _ _ A), (an_plen _ _ _ B); auto|]. intros s. rewrite (an_prod _ _ _ A), (an_prod _ _ _ B), HN.
    assert (HR : productive (prods g) s <-> productive (prods h) s)
      by (split; [apply (productive_mono _ _ HP)|apply (productive_mono _ _ (fun A r => iff_sym (HP A r)))]).
    tauto. }
  destruct u, v. cbn in *. congruence.
Qed.
Print Assumptions C107_usefulness.

Theorem C107_cycle_free : forall g h, closed_rules g -> closed_rules h -> same_rules g h ->
  exists c d b c' d', cycles_new g = Ok c /\ cycles_new h = Ok d /\ cycle_free c = Ok (b, c') /\ cycle_free d = Ok (b, d').
Proof.
  intros g h Cg Ch [HN HP]. destruct (C34_cycle_free g Cg) as [c [b [c' [E [F [M _]]]]]].
  destruct (C34_cycle_free h Ch) as [d [b' [d' [E' [F' [M' _]]]]]].
  assert (HB : b = b').
  { assert (HX : b = true <-> b' = true).
    { rewrite M, M'. split; intros X A HU; apply (X A); [apply (unit_mono _ _ (fun A r => iff_sym (HP A r)))|apply (unit_mono _ _ HP)]; auto. }
    destruct b, b'; auto; [symmetry|]; apply HX; reflexivity. }
  subst b'. exists c, d, b, c', d'. auto.
Qed.
Print Assumptions C107_cycle_free.

Lemma recursive_In : forall m l r, recursive_from m l = Ok r ->
  forall x k, In (x, k) r <-> In x l /\ rule_recursion m x = Ok (Some k).
Proof.
  induction l as [|y l IH]; intros r E x k; cbn [recursive_from] in E.
  - injection E as <-. cbn. tauto.
  - destruct (rule_recursion m y) as [o| |] eqn:EO; [|discriminate..]. cbn [bind] in E.
    destruct (recursive_from m l) as [q| |] eqn:EQ; [|discriminate..]. cbn [bind] in E. injection E as <-.
    specialize (IH q eq_refl x k). destruct o as [j|]; cbn [In].
    + rewrite IH. split.
      * intros [X|X]; [injection X as -> ->; auto|tauto].
      * intros [[->|X] Y]; [left; congruence|tauto].
    + rewrite IH. split; [tauto|]. intros [[->|X] Y]; [congruence|tauto].
Qed.

(** A rule is reported as recursive, and in which positions, wherever it stands in the grammar. *)
Theorem C107_recursion : forall g h, closed_rules g -> closed_rules h -> same_rules g h ->
  exists l l', recursive_rules g = Ok l /\ recursive_rules h = Ok l' /\
  forall x y k, In x (rules g) -> In y (rules h) -> lhs x = lhs y -> rhs x = rhs y ->
    (In (x, k) l <-> In (y, k) l').
Proof.
  intros g h Cg Ch HS. destruct (C107_matrices g h Cg Ch HS) as [HM _].
  destruct (C36_recursive g Cg) as [l [E _]]. destruct (C36_recursive h Ch) as [l' [E' _]]. exists l, l'. split; auto. split; auto.
  intros x y k Hx Hy HL HR. unfold recursive_rules in E, E'. rewrite HM in E.
  destruct (reachability_matrix h) as [m| |]; [|discriminate..]. cbn [bind] in E, E'.
  rewrite (recursive_In _ _ _ E), (recursive_In _ _ _ E'). assert (HQ : rule_recursion m x = rule_recursion m y) by (unfold rule_recursion; rewrite HL, HR; reflexivity).
  rewrite HQ. tauto.
Qed.
Print Assumptions C107_recursion.

(** ** FIRST, LAST and FOLLOW: the same set for each symbol *)
Lemma sorted_eq : forall l m : list nat, StronglySorted lt l -> StronglySorted lt m -> (forall x, In x l <-> In x m) -> l = m.
Proof.
  induction l as [|a l IH]; intros [|b m] HL HM H; auto.
  - exfalso. apply (proj2 (H b)). left; auto.
  - exfalso. apply (proj1 (H a)). left; auto.
  - inversion HL as [|? ? HL1 HL2]; inversion HM as [|? ? HM1 HM2]; subst. rewrite Forall_forall in HL2, HM2.
    assert (HE : a = b).
    { destruct (proj1 (H a) (or_introl eq_refl)) as [X|X]; auto. destruct (proj2 (H b) (or_introl eq_refl)) as [Y|Y]; auto.
      apply HM2 in X. apply HL2 in Y. lia. }
    subst b. f_equal. apply IH; auto. intros x. split; intros X.
    + destruct (proj1 (H x) (or_intror X)) as [->|Y]; auto. apply HL2 in X. lia.
    + destruct (proj2 (H x) (or_intror X)) as [->|Y]; auto. apply HM2 in X. lia.
Qed.

Lemma same_map : forall (m m' : set_map) (N N' : nat -> Prop) (T T' : nat -> nat -> Prop) (O O' : nat -> Prop),
  (forall A, map_get m A <> None <-> N A) -> (forall A, map_get m' A <> None <-> N' A) ->
  (forall A v, map_get m A = Some v -> StronglySorted lt (set_list v) /\ (forall t, In t (set_list v) <-> T A t) /\ (has_none v = true <-> O A)) ->
  (forall A v, map_get m' A = Some v -> StronglySorted lt (set_list v) /\ (forall t, In t (set_list v) <-> T' A t) /\ (has_none v = true <-> O' A)) ->
  (forall A, N A <-> N' A) -> (forall A t, T A t <-> T' A t) -> (forall A, O A <-> O' A) ->
  forall A, map_get m A = map_get m' A.
Proof.
  intros m m' N N' T T' O O' K K' V V' HN HT HO A. specialize (K A). specialize (K' A). specialize (HN A).
  destruct (map_get m A) as [v|] eqn:E; destruct (map_get m' A) as [v'|] eqn:E'; auto.
  - f_equal. destruct (V A v E) as [S1 [T1 O1]]. destruct (V' A v' E') as [S2 [T2 O2]].
    assert (X : set_list v = set_list v') by (apply sorted_eq; auto; intros t; rewrite T1, T2; apply HT).
    assert (Y : has_none v = has_none v').
    { assert (Z : has_none v = true <-> has_none v' = true) by (rewrite O1, O2; apply HO).
      destruct (has_none v), (has_none v'); auto; [symmetry|]; apply Z; reflexivity. }
    destruct v, v'. cbn in *. congruence.
  - exfalso. apply (proj2 K'); [apply HN, K; discriminate|reflexivity].
  - exfalso. apply (proj2 K); [apply HN, K'; discriminate|reflexivity].
Qed.

Theorem C107_predict : forall g h, closed_rules g -> closed_rules h -> same_rules g h ->
  (exists f f', first_sets_new g = Ok f /\ first_sets_new h = Ok f' /\ forall A, map_get (fs_map f) A = map_get (fs_map f') A) /\
  (exists m m', last_sets_new g = Ok m /\ last_sets_new h = Ok m' /\ forall A, map_get m A = map_get m' A) /\
  ((forall A, In A (roots g) <-> In A (roots h)) ->
   exists m m', follow_sets g = Ok m /\ follow_sets h = Ok m' /\ forall A, map_get m A = map_get m' A).
Proof.
  intros g h Cg Ch [HN HP].
  assert (HNT : forall A, nonterminal (prods g) A <-> nonterminal (prods h) A) by (intros; apply nonterminal_ext; auto).
  assert (HNU : forall A, nullable (prods g) A <-> nullable (prods h) A) by (intros; apply (derives_ext _ _ HP)).
  split; [|split].
  - destruct (C40_first_exact g Cg) as [f [E [K V]]]. destruct (C40_first_exact h Ch) as [f' [E' [K' V']]].
    exists f, f'. split; auto. split; auto. apply (same_map _ _ _ _ (fun A t => begins (prods g) [A] t) (fun A t => begins (prods h) [A] t) _ _ K K' V V' HNT); auto. two_ways HP begins_mono.
  - destruct (C41_last_exact g Cg) as [f [E [K V]]]. destruct (C41_last_exact h Ch) as [f' [E' [K' V']]].
    exists f, f'. split; auto. split; auto. apply (same_map _ _ _ _ (fun A t => ends (prods g) [A] t) (fun A t => ends (prods h) [A] t) _ _ K K' V V' HNT); auto. two_ways HP ends_mono.
  - intros HR. destruct (follow_sets_spec g Cg) as [f [E [K V]]]. destruct (follow_sets_spec h Ch) as [f' [E' [K' V']]].
    exists f, f'. split; auto. split; auto. apply (same_map _ _ _ _ (follows (prods g)) (follows (prods h)) _ _ K K' V V' HNT); auto. two_ways HP follows_mono.
Qed.
Print Assumptions C107_predict.

(** ** LL(1) classes: the order does not matter, repetitions do *)
Lemma puts_same : forall f f' fo fo' r r' t, lhs r = lhs r' -> rhs r = rhs r' -> fs_terminal_set f = fs_terminal_set f' ->
  (forall A, map_get (fs_map f) A = map_get (fs_map f') A) -> (forall A, map_get fo A = map_get fo' A) ->
  puts f fo r t -> puts f' fo' r' t.
Proof.
  intros f f' fo fo' r r' t HL HR HT HF HO [v [E X]].
  assert (HS : forall u, first_string_loop f u = first_string_loop f' u).
  { induction u as [|s u IH]; cbn [first_string_loop]; auto. rewrite HT, HF, IH. reflexivity. }
  exists v. split; [unfold first_set_for_string in *; rewrite <- HR, <- HS; exact E|]. rewrite <- HL, <- HO. exact X.
Qed.

Lemma plain_nth : forall g i r, nth_error (rules g) i = Some r -> nth_error (plain g) i = Some (lhs r, rhs r).
Proof. intros g i r E. unfold plain. rewrite nth_error_map, E. reflexivity. Qed.
Lemma plain_nth_inv : forall g i A q, nth_error (plain g) i = Some (A, q) -> exists r, nth_error (rules g) i = Some r /\ lhs r = A /\ rhs r = q.
Proof.
  intros g i A q E. unfold plain in E. rewrite nth_error_map in E. destruct (nth_error (rules g) i) as [r|]; [|discriminate].
  injection E as E1 E2. exists r. auto.
Qed.

Lemma perm_prods : forall g h, Permutation (plain g) (plain h) -> forall A r, prods g A r -> prods h A r.
Proof.
  intros g h HP A r [x [Hx [<- <-]]]. assert (H : In (lhs x, rhs x) (plain h)).
  { eapply Permutation_in; [exact HP|]. unfold plain. apply in_map_iff. exists x. auto. }
  unfold plain in H. apply in_map_iff in H. destruct H as [y [E Hy]]. injection E as E1 E2. exists y. auto.
Qed.

Theorem C107_ll1 : forall g h, closed_rules g -> closed_rules h -> num_syms g = num_syms h -> Permutation (plain g) (plain h) ->
  (forall A, In A (roots g) <-> In A (roots h)) ->
  exists t t' c c', ll_parse_table g = Ok t /\ ll_parse_table h = Ok t' /\ ll_classify g t = Ok c /\ ll_classify h t' = Ok c' /\
  forall A, map_get c A = map_get c' A.
Proof.
  assert (HALF : forall g h f fo f' fo', closed_rules g -> closed_rules h -> num_syms g = num_syms h -> Permutation (plain g) (plain h) ->
    fs_terminal_set f = fs_terminal_set f' ->
    (forall A, map_get (fs_map f) A = map_get (fs_map f') A) -> (forall A, map_get fo A = map_get fo' A) ->
    (forall A, (exists r t, In r (rules g) /\ lhs r = A /\ puts f fo r t) -> exists r t, In r (rules h) /\ lhs r = A /\ puts f' fo' r t) /\
    (forall B, (exists i j ri rj t, i <> j /\ nth_error (rules g) i = Some ri /\ nth_error (rules g) j = Some rj /\ lhs ri = B /\ lhs rj = B /\
       puts f fo ri t /\ puts f fo rj t) ->
     exists i j ri rj t, i <> j /\ nth_error (rules h) i = Some ri /\ nth_error (rules h) j = Some rj /\ lhs ri = B /\ lhs rj = B /\
       puts f' fo' ri t /\ puts f' fo' rj t)).
  { intros g h f fo f' fo' Cg Ch HN HP HT HF HO. apply Permutation_sym in HP. pose proof HP as HQ.
    apply Permutation_nth_error in HQ. destruct HQ as [HL [p [HI HE]]]. split.
    - intros A [r [t [Hr [<- X]]]]. apply In_nth_error in Hr. destruct Hr as [i Hi]. apply plain_nth in Hi.
      rewrite HE in Hi. destruct (plain_nth_inv _ _ _ _ Hi) as [r' [Hr' [L' R']]]. exists r', t. split; [eapply nth_error_In; eauto|]. split; auto.
      apply (puts_same f f' fo fo' r r' t); auto.
    - intros B [i [j [ri [rj [t [Hn [Hi [Hj [Li [Lj [Pi Pj]]]]]]]]]]]. apply plain_nth in Hi, Hj. rewrite HE in Hi, Hj.
      destruct (plain_nth_inv _ _ _ _ Hi) as [ri' [Hi' [Li' Ri']]]. destruct (plain_nth_inv _ _ _ _ Hj) as [rj' [Hj' [Lj' Rj']]].
      exists (p i), (p j), ri', rj', t. split; [intros X; apply Hn, HI; auto|]. split; auto. split; auto. split; [congruence|]. split; [congruence|].
      split; [apply (puts_same f f' fo fo' ri ri' t)|apply (puts_same f f' fo fo' rj rj' t)]; auto. }
  intros g h Cg Ch HN HP HRT.
  assert (HPr : forall A r, prods g A r <-> prods h A r) by (intros; split; apply perm_prods; auto using Permutation_sym).
  destruct (ll_spec g Cg) as [f [fo [t [c [E1 [E2 [E3 [E4 [K M]]]]]]]]].
  destruct (ll_spec h Ch) as [f' [fo' [t' [c' [E1' [E2' [E3' [E4' [K' M']]]]]]]]].
  exists t, t', c, c'. do 4 (split; auto).
  destruct (C107_predict g h Cg Ch (conj HN HPr)) as [[x [x' [X1 [X2 X3]]]] [_ HFo]].
  destruct (HFo HRT) as [y [y' [Y1 [Y2 Y3]]]]. rewrite E1 in X1. rewrite E1' in X2. rewrite E2 in Y1. rewrite E2' in Y2.
  injection X1 as <-. injection X2 as <-. injection Y1 as <-. injection Y2 as <-.
  assert (HT : fs_terminal_set f = fs_terminal_set f').
  { destruct (C107_sets g h Cg Ch (conj HN HPr)) as [_ [_ [HT _]]]. unfold first_sets_new in E1, E1'. rewrite HT in E1.
    destruct (terminal_symbols h) as [ts| |]; [|discriminate..]. cbn [bind] in E1, E1'.
    destruct (run_loop (first_step ts (rules g)) (2 * num_syms g + 2) []) as [q| |]; [|discriminate..]. destruct (run_loop (first_step ts (rules h)) (2 * num_syms h + 2) []) as [q'| |]; [|discriminate..].
    cbn [bind] in *. injection E1 as <-. injection E1' as <-. reflexivity. }
  destruct (HALF g h f fo f' fo' Cg Ch HN HP HT X3 Y3) as [A1 A2].
  destruct (HALF h g f' fo' f fo Ch Cg (eq_sym HN) (Permutation_sym HP) (eq_sym HT) (fun A => eq_sym (X3 A)) (fun A => eq_sym (Y3 A))) as [B1 B2].
  assert (HK : forall A, map_get c A <> None <-> map_get c' A <> None) by (intros A; rewrite K, K'; split; auto).
  assert (HM : forall A, map_get c A = Some ContextFree <-> map_get c' A = Some ContextFree).
  { intros A. rewrite M, M', HK. split; intros [U W]; (split; [exact U|]).
    - exact (cy_mono2 _ _ HPr _ _ A2 A W).
    - exact (cy_mono2 _ _ (fun A r => iff_sym (HPr A r)) _ _ B2 A W). }
  intros A. specialize (HK A). specialize (HM A). destruct (map_get c A) as [[|]|]; destruct (map_get c' A) as [[|]|]; auto; exfalso.
  - destruct HM as [_ HM]. specialize (HM eq_refl). discriminate.
  - first [apply (proj1 HK); [discriminate|reflexivity]|apply (proj2 HK); [discriminate|reflexivity]].
  - destruct HM as [HM _]. specialize (HM eq_refl). discriminate.
  - first [apply (proj1 HK); [discriminate|reflexivity]|apply (proj2 HK); [discriminate|reflexivity]].
  - first [apply (proj1 HK); [discriminate|reflexivity]|apply (proj2 HK); [discriminate|reflexivity]].
  - first [apply (proj1 HK); [discriminate|reflexivity]|apply (proj2 HK); [discriminate|reflexivity]].
Qed.
Print Assumptions C107_ll1.

(** X ::= a is LL(1); stated twice it is not any more. *)
Definition ex_once : cfg := mkCfg (mkSrc 2 []) [mkRule 0 [1] hd0] [0] [] None.
Definition ex_again : cfg := mkCfg (mkSrc 2 []) [mkRule 0 [1] hd0; mkRule 0 [1] hd0] [0] [] None.
Theorem C107_ll1_repeated_refuted : exists g h t t' c c', closed g /\ closed h /\ same_rules g h /\ roots g = roots h /\
  ll_parse_table g = Ok t /\ ll_parse_table h = Ok t' /\ ll_classify g t = Ok c /\ ll_classify h t' = Ok c' /\
  map_get c 0 = Some Ll1 /\ map_get c' 0 = Some ContextFree.
Proof.
  exists ex_once, ex_again. do 4 eexists. split; [split; [closed_tac|split; repeat constructor]|]. split; [split; [closed_tac|split; repeat constructor]|].
  split; [split; [reflexivity|]; intros A r; split; intros [x [Hx HE]]; exists x; (split; [|exact HE]); cbn in *; tauto|]. split; [reflexivity|].
  split; [vm_compute; reflexivity|]. split; [vm_compute; reflexivity|]. split; [vm_compute; reflexivity|]. split; [vm_compute; reflexivity|]. split; reflexivity.
Qed.
Print Assumptions C107_ll1_repeated_refuted.

(** ** Minimal lengths: the same when both are found *)
Theorem C107_lengths_partial : forall g h v w, closed_rules g -> closed_rules h -> same_rules g h ->
  minimal_sentence_lengths true g (md_min_length (md_new g)) = Ok v ->
  minimal_sentence_lengths true h (md_min_length (md_new h)) = Ok w -> v = w.
Proof.
  intros g h v w Cg Ch [HN HP] E F.
  assert (HV : forall k s c, value_of (md_min_length (md_new k)) s = Some c -> False) by (intros k s c; cbn; rewrite value_none; discriminate).
  destruct (C45_lengths_exact_partial g _ v Cg (repeat_length _ _) (fun s c X => False_ind _ (HV g s c X)) E) as [L1 H0].
  destruct (C45_lengths_exact_partial h _ w Ch (repeat_length _ _) (fun s c X => False_ind _ (HV h s c X)) F) as [L2 H2].
  apply nth_error_ext. intros i. destruct (le_lt_dec (num_syms g) i) as [Hi|Hi].
  - rewrite (proj2 (nth_error_None v i)), (proj2 (nth_error_None w i)); auto; lia.
  - assert (X : value_of v i = value_of w i).
    { pose proof (H0 i Hi) as A. pose proof (H2 i ltac:(lia)) as B.
      assert (HQ : forall c, (exists x, language (prods g) i x /\ N.of_nat (length x) = c) <-> (exists x, language (prods h) i x /\ N.of_nat (length x) = c)).
      { intros c. split; intros [x [HX HC]]; exists x; split; auto; apply (language_ext _ _ HP); auto. }
      unfold least in A, B. destruct (value_of v i) as [a|]; destruct (value_of w i) as [b|]; auto.
      - destruct A as [A1 A2]. destruct B as [B1 B2]. f_equal. apply N.le_antisymm; [apply A2, HQ|apply B2, HQ]; auto.
      - destruct A as [A1 _]. destruct (B a). apply HQ; auto.
      - destruct B as [B1 _]. destruct (A b). apply HQ; auto. }
    unfold value_of in X. destruct (nth_error v i) as [a|] eqn:EA; [|apply nth_error_None in EA; lia].
    destruct (nth_error w i) as [b|] eqn:EB; [|apply nth_error_None in EB; lia]. congruence.
Qed.
Print Assumptions C107_lengths_partial.

(** Whether an overflow is met on the way can depend on the order:  X0 ::= X1 X1 | u,  ...,  X32 ::= X33 X33 | u,
    X33 ::= t,  u ::= t.  It depends on which of the last two rules comes first. *)
Definition ex_chain (l : list rule) : cfg :=
  mkCfg (mkSrc 36 []) (map (fun i => mkRule i [S i; S i] hd0) (seq 0 33) ++ map (fun i => mkRule i [34] hd0) (seq 0 33) ++ l) [] [] None.
Definition ex_chain1 : cfg := ex_chain [mkRule 33 [35] hd0; mkRule 34 [35] hd0].
Definition ex_chain2 : cfg := ex_chain [mkRule 34 [35] hd0; mkRule 33 [35] hd0].
Theorem C107_lengths_refuted : exists g h v, closed g /\ closed h /\ same_rules g h /\ Permutation (plain g) (plain h) /\
  minimal_sentence_lengths true g (md_min_length (md_new g)) = Ok v /\
  minimal_sentence_lengths true h (md_min_length (md_new h)) = Panic.
Proof.
  exists ex_chain1, ex_chain2. eexists. split; [split; [closed_tac|split; constructor]|]. split; [split; [closed_tac|split; constructor]|].
  assert (HPm : Permutation (rules ex_chain1) (rules ex_chain2)) by (cbn [rules ex_chain1 ex_chain2 ex_chain]; do 2 apply Permutation_app_head; apply perm_swap).
  split; [split; [reflexivity|]|].
  - intros A r. split; intros [x [Hx HE]]; exists x; (split; [|exact HE]); [|apply Permutation_sym in HPm]; eapply Permutation_in; eauto.
  - split; [apply Permutation_map; exact HPm|]. split; vm_compute; reflexivity.
Qed.
Print Assumptions C107_lengths_refuted.

(** ** Minimal distances depend on the order:  B ::= b, A ::= a B, S ::= A A  with targets after a and
    between the two A.  From the start of the rule of S, 1 is reported; when the rules are written in the opposite
    order, 2. *)
Theorem C107_distances_refuted : exists g h l l' m m', closed g /\ closed h /\ same_rules g h /\ rules h = rev (rules g) /\
  nth_error (rules g) 1 = nth_error (rules h) 1 /\ nth_error (rules g) 2 = nth_error (rules h) 0 /\
  l = [(1, 1); (2, 1)] /\ l' = [(1, 1); (0, 1)] /\
  minimal_distances true (fun _ => 0) g (md_new g) l Forward = Ok m /\
  minimal_distances true (fun _ => 0) h (md_new h) l' Forward = Ok m' /\
  reported m 2 0 1%N /\ reported m' 0 0 2%N.
Proof.
  exists ex_early, (set_rules ex_early (rev (rules ex_early))). do 4 eexists. split; [split; [closed_tac|split; constructor]|].
  split; [split; [closed_tac|split; constructor]|].
  split; [split; [reflexivity|]; intros A r; split; intros [x [Hx HE]]; exists x; (split; [|exact HE]); cbn in *; tauto|].
  do 3 (split; [reflexivity|]). do 2 (split; [reflexivity|]).
  split; [vm_compute; reflexivity|]. split; [vm_compute; reflexivity|]. split; eexists; split; reflexivity.
Qed.
Print Assumptions C107_distances_refuted.

(** S ::= A b c d e | S x A ;  A ::= f |  ;  against the rules from last to first with the first stated twice. *)
Definition ex_g' : cfg := set_rules ex_g (rev (rules ex_g) ++ firstn 1 (rules ex_g)).
Example C107_example : closed_rules ex_g /\ closed_rules ex_g' /\ same_rules ex_g ex_g' /\ rules ex_g <> rules ex_g' /\
  Permutation (plain ex_g) (plain (set_rules ex_g (rev (rules ex_g)))) /\
  (exists b, nulling_symbols ex_g = Ok b /\ nulling_symbols ex_g' = Ok b /\ b <> repeat false 8) /\
  (exists f v, first_sets_new ex_g' = Ok f /\ map_get (fs_map f) 0 = Some v /\ set_list v = [2; 7]).
Proof.
  split; [apply ex_g_closed|]. split; [closed_tac|].
  split; [split; [reflexivity|]; intros A r; split; intros [x [Hx HE]]; exists x; (split; [|exact HE]); cbn in *; tauto|].
  split; [discriminate|]. split; [unfold plain; apply Permutation_map, Permutation_rev|].
  split; [eexists; split; [vm_compute; reflexivity|split; [vm_compute; reflexivity|discriminate]]|].
  do 2 eexists. split; [vm_compute; reflexivity|]. split; reflexivity.
Qed.
