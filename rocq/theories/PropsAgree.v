(** Property C111: the analyses agree with each other. *)

From Coq Require Import List Arith NArith Bool Lia Sorted Relations.
From Verif Require Import Base ListFacts Spec SpecClassify SpecPredict SetView GrammarFacts LoopModel SymbolModel HistoryModel CfgModel View
  BitSetModel ClosureModel SetProof MatrixModel MatrixProof ClassifyModel UsefulProof CyclesProof SetsModel SetsProof FollowProof ElimProof
  LLModel LLProof DistModel DistSem DistProof LengthProof LoadProof PropsGrammar PropsSets PropsClassify PropsPredict PropsLL PropsDist PropsDist2 DistTotal
  PropsOrder PropsSplit.
Import ListNotations.
Local Notation length := List.length.

(** A symbol that can vanish: the FIRST set and the LAST set have the mark, the symbol is in the closure of the
    symbols with an empty rule, its minimal length is 0. *)
Theorem C111_vanishing : forall g v, closed_rules g -> minimal_sentence_lengths true g (md_min_length (md_new g)) = Ok v ->
  exists fi la n p, first_sets_new g = Ok fi /\ last_sets_new g = Ok la /\ nulling_symbols g = Ok n /\ rhs_closure_for_all g n = Ok p /\
  forall A, A < num_syms g ->
    (member p A <-> value_of v A = Some 0%N) /\
    (member p A <-> exists x, map_get (fs_map fi) A = Some x /\ has_none x = true) /\
    (member p A <-> exists x, map_get la A = Some x /\ has_none x = true).
Proof.
  intros g v HC Ev. destruct (C40_first_exact g HC) as [fi [E1 [K1 V1]]]. destruct (C41_last_exact g HC) as [la [E2 [K2 V2]]].
  destruct (C05_nulling g HC) as [n [E3 [_ [L3 M3]]]]. destruct (C06_for_all g n HC) as [p [E4 [_ M4]]]; [lia|].
  exists fi, la, n, p. do 4 (split; [assumption|]). intros A HA.
  assert (HM : member p A <-> nullable (prods g) A).
  { rewrite M4, <- closure_nullable. split; apply closure_all_ext; intros q; [|symmetry]; apply M3. }
  assert (HV : forall k s c, value_of (md_min_length (md_new k)) s = Some c -> False) by (intros k x c; cbn; rewrite value_none; discriminate).
  destruct (C45_lengths_exact_partial g _ v HC (repeat_length _ _) (fun s c X => False_ind _ (HV g s c X)) Ev) as [_ HL]. specialize (HL A HA). unfold least in HL.
  assert (HNT : nullable (prods g) A -> nonterminal (prods g) A).
  { intros HN. apply derives_inv1 in HN. destruct HN as [X|X]; [discriminate|]. apply derives1_single in X. destruct X as [r [HR _]]. exists r. auto. }
  rewrite HM. split; [|split].
  - split.
    + intros HN. destruct (value_of v A) as [a|].
      * destruct HL as [_ HL]. f_equal. apply N.le_0_r. apply HL. exists []. split; [split; [exact HN|constructor]|reflexivity].
      * exfalso. apply (HL 0%N). exists []. split; [split; [exact HN|constructor]|reflexivity].
    + intros EV. rewrite EV in HL. destruct HL as [[w [[HD _] Hw]] _]. destruct w; [exact HD|]. cbn in Hw. lia.
  - split.
    + intros HN. destruct (map_get (fs_map fi) A) as [x|] eqn:EX.
      * exists x. split; auto. apply (V1 A x EX). exact HN.
      * exfalso. apply (proj2 (K1 A)); auto.
    + intros [x [EX HX]]. apply (V1 A x EX). exact HX.
  - split.
    + intros HN. destruct (map_get la A) as [x|] eqn:EX.
      * exists x. split; auto. apply (V2 A x EX). exact HN.
      * exfalso. apply (proj2 (K2 A)); auto.
    + intros [x [EX HX]]. apply (V2 A x EX). exact HX.
Qed.
Print Assumptions C111_vanishing.

(** A symbol is reported as productive exactly if a minimal length is found for it. *)
Theorem C111_productive : forall g v l, closed_rules g -> Forall (fun s => s < num_syms g) l ->
  minimal_sentence_lengths true g (md_min_length (md_new g)) = Ok v ->
  exists u, usefulness_with_roots g l = Ok u /\
  forall A, A < num_syms g -> (us_productive u A = Ok true <-> value_of v A <> None).
Proof.
  intros g v l HC Hl Ev. destruct (C31_productive g l HC Hl) as [u [E [HP _]]]. exists u. split; auto. intros A HA.
  destruct (HP A HA) as [b [Eb Hb]]. rewrite Eb.
  assert (HV : forall k s c, value_of (md_min_length (md_new k)) s = Some c -> False) by (intros k x c; cbn; rewrite value_none; discriminate).
  destruct (C45_lengths_exact_partial g _ v HC (repeat_length _ _) (fun s c X => False_ind _ (HV g s c X)) Ev) as [_ HL]. specialize (HL A HA). unfold least in HL.
  transitivity (b = true); [split; congruence|]. rewrite Hb. split.
  - intros [w HW] X. rewrite X in HL. apply (HL (N.of_nat (length w))). exists w. auto.
  - intros X. destruct (value_of v A) as [a|]; [|congruence]. destruct HL as [[w [HW _]] _]. exists w. exact HW.
Qed.
Print Assumptions C111_productive.

(** No useless rule is listed exactly if all rules are reported as useful. *)
Theorem C111_useless : forall g l, closed_rules g -> Forall (fun s => s < num_syms g) l ->
  exists u rs, usefulness_with_roots g l = Ok u /\ us_useless_rules u g = Ok rs /\ (rs = [] <-> us_all_useful u = true).
Proof.
  intros g l HC Hl. destruct (C31_useless_rules g l HC Hl) as [u [rs [E1 [E2 [HR _]]]]]. destruct (C31_rule g l HC Hl) as [u' [E1' [HX [HU _]]]].
  rewrite E1 in E1'. injection E1' as <-. exists u, rs. split; auto. split; auto. rewrite HU. split.
  - intros -> x Hx. destruct (HX x Hx) as [k [_ [_ [_ Hk]]]]. apply Hk. destruct (is_useless k) eqn:EK; auto. exfalso.
    apply (proj2 (HR x)). split; auto. intros Y. apply Hk in Y. discriminate.
  - intros HA. destruct rs as [|x rs]; auto. exfalso. destruct (proj1 (HR x) (or_introl eq_refl)) as [Hx Hn]. apply Hn. auto.
Qed.
Print Assumptions C111_useless.

(** The closure of one symbol is its column of the reachability matrix. *)
Theorem C111_reachability : forall g b0 b, closed_rules g -> length b0 = num_syms g -> b < num_syms g ->
  (forall s, member b0 s <-> s = b) ->
  exists p m, rhs_closure_for_any g b0 = Ok p /\ reachability_matrix g = Ok m /\
  forall a, a < num_syms g -> (member p a <-> a = b \/ mx_get m a b = Ok true).
Proof.
  intros g b0 b HC HL Hb HM. destruct (C06_for_any g b0 HC) as [p [E1 [_ M1]]]; [lia|]. destruct (reachability_spec g HC) as [m [E2 [S2 B2]]].
  exists p, m. split; auto. split; auto. intros a Ha. rewrite M1, closure_any_reaches. destruct (mx_get_ok _ m a b S2 Ha Hb) as [x [Ex X]]. rewrite Ex.
  assert (HX : Ok x = Ok true <-> reaches1 (prods g) a b) by (rewrite <- B2, <- X; split; congruence). rewrite HX. split.
  - intros [c [HR HC0]]. apply HM in HC0. subst c. apply reaches_iff in HR. exact HR.
  - intros HR. exists b. split; [apply reaches_iff; exact HR|]. apply HM. reflexivity.
Qed.
Print Assumptions C111_reachability.

(** What begins or ends a symbol, or is derived by unit rules, is reached by it. *)
Theorem C111_reached : forall g, closed_rules g ->
  exists m u fi la, reachability_matrix g = Ok m /\ unit_derivation_matrix g = Ok u /\ first_sets_new g = Ok fi /\ last_sets_new g = Ok la /\
  (forall a b, mx_get u a b = Ok true -> mx_get m a b = Ok true) /\
  (forall A x t, map_get (fs_map fi) A = Some x -> In t (set_list x) -> mx_get m A t = Ok true) /\
  (forall A x t, map_get la A = Some x -> In t (set_list x) -> mx_get m A t = Ok true).
Proof.
  intros g HC. destruct (reachability_spec g HC) as [m [E1 [S1 B1]]]. destruct (unit_matrix_spec g HC) as [u [E2 [S2 B2]]].
  destruct (C40_first_exact g HC) as [fi [E3 [K3 V3]]]. destruct (C41_last_exact g HC) as [la [E4 [K4 V4]]].
  exists m, u, fi, la. do 4 (split; [assumption|]).
  assert (HB : forall a b, MatrixProof.bit m a b -> mx_get m a b = Ok true).
  { intros a b X. pose proof (bit_lt _ _ _ _ S1 X) as [La Lb]. destruct (mx_get_ok _ m a b S1 La Lb) as [z [Ez Z]]. rewrite Ez. f_equal. apply Z. exact X. }
  assert (HD : forall A t w, nonterminal (prods g) A -> terminal (prods g) t -> In t w -> derives (prods g) [A] w -> mx_get m A t = Ok true).
  { intros A t w [r0 HA] HT Hw D. apply HB, B1. apply derives_inv1 in D. destruct D as [<-|D].
    - destruct Hw as [->|[]]. exfalso. exact (HT r0 HA).
    - apply in_split in Hw. destruct Hw as [x [y ->]]. exists x, y. exact D. }
  split; [|split].
  - intros a b X. assert (HU : unit_derives (prods g) a b).
    { apply B2. unfold mx_get in X. unfold MatrixProof.bit. destruct (nth_error u a) as [r|] eqn:ER; [|unfold get_ix in X; rewrite ER in X; discriminate].
      unfold get_ix in X. rewrite ER in X. cbn [bind] in X. destruct (nth_error r b) as [z|] eqn:EZ; [|discriminate]. injection X as ->. exists r. auto. }
    apply HB, B1. clear X. induction HU as [x y [HP _]|x y z _ IH1 _ IH2].
    + exists [], []. apply derives1_single. exists [y]. split; [exact HP|constructor].
    + destruct IH1 as [p [q D1]]. destruct IH2 as [p' [q' D2]]. exists (p ++ p'), (q' ++ q). eapply derives1_trans_l; [exact D1|].
      apply derives1_derives in D2. replace ((p ++ p') ++ z :: q' ++ q) with (p ++ (p' ++ z :: q') ++ q) by (rewrite <- !app_assoc; reflexivity).
      apply (derives_app _ p (y :: q) p ((p' ++ z :: q') ++ q)); [constructor|]. apply (derives_app _ [y] q); [exact D2|constructor].
  - intros A x t EX HT. apply (V3 A x EX) in HT. destruct HT as [HT [w D]]. apply (HD A t (t :: w)); auto; [apply K3; congruence|left; auto].
  - intros A x t EX HT. apply (V4 A x EX) in HT. destruct HT as [HT [w D]]. apply (HD A t (w ++ [t])); auto; [apply K4; congruence|apply in_or_app; right; left; auto].
Qed.
Print Assumptions C111_reached.

(** A grammar is reported as cycle-free exactly if no rule takes part in a cycle, and exactly if no symbol unit-derives itself. *)
Theorem C111_cycles : forall g, closed_rules g ->
  exists c b c' rs u, cycles_new g = Ok c /\ cycle_free c = Ok (b, c') /\ cycle_participants c true = Ok rs /\ unit_derivation_matrix g = Ok u /\
  (b = true <-> rs = []) /\ (b = true <-> forall a, a < num_syms g -> mx_get u a a = Ok false).
Proof.
  intros g HC. destruct (C34_cycle_free g HC) as [c [b [c' [E1 [E2 [HB _]]]]]]. destruct (C34_classify g HC) as [d [l [E3 [_ [_ [_ HP]]]]]].
  rewrite E1 in E3. injection E3 as <-. destruct (HP true) as [rs [E4 HR]]. destruct (unit_matrix_spec g HC) as [u [E5 [S5 B5]]].
  exists c, b, c', rs, u. do 4 (split; [assumption|]). split; rewrite HB.
  - split.
    + intros HF. destruct rs as [|x rs]; auto. exfalso. destruct (proj1 (HR x) (or_introl eq_refl)) as [Hx [B [HX HU]]].
      destruct (Nat.eq_dec (lhs x) B) as [EB|NB]; [rewrite EB in HU; exact (HF B HU)|].
      apply (HF (lhs x)). eapply t_trans; [apply t_step; split; [|exact NB]|exact HU]. exists x. auto.
    + intros -> A HU. assert (HS : exists B, unit_step (prods g) A B /\ unit_derives (prods g) B A).
      { apply clos_trans_t1n in HU. inversion HU as [z HZ|y z HZ HT]; subst; [destruct HZ as [_ HZ]; congruence|]. exists y. split; auto. apply clos_t1n_trans; auto. }
      destruct HS as [B [[[x [Hx [HL HX]]] _] HD]]. apply (proj2 (HR x)). split; auto. exists B. split; auto. rewrite HL. exact HD.
  - split.
    + intros HF a Ha. destruct (mx_get_ok _ u a a S5 Ha Ha) as [z [Ez Z]]. rewrite Ez. f_equal. destruct z; auto. exfalso. apply (HF a), B5, Z. reflexivity.
    + intros HF a HU. apply B5 in HU. pose proof (bit_lt _ _ _ _ S5 HU) as [La _]. destruct (mx_get_ok _ u a a S5 La La) as [z [Ez Z]].
      apply Z in HU. rewrite (HF a La) in Ez. congruence.
Qed.
Print Assumptions C111_cycles.

Example C111_example : closed_rules ex_first /\ exists v m, minimal_sentence_lengths true ex_first (md_min_length (md_new ex_first)) = Ok v /\
  v = [Some 1; Some 0; Some 0; Some 1; Some 1]%N /\ reachability_matrix ex_first = Ok m /\ mx_get m 2 3 = Ok true /\ mx_get m 0 2 = Ok false.
Proof. split; [apply ex_first_closed|]. do 2 eexists. do 3 (split; [vm_compute; reflexivity|]). split; vm_compute; reflexivity. Qed.
