(** Which ranges rewriting of sequence rules accepts in debug builds. *)

From Coq Require Import List Arith NArith ZArith Bool Lia.
From Verif Require Import Base ListFacts Spec SpecSeq GrammarFacts SymbolModel LoopModel LoopFacts
  HistoryModel CfgModel View CfgProof SeqModel SeqProof SeqProof2.
Import ListNotations.

Lemma seq_rhs_ok : forall h l st r, good_limit (limit (ss_cfg st)) -> length r <= 3 ->
  exists g', seq_rhs h l st r = Ok (mkSS g' (ss_stack st) (ss_map st)) /\ limit g' = limit (ss_cfg st).
Proof.
  intros h l st r HL Hr. unfold seq_rhs. apply Nat.leb_le in Hr. rewrite Hr. cbn [negb process_linked bind].
  unfold rule_history_rhs. destruct (add_rule_spec (ss_cfg st) (mkRule l r h) HL) as [k [c [E _]]].
  rewrite E. cbn [bind]. eexists; split; reflexivity.
Qed.

Definition small_key (k : seq_key) : Prop :=
  (k_start k <= 4294967295)%N /\ forall e, k_end k = Some e -> (e <= 4294967295)%N.

Lemma valid_dec : forall k, {valid_key k} + {~ valid_key k}.
Proof.
  intros k. unfold valid_key. destruct (k_start k <=? 2147483649)%N eqn:E1; [apply N.leb_le in E1|apply N.leb_gt in E1; right; intros [H _]; lia].
  destruct (k_end k) as [e|]; [|left; split; [auto|discriminate]].
  destruct (k_start k <=? e)%N eqn:E2; [apply N.leb_le in E2|apply N.leb_gt in E2; right; intros [_ H]; specialize (H e eq_refl); lia].
  destruct (e <=? N.max 1 (k_start k) + 2147483647)%N eqn:E3; [apply N.leb_le in E3|apply N.leb_gt in E3; right; intros [_ H]; specialize (H e eq_refl); lia].
  destruct (N.eq_dec (k_start k) e) as [E|E].
  - destruct (e <=? 2147483648)%N eqn:E4; [apply N.leb_le in E4|apply N.leb_gt in E4; right; intros [_ H]; specialize (H e eq_refl); lia].
    left. split; auto. intros x Hx. injection Hx as <-. lia.
  - left. split; auto. intros x Hx. injection Hx as <-. lia.
Qed.

Lemma fine_dec : forall k, ordered_key k -> small_key k -> fine_key k \/
  exists e, k_end k = Some e /\ plain (k_sep k) /\ (k_start k = e \/ k_start k = 1%N) /\ (2147483648 < e)%N.
Proof.
  intros k HO [HS1 HS2]. unfold fine_key. destruct (k_end k) as [e|] eqn:EE; [|left; discriminate].
  pose proof (HO e EE) as H1. pose proof (HS2 e eq_refl) as H2.
  assert (HP : plain (k_sep k) \/ ~ plain (k_sep k)) by (destruct (k_sep k); simpl; tauto).
  destruct HP as [HP|HP]; [|left; intros x Hx; injection Hx as <-; split; auto; contradiction].
  assert (HD : ((k_start k = e \/ k_start k = 1) /\ 2147483648 < e \/ ((k_start k = e \/ k_start k = 1) -> e <= 2147483648))%N) by lia.
  destruct HD as [[HD1 HD2]|HD]; [right; exists e; auto|left]. intros x Hx. injection Hx as <-. split; auto. intros _. split; auto.
  unfold u32_max. lia.
Qed.

Lemma too_long : forall h st s e, sq_end s = Some e -> plain (sq_sep s) -> sq_start s = e \/ sq_start s = 1%N -> (2147483648 < e)%N ->
  seq_reduce true h st s = Panic.
Proof.
  intros h st [l x start end_ sep h0] e HE HP HS He. cbn [sq_end sq_sep sq_start] in *. subst end_.
  assert (HN : next_power_of_two true e = Panic).
  { unfold next_power_of_two. replace (e <=? 1)%N with false by (symmetry; apply N.leb_gt; lia).
    replace (e <=? 2147483648)%N with false by (symmetry; apply N.leb_gt; lia). reflexivity. }
  assert (H0 : (start =? 0)%N = false) by (apply N.eqb_neq; lia).
  assert (HM : forall (A : Type) (a b c : A), match e with 1%N => a | 2%N => b | _ => c end = c).
  { intros. destruct e as [|[[p|p|]|[p|p|]|]]; try reflexivity; lia. }
  unfold seq_reduce. cbn [sq_lhs sq_rhs sq_start sq_end sq_sep sq_hist].
  destruct sep as [y|y|y|]; simpl in HP; try contradiction; rewrite H0;
    (destruct (start =? 1)%N eqn:E1;
     [ destruct e as [|[[p|p|]|[p|p|]|]]; try lia; rewrite HN; reflexivity
     | apply N.eqb_neq in E1; replace (start =? 2)%N with false by (symmetry; apply N.eqb_neq; lia); cbn [andb];
       destruct HS as [->|HS]; [|contradiction]; cbn [option_eqb]; rewrite N.eqb_refl, HN; reflexivity ]).
Qed.

Lemma recs_small : forall k, ordered_key k -> small_key k -> forall k', In k' (recs_of k) -> ordered_key k' /\ small_key k'.
Proof.
  intros k HO [HS1 HS2] k'. unfold recs_of.
  destruct (prog_view_ordered k HO) as [s HS|HS HE HL|HS HE HL|s HL HS|HP HS HE|HP HS HE|HP HS HE|e HP HS HE He|HP HS HE|HP HS HE|n HP HS HE];
    cbn [flat_map app]; intros HI; cbn [In] in HI;
    repeat (match goal with H : _ \/ _ |- _ => destruct H as [<-|H] | H : False |- _ => destruct H end);
    unfold ordered_key, small_key; cbn [with_sep with_range both k_start k_end];
    try match goal with |- context [half ?n] => destruct (half_spec n ltac:(lia)) as [? [? ?]] end;
    try (split; [|split; auto]; auto; fail).
  all: try (split; [intros x Hx; injection Hx as <-; lia | split; [lia | intros x Hx; injection Hx as <-; lia]]; fail).
  - split; [|split; [lia|auto]]. intros x Hx. destruct (N.eq_dec x 0) as [->|]; [congruence|lia].
  - specialize (HS2 e HE). split; [intros x Hx; injection Hx as <-; lia | split; [lia | intros x Hx; injection Hx as <-; lia]].
  - specialize (HS2 e HE). split; [intros x Hx; injection Hx as <-; lia | split; [lia | intros x Hx; injection Hx as <-; lia]].
  - specialize (HS2 e HE). split; [intros x Hx; injection Hx as <-; lia | split; [lia | intros x Hx; injection Hx as <-; lia]].
  - destruct (k_end k) as [e|] eqn:EE, n as [m|]; try contradiction; [|split; [discriminate|split; [lia|discriminate]]].
    destruct HE as [HE ->]. specialize (HS2 e eq_refl). split; [intros x Hx; injection Hx as <-; lia | split; [lia | intros x Hx; injection Hx as <-; lia]].
Qed.

Lemma invalid_rec : forall k, ordered_key k -> fine_key k -> ~ valid_key k -> exists k', In k' (recs_of k) /\ ~ valid_key k'.
Proof.
  intros k HO HF HN. unfold recs_of.
  destruct (prog_view_ordered k HO) as [s HS|HS HE HL|HS HE HL|s HL HS|HP HS HE|HP HS HE|HP HS HE|e HP HS HE He|HP HS HE|HP HS HE|n HP HS HE];
    cbn [flat_map app].
  - eexists. split; [left; reflexivity|]. exact HN.
  - exfalso. apply HN. split; [lia|]. intros e Ee. rewrite HE in Ee. injection Ee as <-. lia.
  - eexists. split; [left; reflexivity|]. intros [H1 H2]. apply HN. split; [lia|]. intros e Ee. specialize (H2 e Ee).
    cbn [with_range k_start] in H2. split; [lia|]. split; lia.
  - eexists. split; [left; reflexivity|]. exact HN.
  - exfalso. apply HN. split; [lia|]. intros e Ee. congruence.
  - exfalso. apply HN. split; [lia|]. intros e Ee. rewrite HE in Ee. injection Ee as <-. lia.
  - exfalso. apply HN. split; [lia|]. intros e Ee. rewrite HE in Ee. injection Ee as <-. lia.
  - exfalso. apply HN. split; [lia|]. intros x Ex. rewrite HE in Ex. injection Ex as <-. destruct (HF e HE) as [_ H]. specialize (H HP). lia.
  - exfalso. apply HN. split; [lia|]. intros e Ee. rewrite HE in Ee. injection Ee as <-. lia.
  - exfalso. apply HN. destruct (HF _ HE) as [_ H]. specialize (H HP). split; [lia|]. intros x Ex. rewrite HE in Ex. injection Ex as <-. lia.
  - destruct (k_start k - 1 <=? 2147483648)%N eqn:E1.
    + apply N.leb_le in E1. eexists. split; [right; left; reflexivity|]. intros [_ H2]. apply HN. split; [lia|]. intros e Ee.
      rewrite Ee in HE. destruct n as [m|]; [|contradiction]. destruct HE as [HE ->]. specialize (H2 _ eq_refl). cbn [with_range k_start] in H2.
      split; [lia|]. split; lia.
    + apply N.leb_gt in E1. eexists. split; [left; reflexivity|]. intros [_ H2]. specialize (H2 _ eq_refl). cbn [both k_start] in H2. lia.
Qed.

Lemma emits_short : forall k q, ordered_key k -> In (CEmit q) (prog k) -> length q <= 3.
Proof.
  intros k q HO. assert (HS : length (sep_items (k_sep k)) <= 1) by apply sep_items_len.
  destruct (prog_view_ordered k HO); cbn [In]; intros HI;
    repeat (match goal with H : _ \/ _ |- _ => destruct H as [HX|H]; [try discriminate HX; injection HX as <-|] | H : False |- _ => destruct H end);
    cbn [length]; rewrite ?app_length; cbn [length]; lia.
Qed.

Section Run.
  Context (h0 : option history).

  Definition on_stack (p : seq_key * nat) : sequence := seq_of (snd p) h0 (fst p).

  Lemma run_all : forall h l cmds st, good_limit (limit (ss_cfg st)) -> (forall q, In (CEmit q) cmds -> length q <= 3) ->
    exists st' new, fold_res (run_cmd h l h0) cmds st = Ok st' /\ limit (ss_cfg st') = limit (ss_cfg st) /\
      ss_map st' = new ++ ss_map st /\ ss_stack st' = map on_stack new ++ ss_stack st /\
      (forall p, In p new -> In (fst p) (recs cmds)) /\ (forall k, In k (recs cmds) -> In k (map fst (ss_map st'))) /\
      (weights (map fst new) <= weights (recs cmds))%N.
  Proof.
    intros h l. induction cmds as [|c cmds IH]; intros st HL Hq.
    - exists st, []. cbn. split; auto. split; auto. split; auto. split; auto. split; [intros p []|]. split; [intros k []|lia].
    - assert (Hq' : forall q, In (CEmit q) cmds -> length q <= 3) by (intros; apply Hq; right; auto).
      destruct c as [k|q]; cbn [fold_res run_cmd bind].
      + unfold seq_recurse. replace (key_of (seq_of l h0 k)) with k by (destruct k; auto).
        destruct (key_lookup (ss_map st) k) as [s|] eqn:EK; cbn [snd].
        * destruct (IH st HL Hq') as [st' [new [H1 [H2 [H3 [H4 [H5 [H6 H7]]]]]]]]. exists st', new.
          split; auto. split; auto. split; auto. split; auto. split; [intros p Hp; right; apply H5; auto|]. split.
          { intros k' [<-|Hk]; [|apply H6; auto]. rewrite H3, map_app. apply in_app_iff. right. apply lookup_some_in in EK. apply in_map_iff. exists (k, s). auto. }
          cbn [recs flat_map app weights fold_right]. fold (recs cmds). fold (weights (recs cmds)). lia.
        * destruct (next_sym (ss_cfg st) None) as [s g1] eqn:EN. cbn [snd].
          assert (HL1 : limit g1 = limit (ss_cfg st)) by (unfold next_sym in EN; destruct (src_next _ _); injection EN as _ <-; reflexivity).
          match goal with |- context [fold_res (run_cmd h l h0) cmds ?s1] => destruct (IH s1) as [st' [new [H1 [H2 [H3 [H4 [H5 [H6 H7]]]]]]]] end; auto.
          { cbn [ss_cfg]. rewrite HL1. auto. }
          cbn [ss_map ss_stack ss_cfg] in *. exists st', (new ++ [(k, s)]). split; auto. split; [congruence|].
          split; [rewrite H3, <- app_assoc; reflexivity|]. split; [rewrite H4, map_app, <- app_assoc; reflexivity|]. split.
          { intros p Hp. apply in_app_iff in Hp. destruct Hp as [Hp|[<-|[]]]; [right; apply H5; auto|left; reflexivity]. }
          split; [intros k' [<-|Hk]; [|apply H6; auto]; rewrite H3, map_app; apply in_app_iff; right; left; reflexivity|].
          rewrite map_app. cbn [recs flat_map app weights fold_right map]. fold (recs cmds). fold (weights (recs cmds)).
          assert (HW : forall a b, weights (a ++ b) = (weights a + weights b)%N).
          { clear. induction a as [|x a IHa]; intros b; [reflexivity|]. cbn [app weights fold_right]. fold (weights (a ++ b)). fold (weights a). rewrite IHa. lia. }
          rewrite HW. cbn [weights fold_right fst]. lia.
      + destruct (seq_rhs_ok h l st (map (enc_item (ss_map st) l) q) HL) as [g1 [E1 HL1]]; [rewrite map_length; apply Hq; left; auto|].
        rewrite E1. cbn [bind]. destruct (IH (mkSS g1 (ss_stack st) (ss_map st))) as [st' [new [H1 [H2 [H3 [H4 [H5 [H6 H7]]]]]]]]; auto.
        { cbn [ss_cfg]. rewrite HL1. auto. }
        cbn [ss_map ss_stack ss_cfg] in *. exists st', new. split; [exact H1|]. split; [congruence|]. repeat split; auto.
  Qed.

  Record doomed (st : seq_state) : Prop := {
    d_limit : good_limit (limit (ss_cfg st));
    d_map : forall k, In k (map fst (ss_map st)) -> ordered_key k /\ small_key k;
    d_stack : forall q, In q (ss_stack st) -> exists k s, q = seq_of s h0 k /\ ordered_key k /\ small_key k;
    d_next : forall k, In k (map fst (ss_map st)) -> ~ valid_key k -> (exists s, In (seq_of s h0 k) (ss_stack st)) \/
      exists k', In k' (map fst (ss_map st)) /\ ~ valid_key k' /\ (weight k' < weight k)%N;
    d_some : exists k, In k (map fst (ss_map st)) /\ ~ valid_key k }.

  Lemma doomed_stack : forall st, doomed st -> ss_stack st <> [].
  Proof.
    intros st HD HS. destruct (d_some st HD) as [k0 [HK HV]].
    assert (HX : forall n k, (weight k < n)%N -> In k (map fst (ss_map st)) -> ~ valid_key k -> False).
    { intros n. induction n as [|n IH] using N.peano_ind; intros k Hn Hk Hv; [lia|]. destruct (d_next st HD k Hk Hv) as [[s Hs]|[k' [H1 [H2 H3]]]].
      - rewrite HS in Hs. destruct Hs.
      - apply (IH k'); auto. lia. }
    apply (HX (weight k0 + 1)%N k0); auto. lia.
  Qed.

  Lemma rec_weight : forall k k', ordered_key k -> In k' (recs_of k) -> (weight k' < weight k)%N.
  Proof.
    intros k k' HO HI. pose proof (prog_weight_ordered k HO) as HW. assert (HX : forall l, In k' l -> (weight k' <= weights l)%N).
    { induction l as [|x l IH]; intros H; [destruct H|]. cbn [weights fold_right]. fold (weights l). destruct H as [->|H]; [lia|]. specialize (IH H). lia. }
    specialize (HX _ HI). lia.
  Qed.

  (** The stack of a step, with [k] taken off. *)
  Lemma reduce_doomed : forall h k A g stk M, good_limit (limit g) -> ordered_key k -> small_key k ->
    (forall k, In k (map fst M) -> ordered_key k /\ small_key k) ->
    (forall q, In q stk -> exists k s, q = seq_of s h0 k /\ ordered_key k /\ small_key k) ->
    (forall k1, In k1 (map fst M) -> ~ valid_key k1 -> (exists s, In (seq_of s h0 k1) stk) \/ k1 = k \/
      exists k', In k' (map fst M) /\ ~ valid_key k' /\ (weight k' < weight k1)%N) ->
    (~ valid_key k \/ exists k, In k (map fst M) /\ ~ valid_key k) ->
    seq_reduce true h (mkSS g stk M) (seq_of A h0 k) = Panic \/
    exists st', seq_reduce true h (mkSS g stk M) (seq_of A h0 k) = Ok st' /\ doomed st' /\
      (weights (map key_of (ss_stack st')) < weights (map key_of stk) + weight k)%N.
  Proof.
    intros h k A g stk M HL HO HS HM HK HN HE. destruct (fine_dec k HO HS) as [HF|[e [E1 [E2 [E3 E4]]]]].
    - right. rewrite reduce_fine by (unfold key_of; simpl; rewrite key_eta; auto). replace (key_of (seq_of A h0 k)) with k by (symmetry; apply key_eta).
      cbn [seq_of sq_lhs sq_hist].
      destruct (run_all h A (prog k) (mkSS g stk M)) as [st' [new [H1 [H2 [H3 [H4 [H5 [H6 H7]]]]]]]]; auto.
      { intros q Hq. apply (emits_short k); auto. }
      cbn [ss_map ss_stack ss_cfg] in *. exists st'. split; auto.
      assert (HR : recs (prog k) = recs_of k) by reflexivity. rewrite HR in *.
      assert (Hold : forall k1, In k1 (map fst M) -> In k1 (map fst (ss_map st'))) by (intros k1 Hk1; rewrite H3, map_app; apply in_app_iff; auto).
      assert (Hnew : forall p, In p new -> ordered_key (fst p) /\ small_key (fst p)) by (intros p Hp; apply (recs_small k HO HS); auto).
      split; [constructor|].
      + rewrite H2. auto.
      + intros k1 Hk1. rewrite H3, map_app in Hk1. apply in_app_iff in Hk1. destruct Hk1 as [Hk1|Hk1]; [|apply HM; auto].
        apply in_map_iff in Hk1. destruct Hk1 as [p [<- Hp]]. apply Hnew; auto.
      + intros q Hq. rewrite H4 in Hq. apply in_app_iff in Hq. destruct Hq as [Hq|Hq]; [|apply HK; auto].
        apply in_map_iff in Hq. destruct Hq as [p [<- Hp]]. exists (fst p), (snd p). split; [reflexivity|]. apply Hnew; auto.
      + intros k1 Hk1 Hv1. rewrite H3, map_app in Hk1. apply in_app_iff in Hk1. destruct Hk1 as [Hk1|Hk1].
        * left. apply in_map_iff in Hk1. destruct Hk1 as [p [<- Hp]]. exists (snd p). rewrite H4. apply in_app_iff. left. apply in_map_iff. exists p. auto.
        * destruct (HN k1 Hk1 Hv1) as [[s Hs]|[->|[k' [X1 [X2 X3]]]]].
          -- left. exists s. rewrite H4. apply in_app_iff. auto.
          -- right. destruct (invalid_rec k HO HF Hv1) as [k' [Y1 Y2]]. exists k'. split; [apply H6; auto|]. split; auto. apply rec_weight; auto.
          -- right. exists k'. auto.
      + destruct HE as [HV|[k1 [Y1 Y2]]].
        * destruct (invalid_rec k HO HF HV) as [k' [Y1 Y2]]. exists k'. split; auto.
        * exists k1. auto.
      + rewrite H4, map_app. assert (HW : forall a b, weights (a ++ b) = (weights a + weights b)%N).
        { clear. induction a as [|x a IHa]; intros b; [reflexivity|]. cbn [app weights fold_right]. fold (weights (a ++ b)). fold (weights a). rewrite IHa. lia. }
        rewrite HW, map_map. assert (HX : map (fun p => key_of (on_stack p)) new = map fst new) by (apply map_ext; intros [a b]; apply key_eta).
        rewrite HX. pose proof (prog_weight_ordered k HO). lia.
    - left. apply (too_long h _ _ e); auto.
  Qed.
End Run.

Opaque iter_pow.
Theorem invalid_panics : forall g s, good_limit (limit g) -> ordered_key (key_of s) -> small_key (key_of s) -> ~ valid_key (key_of s) ->
  seq_rewrite true g s = Panic.
Proof.
  intros g s HL HO HS HV. unfold seq_rewrite. cbn [process_linked bind].
  match goal with |- context [seq_reduce true ?h _ _] => set (ht := h) end.
  match goal with |- context [seq_step true ?h] => set (hb := h) end.
  assert (EQ : s = seq_of (sq_lhs s) (sq_hist s) (key_of s)) by (destruct s; reflexivity).
  pose proof (reduce_doomed (sq_hist s) ht (key_of s) (sq_lhs s) g [] [] HL HO HS) as HR. rewrite <- EQ in HR.
  destruct HR as [HR|[st [E [HD HW]]]]; [intros k []|intros k []|intros k []|auto|rewrite HR; reflexivity|].
  rewrite E. cbn [bind].
  destruct (iter_pow_ends (seq_step true hb) (doomed (sq_hist s)) (fun st => weights (map key_of (ss_stack st)))) with (p := 80) (s := st) as [st' [r [HD' [Hst Hit]]]]; auto.
  - intros s1 s2 H1 Hs. unfold seq_step in Hs. destruct (ss_stack s1) as [|q stk] eqn:Eq; [discriminate|].
    destruct (d_stack _ _ H1 q) as [k [A [-> [HOk HSk]]]]; [rewrite Eq; left; auto|].
    destruct (_ <=? _)%N; [|discriminate].
    destruct (reduce_doomed (sq_hist s) hb k A (ss_cfg s1) stk (ss_map s1)) as [X|[st1 [E1 [X1 X2]]]]; auto.
    + apply (d_limit _ _ H1).
    + apply (d_map _ _ H1).
    + intros q Hq. apply (d_stack _ _ H1). rewrite Eq. right. auto.
    + intros k1 Hk1 Hv1. destruct (d_next _ _ H1 k1 Hk1 Hv1) as [[x Hx]|Y]; auto. rewrite Eq in Hx. destruct Hx as [Hx|Hx]; [|left; eauto].
      right. left. unfold seq_of in Hx. injection Hx as _ X1 X2 X3 X4. destruct k, k1. cbn in *. congruence.
    + right. apply (d_some _ _ H1).
    + rewrite X in Hs. discriminate.
    + rewrite E1 in Hs. injection Hs as <-. split; auto. cbn [map weights fold_right]. fold (weights (map key_of stk)).
      replace (key_of (seq_of A (sq_hist s) k)) with k by (symmetry; apply key_eta). lia.
  - cbn [map weights fold_right] in HW. pose proof (weight_bound_u32 (key_of s)) as HB. destruct HS as [HS1 HS2].
    change (N.of_nat 80) with 80%N. assert (HB' : (weight (key_of s) < 2 ^ 80)%N). { apply HB; [lia|]. intros e He. specialize (HS2 e He). lia. } lia.
  - unfold run_loop. rewrite Hit. unfold seq_step in Hst. destruct (ss_stack st') as [|q stk] eqn:Eq; [exfalso; exact (doomed_stack _ _ HD' Eq)|].
    destruct (d_stack _ _ HD' q) as [k [A [-> [HOk HSk]]]]; [rewrite Eq; left; auto|].
    destruct (_ <=? _)%N; [|injection Hst as <-; reflexivity].
    destruct (reduce_doomed (sq_hist s) hb k A (ss_cfg st') stk (ss_map st')) as [X|[st1 [E1 [X1 X2]]]]; auto.
    + apply (d_limit _ _ HD').
    + apply (d_map _ _ HD').
    + intros q Hq. apply (d_stack _ _ HD'). rewrite Eq. right. auto.
    + intros k1 Hk1 Hv1. destruct (d_next _ _ HD' k1 Hk1 Hv1) as [[x Hx]|Y]; auto. rewrite Eq in Hx. destruct Hx as [Hx|Hx]; [|left; eauto].
      right. left. unfold seq_of in Hx. injection Hx as _ X1 X2 X3 X4. destruct k, k1. cbn in *. congruence.
    + right. apply (d_some _ _ HD').
    + rewrite X in Hst. injection Hst as <-. reflexivity.
    + rewrite E1 in Hst. discriminate.
Qed.

(** Valid ranges are accepted, whatever the symbols are. *)
Lemma recs_valid : forall k k', valid_key k -> In k' (recs_of k) -> valid_key k'.
Proof.
  intros k k' HV HI. assert (HX : forall sy l Kn, scoped sy Kn l -> In k' (recs l) -> valid_key k').
  { intros sy. induction l as [|c l IH]; intros Kn HS HI'; [destruct HI'|]. destruct c as [k1|q]; cbn [scoped] in HS; destruct HS as [HS1 HS2].
    - destruct HI' as [<-|HI']; [apply HS1|]. apply (IH _ HS2 HI').
    - apply (IH _ HS2 HI'). }
  exact (HX _ _ _ (prog_scoped k HV) HI).
Qed.

Section Valid.
  Context (debug : bool) (h0 : option history) (lm : option nat).

  Definition fitting (st : seq_state) : Prop :=
    limit (ss_cfg st) = lm /\ forall q, In q (ss_stack st) -> exists k s, q = seq_of s h0 k /\ valid_key k.

  Lemma reduce_fitting : forall h k A g stk M, good_limit lm -> limit g = lm -> valid_key k ->
    (forall q, In q stk -> exists k s, q = seq_of s h0 k /\ valid_key k) ->
    exists st', seq_reduce debug h (mkSS g stk M) (seq_of A h0 k) = Ok st' /\ fitting st' /\
      (weights (map key_of (ss_stack st')) < weights (map key_of stk) + weight k)%N.
  Proof.
    intros h k A g stk M HL Hg HV HK. rewrite reduce_prog by (unfold key_of; simpl; rewrite key_eta; auto). replace (key_of (seq_of A h0 k)) with k by (symmetry; apply key_eta).
    cbn [seq_of sq_lhs sq_hist].
    destruct (run_all h0 h A (prog k) (mkSS g stk M)) as [st' [new [H1 [H2 [H3 [H4 [H5 [H6 H7]]]]]]]]; auto.
    { cbn [ss_cfg]. rewrite Hg. auto. }
    { intros q Hq. apply (emits_short k); auto. apply valid_ordered; auto. }
    cbn [ss_map ss_stack ss_cfg] in *. exists st'. split; auto.
    assert (HR : recs (prog k) = recs_of k) by reflexivity. rewrite HR in *. split; [split|].
    - congruence.
    - intros q Hq. rewrite H4 in Hq. apply in_app_iff in Hq. destruct Hq as [Hq|Hq]; [|apply HK; auto].
      apply in_map_iff in Hq. destruct Hq as [p [<- Hp]]. exists (fst p), (snd p). split; [reflexivity|]. apply (recs_valid k); auto.
    - rewrite H4, map_app. assert (HW : forall a b, weights (a ++ b) = (weights a + weights b)%N).
      { clear. induction a as [|x a IHa]; intros b; [reflexivity|]. cbn [app weights fold_right]. fold (weights (a ++ b)). fold (weights a). rewrite IHa. lia. }
      rewrite HW, map_map. assert (HX : map (fun p => key_of (on_stack h0 p)) new = map fst new) by (apply map_ext; intros [a b]; apply key_eta).
      rewrite HX. pose proof (prog_weight k HV). lia.
  Qed.
End Valid.

Theorem valid_ok : forall debug g s, good_limit (limit g) -> valid_key (key_of s) -> exists g', seq_rewrite debug g s = Ok g' /\ limit g' = limit g.
Proof.
  intros debug g s HL HV. unfold seq_rewrite. cbn [process_linked bind].
  match goal with |- context [seq_reduce debug ?h _ _] => set (ht := h) end.
  match goal with |- context [seq_step debug ?h] => set (hb := h) end.
  assert (EQ : s = seq_of (sq_lhs s) (sq_hist s) (key_of s)) by (destruct s; reflexivity).
  pose proof (reduce_fitting debug (sq_hist s) (limit g) ht (key_of s) (sq_lhs s) g [] [] HL eq_refl HV) as HR. rewrite <- EQ in HR.
  destruct HR as [st [E [HD HW]]]; [intros k []|]. rewrite E. cbn [bind].
  destruct (iter_pow_ends (seq_step debug hb) (fitting (sq_hist s) (limit g)) (fun st => weights (map key_of (ss_stack st)))) with (p := 80) (s := st) as [st' [r [HD' [Hst Hit]]]]; auto.
  - intros s1 s2 [HA HB] Hs. unfold seq_step in Hs. destruct (ss_stack s1) as [|q stk] eqn:Eq; [discriminate|].
    destruct (HB q) as [k [A [-> HVk]]]; [left; auto|]. destruct (_ <=? _)%N; [|discriminate].
    destruct (reduce_fitting debug (sq_hist s) (limit g) hb k A (ss_cfg s1) stk (ss_map s1)) as [st1 [E1 [X1 X2]]]; auto.
    { intros q Hq. apply HB. right. auto. }
    rewrite E1 in Hs. injection Hs as <-. split; auto. cbn [map weights fold_right]. fold (weights (map key_of stk)).
    replace (key_of (seq_of A (sq_hist s) k)) with k by (symmetry; apply key_eta). lia.
  - cbn [map weights fold_right] in HW. pose proof (weight_bound (key_of s) HV) as HB.
    change (N.of_nat 80) with 80%N. lia.
  - unfold run_loop. rewrite Hit. destruct HD' as [HA HB]. unfold seq_step in Hst. destruct (ss_stack st') as [|q stk] eqn:Eq.
    + injection Hst as <-. cbn [bind]. eexists. split; [reflexivity|]. exact HA.
    + exfalso. destruct (HB q) as [k [A [-> HVk]]]; [left; auto|].
      assert (Hle : (sq_start (seq_of A (sq_hist s) k) <=? match sq_end (seq_of A (sq_hist s) k) with Some e => e | None => u32_max end)%N = true).
      { apply N.leb_le. cbn [seq_of sq_start sq_end]. destruct HVk as [Hv1 Hv2]. destruct (k_end k) eqn:EE.
        - destruct (Hv2 _ eq_refl); auto.
        - unfold u32_max. lia. }
      rewrite Hle in Hst.
      destruct (reduce_fitting debug (sq_hist s) (limit g) hb k A (ss_cfg st') stk (ss_map st')) as [st1 [E1 [X1 X2]]]; auto.
      { intros q Hq. apply HB. right. auto. }
      rewrite E1 in Hst. discriminate.
Qed.
