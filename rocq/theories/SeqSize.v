(** How many rules and symbols the rewriting of a sequence adds. *)

From Coq Require Import List Arith NArith ZArith Bool Lia.
From Verif Require Import Base ListFacts Spec SpecSeq GrammarFacts SymbolModel LoopModel LoopFacts
  HistoryModel CfgModel ClosureModel View CfgProof PrecProof SeqModel SeqProof SeqProof2.
Import ListNotations.

(** * The sequences that come up *)

Fixpoint halved (i : nat) (n : N) : N :=
  match i with
  | 0 => n
  | S i' => let m := halved i' n in (m - half m)%N
  end.

Lemma half_pow : forall n L, (2 <= n <= 2 ^ N.of_nat L)%N ->
  exists j, j < L /\ half n = (2 ^ N.of_nat j)%N.
Proof.
  intros n L [H1 H2]. unfold half.
  assert (Hle : (N.log2_up n <= N.of_nat L)%N).
  { rewrite <- (N.log2_up_pow2 (N.of_nat L)) by lia. apply N.log2_up_le_mono. auto. }
  assert (Hp : (1 <= N.log2_up n)%N).
  { destruct (N.eq_dec (N.log2_up n) 0) as [E|E]; [|lia]. destruct (N.log2_up_spec n ltac:(lia)) as [_ H3].
    rewrite E in H3. simpl in H3. lia. }
  exists (N.to_nat (N.pred (N.log2_up n))). split; [lia|]. rewrite N2Nat.id.
  replace (N.log2_up n) with (N.succ (N.pred (N.log2_up n))) at 1 by lia.
  rewrite N.pow_succ_r'. rewrite N.mul_comm, N.div_mul by lia. auto.
Qed.

Lemma half_of_pow : forall j, half (2 ^ N.of_nat (S j)) = (2 ^ N.of_nat j)%N.
Proof.
  intros. unfold half. rewrite N.log2_up_pow2 by lia. rewrite Nat2N.inj_succ, N.pow_succ_r'.
  rewrite N.mul_comm, N.div_mul by lia. auto.
Qed.

Lemma halved_le : forall n L i, (n <= 2 ^ N.of_nat L)%N -> i <= L -> (halved i n <= 2 ^ N.of_nat (L - i))%N.
Proof.
  intros n L i Hn. induction i; intros Hi; cbn [halved].
  - rewrite Nat.sub_0_r. auto.
  - specialize (IHi ltac:(lia)). set (m := halved i n) in *.
    destruct (N.le_gt_cases 2 m) as [H|H].
    + destruct (half_pow m (L - i) ltac:(lia)) as [j [Hj Ej]].
      destruct (half_spec m H) as [_ [H2 _]].
      assert ((2 ^ N.of_nat j <= 2 ^ N.of_nat (L - S i))%N) by (apply N.pow_le_mono_r; lia). lia.
    + assert ((1 <= 2 ^ N.of_nat (L - S i))%N) by (pose proof (N.pow_nonzero 2 (N.of_nat (L - S i))); lia). lia.
Qed.

Lemma halved_lt : forall n L i, (n <= 2 ^ N.of_nat L)%N -> i <= L -> (3 <= halved i n)%N -> S i <= L.
Proof.
  intros n L i Hn Hi H. pose proof (halved_le n L i Hn Hi). destruct (Nat.eq_dec i L) as [->|]; [|lia].
  rewrite Nat.sub_diag in H0. simpl in H0. lia.
Qed.

Section Universe.
  Context (k0 : seq_key) (L : nat).
  Hypothesis Hstart : (k_start k0 <= 2 ^ N.of_nat L)%N.
  Hypothesis Hend : forall e, k_end k0 = Some e -> (e <= 2 ^ N.of_nat L)%N.

  Definition psep : separator :=
    match k_sep k0 with Null => Null | Trailing a | Proper a | Liberal a => Proper a end.
  Definition tsep : separator := prefix_separator psep.

  (** The number of repetitions beyond the first ones; the first ones. *)
  Definition rest : N :=
    match k_end k0 with
    | Some e => if (k_start k0 <=? 1)%N then e else (e - k_start k0 + 1)%N
    | None => 1%N
    end.
  Definition first_ones : N :=
    if option_eqb N.eqb (k_end k0) (Some (k_start k0)) then k_start k0 else (k_start k0 - 1)%N.

  Definition K (a : N) (b : option N) (sep : separator) : seq_key := mkKey (k_rhs k0) a b sep.
  Definition pow (j : nat) : N := (2 ^ N.of_nat j)%N.

  Definition universe : list seq_key :=
    [K (k_start k0) (k_end k0) psep; K (k_start k0) (k_end k0) tsep;
     K 1 (k_end k0) psep; K 1 (k_end k0) tsep;
     K first_ones (Some first_ones) tsep; K 1 None psep] ++
    map (fun j => K 1 (Some (pow j)) psep) (seq 0 (S L)) ++
    map (fun j => K (pow j) (Some (pow j)) psep) (seq 0 (S L)) ++
    map (fun j => K (pow j) (Some (pow j)) tsep) (seq 0 (S L)) ++
    map (fun i => K 1 (Some (halved i rest)) psep) (seq 0 (S L)) ++
    map (fun i => K (halved i first_ones) (Some (halved i first_ones)) psep) (seq 0 (S L)).

  Lemma universe_length : length universe = 5 * L + 11.
  Proof. clear Hstart Hend. unfold universe. repeat rewrite ?app_length, ?map_length, ?seq_length. cbn [length]. lia. Qed.

  Inductive uni : seq_key -> Prop :=
  | U_top : forall sep, sep = psep \/ sep = tsep -> uni (K (k_start k0) (k_end k0) sep)
  | U_one : forall sep, k_start k0 = 0%N -> k_end k0 <> Some 0%N -> sep = psep \/ sep = tsep -> uni (K 1 (k_end k0) sep)
  | U_n : uni (K first_ones (Some first_ones) tsep)
  | U_inf : uni (K 1 None psep)
  | U_pow1 : forall j, j <= L -> uni (K 1 (Some (pow j)) psep)
  | U_pow : forall j sep, j <= L -> sep = psep \/ sep = tsep -> uni (K (pow j) (Some (pow j)) sep)
  | U_c1 : forall i, i <= L -> uni (K 1 (Some (halved i rest)) psep)
  | U_c : forall i, i <= L -> uni (K (halved i first_ones) (Some (halved i first_ones)) psep).

  Lemma uni_in : forall k, uni k -> In k universe.
  Proof.
    clear Hstart Hend. intros k H. unfold universe. repeat rewrite in_app_iff.
    assert (HS : forall (f : nat -> seq_key) i, i <= L -> In (f i) (map f (seq 0 (S L)))).
    { intros f i Hi. apply in_map. apply in_seq. lia. }
    destruct H as [sep [->| ->]|sep _ _ [->| ->]| | |j Hj|j sep Hj [->| ->]|i Hi|i Hi].
    1, 2, 3, 4, 5, 6: left; simpl; tauto.
    - right; left. apply (HS (fun j => K 1 (Some (pow j)) psep)); auto.
    - right; right; left. apply (HS (fun j => K (pow j) (Some (pow j)) psep)); auto.
    - right; right; right; left. apply (HS (fun j => K (pow j) (Some (pow j)) tsep)); auto.
    - do 4 right; left. apply (HS (fun i => K 1 (Some (halved i rest)) psep)); auto.
    - do 5 right. apply (HS (fun i => K (halved i first_ones) (Some (halved i first_ones)) psep)); auto.
  Qed.

  Lemma psep_plain : plain psep.
  Proof. unfold psep. destruct (k_sep k0); exact I. Qed.

  Lemma tsep_plain : plain tsep -> tsep = psep.
  Proof. unfold tsep, psep. destruct (k_sep k0); simpl; intros; try contradiction; auto. Qed.

  Lemma tsep_trail : forall s, tsep = Trailing s -> psep = Proper s.
  Proof. unfold tsep, psep. destruct (k_sep k0); simpl; intros; congruence. Qed.

  Lemma two_seps : forall sep s, sep = psep \/ sep = tsep -> sep = Trailing s -> psep = Proper s.
  Proof.
    intros sep s [->| ->] H.
    - pose proof psep_plain as HP. rewrite H in HP. destruct HP.
    - apply tsep_trail. auto.
  Qed.

  Lemma two_plain : forall sep, sep = psep \/ sep = tsep -> plain sep -> sep = psep.
  Proof. intros sep [->| ->] H; auto. apply tsep_plain; auto. Qed.

  Lemma two_not_lib : forall sep s, sep = psep \/ sep = tsep -> sep <> Liberal s.
  Proof. intros sep s [->| ->]; unfold tsep, psep; destruct (k_sep k0); simpl; discriminate. Qed.

  Lemma rest_le : (rest <= 2 ^ N.of_nat L)%N.
  Proof.
    unfold rest. destruct (k_end k0) as [e|] eqn:E.
    - specialize (Hend e eq_refl). destruct (_ <=? _)%N eqn:E1; auto. apply N.leb_gt in E1.
      pose proof (N.pow_nonzero 2 (N.of_nat L)). lia.
    - pose proof (N.pow_nonzero 2 (N.of_nat L)). lia.
  Qed.

  Lemma first_le : (first_ones <= 2 ^ N.of_nat L)%N.
  Proof. unfold first_ones. destruct (option_eqb _ _ _); lia. Qed.

  Lemma uni_sep : forall k, uni k -> k_rhs k = k_rhs k0 /\ (k_sep k = psep \/ k_sep k = tsep).
  Proof. intros k H. destruct H; cbn [K k_rhs k_sep]; auto. Qed.

  (** [1..e] *)
  Lemma closed_1e : forall k e, uni k -> plain (k_sep k) -> k_start k = 1%N -> k_end k = Some e -> (3 <= e)%N ->
    uni (K 1 (Some (half e)) psep) /\ uni (K (half e) (Some (half e)) tsep) /\ uni (K 1 (Some (e - half e)%N) psep).
  Proof.
    intros k e HU HP Hs He H3.
    assert (HX : (e <= 2 ^ N.of_nat L)%N /\ ((exists j, j <= L /\ e = pow j) \/ exists i, i <= L /\ e = halved i rest)).
    { destruct HU; cbn [K k_start k_end k_sep] in *.
      - split; [apply Hend; auto|]. right. exists 0. split; [lia|]. cbn [halved]. unfold rest.
        rewrite He, Hs. reflexivity.
      - split; [apply Hend; auto|]. right. exists 0. split; [lia|]. cbn [halved]. unfold rest.
        rewrite He, H. reflexivity.
      - injection He as He. exfalso. lia.
      - discriminate.
      - injection He as <-. split; [apply N.pow_le_mono_r; lia|]. left. exists j. auto.
      - injection He as He. exfalso. lia.
      - injection He as <-. split.
        + eapply N.le_trans; [apply halved_le; [apply rest_le | auto]|]. apply N.pow_le_mono_r; lia.
        + right. exists i. auto.
      - injection He as He. exfalso. lia. }
    destruct HX as [Hle HX]. destruct (half_pow e L ltac:(lia)) as [j [Hj Ej]]. rewrite Ej.
    split; [apply (U_pow1 j); lia|]. split; [apply (U_pow j); auto; lia|].
    destruct HX as [[j' [Hj' ->]]|[i [Hi ->]]].
    - destruct j' as [|j']; [unfold pow in H3; simpl in H3; lia|]. unfold pow in Ej. rewrite half_of_pow in Ej.
      replace (pow (S j') - 2 ^ N.of_nat j)%N with (pow j'); [apply U_pow1; lia|].
      unfold pow. rewrite <- Ej, Nat2N.inj_succ, N.pow_succ_r'. lia.
    - rewrite <- Ej. apply (U_c1 (S i)). apply (halved_lt rest L i); auto. apply rest_le.
  Qed.

  (** [n..n] *)
  Lemma closed_nn : forall k, uni k -> plain (k_sep k) -> (3 <= k_start k)%N -> k_end k = Some (k_start k) ->
    uni (K (half (k_start k)) (Some (half (k_start k))) tsep) /\
    uni (K (k_start k - half (k_start k)) (Some (k_start k - half (k_start k))%N) psep).
  Proof.
    intros k HU HP H3 He. set (n := k_start k) in *.
    assert (HX : (n <= 2 ^ N.of_nat L)%N /\ ((exists j, j <= L /\ n = pow j) \/ exists i, i <= L /\ n = halved i first_ones)).
    { destruct HU; cbn [K k_start k_end k_sep] in *; subst n.
      - split; [auto|]. right. exists 0. split; [lia|]. cbn [halved]. unfold first_ones. rewrite He.
        rewrite (proj2 (option_eqb_N _ _) eq_refl). auto.
      - exfalso; lia.
      - split; [apply first_le|]. right. exists 0. split; [lia | auto].
      - discriminate.
      - exfalso; lia.
      - split; [apply N.pow_le_mono_r; lia|]. left. exists j. auto.
      - exfalso; lia.
      - split; [|right; exists i; auto].
        eapply N.le_trans; [apply halved_le; [apply first_le | auto]|]. apply N.pow_le_mono_r; lia. }
    destruct HX as [Hle HX]. destruct (half_pow n L ltac:(lia)) as [j [Hj Ej]]. rewrite Ej.
    split; [apply (U_pow j); auto; lia|].
    destruct HX as [[j' [Hj' E']]|[i [Hi E']]].
    - destruct j' as [|j']; [unfold pow in E'; simpl in E'; lia|]. rewrite E' in Ej. unfold pow in Ej. rewrite half_of_pow in Ej.
      replace (n - 2 ^ N.of_nat j)%N with (pow j'); [apply U_pow; auto; lia|].
      unfold pow in *. rewrite <- Ej, E', Nat2N.inj_succ, N.pow_succ_r'. lia.
    - rewrite <- Ej, E'. apply (U_c (S i)). apply (halved_lt first_ones L i); auto; [apply first_le|]. rewrite <- E'. auto.
  Qed.

  (** What is left for other sequences. *)
  Lemma closed_top : forall k n, uni k -> plain (k_sep k) -> (2 <= k_start k)%N ->
    match k_end k, n with
    | None, None => True
    | Some e, Some m => (k_start k < e)%N /\ (m = e - k_start k + 1)%N
    | _, _ => False
    end ->
    uni (K (k_start k - 1) (Some (k_start k - 1)%N) tsep) /\ uni (K 1 n psep).
  Proof.
    intros k n HU HP H2 HE.
    assert (HX : k_start k = k_start k0 /\ k_end k = k_end k0).
    { destruct HU; cbn [K k_start k_end k_sep] in *; auto; try lia; destruct n; try contradiction; lia. }
    destruct HX as [Es Ee]. rewrite Es, Ee in *.
    assert (EF : first_ones = (k_start k0 - 1)%N).
    { unfold first_ones. destruct (option_eqb N.eqb (k_end k0) (Some (k_start k0))) eqn:E; auto.
      apply option_eqb_N in E. rewrite E in HE. destruct n; [lia | contradiction]. }
    split; [rewrite <- EF; apply U_n|].
    destruct (k_end k0) as [e|] eqn:EE, n as [m|]; try contradiction; [|apply U_inf].
    destruct HE as [_ ->]. replace (e - k_start k0 + 1)%N with (halved 0 rest); [apply U_c1; lia|].
    cbn [halved]. unfold rest. rewrite EE. replace (k_start k0 <=? 1)%N with false; auto.
    symmetry. apply N.leb_gt. lia.
  Qed.

  Lemma closed_trail : forall k s, uni k -> k_sep k = Trailing s -> uni (with_sep k (Proper s)).
  Proof.
    intros k s HU HS. pose proof (uni_sep k HU) as [_ Hsep]. pose proof (two_seps _ _ Hsep HS) as E.
    rewrite <- E. destruct HU; unfold with_sep; cbn [K k_start k_end k_sep k_rhs] in *;
      try (pose proof psep_plain as HP; rewrite HS in HP; destruct HP).
    - apply U_top. auto.
    - apply U_one; auto.
    - apply (U_c 0). lia.
    - apply U_pow; auto.
  Qed.

  Lemma closed_zero : forall k, uni k -> k_start k = 0%N -> k_end k <> Some 0%N -> uni (with_range k 1 (k_end k)).
  Proof.
    intros k HU H0 He. destruct HU; unfold with_range; cbn [K k_start k_end k_sep k_rhs] in *; try discriminate.
    - apply U_one; auto.
    - rewrite H0 in He. congruence.
    - pose proof (N.pow_nonzero 2 (N.of_nat j)). unfold pow in H0. lia.
    - rewrite H0 in He. congruence.
  Qed.

  Lemma universe_closed : forall k, uni k -> ordered_key k -> forall k', In k' (recs_of k) -> uni k'.
  Proof.
    intros k HU HO k' Hk'. pose proof (uni_sep k HU) as [Er Hsep]. unfold recs_of in Hk'.
    destruct (prog_view_ordered k HO); cbn [flat_map app In] in Hk'.
    - exfalso. eapply two_not_lib; eauto.
    - contradiction.
    - destruct Hk' as [<-|[]]. apply closed_zero; auto.
    - destruct Hk' as [<-|[]]. apply closed_trail; auto.
    - contradiction.
    - contradiction.
    - pose proof (two_plain _ Hsep H) as Ep. unfold both in Hk'. rewrite Er, Ep in Hk'.
      assert (HL1 : 1 <= L).
      { destruct (Nat.eq_dec L 0) as [E0|]; [exfalso | lia].
        assert (HE : forall e, k_end k = Some e -> k_start k = 1%N -> (e <= 1)%N).
        { intros e Ee Es. pose proof rest_le as HR. rewrite E0 in HR, Hend. cbn in HR, Hend.
          destruct HU as [| | | |j Hj|j sep Hj _|i Hi|i Hi]; cbn [K k_start k_end k_sep] in *; auto.
          - injection Ee as <-. lia.
          - discriminate.
          - injection Ee as <-. replace j with 0 by lia. cbn. lia.
          - injection Ee as <-. lia.
          - injection Ee as <-. replace i with 0 by lia. exact HR.
          - injection Ee as <-. lia. }
        specialize (HE _ H1 H0). lia. }
      destruct Hk' as [<-|[<-|[]]].
      + apply (U_pow 0); auto. lia.
      + apply (U_pow 1); auto.
    - pose proof (two_plain _ Hsep H) as Ep. unfold both, with_range in Hk'. rewrite Er, Ep in Hk'.
      destruct (closed_1e k e HU H H0 H1 H2) as [C1 [C2 C3]].
      destruct Hk' as [<-|[<-|[<-|[]]]]; auto.
    - contradiction.
    - pose proof (two_plain _ Hsep H) as Ep. unfold both in Hk'. rewrite Er, Ep in Hk'.
      destruct (closed_nn k HU H H0 H1) as [C1 C2].
      destruct Hk' as [<-|[<-|[]]]; auto.
    - pose proof (two_plain _ Hsep H) as Ep. unfold both, with_range in Hk'. rewrite Er, Ep in Hk'.
      destruct (closed_top k n HU H H0 H1) as [C1 C2].
      destruct Hk' as [<-|[<-|[]]]; auto.
  Qed.

  (** The rule itself may have a liberal separator. *)
  Lemma universe_start : ordered_key k0 -> forall k', In k' (recs_of k0) -> uni k'.
  Proof.
    intros HO k' Hk'.
    assert (HD : uni k0 \/ exists s, k_sep k0 = Liberal s).
    { assert (Ek : k0 = K (k_start k0) (k_end k0) (k_sep k0)) by (unfold K; destruct k0; auto).
      destruct (k_sep k0) eqn:ES; [left|left|right; eauto|left]; rewrite Ek; apply U_top; unfold tsep, psep; rewrite ES; simpl; auto. }
    destruct HD as [HU|[s ES]]; [eapply universe_closed; eauto|].
    unfold recs_of, prog in Hk'. rewrite ES in Hk'. cbn [flat_map app In] in Hk'. unfold with_sep in Hk'.
    destruct Hk' as [<-|[<-|[]]]; apply U_top; unfold tsep, psep; rewrite ES; simpl; auto.
  Qed.
End Universe.

(** * Counting *)

Lemma emits_two : forall k, ordered_key k -> length (rules_of k) <= 2.
Proof. intros k HO. unfold rules_of. destruct (prog_view_ordered k HO); simpl; lia. Qed.

Lemma prog_order : forall k, rules_of k = emits (prog k) /\ recs_of k = recs (prog k).
Proof. intros. split; reflexivity. Qed.

Lemma chain_two : forall r l p s w c, chain r l p s w c -> 2 <= l -> length w <= 3 -> length c <= 2.
Proof.
  intros r l p s w c H. destruct H; intros Hl Hw; [simpl; lia|].
  inversion H0; subst; [simpl; lia|]. cbn [length] in *. rewrite skipn_length in *. lia.
Qed.

(** The right-hand sides that may be split. *)
Definition longs (l : list cmd) : nat := length (filter (fun q => 3 <=? length q) (emits l)).

Section Count.
  Context (g : cfg) (k0 : seq_key) (L : nat).
  Hypothesis HL : good_limit (limit g).
  Hypothesis Hstart : (k_start k0 <= 2 ^ N.of_nat L)%N.
  Hypothesis Hend : forall e, k_end k0 = Some e -> (e <= 2 ^ N.of_nat L)%N.

  Definition specials : list seq_key := [K k0 2 (Some 2%N) (psep k0); K k0 1 None (psep k0)].
  Definition special (k : seq_key) : bool := existsb (key_eqb k) specials.
  Definition sp (l : list seq_key) : nat := length (filter special l).

  Lemma longs_one : forall k, ordered_key k -> longs (prog k) <= 1.
  Proof.
    intros k HO. destruct (prog_view_ordered k HO); unfold longs; cbn [emits flat_map app filter length Nat.leb]; try lia;
      destruct (sep_items _) as [|? [|? ?]]; cbn; lia.
  Qed.

  Lemma longs_special : forall k, ordered_key k -> uni k0 L k -> longs (prog k) <= if special k then 1 else 0.
  Proof.
    intros k HO HU. destruct (special k) eqn:ES; [apply longs_one; auto|].
    destruct (uni_sep k0 L k HU) as [Er Hsep].
    assert (HN : forall a b, plain (k_sep k) -> k_start k = a -> k_end k = b -> K k0 a b (psep k0) = k).
    { intros a b HP <- <-. unfold K. rewrite <- Er, <- (two_plain k0 _ Hsep HP). destruct k; reflexivity. }
    assert (HS : In k specials -> False).
    { intros HI. unfold special in ES. assert (X : existsb (key_eqb k) specials = true); [|congruence].
      apply existsb_exists. exists k. split; [exact HI|]. apply key_eqb_eq. reflexivity. }
    destruct (prog_view_ordered k HO); unfold longs; cbn [emits flat_map app filter length Nat.leb]; try lia; exfalso; apply HS; unfold specials.
    - right. left. apply HN; auto.
    - left. apply HN; auto.
  Qed.

  Lemma sp_two : forall l, NoDup l -> sp l <= 2.
  Proof.
    intros l Hl. unfold sp. change 2 with (length specials). apply NoDup_incl_length; [apply NoDup_filter; exact Hl|].
    intros k Hk. apply filter_In in Hk. destruct Hk as [_ Hk]. apply existsb_exists in Hk. destruct Hk as [k' [Hi E]].
    apply key_eqb_eq in E. subst. exact Hi.
  Qed.

  (** [f] is the number of rules still to be emitted for the sequence at hand, [e] the number of long ones. *)
  Record cinv (f e : nat) (st : seq_state) : Prop := {
    c_limit : limit (ss_cfg st) = limit g;
    c_keys : NoDup (map fst (ss_map st));
    c_uni : forall k, In k (map fst (ss_map st)) -> uni k0 L k;
    c_stack : forall q, In q (ss_stack st) -> uni k0 L (key_of q) /\ valid_key (key_of q);
    c_rules : length (rules (ss_cfg st)) + (f + 2 * length (ss_stack st)) + (e + sp (map key_of (ss_stack st))) <=
              length (rules g) + (2 + 2 * length (ss_map st)) + (1 + sp (map fst (ss_map st)));
    c_syms : num_syms (ss_cfg st) + (e + sp (map key_of (ss_stack st))) <=
              num_syms g + length (ss_map st) + (1 + sp (map fst (ss_map st)))
  }.

  Lemma count_rec : forall f e st l h k, cinv f e st -> uni k0 L k -> valid_key k ->
    cinv f e (snd (seq_recurse st (seq_of l h k))).
  Proof.
    intros f e st l h k HI HU HV. unfold seq_recurse.
    assert (Ek : key_of (seq_of l h k) = k) by (destruct k; auto). rewrite Ek.
    destruct (key_lookup (ss_map st) k) eqn:E; [exact HI|].
    destruct HI as [I1 I2 I3 I4 I5 I6]. unfold next_sym, src_next. cbn [snd fst].
    assert (EX : forall s, key_of (mkSeq s (sq_rhs (seq_of l h k)) (sq_start (seq_of l h k)) (sq_end (seq_of l h k))
      (sq_sep (seq_of l h k)) (sq_hist (seq_of l h k))) = k) by (intros; exact Ek).
    constructor; cbn [ss_cfg ss_map ss_stack map fst length]; auto.
    - constructor; auto. apply lookup_none. auto.
    - intros k' [<-|H]; auto.
    - intros q [<-|H]; [|auto]. rewrite EX. auto.
    - rewrite EX. unfold sp in *. cbn [rules filter]. destruct (special k); cbn [length]; lia.
    - rewrite EX. unfold sp, num_syms in *. cbn [src num filter]. destruct (special k); cbn [length]; lia.
  Qed.

  Lemma count_emit : forall f e st h l r st', cinv (S f) ((if 3 <=? length r then 1 else 0) + e) st ->
    seq_rhs h l st r = Ok st' -> cinv f e st'.
  Proof.
    intros f e st h l r st' HI E. unfold seq_rhs in E.
    destruct (length r <=? 3) eqn:El; cbn [negb] in E; [|discriminate]. apply Nat.leb_le in El.
    cbn [process_linked bind] in E. unfold rule_history_rhs in E.
    destruct HI as [I1 I2 I3 I4 I5 I6].
    match type of E with bind (add_rule _ ?rr) _ = _ => destruct (add_rule_spec (ss_cfg st) rr ltac:(rewrite I1; auto)) as [k [c [Ea [Hk Hc]]]] end.
    rewrite Ea in E. cbn [bind] in E. injection E as <-.
    assert (HK : k <= if 3 <=? length r then 1 else 0).
    { destruct Hc as [[-> _]|[lm [Elm [Hlt Hch]]]]; [simpl in Hk; lia|].
      rewrite I1 in Elm. cbn [rhs] in *. pose proof (chain_two _ _ _ _ _ _ Hch) as HX.
      assert (H : 2 <= lm) by (unfold good_limit in HL; rewrite Elm in HL; lia).
      specialize (HX H El). replace (3 <=? length r) with true by (symmetry; apply Nat.leb_le; lia). lia. }
    constructor; cbn [ss_cfg ss_map ss_stack added rules limit]; auto.
    - rewrite app_length, Hk. lia.
    - unfold num_syms in *. cbn [src num]. cbn. lia.
  Qed.

  Lemma count_run : forall h A h0 cmds f e st st', cinv (length (emits cmds) + f) (longs cmds + e) st ->
    (forall k, In k (recs cmds) -> uni k0 L k /\ valid_key k) ->
    fold_res (run_cmd h A h0) cmds st = Ok st' -> cinv f e st'.
  Proof.
    intros h A h0. induction cmds as [|c cmds IH]; intros f e st st' HI HR E.
    - cbn in E. injection E as <-. exact HI.
    - destruct c as [k|q]; cbn [fold_res run_cmd bind] in E.
      + eapply IH; [| |exact E].
        * apply count_rec; [exact HI | |]; apply HR; simpl; auto.
        * intros k' Hk'. apply HR. simpl; auto.
      + destruct (seq_rhs h A st (map (enc_item (ss_map st) A) q)) as [st1| |] eqn:E1; try discriminate.
        cbn [bind] in E. eapply IH; [| |exact E].
        * eapply count_emit; [|exact E1]. rewrite map_length. unfold longs in *. cbn [emits flat_map app filter] in HI.
          destruct (3 <=? length q); exact HI.
        * intros k' Hk'. apply HR. simpl; auto.
  Qed.

  Lemma scoped_valid : forall sy cmds Kn k, scoped sy Kn cmds -> In k (recs cmds) -> valid_key k.
  Proof.
    intros sy. induction cmds as [|c cmds IH]; intros Kn k HS Hk; [destruct Hk|].
    destruct c as [k'|q]; cbn [scoped] in HS; destruct HS as [H1 H2].
    - destruct Hk as [<-|Hk]; [apply H1 | eapply IH; eauto].
    - eapply IH; eauto.
  Qed.

  Lemma count_weaken : forall f f' e e' st, f' <= f -> e' <= e -> cinv f e st -> cinv f' e' st.
  Proof. intros f f' e e' st H H' [I1 I2 I3 I4 I5 I6]. constructor; auto; lia. Qed.

  Lemma count_reduce : forall debug h s st st' e, cinv 2 e st -> longs (prog (key_of s)) <= e -> valid_key (key_of s) ->
    (forall k, In k (recs_of (key_of s)) -> uni k0 L k) ->
    seq_reduce debug h st s = Ok st' -> cinv 0 0 st'.
  Proof.
    intros debug h s st st' e HI He HV HU E. rewrite (reduce_prog debug h st s HV) in E.
    destruct (prog_order (key_of s)) as [E1 E2].
    eapply count_run; [| |exact E].
    - rewrite <- E1, !Nat.add_0_r. eapply count_weaken; [| |exact HI]; [|exact He]. apply emits_two. apply valid_ordered; auto.
    - intros k Hk. split; [apply HU; rewrite E2; auto|]. eapply scoped_valid; [apply prog_scoped; exact HV | exact Hk].
  Qed.

  Lemma count_step : forall debug h st st', cinv 0 0 st -> seq_step debug h st = inl st' -> cinv 0 0 st'.
  Proof.
    intros debug h st st' HI E. unfold seq_step in E. destruct (ss_stack st) as [|s stk] eqn:Es; [discriminate|].
    destruct (_ <=? _)%N; [|discriminate].
    destruct (seq_reduce debug h (mkSS (ss_cfg st) stk (ss_map st)) s) as [st1| |] eqn:E1; try discriminate.
    injection E as <-. destruct (c_stack _ _ _ HI s) as [HU HV]; [rewrite Es; simpl; auto|].
    eapply (count_reduce debug h s _ _ (if special (key_of s) then 1 else 0)); [| | exact HV | | exact E1].
    - destruct HI as [I1 I2 I3 I4 I5 I6]. rewrite Es in *. cbn [length map] in *. unfold sp in *. cbn [filter] in *.
      constructor; cbn [ss_cfg ss_map ss_stack]; auto.
      + intros q Hq. apply I4. simpl; auto.
      + unfold sp. destruct (special (key_of s)); cbn [length] in *; lia.
      + unfold sp. destruct (special (key_of s)); cbn [length] in *; lia.
    - apply longs_special; [apply valid_ordered; exact HV | exact HU].
    - intros k Hk. eapply universe_closed; [exact Hstart | exact Hend | exact HU | apply valid_ordered; exact HV | exact Hk].
  Qed.

  Opaque iter_pow.
  Theorem rewrite_size : forall debug T h0 g', valid_key k0 -> seq_rewrite debug g (seq_of T h0 k0) = Ok g' ->
    length (rules g') <= length (rules g) + (10 * L + 27) /\ num_syms g' <= num_syms g + (5 * L + 14).
  Proof.
    intros debug T h0 g' HV E. unfold seq_rewrite in E. cbn [process_linked bind] in E.
    match type of E with context [seq_reduce debug ?h _ _] => set (ht := h) in E end.
    match type of E with context [seq_step debug ?h] => set (hb := h) in E end.
    destruct (seq_reduce debug ht (mkSS g [] []) (seq_of T h0 k0)) as [st| |] eqn:E1; try discriminate.
    cbn [bind] in E. assert (Ek : key_of (seq_of T h0 k0) = k0) by (destruct k0; auto).
    assert (HI : cinv 0 0 st).
    { eapply (count_reduce debug ht _ _ _ 1); [| | | |exact E1].
      - constructor; cbn [ss_cfg ss_map ss_stack map length]; auto; try (intros ? []); try constructor; unfold sp; cbn; lia.
      - rewrite Ek. apply longs_one. apply valid_ordered; auto.
      - rewrite Ek. auto.
      - rewrite Ek. apply universe_start; auto. apply valid_ordered; auto. }
    destruct (run_loop (seq_step debug hb) 80 st) as [st'| |] eqn:E2; try discriminate.
    cbn [bind] in E. injection E as <-. unfold run_loop in E2.
    destruct (iter_pow (seq_step debug hb) 80 st) as [s2|r] eqn:E3; [discriminate|]. subst r.
    apply iter_pow_inr in E3. destruct E3 as [n [s' [_ [HS E4]]]].
    assert (HI' : cinv 0 0 s').
    { clear E4 E1. induction HS; auto. apply IHHS. eapply count_step; eauto. }
    assert (Es : ss_stack s' = [] /\ s' = st').
    { unfold seq_step in E4. destruct (ss_stack s') as [|q stk] eqn:Eq; [split; [auto | congruence]|].
      destruct (_ <=? _)%N; [|discriminate]. clear E1. destruct (seq_reduce _ _ _ _); discriminate. }
    destruct Es as [Es <-]. destruct HI' as [I1 I2 I3 I4 I5 I6]. rewrite Es in *. cbn [length map] in *.
    pose proof (sp_two _ I2) as HS2.
    assert (HM : length (ss_map s') <= 5 * L + 11).
    { rewrite <- (universe_length k0 L). rewrite <- (map_length fst (ss_map s')). apply NoDup_incl_length; [exact I2|].
      intros k Hk. apply uni_in; auto. }
    unfold sp in I5, I6 at 1. split; unfold sp in *; cbn in *; lia.
  Qed.
End Count.
