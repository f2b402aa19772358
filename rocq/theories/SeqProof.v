(** Proofs about the rewriting of sequences. *)

From Coq Require Import List Arith NArith ZArith Bool Lia.
From Verif Require Import Base ListFacts Spec SpecSeq GrammarFacts SymbolModel LoopModel LoopFacts
  HistoryModel CfgModel ClosureModel View CfgProof PrecProof SeqModel.
Import ListNotations.

(** * Reduction as a program *)

(** A place in an added rule: a symbol, the left-hand side itself, another sequence. *)
Inductive item := IS (s : nat) | ISelf | ISub (k : seq_key).

Inductive cmd := CRec (k : seq_key) | CEmit (q : list item).

Definition with_sep (k : seq_key) (sep : separator) : seq_key :=
  mkKey (k_rhs k) (k_start k) (k_end k) sep.
Definition with_range (k : seq_key) (a : N) (b : option N) : seq_key :=
  mkKey (k_rhs k) a b (k_sep k).
Definition both (k : seq_key) (n : N) (sep : separator) : seq_key := mkKey (k_rhs k) n (Some n) sep.
Definition sep_items (sep : separator) : list item :=
  match sep with Proper s => [IS s] | _ => [] end.
Definition half (n : N) : N := (2 ^ N.log2_up n / 2)%N.

Definition prog (k : seq_key) : list cmd :=
  let x := k_rhs k in
  match k_sep k with
  | Liberal s =>
      [CRec (with_sep k (Proper s)); CRec (with_sep k (Trailing s));
       CEmit [ISub (with_sep k (Proper s))]; CEmit [ISub (with_sep k (Trailing s))]]
  | _ =>
      if (k_start k =? 0)%N then
        match k_end k with
        | Some 0%N => [CEmit []]
        | e => [CEmit []; CRec (with_range k 1 e); CEmit [ISub (with_range k 1 e)]]
        end
      else
      match k_sep k with
      | Trailing s => [CRec (with_sep k (Proper s)); CEmit [ISub (with_sep k (Proper s)); IS s]]
      | sep =>
          if (k_start k =? 1)%N then
            match k_end k with
            | None => [CEmit [IS x]; CEmit (ISelf :: sep_items sep ++ [IS x])]
            | Some 1%N => [CEmit [IS x]]
            | Some 2%N =>
                [CRec (both k 1 sep); CRec (both k 2 sep);
                 CEmit [ISub (both k 1 sep)]; CEmit [ISub (both k 2 sep)]]
            | Some e =>
                [CRec (with_range k 1 (Some (half e)));
                 CRec (both k (half e) (prefix_separator sep));
                 CRec (with_range k 1 (Some (e - half e)%N));
                 CEmit [ISub (with_range k 1 (Some (half e)))];
                 CEmit [ISub (both k (half e) (prefix_separator sep));
                        ISub (with_range k 1 (Some (e - half e)%N))]]
            end
          else if (k_start k =? 2)%N && option_eqb N.eqb (k_end k) (Some 2%N) then
            [CEmit (IS x :: sep_items sep ++ [IS x])]
          else
            let (k1, k2) :=
              if option_eqb N.eqb (Some (k_start k)) (k_end k) then
                (both k (half (k_start k)) (prefix_separator sep), both k (k_start k - half (k_start k)) sep)
              else
                (both k (k_start k - 1) (prefix_separator sep),
                 with_range k 1 (match k_end k with
                                 | None => None
                                 | Some e => Some (e - k_start k + 1)%N
                                 end)) in
            [CRec k1; CRec k2; CEmit [ISub k1; ISub k2]]
      end
  end.

Definition enc_item (m : list (seq_key * nat)) (l : nat) (i : item) : nat :=
  match i with
  | IS s => s
  | ISelf => l
  | ISub k => match key_lookup m k with Some s => s | None => 0 end
  end.

Definition seq_of (l : nat) (h : option history) (k : seq_key) : sequence :=
  mkSeq l (k_rhs k) (k_start k) (k_end k) (k_sep k) h.

Definition run_cmd (h : history) (l : nat) (h0 : option history) (st : seq_state) (c : cmd) : res seq_state :=
  match c with
  | CRec k => Ok (snd (seq_recurse st (seq_of l h0 k)))
  | CEmit q => seq_rhs h l st (map (enc_item (ss_map st) l) q)
  end.

(** Ranges that rewriting accepts. *)
Definition valid_key (k : seq_key) : Prop :=
  (k_start k <= 2147483649)%N /\
  forall e, k_end k = Some e -> (k_start k <= e /\ e <= N.max 1 (k_start k) + 2147483647 /\ (k_start k = e -> e <= 2147483648))%N.

(** Ranges in order; sequences that can be split once. *)
Definition ordered_key (k : seq_key) : Prop := forall e, k_end k = Some e -> (k_start k <= e)%N.
Definition plain (s : separator) : Prop := match s with Null | Proper _ => True | _ => False end.
Definition fine_key (k : seq_key) : Prop := forall e, k_end k = Some e ->
  (k_start k <= e)%N /\ (plain (k_sep k) -> (k_start k = e \/ k_start k = 1 -> e <= 2147483648)%N /\ (2 <= k_start k -> e - k_start k + 1 <= u32_max)%N).

Lemma valid_ordered : forall k, valid_key k -> ordered_key k.
Proof. intros k [_ H] e He. apply H; auto. Qed.

Lemma valid_fine : forall k, valid_key k -> fine_key k.
Proof. intros k [H1 H] e He. specialize (H e He). unfold u32_max. split; [lia|]. intros _. split; lia. Qed.

Lemma separator_eqb_eq : forall a b, separator_eqb a b = true <-> a = b.
Proof.
  destruct a, b; simpl; split; intros; try discriminate; try (apply Nat.eqb_eq in H; congruence);
    try (injection H as <-; apply Nat.eqb_refl); auto.
Qed.

Lemma option_eqb_N : forall a b, option_eqb N.eqb a b = true <-> a = b.
Proof.
  destruct a, b; simpl; split; intros; try discriminate; auto.
  - apply N.eqb_eq in H. congruence.
  - injection H as <-. apply N.eqb_refl.
Qed.

Lemma key_eqb_eq : forall a b, key_eqb a b = true <-> a = b.
Proof.
  intros [x1 s1 e1 p1] [x2 s2 e2 p2]. unfold key_eqb; simpl. rewrite !andb_true_iff.
  rewrite Nat.eqb_eq, N.eqb_eq, option_eqb_N, separator_eqb_eq. split.
  - intros [[[-> ->] ->] ->]; auto.
  - intros H; injection H as <- <- <- <-; auto.
Qed.

Lemma lookup_recurse : forall st s a st', seq_recurse st s = (a, st') ->
  key_lookup (ss_map st') (key_of s) = Some a.
Proof.
  intros. unfold seq_recurse in H. destruct (key_lookup (ss_map st) (key_of s)) eqn:E.
  - injection H as <- <-. auto.
  - destruct (next_sym (ss_cfg st) None) as [l g]. injection H as <- <-. simpl.
    rewrite (proj2 (key_eqb_eq _ _) eq_refl). auto.
Qed.

Lemma lookup_persist : forall st s a st' k b, seq_recurse st s = (a, st') ->
  key_lookup (ss_map st) k = Some b -> key_lookup (ss_map st') k = Some b.
Proof.
  intros. unfold seq_recurse in H. destruct (key_lookup (ss_map st) (key_of s)) eqn:E.
  - injection H as <- <-. auto.
  - destruct (next_sym (ss_cfg st) None) as [l g]. injection H as <- <-. cbn [ss_map key_lookup].
    destruct (key_eqb (key_of s) k) eqn:EK; auto. apply key_eqb_eq in EK. congruence.
Qed.

Lemma rhs_map : forall h l st r st', seq_rhs h l st r = Ok st' -> ss_map st' = ss_map st.
Proof.
  intros. unfold seq_rhs in H. destruct (negb _); [discriminate|]. cbn [process_linked bind] in H.
  destruct (rule_history_rhs (ss_cfg st) l h r); try discriminate. injection H as <-. auto.
Qed.

Lemma half_spec : forall n, (2 <= n)%N -> (half n < n /\ n <= 2 * half n /\ 1 <= half n)%N.
Proof.
  intros n Hn. unfold half.
  destruct (N.log2_up_spec n ltac:(lia)) as [H1 H2].
  assert (Hp : (1 <= N.log2_up n)%N).
  { destruct (N.eq_dec (N.log2_up n) 0) as [E|E]; [|lia]. rewrite E in H2. simpl in H2. lia. }
  assert (E : (2 ^ N.log2_up n = 2 * 2 ^ N.pred (N.log2_up n))%N).
  { rewrite <- N.pow_succ_r'. f_equal. lia. }
  rewrite E in *. rewrite N.mul_comm, N.div_mul by lia. split; [|split]; lia.
Qed.

Lemma npo2_spec : forall debug n, (2 <= n <= 2147483648)%N ->
  next_power_of_two debug n = Ok (2 ^ N.log2_up n)%N.
Proof.
  intros. unfold next_power_of_two. replace (n <=? 1)%N with false by (symmetry; apply N.leb_gt; lia).
  replace (n <=? 2147483648)%N with true by (symmetry; apply N.leb_le; lia). auto.
Qed.

Lemma sub_spec : forall debug a b, (b <= a)%N -> sub_u32 debug a b = Ok (a - b)%N.
Proof. intros. unfold sub_u32. apply N.leb_le in H. rewrite H. auto. Qed.

Lemma add_spec : forall debug a b, (a + b <= u32_max)%N -> add_u32 debug a b = Ok (a + b)%N.
Proof. intros. unfold add_u32. apply N.leb_le in H. rewrite H. auto. Qed.

Lemma reduce_fine : forall debug h st s, fine_key (key_of s) ->
  seq_reduce debug h st s = fold_res (run_cmd h (sq_lhs s) (sq_hist s)) (prog (key_of s)) st.
Proof.
  intros debug h st [l x start end_ sep h0] HV2.
  unfold seq_reduce, prog, key_of, fine_key in *. cbn [sq_lhs sq_rhs sq_start sq_end sq_sep sq_hist k_rhs k_start k_end k_sep] in *.
  (* single recursion then emit *)
  assert (E1 : forall st k q, 
    (let (a, st1) := seq_recurse st (seq_of l h0 k) in seq_rhs h l st1 (a :: q)) =
    fold_res (run_cmd h l h0) [CRec k; CEmit (ISub k :: map IS q)] st).
  { intros st0 k q. cbn [fold_res run_cmd bind map enc_item].
    destruct (seq_recurse st0 (seq_of l h0 k)) as [a st1] eqn:E. cbn [snd].
    pose proof (lookup_recurse _ _ _ _ E) as L. change (key_of (seq_of l h0 k)) with (mkKey (k_rhs k) (k_start k) (k_end k) (k_sep k)) in L.
    replace (mkKey (k_rhs k) (k_start k) (k_end k) (k_sep k)) with k in L by (destruct k; auto).
    rewrite L. rewrite map_map. cbn [enc_item]. rewrite map_id. destruct (seq_rhs h l st1 (a :: q)); reflexivity. }
  (* two recursions *)
  assert (E2 : forall st k1 k2,
    (let (a, st1) := seq_recurse st (seq_of l h0 k1) in
     let (b, st2) := seq_recurse st1 (seq_of l h0 k2) in seq_rhs h l st2 [a; b]) =
    fold_res (run_cmd h l h0) [CRec k1; CRec k2; CEmit [ISub k1; ISub k2]] st).
  { intros st0 k1 k2. cbn [fold_res run_cmd bind map enc_item].
    destruct (seq_recurse st0 (seq_of l h0 k1)) as [a st1] eqn:Ea. cbn [snd].
    destruct (seq_recurse st1 (seq_of l h0 k2)) as [b st2] eqn:Eb. cbn [snd].
    pose proof (lookup_recurse _ _ _ _ Ea) as La. pose proof (lookup_recurse _ _ _ _ Eb) as Lb.
    replace (key_of (seq_of l h0 k1)) with k1 in La by (destruct k1; auto).
    replace (key_of (seq_of l h0 k2)) with k2 in Lb by (destruct k2; auto).
    rewrite Lb. rewrite (lookup_persist _ _ _ _ _ _ Eb La).
    destruct (seq_rhs h l st2 [a; b]); reflexivity. }
  assert (E3 : forall st k1 k2,
    (let (a, st1) := seq_recurse st (seq_of l h0 k1) in
     let (b, st2) := seq_recurse st1 (seq_of l h0 k2) in
     do st3 <- seq_rhs h l st2 [a]; seq_rhs h l st3 [b]) =
    fold_res (run_cmd h l h0) [CRec k1; CRec k2; CEmit [ISub k1]; CEmit [ISub k2]] st).
  { intros st0 k1 k2. cbn [fold_res run_cmd bind map enc_item].
    destruct (seq_recurse st0 (seq_of l h0 k1)) as [a st1] eqn:Ea. cbn [snd].
    destruct (seq_recurse st1 (seq_of l h0 k2)) as [b st2] eqn:Eb. cbn [snd].
    pose proof (lookup_recurse _ _ _ _ Ea) as La. pose proof (lookup_recurse _ _ _ _ Eb) as Lb.
    replace (key_of (seq_of l h0 k1)) with k1 in La by (destruct k1; auto).
    replace (key_of (seq_of l h0 k2)) with k2 in Lb by (destruct k2; auto).
    rewrite (lookup_persist _ _ _ _ _ _ Eb La).
    destruct (seq_rhs h l st2 [a]) as [st3| |] eqn:Er; try reflexivity. cbn [bind].
    rewrite (rhs_map _ _ _ _ _ Er), Lb. destruct (seq_rhs h l st3 [b]); reflexivity. }
  assert (E4 : forall st k1 k2 k3,
    (let (a, st1) := seq_recurse st (seq_of l h0 k1) in
     let (b, st2) := seq_recurse st1 (seq_of l h0 k2) in
     let (c, st3) := seq_recurse st2 (seq_of l h0 k3) in
     do st4 <- seq_rhs h l st3 [a]; seq_rhs h l st4 [b; c]) =
    fold_res (run_cmd h l h0) [CRec k1; CRec k2; CRec k3; CEmit [ISub k1]; CEmit [ISub k2; ISub k3]] st).
  { intros st0 k1 k2 k3. cbn [fold_res run_cmd bind map enc_item].
    destruct (seq_recurse st0 (seq_of l h0 k1)) as [a st1] eqn:Ea. cbn [snd].
    destruct (seq_recurse st1 (seq_of l h0 k2)) as [b st2] eqn:Eb. cbn [snd].
    destruct (seq_recurse st2 (seq_of l h0 k3)) as [c st3] eqn:Ec. cbn [snd].
    pose proof (lookup_recurse _ _ _ _ Ea) as La. pose proof (lookup_recurse _ _ _ _ Eb) as Lb.
    pose proof (lookup_recurse _ _ _ _ Ec) as Lc.
    replace (key_of (seq_of l h0 k1)) with k1 in La by (destruct k1; auto).
    replace (key_of (seq_of l h0 k2)) with k2 in Lb by (destruct k2; auto).
    replace (key_of (seq_of l h0 k3)) with k3 in Lc by (destruct k3; auto).
    apply (lookup_persist _ _ _ _ _ _ Eb) in La. apply (lookup_persist _ _ _ _ _ _ Ec) in La.
    apply (lookup_persist _ _ _ _ _ _ Ec) in Lb. rewrite La.
    destruct (seq_rhs h l st3 [a]) as [st4| |] eqn:Er; try reflexivity. cbn [bind].
    rewrite (rhs_map _ _ _ _ _ Er), Lb, Lc. destruct (seq_rhs h l st4 [b; c]); reflexivity. }
  assert (E5 : forall q, seq_rhs h l st (map (enc_item (ss_map st) l) q) = fold_res (run_cmd h l h0) [CEmit q] st).
  { intros q. cbn [fold_res run_cmd]. destruct (seq_rhs _ _ _ _); reflexivity. }
  assert (E6 : forall q1 q2, (forall m m', map (enc_item m l) q2 = map (enc_item m' l) q2) ->
     (do st1 <- seq_rhs h l st (map (enc_item (ss_map st) l) q1);
      seq_rhs h l st1 (map (enc_item (ss_map st) l) q2)) =
     fold_res (run_cmd h l h0) [CEmit q1; CEmit q2] st).
  { intros q1 q2 Hq. cbn [fold_res run_cmd]. destruct (seq_rhs h l st _) as [st1| |]; try reflexivity. cbn [bind].
    rewrite (Hq (ss_map st) (ss_map st1)). destruct (seq_rhs h l st1 _); reflexivity. }
  assert (Hzero : forall sp, sep = sp -> (match sp with Liberal _ => False | _ => True end) -> start = 0%N ->
    match end_ with
    | Some 0%N => seq_rhs h l st []
    | e => do st1 <- seq_rhs h l st [];
           (let (sym, st2) := seq_recurse st1 (seq_inclusive (mkSeq l x start end_ sep h0) 1 e) in
            seq_rhs h l st2 [sym])
    end =
    fold_res (run_cmd h l h0)
      match end_ with
      | Some 0%N => [CEmit []]
      | e => [CEmit []; CRec (with_range (mkKey x start end_ sep) 1 e); CEmit [ISub (with_range (mkKey x start end_ sep) 1 e)]]
      end st).
  { intros sp _ _ _.
    assert (HH : forall e, (do st1 <- seq_rhs h l st [];
           (let (sym, st2) := seq_recurse st1 (seq_inclusive (mkSeq l x start end_ sep h0) 1 e) in
            seq_rhs h l st2 [sym])) =
         fold_res (run_cmd h l h0) [CEmit []; CRec (with_range (mkKey x start end_ sep) 1 e); CEmit [ISub (with_range (mkKey x start end_ sep) 1 e)]] st).
    { intros e. cbn [fold_res]. cbn [run_cmd map]. destruct (seq_rhs h l st []) as [st1| |]; try reflexivity. cbn [bind].
      apply (E1 st1 (with_range (mkKey x start end_ sep) 1 e) []). }
    destruct end_ as [[|e]|]; [apply (E5 []) | apply HH | apply HH]. }
  destruct sep as [s|s|s|]; cbn match.
  - (* Trailing *)
    destruct (start =? 0)%N eqn:E0.
    + apply N.eqb_eq in E0. pose proof (Hzero _ eq_refl I E0) as HZ; destruct end_ as [[|?]|]; exact HZ.
    + apply (E1 st (with_sep (mkKey x start end_ (Trailing s)) (Proper s)) [s]).
  - (* Proper *)
    destruct (start =? 0)%N eqn:E0.
    + apply N.eqb_eq in E0. pose proof (Hzero _ eq_refl I E0) as HZ; destruct end_ as [[|?]|]; exact HZ.
    + apply N.eqb_neq in E0. destruct (start =? 1)%N eqn:E1'.
      * apply N.eqb_eq in E1'. subst start.
        assert (Hbig : forall e, end_ = Some e -> (3 <= e)%N ->
          (do p <- next_power_of_two debug e; do d <- sub_u32 debug e (p / 2);
           (let (rhs1, st1) := seq_recurse st (seq_range_incl (mkSeq l x 1 end_ (Proper s) h0) 1 (p / 2)) in
            let (blk, st2) := seq_recurse st1 (seq_separator (seq_range_incl (mkSeq l x 1 end_ (Proper s) h0) (p / 2) (p / 2)) (prefix_separator (Proper s))) in
            let (rhs2, st3) := seq_recurse st2 (seq_range_incl (mkSeq l x 1 end_ (Proper s) h0) 1 d) in
            do st4 <- seq_rhs h l st3 [rhs1]; seq_rhs h l st4 [blk; rhs2])) =
          fold_res (run_cmd h l h0)
            [CRec (with_range (mkKey x 1 end_ (Proper s)) 1 (Some (half e)));
             CRec (both (mkKey x 1 end_ (Proper s)) (half e) (prefix_separator (Proper s)));
             CRec (with_range (mkKey x 1 end_ (Proper s)) 1 (Some (e - half e)%N));
             CEmit [ISub (with_range (mkKey x 1 end_ (Proper s)) 1 (Some (half e)))];
             CEmit [ISub (both (mkKey x 1 end_ (Proper s)) (half e) (prefix_separator (Proper s)));
                    ISub (with_range (mkKey x 1 end_ (Proper s)) 1 (Some (e - half e)%N))]] st).
        { intros e He H3. destruct (HV2 _ He) as [HVa [HVb HVc]]; [exact I|]. rewrite npo2_spec by lia. cbn [bind].
          destruct (half_spec e ltac:(lia)) as [? [? ?]]. change (2 ^ N.log2_up e / 2)%N with (half e).
          rewrite sub_spec by lia. cbn [bind].
          exact (E4 st (with_range (mkKey x 1 end_ (Proper s)) 1 (Some (half e))) (both (mkKey x 1 end_ (Proper s)) (half e) (Trailing s)) (with_range (mkKey x 1 end_ (Proper s)) 1 (Some (e - half e)%N))). }
        destruct end_ as [e|].
        -- destruct e as [|[e|e|]].
           ++ destruct (HV2 _ eq_refl). lia.
           ++ apply Hbig; auto. lia.
           ++ destruct e as [e|e|]; [apply Hbig; auto; lia | apply Hbig; auto; lia | ].
              apply (E3 st (both (mkKey x 1 (Some 2%N) (Proper s)) 1 (Proper s)) (both (mkKey x 1 (Some 2%N) (Proper s)) 2 (Proper s))).
           ++ apply (E5 [IS x]).
        -- apply (E6 [IS x] [ISelf; IS s; IS x]). reflexivity.
      * apply N.eqb_neq in E1'. destruct ((start =? 2)%N && option_eqb N.eqb end_ (Some 2%N)) eqn:E2'.
        -- apply (E5 [IS x; IS s; IS x]).
        -- destruct (option_eqb N.eqb (Some start) end_) eqn:E3'.
           ++ apply option_eqb_N in E3'. subst end_. destruct (HV2 _ eq_refl) as [HVa [HVb HVc]]; [exact I|].
              rewrite npo2_spec by lia. cbn [bind]. change (2 ^ N.log2_up start / 2)%N with (half start).
              destruct (half_spec start ltac:(lia)) as [? [? ?]]. rewrite sub_spec by lia. cbn [bind].
              apply (E2 st (both (mkKey x start (Some start) (Proper s)) (half start) (Trailing s))
                           (both (mkKey x start (Some start) (Proper s)) (start - half start) (Proper s))).
           ++ destruct end_ as [e|].
              ** destruct (HV2 _ eq_refl) as [HVa [HVb HVc]]; [exact I|]. cbn [option_eqb] in E3'. apply N.eqb_neq in E3'. rewrite sub_spec by lia. cbn [bind].
                 rewrite add_spec by lia. cbn [bind].
                 apply (E2 st (both (mkKey x start (Some e) (Proper s)) (start - 1) (Trailing s))
                              (with_range (mkKey x start (Some e) (Proper s)) 1 (Some (e - start + 1)%N))).
              ** cbn [bind].
                 apply (E2 st (both (mkKey x start None (Proper s)) (start - 1) (Trailing s))
                              (with_range (mkKey x start None (Proper s)) 1 None)).
  - (* Liberal *)
    apply (E3 st (with_sep (mkKey x start end_ (Liberal s)) (Proper s)) (with_sep (mkKey x start end_ (Liberal s)) (Trailing s))).
  - (* Null *)
    destruct (start =? 0)%N eqn:E0.
    + apply N.eqb_eq in E0. pose proof (Hzero _ eq_refl I E0) as HZ; destruct end_ as [[|?]|]; exact HZ.
    + apply N.eqb_neq in E0. destruct (start =? 1)%N eqn:E1'.
      * apply N.eqb_eq in E1'. subst start.
        assert (Hbig : forall e, end_ = Some e -> (3 <= e)%N ->
          (do p <- next_power_of_two debug e; do d <- sub_u32 debug e (p / 2);
           (let (rhs1, st1) := seq_recurse st (seq_range_incl (mkSeq l x 1 end_ Null h0) 1 (p / 2)) in
            let (blk, st2) := seq_recurse st1 (seq_separator (seq_range_incl (mkSeq l x 1 end_ Null h0) (p / 2) (p / 2)) (prefix_separator Null)) in
            let (rhs2, st3) := seq_recurse st2 (seq_range_incl (mkSeq l x 1 end_ Null h0) 1 d) in
            do st4 <- seq_rhs h l st3 [rhs1]; seq_rhs h l st4 [blk; rhs2])) =
          fold_res (run_cmd h l h0)
            [CRec (with_range (mkKey x 1 end_ Null) 1 (Some (half e)));
             CRec (both (mkKey x 1 end_ Null) (half e) (prefix_separator Null));
             CRec (with_range (mkKey x 1 end_ Null) 1 (Some (e - half e)%N));
             CEmit [ISub (with_range (mkKey x 1 end_ Null) 1 (Some (half e)))];
             CEmit [ISub (both (mkKey x 1 end_ Null) (half e) (prefix_separator Null));
                    ISub (with_range (mkKey x 1 end_ Null) 1 (Some (e - half e)%N))]] st).
        { intros e He H3. destruct (HV2 _ He) as [HVa [HVb HVc]]; [exact I|]. rewrite npo2_spec by lia. cbn [bind].
          destruct (half_spec e ltac:(lia)) as [? [? ?]]. change (2 ^ N.log2_up e / 2)%N with (half e).
          rewrite sub_spec by lia. cbn [bind].
          exact (E4 st (with_range (mkKey x 1 end_ Null) 1 (Some (half e))) (both (mkKey x 1 end_ Null) (half e) Null) (with_range (mkKey x 1 end_ Null) 1 (Some (e - half e)%N))). }
        destruct end_ as [e|].
        -- destruct e as [|[e|e|]].
           ++ destruct (HV2 _ eq_refl). lia.
           ++ apply Hbig; auto. lia.
           ++ destruct e as [e|e|]; [apply Hbig; auto; lia | apply Hbig; auto; lia | ].
              apply (E3 st (both (mkKey x 1 (Some 2%N) Null) 1 Null) (both (mkKey x 1 (Some 2%N) Null) 2 Null)).
           ++ apply (E5 [IS x]).
        -- apply (E6 [IS x] [ISelf; IS x]). reflexivity.
      * apply N.eqb_neq in E1'. destruct ((start =? 2)%N && option_eqb N.eqb end_ (Some 2%N)) eqn:E2'.
        -- apply (E5 [IS x; IS x]).
        -- destruct (option_eqb N.eqb (Some start) end_) eqn:E3'.
           ++ apply option_eqb_N in E3'. subst end_. destruct (HV2 _ eq_refl) as [HVa [HVb HVc]]; [exact I|].
              rewrite npo2_spec by lia. cbn [bind]. change (2 ^ N.log2_up start / 2)%N with (half start).
              destruct (half_spec start ltac:(lia)) as [? [? ?]]. rewrite sub_spec by lia. cbn [bind].
              apply (E2 st (both (mkKey x start (Some start) Null) (half start) Null)
                           (both (mkKey x start (Some start) Null) (start - half start) Null)).
           ++ destruct end_ as [e|].
              ** destruct (HV2 _ eq_refl) as [HVa [HVb HVc]]; [exact I|]. cbn [option_eqb] in E3'. apply N.eqb_neq in E3'. rewrite sub_spec by lia. cbn [bind].
                 rewrite add_spec by lia. cbn [bind].
                 apply (E2 st (both (mkKey x start (Some e) Null) (start - 1) Null)
                              (with_range (mkKey x start (Some e) Null) 1 (Some (e - start + 1)%N))).
              ** cbn [bind].
                 apply (E2 st (both (mkKey x start None Null) (start - 1) Null)
                              (with_range (mkKey x start None Null) 1 None)).
Qed.

Lemma reduce_prog : forall debug h st s, valid_key (key_of s) ->
  seq_reduce debug h st s = fold_res (run_cmd h (sq_lhs s) (sq_hist s)) (prog (key_of s)) st.
Proof. intros. apply reduce_fine. apply valid_fine. auto. Qed.

(** * The cases *)

Inductive pview (k : seq_key) : list cmd -> Prop :=
| PV_lib : forall s, k_sep k = Liberal s ->
    pview k [CRec (with_sep k (Proper s)); CRec (with_sep k (Trailing s));
             CEmit [ISub (with_sep k (Proper s))]; CEmit [ISub (with_sep k (Trailing s))]]
| PV_00 : k_start k = 0%N -> k_end k = Some 0%N -> (forall s, k_sep k <> Liberal s) -> pview k [CEmit []]
| PV_0 : k_start k = 0%N -> k_end k <> Some 0%N -> (forall s, k_sep k <> Liberal s) ->
    pview k [CEmit []; CRec (with_range k 1 (k_end k)); CEmit [ISub (with_range k 1 (k_end k))]]
| PV_tr : forall s, k_sep k = Trailing s -> (1 <= k_start k)%N ->
    pview k [CRec (with_sep k (Proper s)); CEmit [ISub (with_sep k (Proper s)); IS s]]
| PV_1inf : plain (k_sep k) -> k_start k = 1%N -> k_end k = None ->
    pview k [CEmit [IS (k_rhs k)]; CEmit (ISelf :: sep_items (k_sep k) ++ [IS (k_rhs k)])]
| PV_11 : plain (k_sep k) -> k_start k = 1%N -> k_end k = Some 1%N -> pview k [CEmit [IS (k_rhs k)]]
| PV_12 : plain (k_sep k) -> k_start k = 1%N -> k_end k = Some 2%N ->
    pview k [CRec (both k 1 (k_sep k)); CRec (both k 2 (k_sep k));
             CEmit [ISub (both k 1 (k_sep k))]; CEmit [ISub (both k 2 (k_sep k))]]
| PV_1e : forall e, plain (k_sep k) -> k_start k = 1%N -> k_end k = Some e -> (3 <= e)%N ->
    pview k [CRec (with_range k 1 (Some (half e)));
             CRec (both k (half e) (prefix_separator (k_sep k)));
             CRec (with_range k 1 (Some (e - half e)%N));
             CEmit [ISub (with_range k 1 (Some (half e)))];
             CEmit [ISub (both k (half e) (prefix_separator (k_sep k)));
                    ISub (with_range k 1 (Some (e - half e)%N))]]
| PV_22 : plain (k_sep k) -> k_start k = 2%N -> k_end k = Some 2%N ->
    pview k [CEmit (IS (k_rhs k) :: sep_items (k_sep k) ++ [IS (k_rhs k)])]
| PV_nn : plain (k_sep k) -> (3 <= k_start k)%N -> k_end k = Some (k_start k) ->
    pview k [CRec (both k (half (k_start k)) (prefix_separator (k_sep k)));
             CRec (both k (k_start k - half (k_start k)) (k_sep k));
             CEmit [ISub (both k (half (k_start k)) (prefix_separator (k_sep k)));
                    ISub (both k (k_start k - half (k_start k)) (k_sep k))]]
| PV_se : forall n, plain (k_sep k) -> (2 <= k_start k)%N ->
    match k_end k, n with
    | None, None => True
    | Some e, Some m => (k_start k < e)%N /\ (m = e - k_start k + 1)%N
    | _, _ => False
    end ->
    pview k [CRec (both k (k_start k - 1) (prefix_separator (k_sep k)));
             CRec (with_range k 1 n);
             CEmit [ISub (both k (k_start k - 1) (prefix_separator (k_sep k)));
                    ISub (with_range k 1 n)]].

Lemma prog_view_ordered : forall k, ordered_key k -> pview k (prog k).
Proof.
  intros k HV. unfold prog.
  destruct (k_sep k) as [s|s|s|] eqn:ES.
  3: { apply PV_lib; auto. }
  all: destruct (k_start k =? 0)%N eqn:E0;
    [ apply N.eqb_eq in E0; destruct (k_end k) as [[|e]|] eqn:EE;
      [ apply PV_00; auto; congruence
      | rewrite <- EE; apply PV_0; auto; congruence
      | rewrite <- EE; apply PV_0; auto; congruence ] | apply N.eqb_neq in E0 ].
  - apply PV_tr; auto. lia.
  - assert (HP : plain (k_sep k)) by (rewrite ES; exact I).
    destruct (k_start k =? 1)%N eqn:E1.
    + apply N.eqb_eq in E1.
      assert (HB : forall e, k_end k = Some e -> (3 <= e)%N -> pview k [CRec (with_range k 1 (Some (half e)));
             CRec (both k (half e) (prefix_separator (Proper s)));
             CRec (with_range k 1 (Some (e - half e)%N));
             CEmit [ISub (with_range k 1 (Some (half e)))];
             CEmit [ISub (both k (half e) (prefix_separator (Proper s)));
                    ISub (with_range k 1 (Some (e - half e)%N))]]).
      { intros. rewrite <- ES. apply PV_1e; auto. }
      destruct (k_end k) as [[|[e|e|]]|] eqn:EE.
      * specialize (HV _ EE). lia.
      * apply HB; auto; lia.
      * destruct e as [e|e|]; try (apply HB; auto; lia). rewrite <- ES. apply PV_12; auto.
      * apply PV_11; auto.
      * rewrite <- ES. apply PV_1inf; auto.
    + apply N.eqb_neq in E1. destruct ((k_start k =? 2)%N && option_eqb N.eqb (k_end k) (Some 2%N)) eqn:E2.
      * apply andb_true_iff in E2. destruct E2 as [E2 E3]. apply N.eqb_eq in E2. apply option_eqb_N in E3.
        rewrite <- ES. apply PV_22; auto.
      * destruct (option_eqb N.eqb (Some (k_start k)) (k_end k)) eqn:E3.
        -- apply option_eqb_N in E3. rewrite <- ES. apply PV_nn; auto.
           rewrite <- E3 in E2. cbn [option_eqb] in E2. destruct (k_start k =? 2)%N eqn:E4; [discriminate|].
           apply N.eqb_neq in E4. lia.
        -- rewrite <- ES. apply PV_se; auto; [lia|]. destruct (k_end k) as [e|] eqn:EE; auto. split; auto.
           specialize (HV _ EE). cbn [option_eqb] in E3. apply N.eqb_neq in E3. lia.
  - assert (HP : plain (k_sep k)) by (rewrite ES; exact I).
    destruct (k_start k =? 1)%N eqn:E1.
    + apply N.eqb_eq in E1.
      assert (HB : forall e, k_end k = Some e -> (3 <= e)%N -> pview k [CRec (with_range k 1 (Some (half e)));
             CRec (both k (half e) (prefix_separator Null));
             CRec (with_range k 1 (Some (e - half e)%N));
             CEmit [ISub (with_range k 1 (Some (half e)))];
             CEmit [ISub (both k (half e) (prefix_separator Null));
                    ISub (with_range k 1 (Some (e - half e)%N))]]).
      { intros. rewrite <- ES. apply PV_1e; auto. }
      destruct (k_end k) as [[|[e|e|]]|] eqn:EE.
      * specialize (HV _ EE). lia.
      * apply HB; auto; lia.
      * destruct e as [e|e|]; try (apply HB; auto; lia). rewrite <- ES. apply PV_12; auto.
      * apply PV_11; auto.
      * rewrite <- ES. apply PV_1inf; auto.
    + apply N.eqb_neq in E1. destruct ((k_start k =? 2)%N && option_eqb N.eqb (k_end k) (Some 2%N)) eqn:E2.
      * apply andb_true_iff in E2. destruct E2 as [E2 E3]. apply N.eqb_eq in E2. apply option_eqb_N in E3.
        rewrite <- ES. apply PV_22; auto.
      * destruct (option_eqb N.eqb (Some (k_start k)) (k_end k)) eqn:E3.
        -- apply option_eqb_N in E3. rewrite <- ES. apply PV_nn; auto.
           rewrite <- E3 in E2. cbn [option_eqb] in E2. destruct (k_start k =? 2)%N eqn:E4; [discriminate|].
           apply N.eqb_neq in E4. lia.
        -- rewrite <- ES. apply PV_se; auto; [lia|]. destruct (k_end k) as [e|] eqn:EE; auto. split; auto.
           specialize (HV _ EE). cbn [option_eqb] in E3. apply N.eqb_neq in E3. lia.
Qed.

Lemma prog_view : forall k, valid_key k -> pview k (prog k).
Proof. intros. apply prog_view_ordered. apply valid_ordered. auto. Qed.

(** Programs only use sequences that they have recursed into, and known symbols. *)
Definition sep_syms (s : separator) : list nat :=
  match s with Trailing x | Proper x | Liberal x => [x] | Null => [] end.
Definition key_syms (k : seq_key) : list nat := k_rhs k :: sep_syms (k_sep k).

Definition item_ok (Kn : list seq_key) (sy : list nat) (i : item) : Prop :=
  match i with
  | IS s => In s sy
  | ISelf => True
  | ISub k => In k Kn
  end.

Fixpoint scoped (sy : list nat) (Kn : list seq_key) (l : list cmd) : Prop :=
  match l with
  | [] => True
  | CRec k :: l' => (valid_key k /\ incl (key_syms k) sy) /\ scoped sy (k :: Kn) l'
  | CEmit q :: l' => (Forall (item_ok Kn sy) q /\ length q <= 3) /\ scoped sy Kn l'
  end.

Lemma plain_prefix : forall s, plain s -> incl (sep_syms (prefix_separator s)) (sep_syms s).
Proof. destruct s; simpl; intros; try tauto; apply incl_refl. Qed.

Lemma sep_items_ok : forall K k, Forall (item_ok K (key_syms k)) (sep_items (k_sep k)).
Proof. intros. destruct (k_sep k) eqn:E; constructor; auto. simpl. rewrite E. simpl; auto. Qed.

Lemma sep_items_len : forall s, length (sep_items s) <= 1.
Proof. destruct s; simpl; lia. Qed.

Lemma prog_scoped : forall k, valid_key k -> scoped (key_syms k) [] (prog k).
Proof.
  intros k HV. destruct (prog_view k HV); destruct HV as [HV1 HV2]; cbn [scoped];
    repeat match goal with |- _ /\ _ => split end; try exact I; auto;
    try (unfold valid_key, with_sep, with_range, both; cbn [k_start k_end k_rhs k_sep]; split; [lia|];
         let e := fresh in let E := fresh in intros e E;
         first [ discriminate E | injection E as <- | idtac ]);
    try (unfold incl, key_syms, with_sep, with_range, both; cbn [k_start k_end k_rhs k_sep sep_syms];
         let y := fresh in let E := fresh in intros y [E|E]; [left; exact E| right]);
    try (repeat constructor; simpl; auto; fail);
    try (simpl; lia).
  all: try (match goal with H : k_sep _ = _ |- _ => rewrite H; simpl; simpl in *; tauto end).
  all: try (apply (plain_prefix _ H); assumption).
  all: try (apply HV2 in H0 || apply HV2 in H1; lia).
  all: try assumption.
  all: try match goal with |- context [half ?n] => destruct (half_spec n ltac:(lia)) as [? [? ?]] end.
  all: try lia.
  all: try match goal with HE : k_end ?kk = Some ?n |- _ => pose proof (HV2 _ HE) end.
  all: try lia.
  all: try (constructor; [simpl; auto|]; apply Forall_app; split; [apply sep_items_ok|]; repeat constructor; simpl; auto; fail).
  all: try (cbn [length]; rewrite app_length; pose proof (sep_items_len (k_sep k)); simpl; lia).
  all: try (repeat constructor; simpl; rewrite ?H; simpl; auto; fail).
  all: try (apply HV2 in H2; lia).
  - assert (H2 <> 0%N) by (intros ->; auto). lia.
  - split; cbn [both k_start k_end]; [lia|]. intros ? E; injection E as <-. lia.
  - split; cbn [both k_start k_end]; [lia|]. intros ? E; injection E as <-. lia.
  - destruct (k_end k) as [e0|], n as [n0|]; try contradiction; try discriminate.
    injection H3 as <-. destruct H1 as [? ->]. specialize (HV2 _ eq_refl). lia.
Qed.

(** * Strings *)

Definition rep_str (x : nat) (sep : separator) (n : nat) : list nat :=
  match sep with
  | Null => repeat x n
  | Proper s => between x s n
  | Trailing s => followed x s n
  | Liberal s => between x s n
  end.

Lemma repetition_str : forall x sep n w, (forall s, sep <> Liberal s) ->
  (repetition x sep n w <-> w = rep_str x sep n).
Proof. intros. destruct sep; simpl; try tauto. destruct (H s); auto. Qed.

Lemma concat_repeat_shift : forall (a b : list nat) n, concat (repeat (a ++ b) n) ++ a = a ++ concat (repeat (b ++ a) n).
Proof.
  induction n; simpl; [rewrite app_nil_r; auto|].
  rewrite <- !app_assoc, IHn. auto.
Qed.

Lemma followed_between : forall x s n m, 1 <= m -> followed x s n ++ between x s m = between x s (n + m).
Proof.
  intros. destruct m as [|m]; [lia|]. replace (n + S m) with (S (n + m)) by lia. simpl.
  unfold followed. rewrite repeat_app, concat_app.
  change (x :: concat (repeat [s; x] m)) with ([x] ++ concat (repeat [s; x] m)).
  rewrite app_assoc. change [x; s] with ([x] ++ [s]). rewrite concat_repeat_shift. simpl. auto.
Qed.

Lemma between_followed : forall x s n, 1 <= n -> between x s n ++ [s] = followed x s n.
Proof.
  intros. destruct n as [|n]; [lia|]. unfold followed, between.
  change (x :: concat (repeat [s; x] n)) with ([x] ++ concat (repeat ([s] ++ [x]) n)).
  rewrite <- app_assoc, concat_repeat_shift. simpl. auto.
Qed.

Lemma rep_join : forall x sep n m, plain sep -> 1 <= m ->
  rep_str x (prefix_separator sep) n ++ rep_str x sep m = rep_str x sep (n + m).
Proof.
  intros. destruct sep; simpl in *; try contradiction.
  - apply followed_between; auto.
  - rewrite repeat_app. auto.
Qed.

Lemma rep_snoc : forall k n, plain (k_sep k) -> 1 <= n ->
  rep_str (k_rhs k) (k_sep k) n ++ match k_sep k with Proper s => [s] | _ => [] end ++ [k_rhs k] =
  rep_str (k_rhs k) (k_sep k) (S n).
Proof.
  intros. destruct (k_sep k); simpl in H; try contradiction; simpl rep_str.
  - destruct n as [|n]; [lia|]. cbn [between].
    replace (repeat [s; k_rhs k] (S n)) with (repeat [s; k_rhs k] (n + 1)) by (f_equal; lia).
    rewrite repeat_app, concat_app. reflexivity.
  - simpl. replace (k_rhs k :: repeat (k_rhs k) n) with (repeat (k_rhs k) (n + 1)) by (rewrite Nat.add_1_r; auto).
    rewrite repeat_app. auto.
Qed.

Definition Sq (k : seq_key) : list nat -> Prop := sequences (k_rhs k) (k_start k) (k_end k) (k_sep k).

Definition rules_of (k : seq_key) : list (list item) :=
  flat_map (fun c => match c with CEmit q => [q] | CRec _ => [] end) (prog k).
Definition recs_of (k : seq_key) : list seq_key :=
  flat_map (fun c => match c with CRec k' => [k'] | CEmit _ => [] end) (prog k).

(** The strings of a right-hand side. *)
Inductive ilang (k : seq_key) : list item -> list nat -> Prop :=
| il_nil : ilang k [] []
| il_sym : forall s q w, ilang k q w -> ilang k (IS s :: q) (s :: w)
| il_self : forall q v w, Sq k v -> ilang k q w -> ilang k (ISelf :: q) (v ++ w)
| il_sub : forall k' q v w, Sq k' v -> ilang k q w -> ilang k (ISub k' :: q) (v ++ w).

Lemma il_one : forall k k' v, ilang k [ISub k'] v <-> Sq k' v.
Proof.
  split; intros.
  - inversion H; subst. inversion H4; subst. rewrite app_nil_r. auto.
  - rewrite <- (app_nil_r v). constructor; auto. constructor.
Qed.

Lemma il_two : forall k k1 k2 v, ilang k [ISub k1; ISub k2] v <-> exists a b, v = a ++ b /\ Sq k1 a /\ Sq k2 b.
Proof.
  split; intros.
  - inversion H; subst. apply il_one in H4. eauto.
  - destruct H as [a [b [-> [? ?]]]]. constructor; auto. apply il_one; auto.
Qed.

Lemma il_syms : forall k l v, ilang k (map IS l) v <-> v = l.
Proof.
  induction l; simpl; split; intros.
  - inversion H; auto.
  - subst; constructor.
  - inversion H; subst. apply IHl in H3. congruence.
  - subst. constructor. apply IHl; auto.
Qed.

Lemma sep_items_map : forall s, sep_items s = map IS (match s with Proper x => [x] | _ => [] end).
Proof. destruct s; auto. Qed.

Lemma plain_nl : forall s, plain s -> forall x, s <> Liberal x.
Proof. destruct s; simpl; intros; try contradiction; discriminate. Qed.
Lemma prefix_nl : forall s, plain s -> forall x, prefix_separator s <> Liberal x.
Proof. destruct s; simpl; intros; try contradiction; discriminate. Qed.

Lemma Sq_str : forall k, (forall s, k_sep k <> Liberal s) -> forall w,
  Sq k w <-> exists n, in_range (k_start k) (k_end k) n /\ w = rep_str (k_rhs k) (k_sep k) n.
Proof.
  intros. unfold Sq, sequences. split; intros [n [? ?]]; exists n; split; auto; apply repetition_str; auto.
Qed.

Lemma rules_exact : forall k, valid_key k -> forall w, Sq k w <-> exists q, In q (rules_of k) /\ ilang k q w.
Proof.
  intros k HV w. unfold rules_of.
  assert (HR : forall a b n, in_range a (Some b) n <-> (a <= N.of_nat n <= b)%N).
  { intros; unfold in_range; split; [intros [? H]; split; auto | intros [? ?]; split; auto; intros ? E; injection E as <-; auto]. }
  assert (HN : forall a n, in_range a None n <-> (a <= N.of_nat n)%N).
  { intros; unfold in_range; split; [intros [? H]; auto | split; auto; intros ? E; discriminate]. }
  destruct (prog_view k HV) as [s HS|HS HE HL|HS HE HL|s HL HS|HP HS HE|HP HS HE|HP HS HE|e HP HS HE He|HP HS HE|HP HS HE|n HP HS HE];
    cbn [flat_map app In].
  - (* Liberal *)
    split.
    + intros [n [H1 H2]]. rewrite HS in H2. destruct H2 as [H2|H2].
      * eexists; split; [left; reflexivity|]. apply il_one. exists n; auto.
      * eexists; split; [right; left; reflexivity|]. apply il_one. exists n; auto.
    + intros [q [[<-|[<-|[]]] H]]; apply il_one in H; destruct H as [n [H1 H2]]; exists n; split; auto;
        rewrite HS; simpl in *; auto.
  - (* 0..0 *)
    rewrite (Sq_str k HL), HS, HE. split.
    + intros [n [H1 ->]]. apply HR in H1. assert (n = 0) as -> by lia. exists []; split; auto.
      destruct (k_sep k); simpl; constructor.
    + intros [q [[<-|[]] H]]. inversion H; subst. exists 0. split; [apply HR; cbn [both with_range k_start k_end]; lia|]. destruct (k_sep k); auto.
  - (* 0.. *)
    rewrite (Sq_str k HL), HS. split.
    + intros [n [H1 ->]]. destruct n as [|n].
      * exists []; split; auto. destruct (k_sep k); simpl; constructor.
      * eexists; split; [right; left; reflexivity|]. apply il_one. apply Sq_str; auto. exists (S n). split; auto.
        destruct H1. split; auto. cbn [with_range k_start]. lia.
    + intros [q [[<-|[<-|[]]] H]].
      * inversion H; subst. exists 0. split; [|destruct (k_sep k); auto]. split; [simpl; lia|]. intros; simpl; lia.
      * apply il_one in H. apply Sq_str in H; auto. destruct H as [n [[? ?] ->]]. exists n. split; auto. split; auto; lia.
  - (* Trailing *)
    assert (HL' : forall x, k_sep k <> Liberal x) by congruence.
    rewrite (Sq_str k HL'). split.
    + intros [n [H1 ->]]. eexists; split; [left; reflexivity|]. rewrite HL. simpl rep_str.
      rewrite <- between_followed by (destruct H1; lia). apply il_sub; [|constructor; constructor].
      exists n; split; auto. reflexivity.
    + intros [q [[<-|[]] H]]. inversion H as [| | |? ? ? ? H2 H4]; subst.
      change [IS s] with (map IS [s]) in H4. apply il_syms in H4. subst.
      destruct H2 as [n [H1 H2]]. simpl in H2. subst. exists n. split; auto. rewrite HL. simpl.
      apply between_followed. destruct H1. cbn [with_sep k_start] in *. lia.
  - (* 1.. *)
    pose proof (plain_nl _ HP) as HL. rewrite (Sq_str k HL), HS, HE. split.
    + intros [n [H1 ->]]. apply HN in H1. destruct n as [|[|n]]; [lia| |].
      * eexists; split; [left; reflexivity|]. destruct (k_sep k); simpl in *; try contradiction; repeat constructor.
      * eexists; split; [right; left; reflexivity|]. rewrite <- rep_snoc by (auto; lia).
        apply il_self.
        -- apply Sq_str; auto. exists (S n). split; auto. rewrite HS, HE. apply HN. lia.
        -- rewrite sep_items_map. change [IS (k_rhs k)] with (map IS [k_rhs k]). rewrite <- map_app. apply il_syms. auto.
    + intros [q [[<-|[<-|[]]] H]].
      * change [IS (k_rhs k)] with (map IS [k_rhs k]) in H. apply il_syms in H. subst. exists 1. split; [apply HN; lia|].
        destruct (k_sep k); simpl in *; try contradiction; auto.
      * inversion H as [| |? ? ? H2 H4|]; subst. rewrite sep_items_map in H4. change [IS (k_rhs k)] with (map IS [k_rhs k]) in H4. rewrite <- map_app in H4.
        apply il_syms in H4. subst. apply Sq_str in H2; auto. destruct H2 as [n [H1 ->]].
        rewrite HS, HE in H1. apply HN in H1. exists (S n). split; [apply HN; lia|]. apply rep_snoc; auto. lia.
  - (* 1..1 *)
    pose proof (plain_nl _ HP) as HL. rewrite (Sq_str k HL), HS, HE. split.
    + intros [n [H1 ->]]. apply HR in H1. assert (n = 1) as -> by lia.
      eexists; split; [left; reflexivity|]. destruct (k_sep k); simpl in *; try contradiction; repeat constructor.
    + intros [q [[<-|[]] H]]. change [IS (k_rhs k)] with (map IS [k_rhs k]) in H. apply il_syms in H. subst. exists 1. split; [apply HR; cbn [both with_range k_start k_end]; lia|].
      destruct (k_sep k); simpl in *; try contradiction; auto.
  - (* 1..2 *)
    pose proof (plain_nl _ HP) as HL. rewrite (Sq_str k HL), HS, HE. split.
    + intros [n [H1 ->]]. apply HR in H1. assert (n = 1 \/ n = 2) as [-> | ->] by lia.
      * eexists; split; [left; reflexivity|]. apply il_one. apply Sq_str; auto. exists 1; split; auto. apply HR; cbn [both with_range k_start k_end]; lia.
      * eexists; split; [right; left; reflexivity|]. apply il_one. apply Sq_str; auto. exists 2; split; auto. apply HR; cbn [both with_range k_start k_end]; lia.
    + intros [q [[<-|[<-|[]]] H]]; apply il_one in H; apply Sq_str in H; auto; destruct H as [n [H1 ->]];
        exists n; split; auto; cbn [both k_start k_end] in H1; apply HR in H1; apply HR; cbn [both with_range k_start k_end]; lia.
  - (* 1..e *)
    pose proof (plain_nl _ HP) as HL. rewrite (Sq_str k HL), HS, HE.
    destruct (half_spec e ltac:(lia)) as [Hh1 [Hh2 Hh3]]. split.
    + intros [n [H1 ->]]. apply HR in H1. destruct (N.leb_spec (N.of_nat n) (half e)).
      * eexists; split; [left; reflexivity|]. apply il_one. apply Sq_str; auto. exists n; split; auto. apply HR; cbn [both with_range k_start k_end]; lia.
      * eexists; split; [right; left; reflexivity|]. apply il_two.
        exists (rep_str (k_rhs k) (prefix_separator (k_sep k)) (N.to_nat (half e))), (rep_str (k_rhs k) (k_sep k) (n - N.to_nat (half e))).
        split; [|split].
        -- rewrite rep_join; auto; [|lia]. f_equal. lia.
        -- apply Sq_str; [apply prefix_nl; auto|]. eexists; split; [|reflexivity]. apply HR. cbn [both with_range k_start k_end]. lia.
        -- apply Sq_str; auto. eexists; split; [|reflexivity]. apply HR. cbn [both with_range k_start k_end]. lia.
    + intros [q [[<-|[<-|[]]] H]].
      * apply il_one in H. apply Sq_str in H; auto. destruct H as [n [H1 ->]]. exists n; split; auto.
        cbn [with_range k_start k_end] in H1. apply HR in H1. apply HR. cbn [both with_range k_start k_end]. lia.
      * apply il_two in H. destruct H as [a [b [-> [Ha Hb]]]].
        apply Sq_str in Ha; [|apply prefix_nl; auto]. apply Sq_str in Hb; auto.
        destruct Ha as [i [Hi ->]], Hb as [j [Hj ->]]. cbn [both with_range k_start k_end] in Hi, Hj. apply HR in Hi, Hj.
        exists (i + j). split; [apply HR; cbn [both with_range k_start k_end]; lia|]. apply rep_join; auto. lia.
  - (* 2..2 *)
    pose proof (plain_nl _ HP) as HL. rewrite (Sq_str k HL), HS, HE.
    assert (HX : rep_str (k_rhs k) (k_sep k) 2 = k_rhs k :: match k_sep k with Proper s => [s] | _ => [] end ++ [k_rhs k]).
    { destruct (k_sep k); simpl in *; try contradiction; auto. }
    assert (HI : IS (k_rhs k) :: sep_items (k_sep k) ++ [IS (k_rhs k)] =
                 map IS (k_rhs k :: match k_sep k with Proper s => [s] | _ => [] end ++ [k_rhs k])).
    { rewrite sep_items_map. simpl. rewrite map_app. auto. }
    rewrite HI. split.
    + intros [n [H1 ->]]. apply HR in H1. assert (n = 2) as -> by lia.
      eexists; split; [left; reflexivity|]. apply il_syms. auto.
    + intros [q [[<-|[]] H]]. apply il_syms in H. subst. exists 2. split; [apply HR; cbn [both with_range k_start k_end]; lia|]. auto.
  - (* n..n *)
    pose proof (plain_nl _ HP) as HL. rewrite (Sq_str k HL), HE.
    destruct (half_spec (k_start k) ltac:(lia)) as [Hh1 [Hh2 Hh3]]. split.
    + intros [n [H1 ->]]. apply HR in H1.
      eexists; split; [left; reflexivity|]. apply il_two.
      exists (rep_str (k_rhs k) (prefix_separator (k_sep k)) (N.to_nat (half (k_start k)))), (rep_str (k_rhs k) (k_sep k) (n - N.to_nat (half (k_start k)))).
      split; [|split].
      * rewrite rep_join; auto; [|lia]. f_equal. lia.
      * apply Sq_str; [apply prefix_nl; auto|]. eexists; split; [|reflexivity]. apply HR. cbn [both with_range k_start k_end]. lia.
      * apply Sq_str; auto. eexists; split; [|reflexivity]. apply HR. cbn [both with_range k_start k_end]. lia.
    + intros [q [[<-|[]] H]]. apply il_two in H. destruct H as [a [b [-> [Ha Hb]]]].
      apply Sq_str in Ha; [|apply prefix_nl; auto]. apply Sq_str in Hb; auto.
      destruct Ha as [i [Hi ->]], Hb as [j [Hj ->]]. cbn [both with_range k_start k_end] in Hi, Hj. apply HR in Hi, Hj.
      exists (i + j). split; [apply HR; cbn [both with_range k_start k_end]; lia|]. apply rep_join; auto. lia.
  - (* s..e *)
    pose proof (plain_nl _ HP) as HL. rewrite (Sq_str k HL). split.
    + intros [m [H1 ->]]. eexists; split; [left; reflexivity|]. apply il_two.
      exists (rep_str (k_rhs k) (prefix_separator (k_sep k)) (N.to_nat (k_start k - 1))), (rep_str (k_rhs k) (k_sep k) (m - N.to_nat (k_start k - 1))).
      assert (HM : (k_start k <= N.of_nat m)%N) by (destruct H1; auto).
      split; [|split].
      * rewrite rep_join; auto; [|lia]. f_equal. lia.
      * apply Sq_str; [apply prefix_nl; auto|]. eexists; split; [|reflexivity]. apply HR. cbn [both with_range k_start k_end]. lia.
      * apply Sq_str; auto. eexists; split; [|reflexivity]. cbn [with_range k_start k_end].
        destruct (k_end k) as [e|], n as [n|]; try contradiction.
        -- destruct HE as [? ->]. apply HR in H1. apply HR. cbn [both with_range k_start k_end]. lia.
        -- apply HN in H1. apply HN. lia.
    + intros [q [[<-|[]] H]]. apply il_two in H. destruct H as [a [b [-> [Ha Hb]]]].
      apply Sq_str in Ha; [|apply prefix_nl; auto]. apply Sq_str in Hb; auto.
      destruct Ha as [i [Hi ->]], Hb as [j [Hj ->]]. cbn [both with_range k_start k_end] in Hi, Hj. apply HR in Hi.
      exists (i + j). assert (Hj1 : (1 <= N.of_nat j)%N) by (destruct Hj; auto).
      split; [|apply rep_join; auto; lia].
      destruct (k_end k) as [e|], n as [n|]; try contradiction.
      * destruct HE as [? ->]. apply HR in Hj. apply HR. cbn [both with_range k_start k_end]. lia.
      * apply HN. lia.
Qed.

(** * Weights *)

Definition base_weight (s : N) (e : option N) : N :=
  match e with
  | None => if (s =? 1)%N then 1 else 2 + 4 * s
  | Some e =>
      if (s =? e)%N then 4 * s - 2 else if (s =? 1)%N then 3 * e * e else 2 + 4 * s + 3 * e * e
  end%N.
Definition weight (k : seq_key) : N :=
  let b := if (k_start k =? 0)%N
           then match k_end k with Some 0%N => 1%N | e => (1 + base_weight 1 e)%N end
           else base_weight (k_start k) (k_end k) in
  match k_sep k with
  | Trailing _ => b + 1
  | Liberal _ => 2 * b + 2
  | _ => b
  end%N.
Definition weights (l : list seq_key) : N := fold_right (fun k a => weight k + a)%N 0%N l.

Lemma base_1e : forall e, (1 <= e)%N -> (base_weight 1 (Some e) <= 3 * e * e)%N.
Proof.
  intros. unfold base_weight. destruct (1 =? e)%N eqn:E; [apply N.eqb_eq in E; subst; simpl; lia|].
  change (1 =? 1)%N with true. cbn match. lia.
Qed.

Lemma prog_weight_ordered : forall k, ordered_key k -> (weights (recs_of k) < weight k)%N.
Proof.
  intros k HV. unfold recs_of.
  destruct (prog_view_ordered k HV) as [s HS|HS HE HL|HS HE HL|s HL HS|HP HS HE|HP HS HE|HP HS HE|e HP HS HE He|HP HS HE|HP HS HE|n HP HS HE];
    cbn [flat_map app weights fold_right]; unfold weight; cbn [with_sep with_range both k_start k_end k_sep k_rhs].
  - rewrite HS. lia.
  - rewrite HS, HE. simpl. destruct (k_sep k); lia.
  - rewrite HS. change (0 =? 0)%N with true. change (1 =? 0)%N with false. cbn match.
    destruct (k_end k) as [[|e]|]; [congruence| |]; destruct (k_sep k); lia.
  - rewrite HL. replace (k_start k =? 0)%N with false by (symmetry; apply N.eqb_neq; lia). lia.
  - rewrite HS, HE. simpl. destruct (k_sep k); simpl in HP; try contradiction; lia.
  - rewrite HS, HE. simpl. destruct (k_sep k); simpl in HP; try contradiction; lia.
  - rewrite HS, HE. simpl. destruct (k_sep k); simpl in HP; try contradiction; lia.
  - rewrite HS, HE. change (1 =? 0)%N with false. cbn match.
    destruct (half_spec e ltac:(lia)) as [Hh1 [Hh2 Hh3]].
    replace (half e =? 0)%N with false by (symmetry; apply N.eqb_neq; lia).
    pose proof (base_1e (half e) ltac:(lia)) as B1. pose proof (base_1e (e - half e)%N ltac:(lia)) as B2.
    assert (B3 : base_weight (half e) (Some (half e)) = (4 * half e - 2)%N) by (unfold base_weight; rewrite N.eqb_refl; auto).
    assert (B4 : base_weight 1 (Some e) = (3 * e * e)%N).
    { unfold base_weight. replace (1 =? e)%N with false by (symmetry; apply N.eqb_neq; lia). auto. }
    rewrite B3, B4.
    assert (HX : (4 * half e + 3 * half e * half e + 3 * (e - half e) * (e - half e) <= 3 * e * e)%N).
    { assert (e = half e + (e - half e))%N by lia. set (h := half e) in *. set (d := (e - h)%N) in *. nia. }
    destruct (k_sep k); simpl in HP; try contradiction; cbn [prefix_separator]; lia.
  - rewrite HS, HE. simpl. destruct (k_sep k); simpl in HP; try contradiction; lia.
  - rewrite HE. destruct (half_spec (k_start k) ltac:(lia)) as [Hh1 [Hh2 Hh3]].
    replace (k_start k =? 0)%N with false by (symmetry; apply N.eqb_neq; lia).
    replace (half (k_start k) =? 0)%N with false by (symmetry; apply N.eqb_neq; lia).
    replace (k_start k - half (k_start k) =? 0)%N with false by (symmetry; apply N.eqb_neq; lia).
    unfold base_weight. rewrite !N.eqb_refl.
    destruct (k_sep k); simpl in HP; try contradiction; cbn [prefix_separator]; lia.
  - replace (k_start k =? 0)%N with false by (symmetry; apply N.eqb_neq; lia).
    replace (k_start k - 1 =? 0)%N with false by (symmetry; apply N.eqb_neq; lia).
    change (1 =? 0)%N with false. cbn match.
    assert (B3 : base_weight (k_start k - 1) (Some (k_start k - 1)%N) = (4 * (k_start k - 1) - 2)%N) by (unfold base_weight; rewrite N.eqb_refl; auto).
    rewrite B3.
    destruct (k_end k) as [e|], n as [n|]; try contradiction.
    + destruct HE as [HE ->]. pose proof (base_1e (e - k_start k + 1)%N ltac:(lia)) as B1.
      assert (B4 : base_weight (k_start k) (Some e) = (2 + 4 * k_start k + 3 * e * e)%N).
      { unfold base_weight. replace (k_start k =? e)%N with false by (symmetry; apply N.eqb_neq; lia).
        replace (k_start k =? 1)%N with false by (symmetry; apply N.eqb_neq; lia). auto. }
      rewrite B4. assert ((e - k_start k + 1) * (e - k_start k + 1) <= e * e)%N by (apply N.mul_le_mono; lia).
      destruct (k_sep k); simpl in HP; try contradiction; cbn [prefix_separator]; lia.
    + assert (B4 : base_weight (k_start k) None = (2 + 4 * k_start k)%N).
      { unfold base_weight. replace (k_start k =? 1)%N with false by (symmetry; apply N.eqb_neq; lia). auto. }
      rewrite B4. change (base_weight 1 None) with 1%N.
      destruct (k_sep k); simpl in HP; try contradiction; cbn [prefix_separator]; lia.
Qed.

Lemma prog_weight : forall k, valid_key k -> (weights (recs_of k) < weight k)%N.
Proof. intros. apply prog_weight_ordered. apply valid_ordered. auto. Qed.

Lemma weight_bound_u32 : forall k, (k_start k <= 4294967296)%N -> (forall e, k_end k = Some e -> (e <= 4294967296)%N) ->
  (weight k < 2 ^ 80)%N.
Proof.
  intros k H1 H2. unfold weight.
  assert (HB : forall s e, (s <= 4294967296)%N -> (forall x, e = Some x -> (x <= 4294967296)%N) -> (base_weight s e <= 2 ^ 66)%N).
  { intros s e Hs He. unfold base_weight. destruct e as [e|].
    - specialize (He _ eq_refl). assert (e * e <= 4294967296 * 4294967296)%N by (apply N.mul_le_mono; auto).
      destruct (s =? e)%N, (s =? 1)%N; lia.
    - destruct (s =? 1)%N; lia. }
  pose proof (HB 1%N (k_end k) ltac:(lia) H2). pose proof (HB (k_start k) (k_end k) H1 H2).
  destruct (k_start k =? 0)%N; [destruct (k_end k) as [[|]|]|]; destruct (k_sep k); lia.
Qed.

Lemma weight_bound : forall k, valid_key k -> (weight k < 2 ^ 80)%N.
Proof. intros k [H1 H2]. apply weight_bound_u32; [lia|]. intros e He. specialize (H2 e He). lia. Qed.
