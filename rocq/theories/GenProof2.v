(** Random generation ends when the grammar has no left recursion. *)

From Coq Require Import List Arith NArith ZArith Bool Lia.
From Verif Require Import Base ListFacts Spec SpecGen GrammarFacts LoopModel LoopFacts HistoryModel CfgModel View
  BitSetModel SetView SetProof SetsModel SetsProof LRProof FloatModel GenModel GenProof.
Import ListNotations.

Local Open Scope nat_scope.
Local Notation length := List.length.

Definition attempt_of (att : list (nat * N)) (k : nat) : N :=
  match map_get att k with Some a => a | None => 0%N end.
Definition attempts_left (K : nat) (att : list (nat * N)) : N :=
  fold_right (fun k n => (16384 - attempt_of att k) + n)%N 0%N (seq 0 (S K)).

Lemma sum_le : forall (f h : nat -> N) l, (forall k, In k l -> (f k <= h k)%N) ->
  (fold_right (fun k n => f k + n) 0 l <= fold_right (fun k n => h k + n) 0 l)%N.
Proof.
  induction l as [|k l IH]; intros H; cbn [fold_right]; [lia|].
  pose proof (H k (or_introl eq_refl)). specialize (IH (fun j Hj => H j (or_intror Hj))). lia.
Qed.
Lemma sum_lt : forall (f h : nat -> N) l x, (forall k, In k l -> (f k <= h k)%N) -> In x l -> (f x < h x)%N ->
  (fold_right (fun k n => f k + n) 0 l < fold_right (fun k n => h k + n) 0 l)%N.
Proof.
  induction l as [|k l IH]; intros x H Hx Hlt; cbn [fold_right]; [destruct Hx|].
  pose proof (H k (or_introl eq_refl)) as Hk. destruct Hx as [->|Hx].
  - pose proof (sum_le f h l (fun j Hj => H j (or_intror Hj))). lia.
  - specialize (IH x (fun j Hj => H j (or_intror Hj)) Hx Hlt). lia.
Qed.

Lemma attempts_put : forall K att k a, k <= K -> map_get att k = Some a -> (a + 1 <= 16384)%N ->
  (attempts_left K (map_put att k (a + 1)%N) < attempts_left K att)%N.
Proof.
  intros K att k a Hk Ha Hlim. unfold attempts_left.
  apply (sum_lt (fun j => 16384 - attempt_of (map_put att k (a + 1)%N) j)%N (fun j => 16384 - attempt_of att j)%N) with k.
  - intros j _. unfold attempt_of. rewrite map_get_put. destruct (Nat.eqb_spec k j); [subst; rewrite Ha; lia|lia].
  - apply in_seq. lia.
  - unfold attempt_of. rewrite map_get_put, Nat.eqb_refl, Ha. lia.
Qed.

Lemma attempts_zero : forall K att k, map_get att k = None ->
  attempts_left K (map_put att k 0%N) = attempts_left K att.
Proof.
  intros K att k Hk. unfold attempts_left. apply N.le_antisymm.
  - apply (sum_le (fun j => 16384 - attempt_of (map_put att k 0%N) j)%N (fun j => 16384 - attempt_of att j)%N).
    intros j _. unfold attempt_of. rewrite map_get_put. destruct (Nat.eqb_spec k j); [subst; rewrite Hk; lia|lia].
  - apply (sum_le (fun j => 16384 - attempt_of att j)%N (fun j => 16384 - attempt_of (map_put att k 0%N) j)%N).
    intros j _. unfold attempt_of. rewrite map_get_put. destruct (Nat.eqb_spec k j); [subst; rewrite Hk; lia|lia].
Qed.

Section Gen.
  Context {R : Type} (generate : R -> f64 -> res (f64 * R)) (mutate_start : R -> N -> R)
          (to_char : nat -> R -> option nat * R).
  Hypothesis Hgen : forall rng q, generate rng q <> OutOfFuel.
  Context (g : cfg).
  Hypothesis HC : closed_rules g.
  Context (ts : bitset).
  Hypothesis Hts : terminal_symbols g = Ok ts.
  Context (neg : list (nat * list nat)) (lim : limits).
  Let K := N.to_nat (terminals lim).

  Local Notation step := (gen_step generate mutate_start to_char (weighted g) ts neg (Some lim)).

  Definition negative (A : nat) : Prop := exists f, map_get neg A = Some f.
  Local Notation P := (erasing negative (prods g)).

  Definition ends (st : @gen R) : Prop :=
    exists n st' r, steps step st n st' /\ step st' = inr r /\ r <> OutOfFuel.

  Lemma ends_step : forall st st', step st = inl st' -> ends st' -> ends st.
  Proof.
    intros st st' E [n [s [r [H1 [H2 H3]]]]]. exists (S n), s, r. split; auto. econstructor; eauto.
  Qed.
  Lemma ends_steps : forall n st st', steps step st n st' -> ends st' -> ends st.
  Proof.
    intros n st st' HS [m [s [r [H1 [H2 H3]]]]]. exists (n + m), s, r. split; auto. eapply steps_app; eauto.
  Qed.

  Definition good_state (key : nat) (s : @bt_state R) : Prop :=
    length (bt_forbidden s) <= key /\ key - length (bt_forbidden s) <= bt_result_len s.

  Record ginv (st : @gen R) : Prop := {
    gi_string : length (g_string st) <= length (g_result st);
    gi_result : length (g_result st) <= K;
    gi_back : forall key l s, map_get (g_back st) key = Some l -> In s l -> good_state key s }.

  Definition mu (st : @gen R) : N :=
    (attempts_left K (g_attempts st) * (N.of_nat K + 1) + (N.of_nat K - N.of_nat (length (g_result st))))%N.

  Lemma backtrack_spec : forall key states st, ginv st -> (forall s, In s states -> good_state key s) ->
    length (g_string st) <= key ->
    match gen_backtrack mutate_start states st with
    | Ok (inl st') => ginv st' /\ (st' = st \/ (attempts_left K (g_attempts st') < attempts_left K (g_attempts st))%N)
    | Ok (inr _) => True
    | Panic => True
    | OutOfFuel => False
    end.
  Proof.
    intros key. induction states as [|s states IH]; intros st HI HS Hk; cbn [gen_backtrack]; [auto|].
    destruct (ends_with (g_string st) (bt_forbidden s)); [|apply IH; auto; intros; apply HS; right; auto].
    set (string := firstn (length (g_string st) - length (bt_forbidden s)) (g_string st)).
    destruct (map_get (g_attempts st) (length string)) as [a|] eqn:Ea; auto.
    destruct (N.ltb_spec (256 * 64) (a + 1)) as [Hl|Hl]; auto.
    destruct (HS s (or_introl eq_refl)) as [G1 G2]. destruct HI as [I1 I2 I3].
    assert (Hlen : length string = length (g_string st) - length (bt_forbidden s)).
    { unfold string. rewrite firstn_length. lia. }
    set (st1 := mkGen _ _ _ _ _ _).
    assert (HI1 : ginv st1).
    { constructor; unfold st1; cbn [g_string g_result g_back]; auto; rewrite ?firstn_length; lia. }
    assert (HM : (attempts_left K (g_attempts st1) < attempts_left K (g_attempts st))%N).
    { unfold st1. cbn [g_attempts]. apply attempts_put; auto; lia. }
    specialize (IH st1 HI1 (fun t Ht => HS t (or_intror Ht))).
    assert (length (g_string st1) <= key) by (unfold st1; cbn [g_string]; lia). specialize (IH H).
    destruct (gen_backtrack mutate_start states st1) as [[st'|]| |]; auto. destruct IH as [H1 [->|H2]]; split; auto. right. lia.
  Qed.

  (** What one step does *)
  Lemma step_spec : forall st A W, ginv st -> g_work st = A :: W ->
    match step st with
    | inl st' => ginv st' /\
        ((mu st' < mu st)%N \/
         (mu st' = mu st /\ A < num_syms g /\ exists r, P A r /\ g_work st' = r ++ W))
    | inr r => r <> OutOfFuel
    end.
  Proof.
    intros st A W HI HW. unfold gen_step. rewrite HW. pose proof (ts_get g HC ts Hts A) as HT.
    destruct (bs_get ts A) as [[|]| |]; [| |discriminate|tauto].
    - (* terminal *)
      unfold gen_terminal. cbn [g_result g_string g_rng g_back g_work g_attempts].
      destruct (to_char A (g_rng st)) as [c rng].
      destruct (N.ltb_spec (terminals lim) (N.of_nat (length (g_result st ++ [A])))) as [Hl|Hl]; [discriminate|].
      set (string := match c with Some ch => g_string st ++ [ch] | None => g_string st end).
      set (st1 := mkGen W (g_result st ++ [A]) string rng (g_back st) (g_attempts st)).
      destruct HI as [I1 I2 I3]. rewrite app_length in Hl. cbn [length] in Hl.
      assert (HI1 : ginv st1).
      { constructor; unfold st1; cbn [g_string g_result g_back]; auto.
        - rewrite app_length. cbn [length]. unfold string. destruct c; rewrite ?app_length; cbn [length]; lia.
        - rewrite app_length. cbn [length]. unfold K. lia. }
      assert (HM : (mu st1 < mu st)%N).
      { unfold mu, st1. cbn [g_attempts g_result]. rewrite app_length. cbn [length]. unfold K. lia. }
      destruct (map_get (g_back st) (length string)) as [states|] eqn:Es; [|auto].
      pose proof (backtrack_spec (length string) states st1 HI1) as HB.
      specialize (HB (fun s Hs => I3 _ _ s Es Hs) (le_n _)).
      destruct (gen_backtrack mutate_start states st1) as [[st'|out]| |]; try discriminate; [|tauto].
      destruct HB as [B1 [->|B2]]; [auto|]. split; auto. left.
      assert (HA : attempts_left K (g_attempts st1) = attempts_left K (g_attempts st)) by reflexivity. rewrite HA in B2.
      unfold mu. nia.
    - destruct HT as [HA HN]. destruct (map_get neg A) as [f|] eqn:Ef.
      + (* negative *)
        destruct HI as [I1 I2 I3]. unfold gen_negative. cbn [g_result g_string g_rng g_back g_work g_attempts]. split.
        * constructor; cbn [g_string g_result g_back]; auto. intros key l s. rewrite map_get_put.
          destruct (Nat.eqb_spec (length (g_string st) + length f) key) as [<-|Hk]; [|apply I3].
          intros E Hs. injection E as <-. apply in_app_iff in Hs. destruct Hs as [Hs|[<-|[]]].
          -- destruct (map_get (g_back st) (length (g_string st) + length f)) as [l|] eqn:El; [|destruct Hs].
             apply (I3 _ l); auto.
          -- unfold good_state. cbn [bt_forbidden bt_result_len]. lia.
        * right. split; [|split; auto].
          -- unfold mu. cbn [g_attempts g_result]. destruct (map_get (g_attempts st) (length (g_string st))) eqn:Ea; auto.
             rewrite attempts_zero; auto.
          -- exists []. split; auto. left. split; [exists f; auto|]. split; auto.
             destruct (alts g A) as [|x rs] eqn:Ex; [congruence|]. exists (rhs x). apply alts_In. rewrite Ex. left. auto.
      + (* expansion *)
        pose proof (pick_spec generate g A (g_rng st) HN) as HP.
        destruct (pick_rhs generate (weighted g) A (g_rng st)) as [[r rng]| |]; [|discriminate|destruct HP as [q Hq]; apply Hgen in Hq; tauto].
        destruct HI as [I1 I2 I3]. split; [constructor; auto|]. right. split; [auto|]. split; [auto|].
        exists r. split; [|auto]. right. split; auto. intros [f Hf]. congruence.
  Qed.

  (** [left A B]: [A] derives a string that starts with [B]. *)
  Definition left (A B : nat) : Prop := exists v, derives1 P [A] (B :: v).
  Hypothesis Hleft : forall A, ~ left_recursive P A.

  Lemma left_next : forall A r a B b, P A r -> r = a ++ B :: b -> derives P a [] -> left A B.
  Proof.
    intros A r a B b HP -> Ha. exists b. exists [], A, [], (a ++ B :: b). split; auto. split; auto. simpl. rewrite app_nil_r.
    apply (derives_ctx P [] (B :: b) a [] Ha).
  Qed.
  Lemma left_trans : forall A B C, left A B -> left B C -> left A C.
  Proof.
    intros A B C [v Hv] [u Hu]. exists (u ++ v). eapply derives1_trans_l; [exact Hv|].
    apply derives1_derives in Hu. apply (derives_ctx P [] v [B] (C :: u) Hu).
  Qed.

  Lemma nodup_bound : forall l n, NoDup l -> (forall x, In x l -> x < n) -> length l <= n.
  Proof.
    intros l n HN HL. rewrite <- (seq_length n 0). apply NoDup_incl_length; auto.
    intros x Hx. apply in_seq. specialize (HL x Hx). lia.
  Qed.

  Lemma symbol_erased : forall m,
    (forall st, ginv st -> (mu st < m)%N -> ends st) ->
    forall k l, k + length l = S (num_syms g) -> NoDup l -> (forall x, In x l -> x < num_syms g) ->
    forall A, (forall x, In x l -> left x A) ->
    forall st W, ginv st -> mu st = m -> g_work st = A :: W ->
    ends st \/ exists n st', steps step st n st' /\ ginv st' /\ mu st' = m /\ g_work st' = W /\ derives P [A] [].
  Proof.
    intros m HIH. induction k as [|k IH]; intros l Hk HND Hlt A HA st W HI Hm HW.
    - exfalso. pose proof (nodup_bound l _ HND Hlt). lia.
    - pose proof (step_spec st A W HI HW) as HS. destruct (step st) as [st1|r] eqn:Es.
      + destruct HS as [HI1 [Hmu|[Hmu [HAn [r [HP HW1]]]]]].
        * left. apply (ends_step st st1 Es). apply HIH; auto. lia.
        * assert (HAl : ~ In A l) by (intros Hin; destruct (HA A Hin) as [v Hv]; apply (Hleft A); exists v; auto).
          (* the symbols of r, one by one *)
          assert (HR : forall b a, r = a ++ b -> derives P a [] -> forall st2, ginv st2 -> mu st2 = m -> g_work st2 = b ++ W ->
            ends st2 \/ exists n st', steps step st2 n st' /\ ginv st' /\ mu st' = m /\ g_work st' = W /\ derives P b []).
          { induction b as [|B b IHb]; intros a Hr Ha st2 HI2 Hm2 HW2.
            - right. exists 0, st2. split; [constructor|]. split; auto. split; auto. split; auto. constructor.
            - assert (HAB : left A B) by (eapply left_next; eauto).
              destruct (IH (A :: l)) with (A := B) (st := st2) (W := b ++ W) as [He|[n [st3 [S1 [S2 [S3 [S4 S5]]]]]]]; auto.
              + cbn [length]. lia.
              + constructor; auto.
              + intros x [<-|Hx]; auto.
              + intros x [<-|Hx]; auto. apply left_trans with A; auto.
              + destruct (IHb (a ++ [B])) with (st2 := st3) as [He|[n2 [st4 [T1 [T2 [T3 [T4 T5]]]]]]]; auto.
                * rewrite <- app_assoc. auto.
                * replace (@nil nat) with (@nil nat ++ @nil nat) by auto. apply derives_app; auto.
                * left. eapply ends_steps; eauto.
                * right. exists (n + n2), st4. split; [eapply steps_app; eauto|]. split; auto. split; auto. split; auto.
                  change (B :: b) with ([B] ++ b). replace (@nil nat) with (@nil nat ++ @nil nat) by auto. apply derives_app; auto. }
          destruct (HR r []) with (st2 := st1) as [He|[n [st' [T1 [T2 [T3 [T4 T5]]]]]]]; auto.
          -- constructor.
          -- lia.
          -- left. apply (ends_step st st1 Es He).
          -- right. exists (S n), st'. split; [econstructor; eauto|]. split; auto. split; auto. split; auto.
             eapply derives_rule_then; eauto.
      + left. exists 0, st, r. split; [constructor|auto].
  Qed.

  Theorem gen_ends : forall st, ginv st -> ends st.
  Proof.
    intros st. remember (mu st) as m eqn:Em. revert st Em. induction m as [m IHm] using (well_founded_ind N.lt_wf_0).
    intros st Em HI.
    assert (HIH : forall st, ginv st -> (mu st < m)%N -> ends st) by (intros s Hs Hm; apply (IHm (mu s)); auto).
    revert st Em HI.
    assert (HW : forall W st, g_work st = W -> m = mu st -> ginv st -> ends st); [|intros; eapply HW; eauto].
    induction W as [|A W IHW]; intros st HW Em HI.
    - exists 0, st, (Ok (Generated (g_result st) (g_string st))). split; [constructor|]. split; [|discriminate].
      unfold gen_step. rewrite HW. auto.
    - destruct (symbol_erased m HIH (S (num_syms g)) []) with (A := A) (st := st) (W := W) as [He|[n [st' [S1 [S2 [S3 [S4 _]]]]]]]; auto.
      + constructor.
      + intros x [].
      + intros x [].
      + eapply ends_steps; eauto.
  Qed.
End Gen.

Theorem random_ends : forall (R : Type) (generate : R -> f64 -> res (f64 * R)) (mutate_start : R -> N -> R)
    (to_char : nat -> R -> option nat * R) g start lim rng negative_rules,
  (forall rng q, generate rng q <> OutOfFuel) -> closed_rules g ->
  (forall A, ~ left_recursive (erasing (negative (negative_map negative_rules)) (prods g)) A) ->
  exists p, random generate mutate_start to_char p g start (Some lim) rng negative_rules <> OutOfFuel /\
    forall q, p <= q -> random generate mutate_start to_char q g start (Some lim) rng negative_rules =
                        random generate mutate_start to_char p g start (Some lim) rng negative_rules.
Proof.
  intros R generate mutate_start to_char g start lim rng neg Hgen HC HL.
  destruct (bs_terminal_spec g HC) as [ts [Et _]]. unfold random, terminal_symbols. rewrite Et. cbn [bind].
  destruct (gen_ends generate mutate_start to_char Hgen g HC ts Et (negative_map neg) lim HL (mkGen [start] [] [] rng [] []))
    as [n [st' [r [H1 [H2 H3]]]]].
  { constructor; cbn [g_string g_result g_back length]; try lia. intros key l s H. discriminate. }
  exists n. unfold run_loop.
  assert (HE : forall q, n <= q -> iter_pow (gen_step generate mutate_start to_char (weighted g) ts (negative_map neg) (Some lim)) q
                (mkGen [start] [] [] rng [] []) = inr r).
  { intros q Hq. eapply steps_result; eauto. pose proof (two_pow_gt q). lia. }
  rewrite (HE n) by auto. split; auto. intros q Hq. rewrite HE; auto.
Qed.
