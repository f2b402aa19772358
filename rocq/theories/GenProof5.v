(** From the map of the negative rules to their list; facts about every outcome. *)

From Coq Require Import List Arith NArith ZArith Bool Lia.
From Verif Require Import Base ListFacts Spec SpecGen GrammarFacts LoopModel LoopFacts HistoryModel CfgModel View
  BitSetModel SetView SetProof SetsModel SetsProof LRProof FloatModel GenModel GenProof GenProof2 GenProof4.
Import ListNotations.

Local Open Scope nat_scope.
Local Notation length := List.length.

Lemma negative_map_fold : forall l m A,
  (forall f, forbids l A f -> map_get (fold_left (fun m (p : nat * list nat) => map_put m (fst p) (snd p)) l m) A = Some f) /\
  (~ In A (map fst l) -> map_get (fold_left (fun m (p : nat * list nat) => map_put m (fst p) (snd p)) l m) A = map_get m A).
Proof.
  induction l as [|[B f0] l IH]; intros m A; cbn [fold_left fst snd map]; split.
  - intros f [l1 [l2 [H _]]]. destruct l1; discriminate.
  - auto.
  - intros f [l1 [l2 [H HN]]]. destruct l1 as [|x l1]; simpl in H.
    + injection H as -> -> ->. rewrite (proj2 (IH _ _)); auto. rewrite map_get_put, Nat.eqb_refl. auto.
    + injection H as _ ->. apply IH. exists l1, l2. auto.
  - intros HN. simpl in HN. rewrite (proj2 (IH _ _)) by tauto. rewrite map_get_put. destruct (Nat.eqb_spec B A); [tauto|auto].
Qed.

Lemma forbids_dec : forall l A, (exists f, forbids l A f) \/ ~ In A (map fst l).
Proof.
  induction l as [|[B f] l IH]; intros A; [right; auto|]. destruct (IH A) as [[f' [l1 [l2 [-> H]]]]|HN].
  - left. exists f', ((B, f) :: l1), l2. auto.
  - destruct (Nat.eq_dec B A) as [->|E]; [|right; simpl; tauto]. left. exists f, [], l. auto.
Qed.

Lemma negative_map_spec : forall l A f, map_get (negative_map l) A = Some f <-> forbids l A f.
Proof.
  intros l A f. destruct (negative_map_fold l [] A) as [H1 H2]. fold (negative_map l) in H1, H2. split; auto. intros H.
  destruct (forbids_dec l A) as [[f' Hf]|HN].
  - rewrite (H1 f' Hf) in H. injection H as <-. auto.
  - rewrite (H2 HN) in H. discriminate.
Qed.

Lemma neg_sym_spec : forall g l A, neg_sym g (negative_map l) A <-> negative_symbol l (prods g) A.
Proof.
  intros. unfold neg_sym, negative_symbol. split; intros [[f Hf] H]; split; auto; exists f; apply negative_map_spec; auto.
Qed.

Lemma keeping_ext : forall (N M : nat -> Prop) P, (forall A, N A <-> M A) ->
  forall u w, derives (keeping N P) u w -> derives (keeping M P) u w.
Proof. intros N M P H u w. apply derives_mono. intros A r [H1 H2]. split; auto. rewrite <- H. auto. Qed.
Lemma erased_ext : forall (N M : nat -> Prop), (forall A, N A <-> M A) -> forall u w, erased N u w -> erased M u w.
Proof.
  intros N M H u w HE. induction HE; [constructor|apply er_drop|apply er_keep]; auto; [rewrite <- H|rewrite <- H]; auto.
Qed.
Lemma erasing_ext : forall l P A r, erasing (negative (negative_map l)) P A r <-> erasing (negative_symbol l P) P A r.
Proof.
  intros l P A r. unfold erasing. split.
  - intros [[[f Hf] [H1 H2]]|[H1 H2]].
    + left. split; auto. split; auto. exists f. apply negative_map_spec. auto.
    + right. split; auto. intros [[f Hf] _]. apply H1. exists f. apply negative_map_spec. auto.
  - intros [[[[f Hf] _] [H1 H2]]|[H1 H2]].
    + left. split; auto. exists f. apply negative_map_spec. auto.
    + right. split; auto. intros [f Hf]. apply H1. split; [exists f; apply negative_map_spec; auto|exists r; auto].
Qed.

Section Out.
  Context {R : Type} (generate : R -> f64 -> res (f64 * R)) (mutate_start : R -> N -> R)
          (to_char : nat -> R -> option nat * R).
  Context (g : cfg).
  Hypothesis HC : closed_rules g.

  Definition negative_outcome (l : list (nat * list nat)) (start : nat) (limit : option limits) (result string : list nat) : Prop :=
    exists w, derives (keeping (negative_symbol l (prods g)) (prods g)) [start] w /\
      Forall (fun x => terminal (prods g) x \/ negative_symbol l (prods g) x) w /\
      erased (negative_symbol l (prods g)) w result /\
      match limit with Some lim => (N.of_nat (length result) <= terminals lim)%N | None => True end /\
      (forall tc, (forall x r, fst (to_char x r) = tc x) ->
         string = chars_of tc result /\
         forall u A v f y, w = u ++ A :: v -> nonterminal (prods g) A -> forbids l A f -> f <> [] ->
           erased (negative_symbol l (prods g)) v y -> ~ exists x, chars_of tc y = f ++ x).

  Theorem random_negative : forall l start limit p rng, start < num_syms g ->
    at_most_one (negative_symbol l (prods g)) (prods g) start ->
    match random generate mutate_start to_char p g start limit rng l with
    | Ok (Generated result string) => negative_outcome l start limit result string
    | Ok _ => True
    | Panic => exists rng q, asked g q /\ fails generate rng q
    | OutOfFuel => True
    end.
  Proof.
    intros l start limit p rng Hs H1. destruct (bs_terminal_spec g HC) as [ts [Et _]].
    unfold random, terminal_symbols. rewrite Et. cbn [bind].
    pose proof (run_negative generate mutate_start to_char g HC ts Et (negative_map l) start limit) as HR.
    assert (Hone : forall a b c A B, derives (keeping (neg_sym g (negative_map l)) (prods g)) [start] (a ++ A :: b ++ B :: c) ->
      neg_sym g (negative_map l) A -> neg_sym g (negative_map l) B -> False).
    { intros a b c A B HD HA HB. apply neg_sym_spec in HA. apply neg_sym_spec in HB. apply (H1 a A b B c HA HB).
      revert HD. apply keeping_ext. apply neg_sym_spec. }
    specialize (HR Hone Hs p rng).
    destruct (run_loop _ p _) as [[result string| |]| |]; auto.
    destruct HR as [w [W1 [W2 [W3 [W4 W5]]]]]. exists w. split; [|split; [|split; [|split; [exact W4|]]]].
    - revert W1. apply keeping_ext. apply neg_sym_spec.
    - revert W2. apply Forall_impl. intros x. rewrite neg_sym_spec. auto.
    - revert W3. apply erased_ext. apply neg_sym_spec.
    - intros tc Htc. destruct (W5 tc Htc) as [V1 V2]. split; auto. intros u A v f y Hw HA Hf Hne Hy.
      assert (y = v); [|subst y; apply (V2 u A v f Hw); auto].
      + apply (erased_none _ _ _ Hy). apply Forall_forall. intros B HB HN. apply in_split in HB. destruct HB as [v1 [v2 ->]].
        apply (H1 u A v1 B v2); auto; [split; eauto|]. rewrite <- Hw. revert W1. apply keeping_ext. apply neg_sym_spec.
      + apply neg_sym_spec. split; eauto.
      + apply negative_map_spec. auto.
  Qed.

  (** Whatever the negative rules *)
  Definition oinv (limit : option limits) (st : @gen R) : Prop :=
    Forall (terminal (prods g)) (g_result st) /\
    match limit with Some lim => (N.of_nat (length (g_result st)) <= terminals lim)%N | None => True end.

  Lemma oinv_backtrack : forall limit states st, oinv limit st ->
    match gen_backtrack mutate_start states st with Ok (inl st') => oinv limit st' | Ok (inr (Generated _ _)) => False | _ => True end.
  Proof.
    induction states as [|s states IH]; intros st HI; cbn [gen_backtrack]; auto.
    destruct (ends_with (g_string st) (bt_forbidden s)); [|apply IH; auto]. destruct (map_get (g_attempts st) _) as [a|]; auto.
    destruct (N.ltb (256 * 64) (a + 1)); auto. apply IH. destruct HI as [I1 I2]. split; cbn [g_result].
    - rewrite <- (firstn_skipn (bt_result_len s) (g_result st)) in I1. apply Forall_app in I1. tauto.
    - destruct limit; auto. rewrite firstn_length. clear - I2. lia.
  Qed.

  Theorem random_outcome : forall l start limit p rng result string,
    random generate mutate_start to_char p g start limit rng l = Ok (Generated result string) ->
    Forall (terminal (prods g)) result /\
    match limit with Some lim => (N.of_nat (length result) <= terminals lim)%N | None => True end.
  Proof.
    intros l start limit p rng result string H. destruct (bs_terminal_spec g HC) as [ts [Et _]].
    unfold random, terminal_symbols in H. rewrite Et in H. cbn [bind] in H. unfold run_loop in H.
    set (step := gen_step generate mutate_start to_char (weighted g) ts (negative_map l) limit) in *.
    assert (HS : forall st, oinv limit st -> match step st with
      | inl st' => oinv limit st'
      | inr (Ok (Generated result string)) => result = g_result st
      | _ => True end).
    { intros st HI. unfold step, gen_step. destruct (g_work st) as [|sym W]; auto.
      pose proof (ts_get g HC ts Et sym) as HT. destruct (bs_get ts sym) as [[|]| |]; auto.
      - unfold gen_terminal. cbn [g_result g_string g_rng g_back g_work g_attempts].
        destruct (to_char sym (g_rng st)) as [c rng0].
        destruct (match limit with Some lim => _ | None => false end) eqn:Ev; auto.
        set (st1 := mkGen _ _ _ _ _ _).
        assert (HI1 : oinv limit st1).
        { destruct HI as [I1 I2]. split; unfold st1; cbn [g_result].
          - apply Forall_app. split; auto. constructor; auto. apply HT.
          - destruct limit; auto. apply N.ltb_ge in Ev. auto. }
        destruct (map_get (g_back st) _) as [states|]; auto.
        pose proof (oinv_backtrack limit states st1 HI1) as HB.
        destruct (gen_backtrack mutate_start states st1) as [[st'|[| |]]| |]; auto; tauto.
      - destruct (map_get (negative_map l) sym); [exact HI|].
        destruct (pick_rhs generate (weighted g) sym (g_rng st)) as [[r rng0]| |]; auto. }
    destruct (iter_pow step p (mkGen [start] [] [] rng [] [])) as [st|r] eqn:E; [discriminate|]. subst r.
    destruct (iter_pow_inv step (oinv limit)) with (p := p) (s := mkGen [start] [] [] rng [] []) (r := Ok (Generated result string))
      as [st [HI Hst]]; auto.
    - intros s s' Hs Es. specialize (HS s Hs). rewrite Es in HS. auto.
    - split; cbn [g_result length]; auto. destruct limit; auto. lia.
    - specialize (HS st HI). rewrite Hst in HS. subst. exact HI.
  Qed.
End Out.
