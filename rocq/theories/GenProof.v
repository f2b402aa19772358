(** Weighted choice and random generation without negative rules. *)

From Coq Require Import List Arith NArith ZArith Bool Lia SpecFloat.
From Verif Require Import Base ListFacts Spec SpecGen GrammarFacts LoopModel LoopFacts HistoryModel CfgModel View
  BitSetModel SetView SetProof SetsModel SetsProof LRProof FloatModel SpecFloats FloatProof FloatProof2 GenModel.
Import ListNotations.
Local Open Scope nat_scope.
Local Notation length := List.length.

(** * The weighted productions of a symbol *)
Definition alts (g : cfg) (A : nat) : list rule := filter (fun r => lhs r =? A) (rules g).

Definition weigh (w : weighted_list) (r : rule) : weighted_list :=
  mkWlist (f64_add (wl_total w) (rule_weight r)) (wl_rhs w ++ [mkWrhs (wl_total w) (rhs r)]).

Lemma weighted_fold : forall l m A,
  map_get (fold_left (fun m r => add_weight m (rule_weight r) (lhs r) (rhs r)) l m) A =
  match filter (fun r => lhs r =? A) l with
  | [] => map_get m A
  | rs => Some (fold_left weigh rs (match map_get m A with Some w => w | None => mkWlist f64_zero [] end))
  end.
Proof.
  induction l as [|x l IH]; intros m A; cbn [fold_left filter]; auto.
  rewrite IH. unfold add_weight. rewrite map_get_put. destruct (Nat.eqb_spec (lhs x) A) as [E|E].
  - rewrite E. destruct (filter (fun r => lhs r =? A) l) eqn:F; cbn [fold_left]; reflexivity.
  - reflexivity.
Qed.

Lemma weighted_get : forall g A, map_get (weighted g) A =
  match alts g A with [] => None | rs => Some (fold_left weigh rs (mkWlist f64_zero [])) end.
Proof. intros. unfold weighted. rewrite weighted_fold. unfold alts. destruct (filter _ _); auto. Qed.

Lemma weigh_rhs : forall rs w, map wr_rhs (wl_rhs (fold_left weigh rs w)) = map wr_rhs (wl_rhs w) ++ map rhs rs.
Proof.
  induction rs as [|r rs IH]; intros w; cbn [fold_left map]; [rewrite app_nil_r; auto|].
  rewrite IH. unfold weigh. cbn [wl_rhs]. rewrite map_app, <- app_assoc. auto.
Qed.

Lemma alts_In : forall g A r, In r (map rhs (alts g A)) <-> prods g A r.
Proof.
  intros. unfold alts. rewrite in_map_iff. split.
  - intros [x [<- H]]. apply filter_In in H. destruct H as [H1 H2]. apply Nat.eqb_eq in H2. exists x. auto.
  - intros [x [H1 [H2 H3]]]. exists x. split; auto. apply filter_In. split; auto. apply Nat.eqb_eq. auto.
Qed.

(** * The binary search stays in range *)
Definition not_nan (l : list weighted_rhs) : Prop := forall x, In x l -> nn (wr_from x).

Lemma compare_nn : forall l x v, not_nan l -> In x l ->
  match compare_weight x v with Ok _ => True | Panic => v = S754_nan | OutOfFuel => False end.
Proof.
  intros l x v HL Hx. unfold compare_weight. destruct (f64_cmp (wr_from x) v) eqn:E; auto.
  apply (cmp_nn (wr_from x)); auto.
Qed.

Lemma search_base_lt : forall v l, not_nan l -> forall fuel size base, 1 <= size -> base + size <= length l ->
  match search_base v l fuel size base with Ok b => b < length l | Panic => v = S754_nan | OutOfFuel => False end.
Proof.
  intros v l HN. induction fuel as [|fuel IH]; intros size base H1 H2; cbn [search_base]; [lia|].
  destruct (Nat.ltb_spec 1 size); [|lia].
  pose proof (Nat.div2_odd size) as HD. assert (Nat.div2 size <= size - 1 /\ 1 <= Nat.div2 size).
  { destruct (Nat.odd size); simpl Nat.b2n in HD; lia. }
  unfold get_ix. destruct (nth_error l (base + Nat.div2 size)) as [w|] eqn:Ew; [|apply nth_error_None in Ew; lia]. cbn [bind].
  pose proof (compare_nn l w v HN (nth_error_In _ _ Ew)) as HC. destruct (compare_weight w v) as [c| |]; cbn [bind]; auto.
  apply IH; [lia|]. destruct c; lia.
Qed.

Lemma search_index_le : forall v l, not_nan l ->
  match search_index v l with Ok b => b <= length l | Panic => v = S754_nan | OutOfFuel => False end.
Proof.
  intros v l HN. unfold search_index. destruct l as [|x l]; [simpl; lia|].
  set (l' := x :: l) in *. pose proof (search_base_lt v l' HN (length l') (length l') 0) as HS.
  destruct (search_base v l' (length l') (length l') 0) as [b| |]; cbn [bind]; try (apply HS; simpl; lia).
  assert (b < length l') by (apply HS; simpl; lia). unfold get_ix.
  destruct (nth_error l' b) as [w|] eqn:Ew; [|apply nth_error_None in Ew; lia]. cbn [bind].
  pose proof (compare_nn l' w v HN (nth_error_In _ _ Ew)) as HC. destruct (compare_weight w v) as [c| |]; cbn [bind]; auto.
  destruct c; lia.
Qed.

Lemma weigh_nn : forall rs w, nn (wl_total w) -> not_nan (wl_rhs w) ->
  nn (wl_total (fold_left weigh rs w)) /\ not_nan (wl_rhs (fold_left weigh rs w)).
Proof.
  induction rs as [|r rs IH]; intros w H1 H2; cbn [fold_left]; auto. apply IH; unfold weigh; cbn [wl_total wl_rhs].
  - apply nn_add; auto. unfold rule_weight. apply nn_div_of.
  - intros x Hx. apply in_app_or in Hx. destruct Hx as [Hx|[<-|[]]]; auto.
Qed.

(** What a source is asked for *)
Definition asked (g : cfg) (q : f64) : Prop := exists A w, map_get (weighted g) A = Some w /\ q = wl_total w.
Definition fails {R : Type} (generate : R -> f64 -> res (f64 * R)) (rng : R) (q : f64) : Prop :=
  generate rng q = Panic \/ exists rng', generate rng q = Ok (S754_nan, rng').

(** * The loop *)
Section Steps.
  Context {St Re : Type} (step : St -> St + Re).

  Lemma steps_result : forall s n s' r p, steps step s n s' -> step s' = inr r -> n < 2 ^ p -> iter_pow step p s = inr r.
  Proof.
    intros s n s' r p HS Hr Hn. destruct (iter_pow step p s) as [t|r'] eqn:E.
    - exfalso. apply iter_pow_inl in E. revert E Hn. generalize (2 ^ p). induction HS as [s|s s1 n s2 H HS IH]; intros m E Hn.
      + inversion E; subst; [lia|congruence].
      + inversion E as [|a b m' c Ha Hb]; subst; [lia|]. assert (b = s1) by congruence. subst. apply (IH Hr m'); auto. lia.
    - apply iter_pow_inr in E. destruct E as [m [t [_ [HS' Hr']]]]. f_equal.
      revert m HS'. induction HS as [s|s s1 n s2 H HS IH]; intros m HS'.
      + inversion HS'; subst; congruence.
      + inversion HS' as [|a b m' c Ha Hb]; subst; [congruence|]. assert (b = s1) by congruence. subst. apply (IH Hr) with m'; auto. lia.
  Qed.

  Lemma steps_last : forall s n s' s'', steps step s n s' -> step s' = inl s'' -> steps step s (n + 1) s''.
  Proof. intros. eapply steps_app; eauto. econstructor; eauto. constructor. Qed.

  (** A loop that never stops *)
  Lemma iter_pow_forever : forall (I : St -> Prop), (forall s, I s -> exists s', step s = inl s' /\ I s') ->
    forall p s, I s -> exists s', iter_pow step p s = inl s' /\ I s'.
  Proof.
    intros I HI. induction p as [|p IH]; intros s Hs; cbn [iter_pow]; auto.
    destruct (IH s Hs) as [s1 [-> H1]]. apply IH. auto.
  Qed.
End Steps.

Lemma two_pow_gt : forall n, n < 2 ^ n.
Proof. intros. apply Nat.pow_gt_lin_r. lia. Qed.

Section Gen.
  Context {R : Type} (generate : R -> f64 -> res (f64 * R)) (mutate_start : R -> N -> R)
          (to_char : nat -> R -> option nat * R).
  Context (g : cfg).
  Hypothesis HC : closed_rules g.
  Context (ts : bitset).
  Hypothesis Hts : terminal_symbols g = Ok ts.

  Lemma ts_spec : length ts = num_syms g /\ forall s, member ts s <-> s < num_syms g /\ terminal (prods g) s.
  Proof.
    destruct (bs_terminal_spec g HC) as [b [E [HL HM]]]. unfold terminal_symbols in Hts.
    assert (b = ts) by congruence. subst. auto.
  Qed.

  Lemma ts_get : forall s, match bs_get ts s with
    | Ok true => s < num_syms g /\ terminal (prods g) s
    | Ok false => s < num_syms g /\ alts g s <> []
    | Panic => num_syms g <= s
    | OutOfFuel => False
    end.
  Proof.
    intros s. destruct ts_spec as [HL HM]. unfold bs_get, get_ix. destruct (nth_error ts s) as [[|]|] eqn:E.
    - apply HM. exact E.
    - assert (s < num_syms g) by (rewrite <- HL; apply nth_error_Some; congruence). split; auto. intros HN.
      assert (HT : member ts s).
      { apply HM. split; auto. intros r Hr. apply alts_In in Hr. rewrite HN in Hr. destruct Hr. }
      unfold member in HT. congruence.
    - apply nth_error_None in E. lia.
  Qed.

  (** The chosen right-hand side belongs to the symbol; the choice fails only if the source does. *)
  Lemma pick_spec : forall A rng, alts g A <> [] ->
    match pick_rhs generate (weighted g) A rng with
    | Ok (r, rng') => prods g A r
    | Panic => exists q, asked g q /\ fails generate rng q
    | OutOfFuel => exists q, generate rng q = OutOfFuel
    end.
  Proof using Type.
    intros A rng HN. unfold pick_rhs. rewrite weighted_get.
    assert (HM : map wr_rhs (wl_rhs (fold_left weigh (alts g A) (mkWlist f64_zero []))) = map rhs (alts g A)) by apply weigh_rhs.
    destruct (alts g A) as [|x rs] eqn:EA; [congruence|]. rewrite <- EA in *.
    set (w := fold_left weigh (alts g A) (mkWlist f64_zero [])) in *.
    assert (HL : length (wl_rhs w) = length (alts g A)).
    { rewrite <- (map_length wr_rhs), HM, map_length. auto. }
    assert (HP : 1 <= length (alts g A)) by (rewrite EA; simpl; lia).
    assert (HG : forall i, i < length (wl_rhs w) -> exists y, get_ix (wl_rhs w) i = Ok y /\ prods g A (wr_rhs y)).
    { intros i Hi. unfold get_ix. destruct (nth_error (wl_rhs w) i) as [y|] eqn:Ey; [|apply nth_error_None in Ey; lia].
      exists y. split; auto. apply alts_In. rewrite <- HM. apply in_map. eapply nth_error_In; eauto. }
    destruct (Nat.eqb_spec (length (wl_rhs w)) 1).
    - destruct (HG 0) as [y [-> Hy]]; [lia|]. cbn [bind]. auto.
    - assert (HA : asked g (wl_total w)).
      { exists A, w. split; auto. rewrite weighted_get. destruct (alts g A); [congruence|]. auto. }
      destruct (generate rng (wl_total w)) as [[v rng']| |] eqn:Eg; cbn [bind]; [|exists (wl_total w); unfold fails; auto|eauto].
      assert (HN' : not_nan (wl_rhs w)) by (apply weigh_nn; [reflexivity|intros ? []]).
      pose proof (search_index_le v (wl_rhs w) HN') as HS. destruct (search_index v (wl_rhs w)) as [i| |]; cbn [bind]; [| |destruct HS].
      + destruct (HG (i - 1)) as [y [-> Hy]]; [lia|]. cbn [bind]. auto.
      + subst v. exists (wl_total w). unfold fails. eauto.
  Qed.

  Local Notation step := (gen_step generate mutate_start to_char (weighted g) ts).

  (** * No negative rules *)
  Record lang_inv (start : nat) (limit : option limits) (st : @gen R) : Prop := {
    li_derives : derives (prods g) [start] (g_result st ++ g_work st);
    li_terminal : Forall (terminal (prods g)) (g_result st);
    li_limit : match limit with Some lim => (N.of_nat (length (g_result st)) <= terminals lim)%N | None => True end;
    li_back : g_back st = [];
    li_chars : forall tc, (forall s r, fst (to_char s r) = tc s) -> g_string st = chars_of tc (g_result st) }.

  Lemma chars_of_app : forall tc u v, chars_of tc (u ++ v) = chars_of tc u ++ chars_of tc v.
  Proof. induction u as [|s u IH]; intros; simpl; auto. rewrite IH. destruct (tc s); auto. Qed.

  Lemma chars_snoc : forall tc u s, chars_of tc (u ++ [s]) = match tc s with Some c => chars_of tc u ++ [c] | None => chars_of tc u end.
  Proof. intros. rewrite chars_of_app. simpl. destruct (tc s); auto. apply app_nil_r. Qed.

  Lemma lang_step : forall start limit st, lang_inv start limit st ->
    match step [] limit st with
    | inl st' => lang_inv start limit st'
    | inr (Ok (Generated result string)) => g_work st = [] /\ result = g_result st /\ string = g_string st
    | inr _ => True
    end.
  Proof.
    intros start limit st [I1 I2 I3 I4 I5]. unfold gen_step. destruct (g_work st) as [|sym W] eqn:EW; [auto|].
    pose proof (ts_get sym) as HT. destruct (bs_get ts sym) as [[|]| |]; auto.
    - unfold gen_terminal. cbn [g_result g_string g_rng g_back g_work g_attempts]. rewrite I4. cbn [map_get].
      destruct (to_char sym (g_rng st)) as [c rng] eqn:Ec.
      destruct (match limit with Some lim => _ | None => false end) eqn:Ev; auto.
      constructor; cbn [g_result g_string g_rng g_back g_work g_attempts]; auto.
      + rewrite <- app_assoc. auto.
      + apply Forall_app. split; auto. constructor; auto. apply HT.
      + destruct limit as [lim|]; auto. apply N.ltb_ge in Ev. auto.
      + intros tc Htc. rewrite chars_snoc, <- (Htc sym (g_rng st)), Ec, <- I5 by auto. cbn [fst]. destruct c; auto.
    - cbn [map_get]. pose proof (pick_spec sym (g_rng st) (proj2 HT)) as HP.
      destruct (pick_rhs generate (weighted g) sym (g_rng st)) as [[r rng]| |]; auto.
      constructor; cbn [g_result g_string g_rng g_back g_work g_attempts]; auto.
      eapply derives_trans; [exact I1|]. change (sym :: W) with ([sym] ++ W).
      apply (derives_ctx (prods g) (g_result st) W [sym] r). apply derives_rule. auto.
  Qed.

  Theorem random_language : forall p start limit rng result string,
    random generate mutate_start to_char p g start limit rng [] = Ok (Generated result string) ->
    language (prods g) start result /\
    match limit with Some lim => (N.of_nat (length result) <= terminals lim)%N | None => True end /\
    (forall tc, (forall s r, fst (to_char s r) = tc s) -> string = chars_of tc result).
  Proof.
    intros p start limit rng result string H. unfold random in H. rewrite Hts in H. cbn [bind] in H. unfold run_loop in H.
    change (negative_map []) with (@nil (nat * list nat)) in H.
    destruct (iter_pow (step [] limit) p (mkGen [start] [] [] rng [] [])) as [s|r] eqn:E; [discriminate|].
    destruct (iter_pow_inv (step [] limit) (lang_inv start limit)) with (p := p) (s := mkGen [start] [] [] rng [] []) (r := r)
      as [st [HI Hst]]; auto.
    - intros s s' HS Es. pose proof (lang_step start limit s HS) as HL. rewrite Es in HL. auto.
    - constructor; cbn [g_result g_string g_rng g_back g_work g_attempts]; auto; try constructor.
      destruct limit as [lim|]; auto. simpl. lia.
    - pose proof (lang_step start limit st HI) as HL. rewrite Hst, H in HL. destruct HL as [HW [-> ->]].
      destruct HI as [I1 I2 I3 I4 I5]. rewrite HW, app_nil_r in I1. split; [split; auto|]. split; auto.
  Qed.
End Gen.
