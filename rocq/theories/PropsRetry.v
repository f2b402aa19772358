(** Property C130: retries of random generation. *)

From Coq Require Import List Arith NArith ZArith Bool Lia SpecFloat.
From Verif Require Import Base ListFacts Spec SpecGen GrammarFacts LoopModel LoopFacts HistoryModel SymbolModel CfgModel View
  BitSetModel SetView SetProof SetsModel SetsProof LRProof FloatModel GenModel GenProof PropsGrammar PropsClassify.
Import ListNotations.
Local Open Scope nat_scope.
Local Notation length := List.length.

(** ** C130 *)

(** The source of attempt [i]: the given one, then the given one as it is changed for the attempts 0, 1, ... *)
Definition attempt_source {R : Type} (mutate_start : R -> N -> R) (rng : R) (i : nat) : R :=
  match i with 0 => rng | S j => mutate_start rng (N.of_nat j) end.

(** The text starts with [f]. *)
Definition starts_with (f s : list nat) : Prop := exists x, s = f ++ x.

Section Retry.
  Context {R : Type} (generate : R -> f64 -> res (f64 * R)) (mutate_start : R -> N -> R)
          (to_char : nat -> R -> option nat * R) (g : cfg) (ts : bitset) (limit : option limits).
  Context (T Ng : nat) (f : list nat) (rng0 : R).
  Hypotheses (HC : closed_rules g) (Hts : terminal_symbols g = Ok ts) (Hf : f <> []) (HT : ~ reaches (prods g) T Ng).

  Notation plain := (gen_step generate mutate_start to_char (weighted g) ts [] limit).
  Notation neg := (gen_step generate mutate_start to_char (weighted g) ts [(Ng, f)] limit).

  (** The state of a generation with the negative symbol behind it. *)
  Definition emb (a : N) (st : @gen R) : gen :=
    mkGen (g_work st) (g_result st) (g_string st) (g_rng st) [(length f, [mkBt f rng0 0 [T]])] [(0, a)].

  Definition fresh (rng : R) : gen := mkGen [T] [] [] rng [] [].

  Definition ok (st : @gen R) : Prop :=
    g_back st = [] /\ g_attempts st = [] /\ Forall (fun x => reaches (prods g) T x) (g_work st).

  Lemma ends_eq : forall s, length s = length f -> (ends_with s f = true <-> s = f).
  Proof.
    intros s HL. unfold ends_with.
    assert (H : forall a b : list nat, length b = length a -> (is_prefix a b = true <-> b = a)).
    { induction a as [|x a IH]; intros [|y b] H; cbn in *; try discriminate; [tauto|]. rewrite andb_true_iff, Nat.eqb_eq, IH by lia.
      split; [intros [-> ->]; reflexivity|intros K; injection K as -> ->; auto]. }
    rewrite H by (rewrite !rev_length; exact HL). split; [|congruence]. intros K. rewrite <- (rev_involutive s), K. apply rev_involutive.
  Qed.

  (** What a retry, or the end of the retries, looks like. *)
  Definition again (a : N) : gen + res gen_out :=
    if (256 * 64 <? a + 1)%N then inr (Ok NegativeRuleAttemptsExceeded) else inl (emb (a + 1) (fresh (mutate_start rng0 a))).

  (** One iteration, without and with the negative symbol. *)
  Lemma retry_step : forall a st st', ok st -> plain st = inl st' ->
    ok st' /\ (exists t, g_string st' = g_string st ++ t /\ length t <= 1) /\
    (g_string st' <> f -> neg (emb a st) = inl (emb a st')) /\
    (g_string st' = f -> g_string st <> f -> neg (emb a st) = again a).
  Proof.
    intros a [W r s rng b at_] st' [OB [OA OW]] H. cbn [g_back g_attempts g_work g_string] in *. subst b at_.
    unfold gen_step in H |- *. unfold emb in *. cbn [g_work g_result g_string g_rng g_back g_attempts] in *.
    destruct W as [|sym W]; [discriminate|]. inversion OW as [|? ? HS OW']; subst.
    pose proof (ts_get g HC ts Hts sym) as HG. destruct (bs_get ts sym) as [[|]| |]; try discriminate.
    - unfold gen_terminal in *. cbn [g_work g_result g_string g_rng g_back g_attempts] in *.
      destruct (to_char sym rng) as [c rng']. set (s1 := match c with Some ch => s ++ [ch] | None => s end) in *.
      destruct (match limit with Some lim => _ | None => false end); [discriminate|]. cbn [map_get] in *. injection H as <-.
      cbn [g_work g_result g_string g_rng g_back g_attempts].
      split; [repeat split; auto|]. split.
      { unfold s1. destruct c as [ch|]; [exists [ch]|exists []; rewrite app_nil_r]; split; auto. }
      destruct (Nat.eqb_spec (length f) (length s1)) as [EL|EL].
      + cbn [gen_backtrack bt_forbidden g_string]. pose proof (ends_eq s1 (eq_sym EL)) as EE. split.
        * intros NE. destruct (ends_with s1 f); [exfalso; apply NE, EE; reflexivity|]. reflexivity.
        * intros ES _. destruct (ends_with s1 f); [|exfalso; assert (false = true) by (apply EE; exact ES); discriminate].
          rewrite <- EL, Nat.sub_diag. cbn [firstn length map_get Nat.eqb map_put Nat.compare g_attempts].
          cbn [g_result bt_result_len bt_prev_work bt_rng g_back firstn gen_backtrack]. unfold again, emb, fresh. cbn [g_work g_result g_string g_rng].
          destruct (256 * 64 <? a + 1)%N; reflexivity.
      + split; [reflexivity|]. intros ES. exfalso. apply EL. congruence.
    - assert (NE : (Ng =? sym) = false) by (apply Nat.eqb_neq; intros <-; exact (HT HS)).
      cbn [map_get] in *. rewrite NE. pose proof (pick_spec generate g sym rng (proj2 HG)) as HP.
      destruct (pick_rhs generate (weighted g) sym rng) as [[q rng']| |]; try discriminate. injection H as <-.
      cbn [g_work g_result g_string g_rng g_back g_attempts]. split; [|split; [exists []; rewrite app_nil_r; cbn; auto|split; [reflexivity|intros E K; contradiction]]].
      split; [reflexivity|]. split; [reflexivity|]. cbn [g_work]. apply Forall_app. split; [|exact OW'].
      apply Forall_forall. intros y Hy. apply in_split in Hy. destruct Hy as [q1 [q2 ->]]. destruct HS as [u [v HS]].
      exists (u ++ q1), (q2 ++ v). eapply derives_trans; [exact HS|]. eapply derives_step; [exact HP|]. rewrite <- !app_assoc. cbn [app].
      rewrite <- ?app_assoc. constructor.
  Qed.

  Lemma plain_grows : forall st n st', steps plain st n st' -> ok st -> exists t, g_string st' = g_string st ++ t.
  Proof.
    intros st n st' H. induction H as [s|s s1 n s2 H1 H2 IH]; intros O; [exists []; rewrite app_nil_r; auto|].
    destruct (retry_step 0%N s s1 O H1) as [O1 [[t [E _]] _]]. destruct (IH O1) as [t' E']. exists (t ++ t'). rewrite E', E, app_assoc. reflexivity.
  Qed.

  (** A run that ends in a text without [f] at its start is the same with the negative symbol. *)
  Lemma attempt_good : forall a st n st', steps plain st n st' -> ok st -> ~ starts_with f (g_string st') -> g_string st <> f ->
    steps neg (emb a st) n (emb a st').
  Proof.
    intros a st n st' H. induction H as [s|s s1 n s2 H1 H2 IH]; intros O NS NF; [constructor|].
    destruct (retry_step a s s1 O H1) as [O1 [_ [K _]]]. assert (N1 : g_string s1 <> f).
    { intros E. apply NS. destruct (plain_grows _ _ _ H2 O1) as [t E']. exists t. congruence. }
    econstructor; [apply K; exact N1|]. apply IH; auto.
  Qed.

  (** Otherwise the run goes back, or gives up. *)
  Lemma attempt_bad : forall a st n st', steps plain st n st' -> ok st -> starts_with f (g_string st') -> length (g_string st) < length f ->
    exists m st1, steps neg (emb a st) m st1 /\ neg st1 = again a.
  Proof.
    intros a st n st' H. induction H as [s|s s1 n s2 H1 H2 IH]; intros O SW HL.
    - destruct SW as [x E]. rewrite E, app_length in HL. lia.
    - destruct (retry_step a s s1 O H1) as [O1 [[t [E Lt]] [K1 K2]]].
      assert (NF : g_string s <> f) by (intros X; rewrite X in HL; lia).
      destruct (plain_grows _ _ _ H2 O1) as [t' E']. destruct SW as [x Ex].
      destruct (Nat.eq_dec (length (g_string s1)) (length f)) as [EL|EL].
      + assert (EF : g_string s1 = f).
        { rewrite Ex in E'. apply (f_equal (firstn (length f))) in E'. rewrite firstn_app, Nat.sub_diag, firstn_all, firstn_O, app_nil_r in E'.
          rewrite <- EL in E'. rewrite firstn_app, Nat.sub_diag, firstn_all, firstn_O, app_nil_r in E'. auto. }
        exists 0, (emb a s). split; [constructor|]. apply K2; auto.
      + assert (L1 : length (g_string s1) < length f) by (rewrite E, app_length in *; lia).
        destruct (IH O1 ltac:(exists x; exact Ex) L1) as [m [st1 [M1 M2]]]. exists (S m), st1. split; [|exact M2].
        econstructor; [apply K1; intros X; rewrite X in L1; lia|exact M1].
  Qed.
End Retry.

Lemma plain_run : forall {R} generate mutate_start to_char p g ts T limit (rng : R) r s, terminal_symbols g = Ok ts ->
  random generate mutate_start to_char p g T limit rng [] = Ok (Generated r s) ->
  exists n st, steps (gen_step generate mutate_start to_char (weighted g) ts [] limit) (fresh T rng) n st /\
    g_work st = [] /\ g_result st = r /\ g_string st = s.
Proof.
  intros R generate mutate_start to_char p g ts T limit rng r s Hts H. unfold random in H. rewrite Hts in H. cbn [bind] in H. unfold run_loop in H.
  change (negative_map []) with (@nil (nat * list nat)) in H.
  destruct (iter_pow _ p _) as [x|x] eqn:E; [discriminate|]. subst x. apply iter_pow_inr in E. destruct E as [n [st [_ [E1 E2]]]].
  exists n, st. split; [exact E1|]. unfold gen_step in E2. destruct (g_work st) as [|sym W]; [injection E2 as <- <-; auto|]. exfalso.
  destruct (bs_get ts sym) as [[|]| |]; try discriminate.
  - unfold gen_terminal in E2. cbn [g_work g_result g_string g_rng g_back g_attempts] in E2. destruct (to_char sym (g_rng st)) as [c rng'].
    destruct (match limit with Some lim => _ | None => false end); [discriminate|].
    destruct (map_get (g_back st) _) as [l|]; [|discriminate]. revert E2.
    match goal with |- context [gen_backtrack _ l ?s0] => generalize s0 end. clear. induction l as [|b l IH]; intros s0; cbn [gen_backtrack]; [discriminate|].
    destruct (ends_with _ _); [|apply IH]. destruct (map_get _ _); [|discriminate]. destruct (256 * 64 <? n + 1)%N; [discriminate|apply IH].
  - destruct (map_get [] sym); [discriminate|]. destruct (pick_rhs _ _ _ _) as [[q rng']| |]; discriminate.
Qed.

Section Calls.
  Context {R : Type} (generate : R -> f64 -> res (f64 * R)) (mutate_start : R -> N -> R)
          (to_char : nat -> R -> option nat * R) (g : cfg) (ts : bitset) (limit : option limits).
  Context (S0 T Ng : nat) (f : list nat) (rng : R).
  Hypotheses (HC : closed_rules g) (Hts : terminal_symbols g = Ok ts) (Hf : f <> []) (HT : ~ reaches (prods g) T Ng).
  Hypotheses (HS : S0 <> Ng) (HS1 : exists h, filter (fun x => lhs x =? S0) (rules g) = [mkRule S0 [Ng; T] h]) (HNg : nonterminal (prods g) Ng).

  Notation neg := (gen_step generate mutate_start to_char (weighted g) ts [(Ng, f)] limit).
  Notation src i := (attempt_source mutate_start rng i).

  Lemma not_terminal : forall A, nonterminal (prods g) A -> bs_get ts A = Ok false.
  Proof.
    intros A [r HA]. pose proof (ts_get g HC ts Hts A) as HG. assert (BA : A < num_syms g) by (destruct HA as [x [Hx [<- _]]]; apply (HC x Hx)).
    destruct (bs_get ts A) as [[|]| |]; auto; [exfalso; exact (proj2 HG r HA)|lia|destruct HG].
  Qed.

  Lemma first_steps : steps neg (fresh S0 rng) 2 (emb T f rng 0 (fresh T rng)).
  Proof.
    destruct HS1 as [h HF].
    assert (HN0 : nonterminal (prods g) S0).
    { exists [Ng; T], (mkRule S0 [Ng; T] h). split; [|auto]. apply (filter_In (fun x => lhs x =? S0)). rewrite HF. left. reflexivity. }
    apply steps_S with (s1 := mkGen [Ng; T] [] [] rng [] []); [|eapply steps_S; [|constructor]].
    - unfold gen_step, fresh. cbn [g_work g_result g_string g_rng g_back g_attempts]. rewrite (not_terminal S0 HN0). cbn [map_get].
      destruct (Nat.eqb_spec Ng S0) as [X|_]; [exfalso; auto|].
      unfold pick_rhs. rewrite weighted_get. unfold alts. rewrite HF. reflexivity.
    - unfold gen_step. cbn [g_work g_result g_string g_rng g_back g_attempts]. rewrite (not_terminal Ng HNg). cbn [map_get]. rewrite Nat.eqb_refl. reflexivity.
  Qed.

  Lemma fresh_ok : forall x : R, ok g T (fresh T x).
  Proof. intros x. repeat split. constructor; [exists [], []; constructor|constructor]. Qed.

  Lemma retries : forall k, (N.of_nat k <= 16384)%N ->
    (forall i, i < k -> exists p r s, random generate mutate_start to_char p g T limit (src i) [] = Ok (Generated r s) /\ starts_with f s) ->
    exists n, steps neg (fresh S0 rng) n (emb T f rng (N.of_nat k) (fresh T (src k))).
  Proof.
    induction k as [|k IH]; intros Hk H; [exists 2; exact first_steps|].
    destruct IH as [n Hn]; [lia|intros i Hi; apply H; lia|]. destruct (H k (Nat.lt_succ_diag_r k)) as [p [r [s [E SW]]]].
    destruct (plain_run _ _ _ _ _ ts _ _ _ _ _ Hts E) as [m [st [HSt [_ [_ ES]]]]].
    destruct (attempt_bad generate mutate_start to_char g ts limit T Ng f rng HC Hts HT (N.of_nat k) _ _ _ HSt (fresh_ok _)) as [m' [st1 [M1 M2]]].
    { rewrite ES. exact SW. }
    { cbn. destruct f; [congruence|cbn; lia]. }
    exists (n + (m' + 1)). eapply steps_app; [exact Hn|]. eapply steps_app; [exact M1|]. eapply steps_S; [|constructor]. rewrite M2. unfold again.
    replace (256 * 64 <? N.of_nat k + 1)%N with false by (symmetry; apply N.ltb_ge; lia).
    replace (N.of_nat k + 1)%N with (N.of_nat (S k)) by lia. reflexivity.
  Qed.
End Calls.

(** The start symbol has the only rule S ::= N T, and N is a negative symbol that T does not reach.  Attempt [i] generates from T, without
    negative rules, with the source [attempt_source mutate_start rng i].  The first attempt whose text does not start with the
    forbidden one is what the call returns, if there is one among the first 16385. *)
Theorem C130_retry : forall (R : Type) (generate : R -> f64 -> res (f64 * R)) (mutate_start : R -> N -> R)
    (to_char : nat -> R -> option nat * R) g S0 T Ng f h limit rng k p result string,
  closed_rules g -> f <> [] -> S0 <> Ng -> nonterminal (prods g) Ng -> ~ reaches (prods g) T Ng ->
  filter (fun x => lhs x =? S0) (rules g) = [mkRule S0 [Ng; T] h] -> (N.of_nat k <= 16384)%N ->
  (forall i, i < k -> exists p r s,
     random generate mutate_start to_char p g T limit (attempt_source mutate_start rng i) [] = Ok (Generated r s) /\ starts_with f s) ->
  random generate mutate_start to_char p g T limit (attempt_source mutate_start rng k) [] = Ok (Generated result string) -> ~ starts_with f string ->
  exists p0, forall q, p0 <= q ->
    random generate mutate_start to_char q g S0 limit rng [(Ng, f)] = Ok (Generated result string).
Proof.
  intros R generate mutate_start to_char g S0 T Ng f h limit rng k p result string HC Hf HS HNg HT HF Hk HB HG NS.
  destruct (terminal_symbols g) as [ts| |] eqn:Hts; [|unfold random in HG; rewrite Hts in HG; discriminate HG..].
  destruct (retries generate mutate_start to_char g ts limit S0 T Ng f rng HC Hts Hf HT HS (ex_intro _ h HF) HNg k Hk HB) as [n Hn].
  destruct (plain_run _ _ _ _ _ ts _ _ _ _ _ Hts HG) as [m [st [HSt [EW [ER ES]]]]].
  pose proof (attempt_good generate mutate_start to_char g ts limit T Ng f rng HC Hts HT (N.of_nat k) _ _ _ HSt (fresh_ok g T _)) as A.
  rewrite ES in A. specialize (A NS ltac:(cbn; congruence)). pose proof (steps_app _ _ _ _ Hn _ _ A) as HA.
  exists (n + m). intros q Hq. unfold random. rewrite Hts. cbn [bind]. unfold run_loop. change (negative_map [(Ng, f)]) with [(Ng, f)]. change (mkGen [S0] [] [] rng [] []) with (fresh S0 rng).
  rewrite (steps_result _ _ _ _ (Ok (Generated result string)) q HA); [reflexivity| |].
  - unfold gen_step, emb. cbn [g_work]. rewrite EW. cbn [g_result g_string]. rewrite ER, ES. reflexivity.
  - apply Nat.lt_le_trans with (2 ^ (n + m)); [apply two_pow_gt|apply Nat.pow_le_mono_r; lia].
Qed.
Print Assumptions C130_retry.

(** If the texts of all these attempts start with the forbidden one, the call gives up. *)
Theorem C130_exceeded : forall (R : Type) (generate : R -> f64 -> res (f64 * R)) (mutate_start : R -> N -> R)
    (to_char : nat -> R -> option nat * R) g S0 T Ng f h limit rng,
  closed_rules g -> f <> [] -> S0 <> Ng -> nonterminal (prods g) Ng -> ~ reaches (prods g) T Ng ->
  filter (fun x => lhs x =? S0) (rules g) = [mkRule S0 [Ng; T] h] ->
  (forall i, (N.of_nat i <= 16384)%N -> exists p r s,
     random generate mutate_start to_char p g T limit (attempt_source mutate_start rng i) [] = Ok (Generated r s) /\ starts_with f s) ->
  exists p0, forall q, p0 <= q ->
    random generate mutate_start to_char q g S0 limit rng [(Ng, f)] = Ok NegativeRuleAttemptsExceeded.
Proof.
  intros R generate mutate_start to_char g S0 T Ng f h limit rng HC Hf HS HNg HT HF HB.
  destruct (HB 0 ltac:(lia)) as [p [r [s [HG _]]]].
  destruct (terminal_symbols g) as [ts| |] eqn:Hts; [|unfold random in HG; rewrite Hts in HG; discriminate HG..]. clear p r s HG.
  set (k := N.to_nat 16384).
  destruct (retries generate mutate_start to_char g ts limit S0 T Ng f rng HC Hts Hf HT HS (ex_intro _ h HF) HNg k) as [n Hn].
  { unfold k. rewrite N2Nat.id. lia. }
  { intros i Hi. apply HB. unfold k in Hi. lia. }
  destruct (HB k) as [p [r [s [HG SW]]]]; [unfold k; rewrite N2Nat.id; lia|].
  destruct (plain_run _ _ _ _ _ ts _ _ _ _ _ Hts HG) as [m [st [HSt [_ [_ ES]]]]].
  destruct (attempt_bad generate mutate_start to_char g ts limit T Ng f rng HC Hts HT (N.of_nat k) _ _ _ HSt (fresh_ok g T _)) as [m' [st1 [M1 M2]]].
  { rewrite ES. exact SW. }
  { cbn. destruct f; [congruence|cbn; lia]. }
  pose proof (steps_app _ _ _ _ Hn _ _ M1) as HA.
  exists (n + m'). intros q Hq. unfold random. rewrite Hts. cbn [bind]. unfold run_loop. change (negative_map [(Ng, f)]) with [(Ng, f)]. change (mkGen [S0] [] [] rng [] []) with (fresh S0 rng).
  rewrite (steps_result _ _ _ _ (Ok NegativeRuleAttemptsExceeded) q HA); [reflexivity| |].
  - rewrite M2. unfold again. replace (256 * 64 <? N.of_nat k + 1)%N with true; [reflexivity|]. symmetry. apply N.ltb_lt. unfold k. rewrite N2Nat.id. lia.
  - apply Nat.lt_le_trans with (2 ^ (n + m')); [apply two_pow_gt|apply Nat.pow_le_mono_r; lia].
Qed.
Print Assumptions C130_exceeded.

(** S ::= N T;  N ::= ;  T ::= a | b;  after N there must be no a.     S N T a b = 0 1 2 3 4.
    With the bytes [0] the attempts 0 and 1 give a, attempt 2 gives b. *)
Definition ex_retry : cfg :=
  mkCfg (mkSrc 5 []) [mkRule 0 [1; 2] hd0; mkRule 1 [] hd0; mkRule 2 [3] hd0; mkRule 2 [4] hd0] [] [] None.
Definition retry_char (s : nat) (r : byte_source) : option nat * byte_source := (Some (94 + s), r).

Example C130_retry_example : closed_rules ex_retry /\ nonterminal (prods ex_retry) 1 /\ ~ reaches (prods ex_retry) 2 1 /\
  filter (fun x => lhs x =? 0) (rules ex_retry) = [mkRule 0 [1; 2] hd0] /\
  (forall i, i < 2 -> exists p r s,
     random bytes_generate bytes_mutate_start retry_char p ex_retry 2 None (attempt_source bytes_mutate_start (bytes_new [0%N]) i) [] = Ok (Generated r s) /\
     starts_with [97] s) /\
  random bytes_generate bytes_mutate_start retry_char 3 ex_retry 2 None (attempt_source bytes_mutate_start (bytes_new [0%N]) 2) [] = Ok (Generated [4] [98]) /\
  ~ starts_with [97] [98] /\
  random bytes_generate bytes_mutate_start retry_char 5 ex_retry 0 None (bytes_new [0%N]) [(1, [97])] = Ok (Generated [4] [98]).
Proof.
  split; [closed_tac|]. split; [exists [], (mkRule 1 [] hd0); cbn; auto|]. split.
  { intros [u [v D]]. assert (K : Forall (fun s => 2 <= s) (u ++ 1 :: v)).
    { apply (derives_Forall (prods ex_retry) (fun s => 2 <= s)) with (u := [2]); [|exact D|constructor; [lia|constructor]].
      intros A r [x [Hx [<- <-]]] HA. cbn in Hx. destruct Hx as [<-|[<-|[<-|[<-|[]]]]]; cbn [lhs rhs] in *; repeat constructor; lia. }
    apply Forall_app in K. destruct K as [_ K]. inversion K; lia. }
  split; [reflexivity|]. split.
  { intros i Hi. exists 3, [3], [97]. split; [destruct i as [|[|i]]; [vm_compute; reflexivity|vm_compute; reflexivity|lia]|exists []; reflexivity]. }
  split; [vm_compute; reflexivity|]. split; [intros [x X]; discriminate X|vm_compute; reflexivity].
Qed.

(** T ::= a only: every attempt gives a, whatever the source, and the call gives up. *)
Example C130_exceeded_example : let g := mkCfg (mkSrc 4 []) [mkRule 0 [1; 2] hd0; mkRule 1 [] hd0; mkRule 2 [3] hd0] [] [] None in
  forall rng, exists p0, forall q, p0 <= q ->
    random bytes_generate bytes_mutate_start retry_char q g 0 None rng [(1, [97])] = Ok NegativeRuleAttemptsExceeded.
Proof.
  intros g rng. apply (C130_exceeded _ _ _ _ g 0 2 1 [97] hd0); [closed_tac|discriminate|discriminate|exists [], (mkRule 1 [] hd0); cbn; auto| |reflexivity|].
  - intros [u [v D]]. assert (K : Forall (fun s => 2 <= s) (u ++ 1 :: v)).
    { apply (derives_Forall (prods g) (fun s => 2 <= s)) with (u := [2]); [|exact D|constructor; [lia|constructor]].
      intros A r [x [Hx [<- <-]]] HA. cbn in Hx. destruct Hx as [<-|[<-|[<-|[]]]]; cbn [lhs rhs] in *; repeat constructor; lia. }
    apply Forall_app in K. destruct K as [_ K]. inversion K; lia.
  - intros i _. exists 3, [3], [97]. split; [|exists []; reflexivity]. generalize (attempt_source bytes_mutate_start rng i). intros s. vm_compute. reflexivity.
Qed.
