(** Property C131: the negative rules that matter for random generation. *)

From Coq Require Import List Arith NArith ZArith Bool Lia SpecFloat Permutation.
From Verif Require Import Base ListFacts Spec SpecGen GrammarFacts LoopModel LoopFacts HistoryModel SymbolModel CfgModel View
  BitSetModel SetView SetProof SetsModel SetsProof LRProof FloatModel GenModel GenProof GenProof5 PropsGrammar PropsClassify PropsRetry.
Import ListNotations.
Local Open Scope nat_scope.
Local Notation length := List.length.

(** ** C131 *)

(** The two lists of negative rules forbid the same texts after the symbols with rules that [start] reaches. *)
Definition agree_on (P : productions) (start : nat) (l1 l2 : list (nat * list nat)) : Prop :=
  forall A f, nonterminal P A -> reaches P start A -> (forbids l1 A f <-> forbids l2 A f).

(** Two loops whose bodies agree on the states that occur *)
Lemma iter_pow_agree : forall {S R : Type} (f1 f2 : S -> S + R) (I : S -> Prop),
  (forall s, I s -> f1 s = f2 s) -> (forall s s', I s -> f1 s = inl s' -> I s') ->
  forall p s, I s -> iter_pow f1 p s = iter_pow f2 p s /\ forall s', iter_pow f1 p s = inl s' -> I s'.
Proof.
  intros S R f1 f2 I HE HI. induction p as [|p IH]; intros s Hs; cbn [iter_pow]; [split; eauto|].
  destruct (IH s Hs) as [E K]. rewrite <- E. destruct (iter_pow f1 p s) as [s1|r] eqn:E1; [|split; [reflexivity|discriminate]].
  apply IH. apply K. reflexivity.
Qed.

Section Agree.
  Context {R : Type} (generate : R -> f64 -> res (f64 * R)) (mutate_start : R -> N -> R)
          (to_char : nat -> R -> option nat * R) (g : cfg) (ts : bitset) (limit : option limits).
  Context (start : nat) (l1 l2 : list (nat * list nat)).
  Hypotheses (HC : closed_rules g) (Hts : terminal_symbols g = Ok ts) (HA : agree_on (prods g) start l1 l2).

  Notation reach := (Forall (fun x => reaches (prods g) start x)).
  Notation body l := (gen_step generate mutate_start to_char (weighted g) ts (negative_map l) limit).

  (** Only symbols that [start] reaches are to be expanded, now or after going back. *)
  Definition reached_only (st : @gen R) : Prop :=
    reach (g_work st) /\ forall k l s, map_get (g_back st) k = Some l -> In s l -> reach (bt_prev_work s).

  Lemma same_negative : forall A, nonterminal (prods g) A -> reaches (prods g) start A ->
    map_get (negative_map l1) A = map_get (negative_map l2) A.
  Proof.
    intros A H1 H2. destruct (map_get (negative_map l1) A) as [f|] eqn:E1.
    - symmetry. apply negative_map_spec, (HA A f H1 H2), negative_map_spec. exact E1.
    - destruct (map_get (negative_map l2) A) as [f|] eqn:E2; [|reflexivity].
      assert (X : map_get (negative_map l1) A = Some f) by (apply negative_map_spec, (HA A f H1 H2), negative_map_spec; exact E2). congruence.
  Qed.

  Lemma alts_nonterminal : forall A, alts g A <> [] -> nonterminal (prods g) A.
  Proof.
    intros A H. destruct (alts g A) as [|x l] eqn:E; [congruence|]. assert (Hx : In x (alts g A)) by (rewrite E; left; reflexivity).
    unfold alts in Hx. apply filter_In in Hx. destruct Hx as [Hx E']. apply Nat.eqb_eq in E'. exists (rhs x), x. auto.
  Qed.

  Lemma bodies_agree : forall st, reached_only st -> body l1 st = body l2 st.
  Proof.
    intros st [HW _]. unfold gen_step. destruct (g_work st) as [|sym W]; [reflexivity|]. inversion HW as [|? ? HS _]; subst.
    pose proof (ts_get g HC ts Hts sym) as HG. destruct (bs_get ts sym) as [[|]| |]; try reflexivity.
    rewrite (same_negative sym (alts_nonterminal sym (proj2 HG)) HS). reflexivity.
  Qed.

  Lemma backtrack_reached : forall (states : list (@bt_state R)) st st', (forall s, In s states -> reach (bt_prev_work s)) ->
    reached_only st -> gen_backtrack mutate_start states st = Ok (inl st') -> reached_only st'.
  Proof.
    induction states as [|s states IH]; intros st st' HP HR H; cbn [gen_backtrack] in H; [injection H as <-; exact HR|].
    assert (HP' : forall x, In x states -> reach (bt_prev_work x)) by (intros x Hx; apply HP; right; exact Hx).
    destruct (ends_with _ _); [|eapply IH; eauto]. destruct (map_get (g_attempts st) _) as [a|]; [|discriminate].
    destruct (256 * 64 <? a + 1)%N; [discriminate|]. eapply IH; [exact HP'| |exact H].
    split; cbn [g_work g_back]; [apply HP; left; reflexivity|exact (proj2 HR)].
  Qed.

  Lemma reached_step : forall st st', reached_only st -> body l1 st = inl st' -> reached_only st'.
  Proof.
    intros st st' [HW HB] H. unfold gen_step in H. destruct (g_work st) as [|sym W]; [discriminate|]. inversion HW as [|? ? HS HW']; subst.
    pose proof (ts_get g HC ts Hts sym) as HG. destruct (bs_get ts sym) as [[|]| |]; try discriminate.
    - unfold gen_terminal in H. cbn [g_work g_result g_string g_rng g_back g_attempts] in H. destruct (to_char sym (g_rng st)) as [c rng'].
      destruct (match limit with Some lim => _ | None => false end); [discriminate|].
      destruct (map_get (g_back st) _) as [states|] eqn:EB.
      + destruct (gen_backtrack _ _ _) as [[x|x]| |] eqn:E; try discriminate. injection H as <-.
        eapply backtrack_reached; [|split|exact E]; cbn [g_work g_back]; eauto.
      + injection H as <-. split; cbn [g_work g_back]; auto.
    - destruct (map_get (negative_map l1) sym) as [f|].
      + injection H as <-. unfold gen_negative. cbn [g_work g_result g_string g_rng g_back g_attempts]. split; cbn [g_work g_back]; [exact HW'|].
        intros k l s. rewrite map_get_put. destruct (Nat.eqb_spec (length (g_string st) + length f) k) as [E|_]; [|apply HB].
        intros K Hin. injection K as <-. apply in_app_or in Hin. destruct Hin as [Hin|[<-|[]]]; [|exact HW'].
        destruct (map_get (g_back st) _) as [old|] eqn:EB; [eapply HB; eauto|destruct Hin].
      + pose proof (pick_spec generate g sym (g_rng st) (proj2 HG)) as HP.
        destruct (pick_rhs generate (weighted g) sym (g_rng st)) as [[q rng']| |]; try discriminate. injection H as <-.
        split; cbn [g_work g_back]; [|exact HB]. apply Forall_app. split; [|exact HW'].
        apply Forall_forall. intros y Hy. apply in_split in Hy. destruct Hy as [q1 [q2 ->]]. destruct HS as [u [v HS]].
        exists (u ++ q1), (q2 ++ v). eapply derives_trans; [exact HS|]. eapply derives_step; [exact HP|]. rewrite <- !app_assoc. cbn [app].
        rewrite <- ?app_assoc. constructor.
  Qed.
End Agree.

(** Negative rules with the same last forbidden text for each symbol that has rules and is reached from the start symbol give the
    same result, whatever it is: the same generated text, a limit exceeded, too many attempts or a panic, in as many iterations. *)
Theorem C131_agree : forall (R : Type) (generate : R -> f64 -> res (f64 * R)) (mutate_start : R -> N -> R)
    (to_char : nat -> R -> option nat * R) p g start limit rng l1 l2,
  closed_rules g -> agree_on (prods g) start l1 l2 ->
  random generate mutate_start to_char p g start limit rng l1 = random generate mutate_start to_char p g start limit rng l2.
Proof.
  intros R generate mutate_start to_char p g start limit rng l1 l2 HC HA. unfold random.
  destruct (terminal_symbols g) as [ts| |] eqn:Hts; [|reflexivity..]. cbn [bind]. unfold run_loop.
  destruct (iter_pow_agree (gen_step generate mutate_start to_char (weighted g) ts (negative_map l1) limit)
    (gen_step generate mutate_start to_char (weighted g) ts (negative_map l2) limit) (reached_only g start)
    (bodies_agree generate mutate_start to_char g ts limit start l1 l2 HC Hts HA)
    (reached_step generate mutate_start to_char g ts limit start l1 HC Hts) p (mkGen [start] [] [] rng [] [])) as [E _].
  - split; cbn [g_work g_back]; [constructor; [exists [], []; constructor|constructor]|discriminate].
  - rewrite E. reflexivity.
Qed.
Print Assumptions C131_agree.

(** Negative rules for terminals or for symbols that are not reached have no effect. *)
Theorem C131_no_effect : forall (R : Type) (generate : R -> f64 -> res (f64 * R)) (mutate_start : R -> N -> R)
    (to_char : nat -> R -> option nat * R) p g start limit rng negative_rules,
  closed_rules g -> (forall A f, In (A, f) negative_rules -> terminal (prods g) A \/ ~ reaches (prods g) start A) ->
  random generate mutate_start to_char p g start limit rng negative_rules = random generate mutate_start to_char p g start limit rng [].
Proof.
  intros R generate mutate_start to_char p g start limit rng neg HC H. apply C131_agree; auto. intros A f [r Hr] HR. split.
  - intros [a [b [-> _]]]. destruct (H A f) as [K|K]; [apply in_or_app; right; left; reflexivity| |]; [destruct (K r Hr)|contradiction].
  - intros [a [b [E _]]]. destruct a; discriminate E.
Qed.
Print Assumptions C131_no_effect.

(** An earlier rule for a symbol has no effect if there is a later one. *)
Theorem C131_last : forall (R : Type) (generate : R -> f64 -> res (f64 * R)) (mutate_start : R -> N -> R)
    (to_char : nat -> R -> option nat * R) p g start limit rng l1 A f l2,
  closed_rules g -> In A (map fst l2) ->
  random generate mutate_start to_char p g start limit rng (l1 ++ (A, f) :: l2) = random generate mutate_start to_char p g start limit rng (l1 ++ l2).
Proof.
  intros R generate mutate_start to_char p g start limit rng l1 A f l2 HC H. apply C131_agree; auto. intros B f' _ _.
  rewrite <- !negative_map_spec. unfold negative_map. rewrite !fold_left_app. cbn [fold_left fst snd].
  generalize (fold_left (fun m p => map_put m (fst p) (snd p)) l1 (@nil (nat * list nat))). intros m.
  destruct (negative_map_fold l2 m B) as [F1 G1]. destruct (negative_map_fold l2 (map_put m A f) B) as [F2 G2].
  destruct (forbids_dec l2 B) as [[f0 Hf]|HN].
  - rewrite (F1 f0 Hf), (F2 f0 Hf). reflexivity.
  - rewrite (G1 HN), (G2 HN), map_get_put. destruct (Nat.eqb_spec A B) as [<-|_]; [contradiction|reflexivity].
Qed.
Print Assumptions C131_last.

(** The order does not matter for rules for different symbols. *)
Theorem C131_order : forall (R : Type) (generate : R -> f64 -> res (f64 * R)) (mutate_start : R -> N -> R)
    (to_char : nat -> R -> option nat * R) p g start limit rng l1 l2,
  closed_rules g -> NoDup (map fst l1) -> Permutation l1 l2 ->
  random generate mutate_start to_char p g start limit rng l1 = random generate mutate_start to_char p g start limit rng l2.
Proof.
  intros R generate mutate_start to_char p g start limit rng l1 l2 HC HN HP. apply C131_agree; auto.
  assert (K : forall l A f, NoDup (map fst l) -> (forbids l A f <-> In (A, f) l)).
  { intros l A f HD. split.
    - intros [a [b [-> _]]]. apply in_or_app. right. left. reflexivity.
    - intros Hin. apply in_split in Hin. destruct Hin as [a [b ->]]. exists a, b. split; [reflexivity|].
      rewrite map_app in HD. cbn [map fst] in HD. apply NoDup_remove_2 in HD. intros X. apply HD. apply in_or_app. right. exact X. }
  intros A f _ _. rewrite (K l1), (K l2); auto; [|eapply Permutation_NoDup; [apply Permutation_map; exact HP|exact HN]].
  split; apply Permutation_in; [exact HP|apply Permutation_sym; exact HP].
Qed.
Print Assumptions C131_order.

(** In the grammar of C130, S ::= N T;  N ::= ;  T ::= a | b: a rule for the terminal b and a replaced rule for N
    do not matter, and the only rule that does changes the result. *)
Example C131_example : closed_rules ex_retry /\ agree_on (prods ex_retry) 0 [(4, [98]); (1, [98]); (1, [97])] [(1, [97])] /\
  ~ agree_on (prods ex_retry) 0 [(1, [97])] [] /\
  random bytes_generate bytes_mutate_start retry_char 5 ex_retry 0 None (bytes_new [0%N]) [(4, [98]); (1, [98]); (1, [97])] = Ok (Generated [4] [98]) /\
  random bytes_generate bytes_mutate_start retry_char 5 ex_retry 0 None (bytes_new [0%N]) [(1, [97])] = Ok (Generated [4] [98]) /\
  random bytes_generate bytes_mutate_start retry_char 5 ex_retry 0 None (bytes_new [0%N]) [] = Ok (Generated [3] [97]).
Proof.
  split; [closed_tac|]. split.
  { intros A f [r [x [Hx [<- _]]]] _. rewrite <- !negative_map_spec. cbn in Hx. destruct Hx as [<-|[<-|[<-|[<-|[]]]]]; reflexivity. }
  split.
  { intros K. assert (X : forbids [] 1 [97]).
    { apply K; [exists [], (mkRule 1 [] hd0); cbn; auto| |exists [], []; split; [reflexivity|intros []]].
      exists [], [2]. apply (derives_step _ [] 0 [] [1; 2]); [exists (mkRule 0 [1; 2] hd0); cbn; auto|constructor]. }
    destruct X as [a [b [E _]]]. destruct a; discriminate E. }
  repeat split; vm_compute; reflexivity.
Qed.
