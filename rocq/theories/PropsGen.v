(** Properties C47-C49 and C63-C66: random generation. *)

From Coq Require Import List Arith NArith ZArith QArith Qabs Bool Lia Lqa SpecFloat.
From Verif Require Import Base ListFacts Spec SpecGen GrammarFacts LoopModel LoopFacts HistoryModel SymbolModel CfgModel View
  BitSetModel SetView SetProof SetsModel SetsProof LRProof FloatModel SpecFloats FloatProof FloatProof2 GenModel GenProof GenProof2 GenProof3 GenProof4 GenProof5
  GenProof6 GenProof7
  PropsGrammar PropsClassify.
Import ListNotations.
Local Close Scope Q_scope.
Local Open Scope nat_scope.
Local Notation length := List.length.

(** Reading guide.  [random generate mutate_start to_char p g start limit rng negative_rules] is one call with a
    random source of any type, given by its two functions; it is given 2^p iterations of its loop and is
    [OutOfFuel] if these are not enough.  [Generated result string] is a successful call.  [num v]: the floating-point
    number v is finite and not negative; [fval v] is its value. *)

Definition within_limit (limit : option limits) (n : nat) : Prop :=
  match limit with Some lim => (N.of_nat n <= terminals lim)%N | None => True end.

(** A character function that does not use the random source *)
Definition pure_chars {R : Type} (to_char : nat -> R -> option nat * R) (tc : nat -> option nat) : Prop :=
  forall s r, fst (to_char s r) = tc s.

(** * C47 *)
Theorem C47_language : forall (R : Type) (generate : R -> f64 -> res (f64 * R)) (mutate_start : R -> N -> R)
    (to_char : nat -> R -> option nat * R) p g start limit rng result string,
  closed_rules g ->
  random generate mutate_start to_char p g start limit rng [] = Ok (Generated result string) ->
  language (prods g) start result /\
  within_limit limit (length result) /\
  (forall tc, pure_chars to_char tc -> string = chars_of tc result).
Proof.
  intros R generate mutate_start to_char p g start limit rng result string HC H.
  destruct (bs_terminal_spec g HC) as [ts [Et _]].
  apply (random_language generate mutate_start to_char g HC ts Et p start limit rng result string H).
Qed.
Print Assumptions C47_language.

(** S ::= A b, A ::= a A | a *)
Definition ex_gen : cfg :=
  mkCfg (mkSrc 4 []) [mkRule 0 [1; 3] hd0; mkRule 1 [2; 1] hd0; mkRule 1 [2] hd0] [] [] None.
Lemma ex_gen_closed : closed_rules ex_gen.
Proof. closed_tac. Qed.
Definition ex_char {R : Type} (s : nat) (r : R) : option nat * R := (Some (95 + s), r).

Example C47_example :
  random bytes_generate bytes_mutate_start ex_char 5 ex_gen 0 (Some (mkLimits 10%N 0%N)) (mkBytes [10; 20; 200]%N []) [] =
  Ok (Generated [2; 2; 2; 3] [97; 97; 97; 98]) /\
  random bytes_generate bytes_mutate_start ex_char 5 ex_gen 0 (Some (mkLimits 3%N 0%N)) (mkBytes [10; 20; 200]%N []) [] =
  Ok LimitExceeded /\
  (* the repository's test *)
  random bytes_generate bytes_mutate_start (fun s r => (if s =? 1 then Some 88 else None, r)) 2
    (mkCfg (mkSrc 2 []) [mkRule 0 [1] hd0] [] [] None) 0 (Some (mkLimits 1%N 0%N)) (mkBytes [] []) [] = Ok (Generated [1] [88]).
Proof. split; [|split]; vm_compute; reflexivity. Qed.

(** * C48 *)

(** With a limit, and without left recursion, generation ends, whatever the source and the negative rules.
    Negative symbols count as empty.  Missing: grammars with left recursion, see below. *)
Theorem C48_ends_partial : forall (R : Type) (generate : R -> f64 -> res (f64 * R)) (mutate_start : R -> N -> R)
    (to_char : nat -> R -> option nat * R) g start lim rng negative_rules,
  (forall rng q, generate rng q <> OutOfFuel) -> closed_rules g ->
  (forall A, ~ left_recursive (erasing (negative_symbol negative_rules (prods g)) (prods g)) A) ->
  exists p, random generate mutate_start to_char p g start (Some lim) rng negative_rules <> OutOfFuel /\
    forall q, p <= q -> random generate mutate_start to_char q g start (Some lim) rng negative_rules =
                        random generate mutate_start to_char p g start (Some lim) rng negative_rules.
Proof.
  intros R generate mutate_start to_char g start lim rng neg HG HC HL. apply random_ends; auto.
  intros A [v [x [B [y [r [Hu [HP HD]]]]]]]. apply (HL A). exists v, x, B, y, r. split; auto. split.
  - apply erasing_ext. auto.
  - revert HD. apply derives_mono. intros. apply erasing_ext. auto.
Qed.
Print Assumptions C48_ends_partial.

(** A test for the absence of left recursion *)
Lemma ranked_no_left : forall (P : productions) (rk : nat -> nat),
  (forall A r s, P A r -> In s r -> rk s < rk A) -> forall A, ~ left_recursive P A.
Proof.
  intros P rk HR A [v [x [B [y [r [Hu [HP HD]]]]]]].
  assert (HM : forall u w, derives P u w -> forall s, In s w -> exists t, In t u /\ rk s <= rk t).
  { intros u w H. induction H as [u|u C z q w HC _ IH]; intros s Hs; eauto. destruct (IH s Hs) as [t [Ht Hl]].
    rewrite !in_app_iff in Ht. destruct Ht as [Ht|[Ht|Ht]].
    - exists t. split; auto. apply in_or_app. auto.
    - exists C. split; [apply in_elt|]. pose proof (HR C q t HC Ht). lia.
    - exists t. split; auto. apply in_or_app. right. right. auto. }
  destruct x as [|? x]; simpl in Hu; injection Hu as <- Hu; [|destruct x; discriminate]. subst y. rewrite app_nil_r in HD.
  destruct (HM _ _ HD A) as [t [Ht Hl]]; [left; auto|]. simpl in Ht. pose proof (HR A r t HP Ht). lia.
Qed.

Lemma first_terminal_no_left : forall (P : productions),
  (forall A r, P A r -> r = [] \/ exists a v, r = a :: v /\ terminal P a) -> forall A, ~ left_recursive P A.
Proof.
  intros P HF A [v [x [B [y [r [Hu [HP HD]]]]]]].
  assert (HT : forall u w, derives P u w -> forall a u', u = a :: u' -> terminal P a -> exists w', w = a :: w').
  { intros u w H. induction H as [u|u C z q w HC _ IH]; intros a u' Hu' Ha; eauto.
    destruct u as [|b u]; simpl in Hu'; injection Hu' as -> Hu'; [destruct (Ha q HC)|]. apply (IH a (u ++ q ++ z)); auto. }
  destruct x as [|? x]; simpl in Hu; injection Hu as <- Hu; [|destruct x; discriminate]. subst y. simpl in HD. rewrite app_nil_r in HD.
  destruct (HF A r HP) as [->|[a [v' [-> Ha]]]].
  - assert (HN : forall w, derives P [] w -> w = []) by (intros w H; inversion H; auto; destruct u; discriminate).
    apply HN in HD. discriminate.
  - destruct (HT _ _ HD a v' eq_refl Ha) as [w' E]. injection E as -> _. apply (Ha _ HP).
Qed.

(** S ::= a S | b, recursive; and S ::= N T, N ::= (empty), T ::= a | b with a negative rule for N *)
Definition ex_right : cfg := mkCfg (mkSrc 3 []) [mkRule 0 [1; 0] hd0; mkRule 0 [2] hd0] [] [] None.
Definition ex_neg : cfg :=
  mkCfg (mkSrc 5 []) [mkRule 0 [1; 2] hd0; mkRule 1 [] hd0; mkRule 2 [3] hd0; mkRule 2 [4] hd0] [] [] None.
Example C48_example :
  (closed_rules ex_right /\ forall A, ~ left_recursive (erasing (negative_symbol [] (prods ex_right)) (prods ex_right)) A) /\
  (closed_rules ex_neg /\ forall A, ~ left_recursive (erasing (negative_symbol [(1, [98])] (prods ex_neg)) (prods ex_neg)) A).
Proof.
  split; (split; [closed_tac|]).
  - apply first_terminal_no_left. intros A r [[[[f [l1 [l2 [H _]]]] _] _]|[_ HP]]; [destruct l1; discriminate|].
    right. destruct HP as [x [Hx [<- <-]]].
    assert (HT : forall a, a = 1 \/ a = 2 -> terminal (erasing (negative_symbol [] (prods ex_right)) (prods ex_right)) a).
    { intros a Ha r [[[[f [l1 [l2 [H _]]]] _] _]|[_ [y [Hy [Hl _]]]]]; [destruct l1; discriminate|].
      simpl in Hy. destruct Hy as [<-|[<-|[]]]; simpl in Hl; lia. }
    simpl in Hx. destruct Hx as [<-|[<-|[]]]; cbn [rhs]; eexists; eexists; split; eauto.
  - apply (ranked_no_left _ (fun s => 10 - s)). intros A r s [[_ [-> _]]|[_ [x [Hx [<- <-]]]]] Hs; [destruct Hs|].
    simpl in Hx. destruct Hx as [<-|[<-|[<-|[<-|[]]]]]; cbn [In lhs rhs] in Hs |- *; lia.
Qed.

(** S ::= S a | a with a source that always picks the first: generation never ends, with any limit. *)
Definition ex_left : cfg := mkCfg (mkSrc 2 []) [mkRule 0 [0; 1] hd0; mkRule 0 [1] hd0] [] [] None.
Theorem C48_ends_refuted : exists g start rng, closed_rules g /\ language (prods g) start [1] /\
  forall p lim, random bytes_generate bytes_mutate_start ex_char p g start (Some lim) rng [] = OutOfFuel.
Proof.
  exists ex_left, 0, (mkBytes [] []). split; [closed_tac|]. split.
  - split; [apply derives_rule; exists (mkRule 0 [1] hd0); simpl; auto|]. constructor; auto.
    intros r [x [Hx [H _]]]. simpl in Hx. destruct Hx as [<-|[<-|[]]]; discriminate.
  - intros p lim. unfold random. replace (terminal_symbols ex_left) with (Ok [false; true]) by (vm_compute; reflexivity).
    cbn [bind]. unfold run_loop.
    destruct (iter_pow_forever (gen_step bytes_generate bytes_mutate_start ex_char (weighted ex_left) [false; true] (negative_map []) (Some lim))
      (fun st => exists W, st = mkGen (0 :: W) [] [] (mkBytes [] []) [] [])) with (p := p) (s := mkGen [0] [] [] (mkBytes [] []) [] [])
      as [s [-> _]]; auto.
    + intros s [W ->]. eexists. split; [|exists (1 :: W); reflexivity].
      unfold gen_step. cbn [g_work].
      replace (bs_get [false; true] 0) with (Ok false) by reflexivity.
      replace (map_get (negative_map []) 0) with (@None (list nat)) by reflexivity. cbn [g_rng].
      replace (pick_rhs bytes_generate (weighted ex_left) 0 (mkBytes [] [])) with (Ok ([0; 1], mkBytes [] [])) by (vm_compute; reflexivity).
      reflexivity.
    + exists []. auto.
Qed.
Print Assumptions C48_ends_refuted.

(** * C49 *)

(** With at most one negative symbol in a sentence, the output is a sentence with the negative symbols
    erased, and the text after the negative symbol does not start with its forbidden text.
    Missing: several negative symbols, see the next theorem and the refutation. *)
Theorem C49_single_partial : forall (R : Type) (generate : R -> f64 -> res (f64 * R)) (mutate_start : R -> N -> R)
    (to_char : nat -> R -> option nat * R) p g start limit rng negative_rules result string,
  closed_rules g -> start < num_syms g ->
  at_most_one (negative_symbol negative_rules (prods g)) (prods g) start ->
  random generate mutate_start to_char p g start limit rng negative_rules = Ok (Generated result string) ->
  exists w, negative_sentence negative_rules (prods g) start w result /\ within_limit limit (length result) /\
    forall tc, pure_chars to_char tc -> string = chars_of tc result /\ respects negative_rules (prods g) tc w.
Proof.
  intros R generate mutate_start to_char p g start limit rng neg result string HC Hs H1 H.
  pose proof (random_negative generate mutate_start to_char g HC neg start limit p rng Hs H1) as HR. rewrite H in HR.
  destruct HR as [w [W1 [W2 [W3 [W4 W5]]]]]. exists w. split; [split; auto|]. split; auto.
Qed.
Print Assumptions C49_single_partial.

(** The same for any number of negative symbols, provided that after each one at least as many characters as
    in its forbidden text are generated before the next one.  This covers forbidden texts of one character
    with a character between any two negative symbols. *)
Theorem C49_apart_partial : forall (R : Type) (generate : R -> f64 -> res (f64 * R)) (mutate_start : R -> N -> R)
    (to_char : nat -> R -> option nat * R) p g start limit rng negative_rules tc result string,
  closed_rules g -> start < num_syms g -> pure_chars to_char tc ->
  (forall A f, nonterminal (prods g) A -> forbids negative_rules A f -> f <> []) ->
  far_apart negative_rules (prods g) tc start ->
  random generate mutate_start to_char p g start limit rng negative_rules = Ok (Generated result string) ->
  within_limit limit (length result) /\ string = chars_of tc result /\
  exists w, negative_sentence negative_rules (prods g) start w result /\ respects negative_rules (prods g) tc w.
Proof.
  intros R generate mutate_start to_char p g start limit rng neg tc result string HC Hs Htc Hne Hap H.
  pose proof (random_apart generate mutate_start to_char g neg start limit tc p rng HC Hs Htc Hne Hap) as HR. rewrite H in HR.
  destruct HR as [w [W1 [W2 [W3 [W4 W5]]]]]. destruct (W5 tc Htc) as [V1 V2]. split; [auto|]. split; [auto|].
  exists w. split; [split; auto|]. exact V2.
Qed.
Print Assumptions C49_apart_partial.

(** Whatever the negative rules, the output is made of terminals and within the limit. *)
Theorem C49_terminals_partial : forall (R : Type) (generate : R -> f64 -> res (f64 * R)) (mutate_start : R -> N -> R)
    (to_char : nat -> R -> option nat * R) p g start limit rng negative_rules result string,
  closed_rules g ->
  random generate mutate_start to_char p g start limit rng negative_rules = Ok (Generated result string) ->
  Forall (terminal (prods g)) result /\ within_limit limit (length result).
Proof. intros. eapply random_outcome; eauto. Qed.
Print Assumptions C49_terminals_partial.

(** S ::= D S | D, D ::= N T, N ::= (empty), T ::= a | b: any number of negative symbols *)
Definition ex_many : cfg :=
  mkCfg (mkSrc 6 []) [mkRule 0 [1; 0] hd0; mkRule 0 [1] hd0; mkRule 1 [2; 3] hd0; mkRule 2 [] hd0; mkRule 3 [4] hd0; mkRule 3 [5] hd0]
        [] [] None.
Definition ex_tc (s : nat) : option nat := Some (95 + s).

Lemma ex_many_prods : forall A r, prods ex_many A r ->
  (A = 0 /\ (r = [1; 0] \/ r = [1])) \/ (A = 1 /\ r = [2; 3]) \/ (A = 2 /\ r = []) \/ (A = 3 /\ (r = [4] \/ r = [5])).
Proof.
  intros A r [x [Hx [<- <-]]]. simpl in Hx. destruct Hx as [<-|[<-|[<-|[<-|[<-|[<-|[]]]]]]]; cbn [lhs rhs]; auto 10.
Qed.

(** No derived string has the negative symbol 2 followed by 2, by 1 or by 0. *)
Definition spaced (w : list nat) : Prop := forall a x b, w = a ++ 2 :: x :: b -> x = 3 \/ x = 4 \/ x = 5.
Lemma ex_many_spaced : forall u w, derives (keeping (negative_symbol [(2, [97])] (prods ex_many)) (prods ex_many)) u w ->
  Forall (fun x => x < 6) u -> spaced u -> Forall (fun x => x < 6) w /\ spaced w.
Proof.
  intros u w H. induction H as [u|u A v r w [HA HP] _ IH]; intros HF HS; auto. apply IH.
  - apply Forall_app in HF. destruct HF as [F1 F2]. inversion F2; subst. apply Forall_app. split; auto. apply Forall_app. split; auto.
    apply ex_many_prods in HP. destruct HP as [[-> [->| ->]]|[[-> ->]|[[-> ->]|[-> [->| ->]]]]]; repeat (constructor; [lia|]); constructor.
  - assert (HA2 : A <> 2).
    { intros ->. apply HA. split; [exists [97]; exists [], []; auto|]. exists r. auto. }
    intros a x b Hab. unfold spaced in HS.
    assert (Hcase : (exists b', u = a ++ 2 :: x :: b') \/ (u = a ++ [2] /\ exists q, r ++ v = x :: q) \/
                    (exists u', a = u ++ u' /\ r ++ v = u' ++ 2 :: x :: b)).
    { clear - Hab. revert a Hab. induction u as [|y u IHu]; intros a Hab.
      - right. right. exists a. auto.
      - destruct a as [|z a]; simpl in Hab; injection Hab as E Hab; subst.
        + destruct u as [|y u]; simpl in Hab.
          * right. left. split; auto. eauto.
          * injection Hab as -> Hab. left. exists u. auto.
        + destruct (IHu a Hab) as [[b' ->]|[[-> H]|[u' [-> H]]]].
          * left. exists b'. auto.
          * right. left. auto.
          * right. right. exists u'. auto. }
    destruct Hcase as [[b' ->]|[[-> [q Hq]]|[u' [-> Hu]]]].
    + apply (HS a x (b' ++ A :: v)). rewrite <- app_assoc. auto.
    + specialize (HS a A v). rewrite <- app_assoc in HS. specialize (HS eq_refl).
      apply ex_many_prods in HP. destruct HP as [[-> _]|[[-> _]|[[-> _]|[-> [->| ->]]]]]; try lia; simpl in Hq; injection Hq as <- _; auto.
    + apply ex_many_prods in HP.
      assert (HV : forall a' b', v = a' ++ 2 :: x :: b' -> x = 3 \/ x = 4 \/ x = 5).
      { intros a' b' ->. apply (HS (u ++ A :: a') x b'). rewrite <- app_assoc. auto. }
      destruct HP as [[-> [->| ->]]|[[-> ->]|[[-> ->]|[-> [->| ->]]]]]; try lia; simpl in Hu;
        repeat (destruct u' as [|? u']; simpl in Hu; injection Hu as ? Hu; subst; auto; try lia); try (apply (HV u' b); auto); eauto.
Qed.

Example C49_example :
  closed_rules ex_many /\
  (forall A f, nonterminal (prods ex_many) A -> forbids [(2, [97])] A f -> f <> []) /\
  far_apart [(2, [97])] (prods ex_many) (fun s => Some (93 + s)) 0 /\
  random bytes_generate bytes_mutate_start (fun s r => (Some (93 + s), r)) 10 ex_many 0 (Some (mkLimits 10%N 0%N))
    (mkBytes [0; 250; 0; 0; 200; 0; 30; 255; 0; 7; 0]%N []) [(2, [97])] = Ok (Generated [5; 5; 5] [98; 98; 98]).
Proof.
  split; [closed_tac|]. split; [|split].
  - intros A f _ [l1 [l2 [H _]]]. destruct l1 as [|? l1]; [injection H as <- <-; discriminate|destruct l1; discriminate].
  - intros a A b B c f Hf HA HB HT HD. destruct Hf as [l1 [l2 [Hl _]]].
    destruct l1 as [|? l1]; [|destruct l1; discriminate]. injection Hl as <- <- _.
    destruct HB as [[f' [l1 [l2' [Hl' _]]]] _]. destruct l1 as [|? l1]; [|destruct l1; discriminate]. injection Hl' as <- <- _.
    destruct (ex_many_spaced _ _ HD) as [_ HS]; [repeat constructor| |].
    + intros x y z Hx. destruct x as [|? [|? ?]]; discriminate.
    + destruct b as [|x b]; [|simpl; lia]. simpl in HD, HS. specialize (HS a 2 c eq_refl). lia.
  - vm_compute. reflexivity.
Qed.

(** [E : l = u ++ A :: v] for a known [l]: each position of [A] in turn *)
Ltac split_at E u k :=
  destruct u as [|? u]; simpl in E;
  [first [discriminate E | injection E; intros; subst; k]
  |first [discriminate E | injection E as ? E; subst; split_at E u k]].

(** S ::= M X, X ::= a N Y | b Z, Y ::= c, Z ::= d with "ac" forbidden after M and "d" after N: the sentences are
    "ac" and "bd", but "bc" is generated.  The state of the abandoned N is still in use. *)
Definition ex_stale : cfg :=
  mkCfg (mkSrc 10 []) [mkRule 0 [1; 2] hd0; mkRule 1 [] hd0; mkRule 3 [] hd0; mkRule 2 [6; 3; 4] hd0; mkRule 2 [7; 5] hd0;
                       mkRule 4 [8] hd0; mkRule 5 [9] hd0] [] [] None.
Definition stale_rules : list (nat * list nat) := [(1, [97; 99]); (3, [100])].
Theorem C49_stale_refuted : exists g start rng neg result string, closed_rules g /\ start < num_syms g /\
  random bytes_generate bytes_mutate_start (fun s r => (Some (91 + s), r)) 6 g start None rng neg = Ok (Generated result string) /\
  ~ exists w, negative_sentence neg (prods g) start w result.
Proof.
  exists ex_stale, 0, (mkBytes [1%N] []), stale_rules. eexists. eexists. split; [closed_tac|]. split; [vm_compute; lia|].
  split; [vm_compute; reflexivity|]. intros [w [H1 [H2 H3]]].
  set (P := keeping (negative_symbol stale_rules (prods ex_stale)) (prods ex_stale)) in *.
  assert (HP : forall A r, P A r -> (A = 0 /\ r = [1; 2]) \/ (A = 2 /\ (r = [6; 3; 4] \/ r = [7; 5])) \/ (A = 4 /\ r = [8]) \/ (A = 5 /\ r = [9])).
  { intros A r [HN [x [Hx [<- <-]]]]. simpl in Hx.
    destruct Hx as [<-|[<-|[<-|[<-|[<-|[<-|[<-|[]]]]]]]]; cbn [lhs rhs] in *; auto 10; exfalso; apply HN.
    - split; [exists [97; 99], [], [(3, [100])]; split; auto; simpl; lia|]. exists []. exists (mkRule 1 [] hd0). simpl. auto.
    - split; [exists [100], [(1, [97; 99])], []; split; auto|]. exists []. exists (mkRule 3 [] hd0). simpl. auto. }
  assert (Hforms : forall u v, derives P u v ->
    In u [[0]; [1; 2]; [1; 6; 3; 4]; [1; 7; 5]; [1; 6; 3; 8]; [1; 7; 9]] ->
    In v [[0]; [1; 2]; [1; 6; 3; 4]; [1; 7; 5]; [1; 6; 3; 8]; [1; 7; 9]]).
  { intros u v H. induction H as [u|u A v r w0 HA _ IH]; auto. intros Hin. apply IH. apply HP in HA.
    simpl in Hin. destruct Hin as [E|[E|[E|[E|[E|[E|[]]]]]]];
      split_at E u ltac:(destruct HA as [[? ->]|[[? [->| ->]]|[[? ->]|[? ->]]]]; try discriminate; simpl; auto 10). }
  apply Hforms in H1; [|simpl; auto].
  assert (HE : forall x y, erased (negative_symbol stale_rules (prods ex_stale)) x y -> forall s, In s y -> In s x).
  { intros x y H. induction H; intros t Ht; simpl in *; auto; destruct Ht; auto. }
  pose proof (HE _ _ H3 7) as H7. pose proof (HE _ _ H3 8) as H8. simpl in H7, H8.
  specialize (H7 (or_introl eq_refl)). specialize (H8 (or_intror (or_introl eq_refl))).
  simpl in H1. destruct H1 as [E|[E|[E|[E|[E|[E|[]]]]]]]; subst w; simpl in H7, H8; lia.
Qed.
Print Assumptions C49_stale_refuted.

(** * C63 *)

(** The weight of a production: thousandths, 1 if not given *)
Definition weight_of (r : rule) : Q :=
  match h_weight (hist r) with Some w => (inject_Z (Z.of_N w) / 1000)%Q | None => 1%Q end.
Definition productions_of (g : cfg) (A : nat) : list rule := filter (fun r => lhs r =? A) (rules g).

(** The weights of the code are of the type u32. *)
Definition weights_fit (g : cfg) : Prop := forall r w, In r (rules g) -> h_weight (hist r) = Some w -> (w < 2 ^ 32)%N.

(** The largest relative error of the sum of [n] weights *)
Definition rounding (n : nat) : Q := (inject_Z (Z.of_nat n) * p2 (-52))%Q.

Lemma weight_of_rule : forall r, (exact_weight r == weight_of r)%Q.
Proof. intros r. unfold exact_weight, milli, weight_of. destruct (h_weight (hist r)) as [w|]; reflexivity. Qed.
Lemma before_ext : forall rs i, (weight_before (map exact_weight rs) i == weight_before (map weight_of rs) i)%Q.
Proof.
  induction rs as [|r rs IH]; intros [|i]; simpl; try lra. rewrite weight_of_rule, IH. lra.
Qed.
Lemma fit_u32 : forall g, weights_fit g -> u32_weights (rules g).
Proof. intros g H r Hr. unfold milli. destruct (h_weight (hist r)) eqn:E; [eauto|reflexivity]. Qed.
Lemma fit_alts : forall g A, weights_fit g -> u32_weights (alts g A).
Proof. intros g A H r Hr. apply (fit_u32 g H). unfold alts in Hr. apply filter_In in Hr. apply Hr. Qed.
Lemma few_alts : forall g A, (Z.of_nat (length (rules g)) <= 2 ^ 50)%Z -> (Z.of_nat (length (alts g A)) <= 2 ^ 50)%Z.
Proof. intros g A H. pose proof (alts_length g A). lia. Qed.

(** Line up the productions of a symbol in their order, each with an interval as long as its weight.  A random
    value strictly inside an interval picks its production, if the distances to the boundaries are larger than the rounding errors.
    Missing: values on a boundary or this close to one; the last part of the claim is false, see below. *)
Theorem C63_interval_partial : forall (R : Type) (generate : R -> f64 -> res (f64 * R)) g A rng i r,
  weights_fit g -> (Z.of_nat (length (rules g)) <= 2 ^ 50)%Z ->
  let ws := map weight_of (productions_of g A) in
  nth_error (productions_of g A) i = Some r ->
  (forall q, num q -> (Qabs (fval q - weight_before ws (length ws)) <= weight_before ws (length ws) * rounding (length ws))%Q ->
     exists v rng', generate rng q = Ok (v, rng') /\ num v /\
     (weight_before ws i * (1 + rounding i) < fval v)%Q /\ (fval v < weight_before ws (i + 1) * (1 - rounding (i + 1)))%Q) ->
  exists rng', pick_rhs generate (weighted g) A rng = Ok (rhs r, rng').
Proof.
  intros R generate g A rng i r HF HL ws Hr HG. pose proof (fit_alts g A HF) as HU. pose proof (few_alts g A HL) as HB.
  assert (Hi : i < length (alts g A)) by (apply nth_error_Some; unfold productions_of, alts in *; congruence).
  destruct (pick_inside generate g A HU HB rng i r Hr) as [rng' [HP _]]; [|exists rng'; auto].
  intros Hn1. destruct (pick_position generate g A HU HB rng) as [Q1 [Q2 _]]; [lia|].
  assert (FN : forall k, k <= length (alts g A) -> (Qabs (from g A k - weight_before ws k) <= weight_before ws k * rounding k)%Q).
  { intros k Hk. pose proof (from_near g A HU HB k Hk) as N. unfold near in N. fold (rounding k) in N.
    unfold ws. rewrite <- (before_ext (productions_of g A)). exact N. }
  destruct (HG (tot (alts g A)) Q1) as [v [rng' [V1 [V2 [V3 V4]]]]].
  - rewrite Q2. replace (length ws) with (length (alts g A)) by (unfold ws; rewrite map_length; reflexivity). apply FN. auto.
  - exists v, rng'. split; auto. split; auto. pose proof (FN i ltac:(lia)) as F1. pose proof (FN (i + 1) ltac:(lia)) as F2.
    rewrite abs_bounds in F1, F2. split; lra.
Qed.
Print Assumptions C63_interval_partial.

(** Whatever the value, the picked production is one whose closed interval contains it, up to the rounding errors; so a production of
    weight zero is picked only for values at its position. *)
Theorem C63_bounds_partial : forall (R : Type) (generate : R -> f64 -> res (f64 * R)) g A rng r rng',
  weights_fit g -> (Z.of_nat (length (rules g)) <= 2 ^ 50)%Z -> (forall q v s, generate rng q = Ok (v, s) -> num v) ->
  let ws := map weight_of (productions_of g A) in
  2 <= length ws ->
  pick_rhs generate (weighted g) A rng = Ok (r, rng') ->
  exists q v i x, num q /\ (Qabs (fval q - weight_before ws (length ws)) <= weight_before ws (length ws) * rounding (length ws))%Q /\
    generate rng q = Ok (v, rng') /\
    nth_error (productions_of g A) i = Some x /\ rhs x = r /\
    (weight_before ws i * (1 - rounding i) <= fval v)%Q /\
    ((fval v <= fval q)%Q -> (fval v <= weight_before ws (i + 1) * (1 + rounding (i + 1)))%Q) /\
    ((fval v <= fval q)%Q -> (weight_of x == 0)%Q -> (fval v <= weight_before ws i * (1 + rounding (i + 1)))%Q).
Proof.
  intros R generate g A rng r rng' HF HL HV ws Hn HP. unfold ws in Hn. rewrite map_length in Hn.
  pose proof (fit_alts g A HF) as HU. pose proof (few_alts g A HL) as HB.
  destruct (pick_position generate g A HU HB rng Hn) as [Q1 [Q2 HM]].
  assert (FN : forall k, k <= length (alts g A) -> (Qabs (from g A k - weight_before ws k) <= weight_before ws k * rounding k)%Q).
  { intros k Hk. pose proof (from_near g A HU HB k Hk) as N. unfold near in N. fold (rounding k) in N.
    unfold ws. rewrite <- (before_ext (productions_of g A)). exact N. }
  set (q := tot (alts g A)) in *. exists q.
  destruct (generate rng q) as [[v rng'']| |] eqn:Eg; [|congruence|congruence].
  destruct (HM (HV _ _ _ Eg)) as [i [x [Hx [Hp [P1 [P2 P3]]]]]]. rewrite HP in Hp. injection Hp as -> ->.
  assert (Hi : i < length (alts g A)) by (apply nth_error_Some; congruence).
  pose proof (num_nonneg v (HV _ _ _ Eg)) as V0.
  exists v, i, x. split; auto. split; [rewrite Q2; replace (length ws) with (length (alts g A)) by (unfold ws; rewrite map_length; reflexivity); apply FN; auto|].
  split; [auto|]. split; [auto|]. split; [auto|].
  pose proof (FN i ltac:(lia)) as F1. pose proof (FN (i + 1) ltac:(lia)) as F2. rewrite abs_bounds in F1, F2.
  assert (B2 : (fval v <= fval q)%Q -> (fval v <= weight_before ws (i + 1) * (1 + rounding (i + 1)))%Q).
  { intros Hq. destruct (Nat.eq_dec (i + 1) (length (alts g A))) as [E|E]; [rewrite Q2, <- E in Hq; lra|].
    assert (fval v <= from g A (i + 1))%Q by (apply P2; lia). lra. }
  split; [|split; [exact B2|]].
  - destruct P1 as [->|P1]; [rewrite before_0; lra|lra].
  - intros Hq HW. specialize (B2 Hq).
    assert (HS : (weight_before ws (S i) == weight_before ws i + weight_of x)%Q) by (apply before_S; apply map_nth_error; auto).
    rewrite Nat.add_1_r in *. rewrite HS, HW, Qplus_0_r in B2. auto.
Qed.
Print Assumptions C63_bounds_partial.

(** A grammar with weights 1/2 and 3/2: the values 1/4 and 1 pick the first and the second. *)
Definition with_weight (w : N) : history := mkHistory dot_default dot_default dot_default 0 None (Some w) None.
Definition ex_weights (a b : N) : cfg :=
  mkCfg (mkSrc 3 []) [mkRule 0 [1] (with_weight a); mkRule 0 [2] (with_weight b)] [] [] None.
Example C63_example :
  pick_rhs (fun (_ : unit) _ => Ok (f64_div (f64_of 1) (f64_of 4), tt)) (weighted (ex_weights 500 1500)) 0 tt = Ok ([1], tt) /\
  pick_rhs (fun (_ : unit) _ => Ok (f64_of 1, tt)) (weighted (ex_weights 500 1500)) 0 tt = Ok ([2], tt) /\
  (let ws := map weight_of (productions_of (ex_weights 500 1500) 0) in
   (weight_before ws 1 * (1 + rounding 1) < fval (f64_of 1))%Q /\ (fval (f64_of 1) < weight_before ws 2 * (1 - rounding 2))%Q) /\
  weights_fit (ex_weights 500 1500).
Proof.
  split; [vm_compute; reflexivity|]. split; [vm_compute; reflexivity|]. split; [split; vm_compute; reflexivity|].
  intros r w [<-|[<-|[]]] H; injection H as <-; reflexivity.
Qed.

(** A production of weight zero is chosen, by the byte source with a byte 0. *)
Theorem C63_zero_weight_refuted : exists g A r rng, closed_rules g /\
  In r (rules g) /\ (weight_of r == 0)%Q /\ (forall x, In x (rules g) -> rhs x = rhs r -> x = r) /\
  (exists x, In x (rules g) /\ lhs x = A /\ (0 < weight_of x)%Q) /\
  exists rng', pick_rhs bytes_generate (weighted g) A rng = Ok (rhs r, rng').
Proof.
  exists (ex_weights 0 1000), 0, (mkRule 0 [1] (with_weight 0)), (mkBytes [0%N] []). split; [closed_tac|].
  split; [simpl; auto|]. split; [vm_compute; reflexivity|]. split; [|split].
  - intros x [<-|[<-|[]]]; simpl; auto; discriminate.
  - exists (mkRule 0 [2] (with_weight 1000)). split; [simpl; auto|]. split; [reflexivity|]. vm_compute. reflexivity.
  - eexists. vm_compute. reflexivity.
Qed.
Print Assumptions C63_zero_weight_refuted.

(** * C64 *)

(** If all weights are positive, every sentence within the limit is generated for some random values in the range
    from 0 up to the limit passed to the source ([given]: the source returns the given values, and panics if one is outside of
    this range).  The weights and the numbers of productions are not huge:
    beyond that, rounding can make an interval empty. *)
Theorem C64_every_sentence : forall g start limit tc (mutate_start : list f64 -> N -> list f64) w,
  closed_rules g -> weights_fit g -> (forall r, In r (rules g) -> (0 < weight_of r)%Q) ->
  (forall A, let ws := map weight_of (productions_of g A) in
     (weight_before ws (length ws) * inject_Z (Z.of_nat (length ws)) <= inject_Z (2 ^ 40))%Q) ->
  start < num_syms g -> language (prods g) start w -> within_limit limit (length w) ->
  exists choices p,
    random given mutate_start (fun s r => (tc s, r)) p g start limit choices [] = Ok (Generated w (chars_of tc w)).
Proof.
  intros g start limit tc mutate_start w HC HF HW HB Hs HL Hw. destruct (bs_terminal_spec g HC) as [ts [Et _]].
  apply (generate_all g HC) with (ts := ts); auto.
  - intros r Hr. specialize (HW r Hr). unfold milli, weight_of in *. destruct (h_weight (hist r)) as [[|n]|]; try reflexivity. exfalso. revert HW. vm_compute. discriminate.
  - apply fit_u32. auto.
  - intros A. specialize (HB A). cbn zeta in *. rewrite map_length in HB. rewrite before_ext. exact HB.
Qed.
Print Assumptions C64_every_sentence.

Example C64_example : closed_rules ex_gen /\ weights_fit ex_gen /\ (forall r, In r (rules ex_gen) -> (0 < weight_of r)%Q) /\
  (forall A, let ws := map weight_of (productions_of ex_gen A) in
     (weight_before ws (length ws) * inject_Z (Z.of_nat (length ws)) <= inject_Z (2 ^ 40))%Q) /\
  language (prods ex_gen) 0 [2; 2; 3] /\
  (* values in the range *)
  exists v1 v2, random given (fun l _ => l) (fun s r => (ex_tc s, r)) 5 ex_gen 0 None [v1; v2] [] = Ok (Generated [2; 2; 3] [97; 97; 98]).
Proof.
  split; [exact ex_gen_closed|]. split; [intros r w [<-|[<-|[<-|[]]]] H; discriminate|].
  assert (HX : forall P Q X Y : Prop, P -> Q -> X -> Y -> P /\ Q /\ X /\ Y) by tauto. apply HX; clear HX;
    [|intros [|[|A]]; vm_compute; discriminate| |exists (f64_div (f64_of 1) (f64_of 4)), (f64_div (f64_of 5) (f64_of 4)); vm_compute; reflexivity].
  - intros r [<-|[<-|[<-|[]]]]; reflexivity.
  - split.
    + apply (derives_step _ [] 0 [] [1; 3]); [exists (mkRule 0 [1; 3] hd0); simpl; auto|].
      apply (derives_step _ [] 1 [3] [2; 1]); [exists (mkRule 1 [2; 1] hd0); simpl; auto|].
      apply (derives_step _ [2] 1 [3] [2]); [exists (mkRule 1 [2] hd0); simpl; auto 10|]. constructor.
    + repeat (apply Forall_cons; [intros r [x [Hx [H _]]]; simpl in Hx; destruct Hx as [<-|[<-|[<-|[]]]]; discriminate|]).
      constructor.
Qed.

(** * C65 *)

(** The limit on the attempts with negative rules is not used: it never changes the outcome. *)
Theorem C65_attempts_ignored_partial : forall (R : Type) (generate : R -> f64 -> res (f64 * R)) (mutate_start : R -> N -> R)
    (to_char : nat -> R -> option nat * R) p g start t a a' rng negative_rules,
  random generate mutate_start to_char p g start (Some (mkLimits t a)) rng negative_rules =
  random generate mutate_start to_char p g start (Some (mkLimits t a')) rng negative_rules.
Proof. reflexivity. Qed.
Print Assumptions C65_attempts_ignored_partial.

(** S ::= N T, T ::= a | b, "a" forbidden: with zero attempts allowed, the call goes back and picks b. *)
Theorem C65_attempts_refuted : exists g rng,
  random bytes_generate bytes_mutate_start (fun s r => (Some (94 + s), r)) 6 g 0 (Some (mkLimits 10%N 0%N)) rng [(1, [97])] =
    Ok (Generated [4] [98]) /\
  random bytes_generate bytes_mutate_start (fun s r => (Some (94 + s), r)) 6 g 0 (Some (mkLimits 10%N 0%N)) rng [] =
    Ok (Generated [3] [97]).
Proof. exists ex_neg, (mkBytes [1%N] []). split; vm_compute; reflexivity. Qed.
Print Assumptions C65_attempts_refuted.

(** * C66 *)

(** A random source that neither panics nor returns a NaN for the sums of weights of a grammar.  These are not zero if all weights
    are positive. *)
Definition reliable {R : Type} (generate : R -> f64 -> res (f64 * R)) (g : cfg) : Prop :=
  forall rng q, moderate q -> ((forall r, In r (rules g) -> (0 < weight_of r)%Q) -> (0 < fval q)%Q) ->
    generate rng q <> Panic /\ forall v rng', generate rng q = Ok (v, rng') -> v <> S754_nan.

Lemma reliable_ok : forall (R : Type) (generate : R -> f64 -> res (f64 * R)) g rng q,
  weights_fit g -> (Z.of_nat (length (rules g)) <= 2 ^ 50)%Z -> reliable generate g -> asked g q -> ~ fails generate rng q.
Proof.
  intros R generate g rng q HF HL HR HA HX. destruct (HR rng q) as [R1 R2].
  - apply (asked_moderate g); auto. apply fit_u32. auto.
  - intros HW. destruct HA as [A [w [Hw ->]]]. pose proof (fit_alts g A HF) as HU. pose proof (few_alts g A HL) as HB.
    assert (HN : alts g A <> []) by (intros E; rewrite weighted_get, E in Hw; discriminate).
    rewrite (weighted_some g A HN) in Hw. injection Hw as <-.
    change (0 < fval (tot (alts g A)))%Q.
    destruct (tot_inv _ HU HB (length (alts g A)) (le_n _)) as [K N S E]. rewrite firstn_all in *. destruct (eps_bound _ K) as [E0 E1].
    set (s := weight_before _ _) in *. assert (HS : (0 < s)%Q).
    { unfold s. destruct (alts g A) as [|x rs] eqn:EA; [congruence|]. cbn [length map weight_before]. clear HN. pose proof (weights_nonneg rs) as HN.
      pose proof (before_mono (map exact_weight rs) HN 0 (length rs) (Nat.le_0_l _)) as HM. rewrite before_0 in HM.
      assert (HI : In x (alts g A)) by (rewrite EA; left; auto). unfold alts in HI. apply filter_In in HI. destruct HI as [HI _]. specialize (HW x HI).
      rewrite <- weight_of_rule in HW. lra. }
    rewrite abs_bounds in E. set (e := (inject_Z _ * p2 (-52))%Q) in *.
    assert (HSE : (s * e <= s * (1 # 4))%Q) by (rewrite !(Qmult_comm s); apply Qmult_le_compat_r; lra). lra.
  - destruct HX as [HX|[rng' HX]]; [auto|]. eapply R2; eauto.
Qed.

(** Without negative rules generation panics only if the random source panics or returns a NaN. *)
Theorem C66_no_panic_partial : forall (R : Type) (generate : R -> f64 -> res (f64 * R)) (mutate_start : R -> N -> R)
    (to_char : nat -> R -> option nat * R) p g start limit rng,
  closed_rules g -> start < num_syms g -> weights_fit g -> (Z.of_nat (length (rules g)) <= 2 ^ 50)%Z -> reliable generate g ->
  random generate mutate_start to_char p g start limit rng [] <> Panic.
Proof.
  intros R generate mutate_start to_char p g start limit rng HC Hs HF HL HG.
  pose proof (random_negative generate mutate_start to_char g HC [] start limit p rng Hs) as HR.
  intros E. rewrite E in HR. destruct HR as [rng' [q [Ha Hq]]]; [|eapply reliable_ok; eauto].
  intros a A b B c [[f [l1 [l2 [H _]]]] _]. destruct l1; discriminate.
Qed.
Print Assumptions C66_no_panic_partial.

(** The same with negative rules under the conditions of C49. *)
Theorem C66_no_panic_negative_partial : forall (R : Type) (generate : R -> f64 -> res (f64 * R)) (mutate_start : R -> N -> R)
    (to_char : nat -> R -> option nat * R) p g start limit rng negative_rules tc,
  closed_rules g -> start < num_syms g -> weights_fit g -> (Z.of_nat (length (rules g)) <= 2 ^ 50)%Z -> reliable generate g ->
  at_most_one (negative_symbol negative_rules (prods g)) (prods g) start \/
  (pure_chars to_char tc /\ (forall A f, nonterminal (prods g) A -> forbids negative_rules A f -> f <> []) /\
   far_apart negative_rules (prods g) tc start) ->
  random generate mutate_start to_char p g start limit rng negative_rules <> Panic.
Proof.
  intros R generate mutate_start to_char p g start limit rng neg tc HC Hs HF HL HG [H1|[H1 [H2 H3]]] E.
  - pose proof (random_negative generate mutate_start to_char g HC neg start limit p rng Hs H1) as HR.
    rewrite E in HR. destruct HR as [rng' [q [Ha Hq]]]. eapply reliable_ok; eauto.
  - pose proof (random_apart generate mutate_start to_char g neg start limit tc p rng HC Hs H1 H2 H3) as HR.
    rewrite E in HR. destruct HR as [rng' [q [Ha Hq]]]. eapply reliable_ok; eauto.
Qed.
Print Assumptions C66_no_panic_negative_partial.

(** The source of bytes meets the condition if all weights are positive. *)
Theorem C66_bytes_partial : forall p g start limit bytes to_char,
  closed_rules g -> start < num_syms g -> weights_fit g -> (Z.of_nat (length (rules g)) <= 2 ^ 50)%Z ->
  (forall r, In r (rules g) -> (0 < weight_of r)%Q) ->
  random bytes_generate bytes_mutate_start to_char p g start limit (bytes_new bytes) [] <> Panic.
Proof.
  intros p g start limit bytes to_char HC Hs HF HL HW. apply C66_no_panic_partial; auto.
  intros rng q [Nq _] HP. specialize (HP HW). unfold bytes_generate. destruct (match bytes_pushed rng with [] => _ | _ => _ end) as [b s'].
  split; [discriminate|]. intros v rng' E. injection E as <- _. intros E.
  assert (HN : nn (f64_div (f64_mul (f64_of b) q) (f64_of 255))); [|rewrite E in HN; exact HN].
  change (f64_of 255) with (S754_finite false 8972014882652160 (-45)). apply nn_div. pose proof (nn_of b) as HB.
  destruct (num_finite q Nq) as [->|(m & e & -> & _)]; [exfalso; cbn [fval] in HP; lra|].
  destruct (f64_of b) as [[]|[]| |[] m' e']; cbn [nn] in HB; try discriminate; try tauto; try reflexivity.
  unfold f64_mul. cbn [SFmul xorb]. apply bra_nn. lia.
Qed.
Print Assumptions C66_bytes_partial.

Example C66_example : closed_rules ex_gen /\ weights_fit ex_gen /\ (forall r, In r (rules ex_gen) -> (0 < weight_of r)%Q) /\
  (* a NaN makes the call panic *)
  random (fun (_ : unit) _ => Ok (S754_nan, tt)) (fun r _ => r) ex_char 5 ex_gen 0 None tt [] = Panic.
Proof.
  split; [exact ex_gen_closed|]. split; [intros r w [<-|[<-|[<-|[]]]] H; discriminate|].
  split; [intros r [<-|[<-|[<-|[]]]]; reflexivity|]. vm_compute. reflexivity.
Qed.

(** S ::= b M a N b with "ab" forbidden after M and "b" after N: the call panics. *)
Definition ex_panic : cfg :=
  mkCfg (mkSrc 5 []) [mkRule 0 [4; 1; 3; 2; 4] hd0; mkRule 1 [] hd0; mkRule 2 [] hd0] [] [] None.
Theorem C66_no_panic_refuted : exists g start negative_rules, closed_rules g /\ start < num_syms g /\
  language (prods g) start [4; 3; 4] /\
  forall rng limit, random bytes_generate bytes_mutate_start (fun s r => (Some (94 + s), r)) 5 g start (Some (mkLimits 10%N limit)) rng negative_rules = Panic.
Proof.
  exists ex_panic, 0, [(1, [97; 98]); (2, [98])]. split; [closed_tac|]. split; [vm_compute; lia|]. split.
  - split.
    + apply (derives_step _ [] 0 [] [4; 1; 3; 2; 4]); [exists (mkRule 0 [4; 1; 3; 2; 4] hd0); simpl; auto|].
      apply (derives_step _ [4] 1 [3; 2; 4] []); [exists (mkRule 1 [] hd0); simpl; auto|].
      apply (derives_step _ [4; 3] 2 [4] []); [exists (mkRule 2 [] hd0); simpl; auto|]. constructor.
    + repeat (apply Forall_cons; [intros r [x [Hx [H _]]]; simpl in Hx; destruct Hx as [<-|[<-|[<-|[]]]]; discriminate|]).
      constructor.
  - intros rng limit. vm_compute. reflexivity.
Qed.
Print Assumptions C66_no_panic_refuted.
