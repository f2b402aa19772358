(** Property C132: the rules that matter for random generation. *)

From Coq Require Import List Arith NArith ZArith Bool Lia SpecFloat.
From Verif Require Import Base ListFacts Spec SpecGen GrammarFacts LoopModel LoopFacts HistoryModel SymbolModel CfgModel View
  BitSetModel SetView SetProof SetsModel SetsProof LRProof FloatModel GenModel GenProof GenProof5 PropsGrammar PropsClassify PropsRetry PropsNegAgree.
Import ListNotations.
Local Open Scope nat_scope.
Local Notation length := List.length.

(** ** C132 *)

(** The right-hand sides of a symbol, in order, with their weights in units of 1/1000 *)
Definition choices (g : cfg) (A : nat) : list (list nat * N) :=
  map (fun x => (rhs x, match h_weight (hist x) with Some w => w | None => 1000%N end)) (filter (fun x => lhs x =? A) (rules g)).

Section Local.
  Context {R : Type} (generate : R -> f64 -> res (f64 * R)) (mutate_start : R -> N -> R)
          (to_char : nat -> R -> option nat * R) (g1 g2 : cfg) (ts1 ts2 : bitset) (limit : option limits).
  Context (start : nat) (neg : list (nat * list nat)).
  Hypotheses (HC1 : closed_rules g1) (HC2 : closed_rules g2) (H1 : terminal_symbols g1 = Ok ts1) (H2 : terminal_symbols g2 = Ok ts2).
  Hypotheses (HS1 : start < num_syms g1) (HS2 : start < num_syms g2).
  Hypothesis HE : forall A, reaches (prods g1) start A -> choices g1 A = choices g2 A.

  Lemma weigh_same : forall l1 l2 w,
    map (fun x => (rhs x, match h_weight (hist x) with Some w => w | None => 1000%N end)) l1 =
    map (fun x => (rhs x, match h_weight (hist x) with Some w => w | None => 1000%N end)) l2 ->
    fold_left weigh l1 w = fold_left weigh l2 w.
  Proof.
    induction l1 as [|x l1 IH]; intros [|y l2] w H; cbn [map] in H; try discriminate; [reflexivity|].
    injection H as Hr Hw H. cbn [fold_left]. unfold weigh at 2 4. unfold rule_weight. rewrite Hr, Hw. apply IH. exact H.
  Qed.

  Lemma choices_nil : forall g A, choices g A = [] <-> alts g A = [].
  Proof. intros g A. unfold choices, alts. destruct (filter _ _); cbn; split; congruence. Qed.

  Lemma weighted_same : forall A, reaches (prods g1) start A -> map_get (weighted g1) A = map_get (weighted g2) A.
  Proof.
    intros A HA. rewrite !weighted_get. pose proof (HE A HA) as E. pose proof (choices_nil g1 A) as N1. pose proof (choices_nil g2 A) as N2.
    unfold choices in E. fold (alts g1 A) in E. fold (alts g2 A) in E. pose proof (weigh_same _ _ (mkWlist f64_zero []) E) as W.
    destruct (alts g1 A) as [|x l1]; destruct (alts g2 A) as [|y l2]; cbn [map] in E; try discriminate; [reflexivity|]. rewrite W. reflexivity.
  Qed.

  Lemma prods_same : forall A r, reaches (prods g1) start A -> prods g1 A r -> prods g2 A r.
  Proof.
    intros A r HA Hr. apply alts_In in Hr. apply alts_In. pose proof (HE A HA) as E.
    apply (f_equal (map fst)) in E. unfold choices in E. rewrite !map_map in E. cbn [fst] in E. change (map rhs (alts g1 A) = map rhs (alts g2 A)) in E. rewrite <- E. exact Hr.
  Qed.

  (** What is reached is a symbol of both grammars. *)
  Lemma reached_bound : forall A, reaches (prods g1) start A -> A < num_syms g1 /\ A < num_syms g2.
  Proof.
    assert (K : forall u v, derives (prods g1) u v -> Forall (fun x => reaches (prods g1) start x) u ->
      Forall (fun x => x < num_syms g1 /\ x < num_syms g2) u -> Forall (fun x => x < num_syms g1 /\ x < num_syms g2) v).
    { intros u v D. induction D as [|u A v q w Hq D IH]; intros HR HB; auto.
      apply Forall_app in HR. destruct HR as [R1 R2]. inversion R2 as [|? ? RA R3]; subst.
      apply Forall_app in HB. destruct HB as [B1 B2]. inversion B2 as [|? ? BA B3]; subst.
      apply IH.
      - apply Forall_app. split; auto. apply Forall_app. split; auto. apply Forall_forall. intros y Hy. apply in_split in Hy.
        destruct Hy as [q1 [q2 ->]]. destruct RA as [a [b RA]]. exists (a ++ q1), (q2 ++ b). eapply derives_trans; [exact RA|].
        eapply derives_step; [exact Hq|]. rewrite <- !app_assoc. cbn [app]. rewrite <- ?app_assoc. constructor.
      - apply Forall_app. split; auto. apply Forall_app. split; auto. pose proof (prods_same A q RA Hq) as Hq2.
        destruct Hq as [x [Hx [_ Ex]]]. destruct Hq2 as [y [Hy [_ Ey]]]. destruct (HC1 x Hx) as [_ X]. destruct (HC2 y Hy) as [_ Y].
        rewrite Ex in X. rewrite Ey in Y. rewrite Forall_forall in *. auto. }
    intros A [a [b D]]. assert (F : Forall (fun x => x < num_syms g1 /\ x < num_syms g2) (a ++ A :: b)).
    { apply (K _ _ D); [constructor; [exists [], []; constructor|constructor]|auto]. }
    apply Forall_app in F. destruct F as [_ F]. inversion F; auto.
  Qed.

  Lemma terminal_same : forall A, reaches (prods g1) start A -> bs_get ts1 A = bs_get ts2 A.
  Proof.
    intros A HA. destruct (reached_bound A HA) as [B1 B2]. pose proof (ts_get g1 HC1 ts1 H1 A) as G1. pose proof (ts_get g2 HC2 ts2 H2 A) as G2.
    assert (EN : alts g1 A = [] <-> alts g2 A = []) by (rewrite <- !choices_nil, (HE A HA); tauto).
    assert (T : forall g, terminal (prods g) A -> alts g A = []).
    { intros g HT. destruct (alts g A) as [|x l] eqn:E; auto. exfalso. apply (HT (rhs x)). apply alts_In. rewrite E. left. reflexivity. }
    destruct (bs_get ts1 A) as [[|]| |]; destruct (bs_get ts2 A) as [[|]| |]; try reflexivity; try lia; try (destruct G1; fail); try (destruct G2; fail).
    - exfalso. apply (proj2 G2), EN, T. exact (proj2 G1).
    - exfalso. apply (proj2 G1), EN, T. exact (proj2 G2).
  Qed.

  Lemma steps_same : forall st, reached_only g1 start st ->
    gen_step generate mutate_start to_char (weighted g1) ts1 (negative_map neg) limit st =
    gen_step generate mutate_start to_char (weighted g2) ts2 (negative_map neg) limit st.
  Proof.
    intros st [HW _]. unfold gen_step. destruct (g_work st) as [|sym W]; [reflexivity|]. inversion HW as [|? ? HS _]; subst.
    rewrite (terminal_same sym HS). unfold pick_rhs. rewrite (weighted_same sym HS). reflexivity.
  Qed.
End Local.

(** Two grammars in which each symbol reached from the start symbol has the same right-hand sides with the same weights, in the same
    order, give the same result. *)
Theorem C132_local : forall (R : Type) (generate : R -> f64 -> res (f64 * R)) (mutate_start : R -> N -> R)
    (to_char : nat -> R -> option nat * R) p g1 g2 start limit rng negative_rules,
  closed_rules g1 -> closed_rules g2 -> start < num_syms g1 -> start < num_syms g2 ->
  (forall A, reaches (prods g1) start A -> choices g1 A = choices g2 A) ->
  random generate mutate_start to_char p g1 start limit rng negative_rules = random generate mutate_start to_char p g2 start limit rng negative_rules.
Proof.
  intros R generate mutate_start to_char p g1 g2 start limit rng neg HC1 HC2 HS1 HS2 HE. unfold random.
  destruct (bs_terminal_spec g1 HC1) as [ts1 [T1 _]]. destruct (bs_terminal_spec g2 HC2) as [ts2 [T2 _]].
  unfold terminal_symbols. rewrite T1, T2. cbn [bind]. unfold run_loop.
  destruct (iter_pow_agree (gen_step generate mutate_start to_char (weighted g1) ts1 (negative_map neg) limit)
    (gen_step generate mutate_start to_char (weighted g2) ts2 (negative_map neg) limit) (reached_only g1 start)
    (steps_same generate mutate_start to_char g1 g2 ts1 ts2 limit start neg HC1 HC2 T1 T2 HS1 HS2 HE)
    (reached_step generate mutate_start to_char g1 ts1 limit start neg HC1 T1) p (mkGen [start] [] [] rng [] [])) as [E _].
  - split; cbn [g_work g_back]; [constructor; [exists [], []; constructor|constructor]|discriminate].
  - rewrite E. reflexivity.
Qed.
Print Assumptions C132_local.

(** Rules of symbols that are not reached can be left out with [retain]. *)
Theorem C132_retain : forall (R : Type) (generate : R -> f64 -> res (f64 * R)) (mutate_start : R -> N -> R)
    (to_char : nat -> R -> option nat * R) p g keep start limit rng negative_rules,
  closed_rules g -> start < num_syms g -> (forall x, In x (rules g) -> reaches (prods g) start (lhs x) -> keep x = true) ->
  random generate mutate_start to_char p (cfg_retain keep g) start limit rng negative_rules =
  random generate mutate_start to_char p g start limit rng negative_rules.
Proof.
  intros R generate mutate_start to_char p g keep start limit rng neg HC HS HK. symmetry. apply C132_local; auto.
  - intros x Hx. cbn in Hx. apply filter_In in Hx. exact (HC x (proj1 Hx)).
  - intros A HA. unfold choices. f_equal. cbn [cfg_retain rules set_rules]. revert HK. induction (rules g) as [|x l IH] in |- *; intros HK; [reflexivity|].
    cbn [filter]. destruct (Nat.eqb_spec (lhs x) A) as [E|E].
    + rewrite HK; [|left; reflexivity|rewrite E; exact HA]. cbn [filter]. rewrite (proj2 (Nat.eqb_eq _ _) E). f_equal. apply IH. intros y Hy. apply HK. right. exact Hy.
    + rewrite IH by (intros y Hy; apply HK; right; exact Hy). destruct (keep x); [|reflexivity]. cbn [filter]. destruct (Nat.eqb_spec (lhs x) A); [contradiction|reflexivity].
Qed.
Print Assumptions C132_retain.

(** Rules of other symbols can be added with [extend]. *)
Theorem C132_extend : forall (R : Type) (generate : R -> f64 -> res (f64 * R)) (mutate_start : R -> N -> R)
    (to_char : nat -> R -> option nat * R) p g other start limit rng negative_rules,
  closed_rules g -> closed_rules (cfg_extend g other) -> start < num_syms g -> (forall x, In x (rules other) -> ~ reaches (prods g) start (lhs x)) ->
  random generate mutate_start to_char p (cfg_extend g other) start limit rng negative_rules =
  random generate mutate_start to_char p g start limit rng negative_rules.
Proof.
  intros R generate mutate_start to_char p g other start limit rng neg HC HC' HS HK. symmetry. apply C132_local; auto.
  intros A HA. unfold choices. f_equal. cbn [cfg_extend rules set_rules]. rewrite filter_app.
  replace (filter (fun x => lhs x =? A) (rules other)) with (@nil rule); [rewrite app_nil_r; reflexivity|].
  revert HK. induction (rules other) as [|x l IH]; intros HK; [reflexivity|]. cbn [filter].
  destruct (Nat.eqb_spec (lhs x) A) as [<-|_]; [exfalso; apply (HK x); [left; reflexivity|exact HA]|]. apply IH. intros y Hy. apply HK. right. exact Hy.
Qed.
Print Assumptions C132_extend.

(** S ::= N T;  N ::= ;  T ::= a | b  and  N ::= ;  T ::= a;  U ::= T S;  S ::= N T;  T ::= b: the rules
    of U and the places of the others do not matter.  The order of the rules of T does. *)
Definition ex_local : cfg :=
  mkCfg (mkSrc 6 []) [mkRule 1 [] hd0; mkRule 2 [3] hd0; mkRule 5 [2; 0] hd0; mkRule 0 [1; 2] hd0; mkRule 2 [4] hd0] [] [] None.
Definition ex_local_order : cfg :=
  mkCfg (mkSrc 5 []) [mkRule 0 [1; 2] hd0; mkRule 1 [] hd0; mkRule 2 [4] hd0; mkRule 2 [3] hd0] [] [] None.

Example C132_example : closed_rules ex_retry /\ closed_rules ex_local /\ 0 < num_syms ex_retry /\ 0 < num_syms ex_local /\
  (forall A, reaches (prods ex_retry) 0 A -> choices ex_retry A = choices ex_local A) /\
  random bytes_generate bytes_mutate_start retry_char 5 ex_retry 0 None (bytes_new [0%N]) [] = Ok (Generated [3] [97]) /\
  random bytes_generate bytes_mutate_start retry_char 5 ex_local 0 None (bytes_new [0%N]) [] = Ok (Generated [3] [97]) /\
  random bytes_generate bytes_mutate_start retry_char 5 ex_local_order 0 None (bytes_new [0%N]) [] = Ok (Generated [4] [98]).
Proof.
  split; [closed_tac|]. split; [closed_tac|]. split; [cbn; lia|]. split; [cbn; lia|]. split.
  { intros A [u [v D]]. assert (K : Forall (fun s => s < 5) (u ++ A :: v)).
    { apply (derives_Forall (prods ex_retry) (fun s => s < 5)) with (u := [0]); [|exact D|constructor; [lia|constructor]].
      intros B r [x [Hx [<- <-]]] _. cbn in Hx. destruct Hx as [<-|[<-|[<-|[<-|[]]]]]; cbn [rhs]; repeat constructor; lia. }
    apply Forall_app in K. destruct K as [_ K]. inversion K as [|? ? HA _]; subst.
    destruct A as [|[|[|[|[|A]]]]]; try reflexivity. lia. }
  repeat split; vm_compute; reflexivity.
Qed.
