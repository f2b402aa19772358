(** Property C133: the limit of random generation. *)

From Coq Require Import List Arith NArith ZArith Bool Lia SpecFloat.
From Verif Require Import Base ListFacts Spec SpecGen GrammarFacts LoopModel LoopFacts HistoryModel SymbolModel CfgModel View
  BitSetModel SetView SetProof SetsModel SetsProof LRProof FloatModel GenModel GenProof GenProof5 PropsGrammar PropsClassify PropsGen PropsRetry.
Import ListNotations.
Local Open Scope nat_scope.
Local Notation length := List.length.

(** ** C133 *)

(** The second limit allows at least as many terminals as the first; no limit allows any number. *)
Definition looser (l1 l2 : option limits) : Prop :=
  match l1, l2 with
  | _, None => True
  | Some a, Some b => (terminals a <= terminals b)%N
  | None, Some _ => False
  end.

(** A loop whose body can stop early with [out], and otherwise does the same *)
Lemma iter_pow_early : forall {S R : Type} (f1 f2 : S -> S + R) (out : R),
  (forall s, f1 s = f2 s \/ f1 s = inr out) -> forall p s, iter_pow f1 p s = iter_pow f2 p s \/ iter_pow f1 p s = inr out.
Proof.
  intros S R f1 f2 out H. induction p as [|p IH]; intros s; cbn [iter_pow]; [apply H|].
  destruct (IH s) as [E|E]; rewrite E; [|right; reflexivity]. destruct (iter_pow f2 p s) as [s'|r]; [apply IH|left; reflexivity].
Qed.

Lemma limit_step : forall {R : Type} (generate : R -> f64 -> res (f64 * R)) (mutate_start : R -> N -> R) (to_char : nat -> R -> option nat * R)
    w ts neg l1 l2 st, looser l1 l2 ->
  gen_step generate mutate_start to_char w ts neg l1 st = gen_step generate mutate_start to_char w ts neg l2 st \/
  gen_step generate mutate_start to_char w ts neg l1 st = inr (Ok LimitExceeded).
Proof.
  intros R generate mutate_start to_char w ts neg l1 l2 st HL. unfold gen_step. destruct (g_work st) as [|sym W]; [left; reflexivity|].
  destruct (bs_get ts sym) as [[|]| |]; try (left; reflexivity). unfold gen_terminal. cbn [g_work g_result g_string g_rng g_back g_attempts].
  destruct (to_char sym (g_rng st)) as [c rng']. set (n := N.of_nat (length (g_result st ++ [sym]))).
  destruct l1 as [a|], l2 as [b|]; cbn [looser] in HL; try (left; reflexivity); try contradiction.
  - destruct (N.ltb_spec (terminals a) n) as [|H]; [right; reflexivity|].
    replace (terminals b <? n)%N with false by (symmetry; apply N.ltb_ge; lia). left. reflexivity.
  - destruct (N.ltb_spec (terminals a) n) as [|H]; [right|left]; reflexivity.
Qed.

(** With a smaller limit the outcome is the same or LimitExceeded. *)
Theorem C133_smaller : forall (R : Type) (generate : R -> f64 -> res (f64 * R)) (mutate_start : R -> N -> R)
    (to_char : nat -> R -> option nat * R) p g start l1 l2 rng negative_rules,
  looser l1 l2 ->
  random generate mutate_start to_char p g start l1 rng negative_rules = random generate mutate_start to_char p g start l2 rng negative_rules \/
  random generate mutate_start to_char p g start l1 rng negative_rules = Ok LimitExceeded.
Proof.
  intros R generate mutate_start to_char p g start l1 l2 rng neg HL. unfold random. destruct (terminal_symbols g) as [ts| |]; [|left; reflexivity..].
  cbn [bind]. unfold run_loop.
  destruct (iter_pow_early _ _ (Ok LimitExceeded)
    (fun st => limit_step generate mutate_start to_char (weighted g) ts (negative_map neg) l1 l2 st HL) p (mkGen [start] [] [] rng [] [])) as [E|E];
    rewrite E; [left|right]; reflexivity.
Qed.
Print Assumptions C133_smaller.

(** So a generated text stays the same with a larger limit, and without one. *)
Theorem C133_larger : forall (R : Type) (generate : R -> f64 -> res (f64 * R)) (mutate_start : R -> N -> R)
    (to_char : nat -> R -> option nat * R) p g start l1 l2 rng negative_rules result string,
  looser l1 l2 ->
  random generate mutate_start to_char p g start l1 rng negative_rules = Ok (Generated result string) ->
  random generate mutate_start to_char p g start l2 rng negative_rules = Ok (Generated result string).
Proof.
  intros R generate mutate_start to_char p g start l1 l2 rng neg result string HL H.
  destruct (C133_smaller R generate mutate_start to_char p g start l1 l2 rng neg HL) as [E|E]; congruence.
Qed.
Print Assumptions C133_larger.

Section Plain.
  Context {R : Type} (generate : R -> f64 -> res (f64 * R)) (mutate_start : R -> N -> R)
          (to_char : nat -> R -> option nat * R) (w : weighted_map) (ts : bitset) (lim : limits).
  Notation body l := (gen_step generate mutate_start to_char w ts [] l).

  Lemma plain_step : forall st st', g_back st = [] -> body None st = inl st' ->
    g_back st' = [] /\ length (g_result st) <= length (g_result st') /\
    (within_limit (Some lim) (length (g_result st')) -> body (Some lim) st = inl st').
  Proof.
    intros [W r s rng b at_] st' HB H. cbn [g_back] in HB. subst b. unfold gen_step in *. cbn [g_work g_result g_string g_rng g_back g_attempts] in *.
    destruct W as [|sym W]; [discriminate|]. destruct (bs_get ts sym) as [[|]| |]; try discriminate.
    - unfold gen_terminal in *. cbn [g_work g_result g_string g_rng g_back g_attempts] in *. destruct (to_char sym rng) as [c rng'].
      cbn [map_get] in *. injection H as <-. cbn [g_back g_result]. split; [reflexivity|]. split; [rewrite app_length; lia|]. intros K. cbn in K.
      replace (terminals lim <? N.of_nat (length (r ++ [sym])))%N with false by (symmetry; apply N.ltb_ge; lia). reflexivity.
    - cbn [map_get] in *. destruct (pick_rhs _ _ _ _) as [[q rng']| |]; try discriminate. injection H as <-. cbn [g_back g_result]. auto.
  Qed.

  Lemma plain_steps : forall st n st', steps (body None) st n st' -> g_back st = [] ->
    length (g_result st) <= length (g_result st') /\
    (within_limit (Some lim) (length (g_result st')) -> steps (body (Some lim)) st n st').
  Proof.
    intros st n st' H. induction H as [s|s s1 n s2 H1 H2 IH]; intros HB; [split; [lia|constructor]|].
    destruct (plain_step _ _ HB H1) as [B1 [L1 K1]]. destruct (IH B1) as [L2 K2]. split; [lia|]. intros HW.
    econstructor; [apply K1; cbn in *; lia|apply K2; exact HW].
  Qed.
End Plain.

(** Without negative rules, a text is generated with a limit exactly if it is generated without one and is within the limit. *)
Theorem C133_exact : forall (R : Type) (generate : R -> f64 -> res (f64 * R)) (mutate_start : R -> N -> R)
    (to_char : nat -> R -> option nat * R) p g start lim rng result string,
  closed_rules g ->
  (random generate mutate_start to_char p g start (Some lim) rng [] = Ok (Generated result string) <->
   random generate mutate_start to_char p g start None rng [] = Ok (Generated result string) /\ (N.of_nat (length result) <= terminals lim)%N).
Proof.
  intros R generate mutate_start to_char p g start lim rng result string HC. split.
  - intros H. split; [eapply C133_larger; [|exact H]; exact I|].
    destruct (C47_language _ _ _ _ _ _ _ _ _ _ _ HC H) as [_ [K _]]. exact K.
  - intros [H HL]. destruct (C133_smaller R generate mutate_start to_char p g start (Some lim) None rng [] I) as [E|E]; [congruence|]. exfalso.
    destruct (bs_terminal_spec g HC) as [ts [Hts _]]. fold (terminal_symbols g) in Hts.
    destruct (plain_run _ _ _ _ _ ts _ _ _ _ _ Hts H) as [n [st [HS [EW [ER ES]]]]].
    destruct (plain_steps generate mutate_start to_char (weighted g) ts lim _ _ _ HS eq_refl) as [_ K].
    rewrite ER in K. specialize (K HL).
    assert (F : gen_step generate mutate_start to_char (weighted g) ts [] (Some lim) st = inr (Ok (Generated result string))).
    { unfold gen_step. rewrite EW, ER, ES. reflexivity. }
    assert (Q : n < 2 ^ (p + n)) by (apply Nat.lt_le_trans with (2 ^ n); [apply two_pow_gt|apply Nat.pow_le_mono_r; lia]).
    pose proof (steps_result _ _ _ _ _ (p + n) K F Q) as X.
    unfold random in E. rewrite Hts in E. cbn [bind] in E. unfold run_loop in E. change (negative_map []) with (@nil (nat * list nat)) in E.
    change (mkGen [start] [] [] rng [] []) with (fresh start rng) in E.
    destruct (iter_pow _ p _) as [x|x] eqn:EI; [discriminate|]. subst x. apply iter_pow_more with (q := p + n) in EI; [|lia]. congruence.
Qed.
Print Assumptions C133_exact.

(** S ::= A b, A ::= a A | a: the same bytes give a a a b without a limit and with the limits 10 and 4, but not with 3. *)
Example C133_example : closed_rules ex_gen /\ looser (Some (mkLimits 4 0)) (Some (mkLimits 10 0)) /\
  random bytes_generate bytes_mutate_start ex_char 5 ex_gen 0 None (mkBytes [10; 20; 200]%N []) [] = Ok (Generated [2; 2; 2; 3] [97; 97; 97; 98]) /\
  random bytes_generate bytes_mutate_start ex_char 5 ex_gen 0 (Some (mkLimits 10 0)) (mkBytes [10; 20; 200]%N []) [] = Ok (Generated [2; 2; 2; 3] [97; 97; 97; 98]) /\
  random bytes_generate bytes_mutate_start ex_char 5 ex_gen 0 (Some (mkLimits 4 0)) (mkBytes [10; 20; 200]%N []) [] = Ok (Generated [2; 2; 2; 3] [97; 97; 97; 98]) /\
  random bytes_generate bytes_mutate_start ex_char 5 ex_gen 0 (Some (mkLimits 3 0)) (mkBytes [10; 20; 200]%N []) [] = Ok LimitExceeded.
Proof. split; [exact ex_gen_closed|]. split; [cbn; lia|]. repeat split; vm_compute; reflexivity. Qed.

(** With negative rules an attempt that would be given up can exceed the limit: S ::= N T;  N ::= ;  T ::= a a | b;  after N there must
    be no a a.  Without a limit b is generated, with a limit of one terminal nothing is. *)
Example C133_negative_example :
  let g := mkCfg (mkSrc 5 []) [mkRule 0 [1; 2] hd0; mkRule 1 [] hd0; mkRule 2 [3; 3] hd0; mkRule 2 [4] hd0] [] [] None in
  closed_rules g /\
  random bytes_generate bytes_mutate_start retry_char 5 g 0 None (bytes_new [0%N]) [(1, [97; 97])] = Ok (Generated [4] [98]) /\
  random bytes_generate bytes_mutate_start retry_char 5 g 0 (Some (mkLimits 1 0)) (bytes_new [0%N]) [(1, [97; 97])] = Ok LimitExceeded.
Proof. split; [closed_tac|]. split; vm_compute; reflexivity. Qed.
