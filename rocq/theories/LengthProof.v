(** Minimal sentence lengths. *)

From Coq Require Import List Arith NArith Bool Lia.
From Verif Require Import Base Spec SetView GrammarFacts ListFacts LoopModel SymbolModel CfgModel View
  BitSetModel ClosureModel SetProof ValueProof DistModel.
Import ListNotations.
Local Notation length := List.length.

(** [c] is the length of a terminal string of [s]. *)
Definition sentence_length (P : productions) (s : nat) (c : N) : Prop :=
  exists w, language P s w /\ N.of_nat (length w) = c.

Lemma forest_words : forall (P : productions) (v : nat -> option N) u c,
  (forall s c, v s = Some c -> sentence_length P s c) ->
  forest P v u c -> exists w, derives P u w /\ Forall (terminal P) w /\ N.of_nat (length w) = c.
Proof.
  intros P v u c HV. induction 1 as [|s u c d Hs _ [w [W1 [W2 W3]]]|A r u c d HP Hn _ [w1 [A1 [A2 A3]]] _ [w [W1 [W2 W3]]]].
  - exists []. split; [constructor|]. split; constructor.
  - destruct (HV s c Hs) as [x [[X1 X2] X3]]. exists (x ++ w). split; [apply derives_cons; auto|].
    split; [apply Forall_app; auto|]. rewrite app_length. lia.
  - exists (w1 ++ w). split; [apply derives_cons; auto; eapply derives_rule_then; eauto|].
    split; [apply Forall_app; auto|]. rewrite app_length. lia.
Qed.

Lemma words_forest : forall (P : productions) (v : nat -> option N) (ok : nat -> Prop),
  (forall A r, P A r -> Forall ok r) ->
  (forall s, ok s -> terminal P s -> v s = Some 1%N) ->
  (forall s, P s [] -> v s = Some 0%N) ->
  forall u w, derives P u w -> Forall ok u -> Forall (terminal P) w -> forest P v u (N.of_nat (length w)).
Proof.
  intros P v ok HC HT HN u w H. apply derives_yields in H.
  induction H as [|s u w _ IH|A r u w1 w2 HP _ IH1 _ IH2]; intros HU HW.
  - constructor.
  - inversion HU; subst. inversion HW; subst. replace (N.of_nat (length (s :: w))) with (1 + N.of_nat (length w))%N.
    + apply forest_leaf; auto.
    + simpl length. lia.
  - inversion HU as [|? ? HA HU']; subst. apply Forall_app in HW. destruct HW as [W1 W2].
    rewrite app_length, Nat2N.inj_add. destruct r as [|x r].
    + specialize (IH1 (Forall_nil _) W1). inversion IH1 as [E| |]. apply forest_leaf; auto.
    + eapply forest_node; eauto. discriminate.
Qed.

(** The values with which the closure starts. *)
Definition length_start (P : productions) (v v0 : nat -> option N) (n : nat) : Prop :=
  forall s, (P s [] -> v0 s = Some 0%N) /\
            (s < n -> terminal P s -> v0 s = Some 1%N) /\
            (~ P s [] -> (s < n -> ~ terminal P s) -> v0 s = v s).

Lemma set_all : forall l (v : list (option N)) x, Forall (fun s => s < length v) l ->
  exists v', fold_res (fun v t => set_ix v t (Some x)) l v = Ok v' /\ length v' = length v /\
  forall s, (In s l -> value_of v' s = Some x) /\ (~ In s l -> value_of v' s = value_of v s).
Proof.
  induction l as [|a l IH]; intros v x HF; cbn [fold_res].
  - exists v. split; auto. split; auto. intros s. split; [intros []|auto].
  - inversion HF as [|? ? Ha HF']; subst. unfold set_ix at 1. apply Nat.ltb_lt in Ha. rewrite Ha. cbn [bind].
    apply Nat.ltb_lt in Ha. destruct (IH (upd v a (Some x)) x) as [v' [E [L H]]]; [rewrite upd_length; auto|].
    exists v'. split; auto. split; [rewrite upd_length in L; auto|]. intros s. destruct (H s) as [H1 H2]. split.
    + intros [<-|Hs]; auto. destruct (in_dec Nat.eq_dec a l) as [Hi|Hi]; auto. rewrite H2 by auto.
      rewrite value_upd, Nat.eqb_refl by auto. auto.
    + intros Hs. simpl in Hs. rewrite H2 by tauto. rewrite value_upd by auto.
      destruct (Nat.eqb_spec a s); auto. tauto.
Qed.

Lemma set_nulling : forall l (v : list (option N)), Forall (fun r => lhs r < length v) l ->
  exists v', fold_res (fun v r => if is_nil (rhs r) then set_ix v (lhs r) (Some 0%N) else Ok v) l v = Ok v' /\
  length v' = length v /\
  forall s, ((exists r, In r l /\ lhs r = s /\ rhs r = []) -> value_of v' s = Some 0%N) /\
            (~ (exists r, In r l /\ lhs r = s /\ rhs r = []) -> value_of v' s = value_of v s).
Proof.
  induction l as [|a l IH]; intros v HF; cbn [fold_res].
  - exists v. split; auto. split; auto. intros s. split; [intros [r [[] _]]|auto].
  - inversion HF as [|? ? Ha HF']; subst. destruct (rhs a) as [|y q] eqn:ER; cbn [is_nil].
    + unfold set_ix at 1. apply Nat.ltb_lt in Ha. rewrite Ha. cbn [bind]. apply Nat.ltb_lt in Ha.
      destruct (IH (upd v (lhs a) (Some 0%N))) as [v' [E [L H]]]; [rewrite upd_length; auto|].
      exists v'. split; auto. split; [rewrite upd_length in L; auto|]. intros s. destruct (H s) as [H1 H2].
      assert (HD : (exists r, In r l /\ lhs r = s /\ rhs r = []) \/ ~ (exists r, In r l /\ lhs r = s /\ rhs r = [])).
      { clear. induction l as [|r l [IH|IH]]; [right; intros [? [[] _]]| |].
        - left. destruct IH as [r' [? ?]]. exists r'. split; [right|]; auto.
        - destruct (Nat.eq_dec (lhs r) s) as [E|E]; [destruct (rhs r) as [|x y] eqn:R|].
          + left. exists r. split; [left|]; auto.
          + right. intros [r' [[<-|Hr] [? ?]]]; [congruence|]. apply IH. exists r'. auto.
          + right. intros [r' [[<-|Hr] [? ?]]]; [congruence|]. apply IH. exists r'. auto. }
      split.
      * intros Hs. destruct HD as [HD|HD]; auto. rewrite H2 by auto. destruct Hs as [r [[<-|Hr] [Hl Hr']]].
        -- rewrite value_upd by auto. rewrite Hl, Nat.eqb_refl. auto.
        -- exfalso. apply HD. exists r; auto.
      * intros Hs. rewrite H2; [|intros [r [? ?]]; apply Hs; exists r; split; auto; right; auto].
        rewrite value_upd by auto. destruct (Nat.eqb_spec (lhs a) s) as [E1|E1]; auto. exfalso. apply Hs. exists a.
        split; [left|]; auto.
    + cbn [bind]. destruct (IH v HF') as [v' [E [L H]]]. exists v'. split; auto. split; auto. intros s.
      destruct (H s) as [H1 H2]. split.
      * intros [r [[<-|Hr] [Hl Hr']]]; [congruence|]. apply H1. exists r; auto.
      * intros Hs. apply H2. intros [r [Hr ?]]. apply Hs. exists r. split; [right|]; auto.
Qed.

Lemma start_values : forall g v, closed_rules g -> length v = num_syms g ->
  exists v0, length v0 = num_syms g /\ length_start (prods g) (value_of v) (value_of v0) (num_syms g) /\
  forall debug, minimal_sentence_lengths debug g v = rhs_closure_with_values debug g v0.
Proof.
  intros g v HC HL. destruct (bs_terminal_spec g HC) as [b [EB [LB MB]]].
  destruct (set_all (bs_iter b) v 1%N) as [v1 [E1 [L1 H1]]].
  { apply Forall_forall. intros s Hs. apply bs_iter_In in Hs. apply member_lt in Hs. lia. }
  destruct (set_nulling (rules g) v1) as [v2 [E2 [L2 H2]]].
  { apply Forall_forall. intros r Hr. destruct (HC r Hr). lia. }
  exists v2. split; [lia|]. split.
  - intros s. destruct (H1 s) as [A1 A2]. destruct (H2 s) as [B1 B2].
    assert (HP : prods g s [] <-> exists r, In r (rules g) /\ lhs r = s /\ rhs r = []) by (unfold prods; reflexivity).
    split; [rewrite HP; auto|]. split.
    + intros Hs HT. rewrite B2; [|rewrite <- HP; apply HT]. apply A1. apply bs_iter_In. apply MB; auto.
    + intros HN HT. rewrite B2 by (rewrite <- HP; auto). apply A2. intros Hi. apply bs_iter_In in Hi.
      assert (s < num_syms g) by (apply member_lt in Hi; lia). apply HT; auto. apply MB; auto.
  - intros debug. unfold minimal_sentence_lengths, terminal_symbols. rewrite EB. cbn [bind]. rewrite E1. cbn [bind].
    rewrite E2. cbn [bind]. auto.
Qed.

Definition lengths_ok (g : cfg) (v : list (option N)) : Prop :=
  length v = num_syms g /\ forall s c, value_of v s = Some c -> sentence_length (prods g) s c /\ (c <= u32_max)%N.

Lemma start_sound : forall g v v0, closed_rules g -> lengths_ok g v -> length v0 = num_syms g ->
  length_start (prods g) (value_of v) (value_of v0) (num_syms g) -> lengths_ok g v0.
Proof.
  intros g v v0 HC [LV HV] L0 HS. split; auto. intros s c H. destruct (HS s) as [S1 [S2 S3]].
  assert (Hs : s < num_syms g).
  { rewrite <- L0. unfold value_of in H. destruct (nth_error v0 s) eqn:E; [|discriminate]. apply nth_error_Some. congruence. }
  destruct (nonterminal_dec g s) as [N|N].
  - assert (HD : prods g s [] \/ ~ prods g s []).
    { clear. unfold prods. induction (rules g) as [|r l [IH|IH]]; [right; intros [? [[] _]]| |].
      - left. destruct IH as [r' [? ?]]. exists r'. split; [right|]; auto.
      - destruct (Nat.eq_dec (lhs r) s) as [E|E]; [destruct (rhs r) as [|x y] eqn:R|].
        + left. exists r. split; [left|]; auto.
        + right. intros [r' [[<-|Hr] [? ?]]]; [congruence|]. apply IH. exists r'. auto.
        + right. intros [r' [[<-|Hr] [? ?]]]; [congruence|]. apply IH. exists r'. auto. }
    destruct HD as [HD|HD].
    + rewrite S1 in H by auto. injection H as <-. split; [|unfold u32_max; lia]. exists []. split; auto.
      split; [apply derives_rule; auto|constructor].
    + rewrite S3 in H; auto. intros _ HT. apply terminal_not_nonterminal in HT. auto.
  - apply terminal_not_nonterminal in N. rewrite S2 in H by auto. injection H as <-. split; [|unfold u32_max; lia].
    exists [s]. split; auto. split; [constructor|repeat constructor; auto].
Qed.

Theorem lengths_exact : forall g v v', closed_rules g -> lengths_ok g v ->
  minimal_sentence_lengths true g v = Ok v' ->
  lengths_ok g v' /\ forall s, s < num_syms g -> least (sentence_length (prods g) s) (value_of v' s).
Proof.
  intros g v v' HC HV E. destruct (start_values g v HC (proj1 HV)) as [v0 [L0 [HS HE]]]. rewrite HE in E.
  pose proof (start_sound g v v0 HC HV L0 HS) as [_ H0].
  destruct (values_exact g v0) with (v' := v') as [L' HL]; auto.
  { intros s c H. apply (H0 s c H). }
  assert (HW : forall s c, tree_cost (prods g) (value_of v0) s c -> sentence_length (prods g) s c).
  { intros s c H. destruct (forest_words (prods g) (value_of v0) [s] c) as [w [W1 [W2 W3]]]; auto.
    - intros. apply H0; auto.
    - exists w. split; auto. split; auto. }
  assert (HF : forall s, s < num_syms g -> forall c, sentence_length (prods g) s c -> tree_cost (prods g) (value_of v0) s c).
  { intros s Hs c [w [[W1 W2] <-]]. apply (words_forest (prods g) (value_of v0) (fun s => s < num_syms g)); auto.
    - intros A r [x [Hx [_ <-]]]. apply (HC x Hx).
    - intros t Ht HT. apply (HS t); auto.
    - intros t HT. apply (HS t); auto. }
  assert (HB : fits v').
  { eapply values_fit; [|exact E]. intros s c H. apply (H0 s c H). }
  split.
  - split; [lia|]. intros s c H. split; [|apply (HB s c H)]. apply HW. specialize (HL s). rewrite H in HL. apply HL.
  - intros s Hs. specialize (HL s). unfold least in *. destruct (value_of v' s) as [c|].
    + destruct HL as [A B]. split; auto.
    + intros d Hd. apply (HL d). auto.
Qed.

(** No sum of the closure exceeds u32: stated over the trees whose leaves are terminals, of length 1,
    and symbols with an empty rule, of length 0. *)
Definition lengths_fit (g : cfg) : Prop :=
  forall v0, length_start (prods g) (fun _ => None) v0 (num_syms g) ->
  forall A r pre suf c, prods g A r -> r = pre ++ suf -> short_forest (prods g) v0 [] pre c -> (c <= u32_max)%N.

Lemma lengths_total : forall g, closed_rules g -> lengths_fit g ->
  exists v', forall debug, minimal_sentence_lengths debug g (repeat None (num_syms g)) = Ok v'.
Proof.
  intros g HC HF. destruct (start_values g (repeat None (num_syms g)) HC) as [v0 [L0 [HS HE]]].
  { apply repeat_length. }
  assert (HN : forall s, value_of (repeat None (num_syms g)) s = None).
  { intros s. unfold value_of. destruct (nth_error (repeat None (num_syms g)) s) as [x|] eqn:E; auto.
    apply nth_error_In, repeat_spec in E. auto. }
  assert (HS' : length_start (prods g) (fun _ => None) (value_of v0) (num_syms g)).
  { intros s. destruct (HS s) as [A [B C]]. split; auto. split; auto. intros X Y. rewrite C; auto. }
  assert (H0 : lengths_ok g v0).
  { apply (start_sound g (repeat None (num_syms g))); auto. split; [apply repeat_length|]. intros s c. rewrite HN. discriminate. }
  destruct (values_no_panic g v0) as [v' E]; auto.
  - intros s c H. apply (proj2 H0 s c H).
  - lia.
  - intros A r pre suf c. apply HF. auto.
  - exists v'. intros debug. rewrite HE. destruct debug; auto. apply values_release; auto.
Qed.
