(** Properties C27-C29 and C61: sequence rules. *)

From Coq Require Import List Arith NArith ZArith Bool Lia.
From Verif Require Import Base ListFacts Spec SpecSeq GrammarFacts SymbolModel LoopModel LoopFacts
  HistoryModel CfgModel View CfgProof SeqModel SeqProof SeqProof2 SeqProof3 SeqExact.
Import ListNotations.

(** The productions [P] and one production for each sequence of a sequence rule. *)
Definition and_sequences (P : productions) (s : sequence) : productions :=
  fun A r => P A r \/
    (A = sq_lhs s /\ sequences (sq_rhs s) (sq_start s) (sq_end s) (sq_sep s) r).

(** The symbols of a sequence rule, in [g]. *)
Definition seq_in (g : cfg) (s : sequence) : Prop :=
  sq_lhs s < num_syms g /\ sq_rhs s < num_syms g /\
  match sq_sep s with
  | Trailing x | Proper x | Liberal x => x < num_syms g
  | Null => True
  end.

(** Ranges [start..=end_] with [start <= end_], [start <= 2^31 + 1] and less than 2^31 numbers
    after the first; and [n..=n] for [n <= 2^31].  The first number of [0..=end_] does not count. *)
Definition valid_range (s : sequence) : Prop :=
  (sq_start s <= 2147483649)%N /\
  (forall e, sq_end s = Some e ->
     (sq_start s <= e /\ e <= N.max 1 (sq_start s) + 2147483647 /\ (sq_start s = e -> e <= 2147483648))%N).

(** [x{1..}] without a separator or with one in between. *)
Definition one_or_more (s : sequence) : Prop :=
  sq_start s = 1%N /\ sq_end s = None /\
  match sq_sep s with Null | Proper _ => True | _ => False end.

Lemma seq_eta : forall s, seq_of (sq_lhs s) (sq_hist s) (key_of s) = s.
Proof. destruct s; reflexivity. Qed.

Lemma seq_in_syms : forall g s, seq_in g s -> Forall (fun x => x < num_syms g) (key_syms (key_of s)).
Proof.
  intros g s [_ [H1 H2]]. unfold key_syms, key_of. simpl. constructor; auto.
  destruct (sq_sep s); simpl; auto.
Qed.

Lemma open_one : forall s, open_key (key_of s) -> one_or_more s.
Proof. intros s [H1 [H2 H3]]. split; auto. Qed.

Section Ok.
  Context (debug : bool) (g : cfg) (s : sequence).
  Hypothesis Hcl : closed_rules g.
  Hypothesis HL : good_limit (limit g).
  Hypothesis Hin : seq_in g s.
  Hypothesis Hv : valid_range s.

  Lemma rewrite_ok' : exists g', seq_rewrite debug g s = Ok g' /\ grows g g' /\ closed_rules g' /\
    (forall u w, Forall (fun s => s < num_syms g) u -> Forall (fun s => s < num_syms g) w ->
       derives (and_sequences (prods g) s) u w -> derives (prods g') u w) /\
    ((one_or_more s -> terminal (prods g) (sq_lhs s)) ->
     (forall u w, Forall (fun s => s < num_syms g) u -> Forall (fun s => s < num_syms g) w ->
        (one_or_more s -> ~ In (sq_lhs s) w) -> derives (prods g') u w -> derives (and_sequences (prods g) s) u w) /\
     (forall x w, x < num_syms g -> (language (prods g') x w <-> language (and_sequences (prods g) s) x w))) /\
    (forall x, x < num_syms g -> ~ reaches (prods g) x (sq_lhs s) ->
       forall w, Forall (fun s => s < num_syms g) w -> (derives (prods g') [x] w <-> derives (prods g) [x] w)) /\
    (forall x, x < num_syms g -> (terminal (prods g') x <-> terminal (and_sequences (prods g) s) x)) /\
    (exists c, rules g' = rules g ++ c /\ Forall (new_rule g (sq_lhs s) (key_of s)) c) /\
    (forall x, num_syms g <= x < num_syms g' -> nonterminal (prods g') x).
  Proof.
    destruct (rewrite_ok debug g (sq_lhs s) (key_of s) (sq_hist s) HL (proj1 Hin) Hv (seq_in_syms g s Hin) Hcl)
      as [g' [E [H1 [H2 [H3 [H4 [H5 [H6 H7]]]]]]]].
    rewrite seq_eta in E. exists g'. split; auto. split; auto. split; auto. split; auto. split; [|split; auto].
    intros Ht. destruct H4 as [H4 H4'].
    - intros HO. apply Ht. apply open_one; auto.
    - split; auto. intros u w Hu Hw Hn. apply H4; auto. intros HO. apply Hn. apply open_one; auto.
  Qed.
End Ok.

(** ** C27 *)

(** The language of every symbol after rewriting a sequence rule is the one with the rule's
    sequences as additional productions.  The exception (see the refutation): [x{1..}] in
    case its left-hand side has productions already. *)
Theorem C27_language_partial : forall debug g s, closed_rules g -> good_limit (limit g) -> seq_in g s -> valid_range s ->
  (one_or_more s -> terminal (prods g) (sq_lhs s)) ->
  exists g', seq_rewrite debug g s = Ok g' /\
    forall x w, x < num_syms g -> (language (prods g') x w <-> language (and_sequences (prods g) s) x w).
Proof.
  intros debug g s H1 H2 H3 H4 H5. destruct (rewrite_ok' debug g s H1 H2 H3 H4) as [g' [E [_ [_ [_ [H _]]]]]].
  exists g'. split; auto. apply H; auto.
Qed.
Print Assumptions C27_language_partial.

(** The same for sentential forms. *)
Theorem C27_derives_partial : forall debug g s, closed_rules g -> good_limit (limit g) -> seq_in g s -> valid_range s ->
  ~ one_or_more s ->
  exists g', seq_rewrite debug g s = Ok g' /\
    forall u w, Forall (fun x => x < num_syms g) u -> Forall (fun x => x < num_syms g) w ->
      (derives (prods g') u w <-> derives (and_sequences (prods g) s) u w).
Proof.
  intros debug g s H1 H2 H3 H4 H5. destruct (rewrite_ok' debug g s H1 H2 H3 H4) as [g' [E [_ [_ [Hc [H _]]]]]].
  exists g'. split; auto. intros u w Hu Hw. split; auto. apply H; auto; tauto.
Qed.
Print Assumptions C27_derives_partial.

(** Every sequence is derived, without exception. *)
Theorem C27_complete_partial : forall debug g s, closed_rules g -> good_limit (limit g) -> seq_in g s -> valid_range s ->
  exists g', seq_rewrite debug g s = Ok g' /\
    forall u w, Forall (fun x => x < num_syms g) u -> Forall (fun x => x < num_syms g) w ->
      derives (and_sequences (prods g) s) u w -> derives (prods g') u w.
Proof.
  intros debug g s H1 H2 H3 H4. destruct (rewrite_ok' debug g s H1 H2 H3 H4) as [g' [E [_ [_ [Hc _]]]]].
  exists g'. split; auto.
Qed.
Print Assumptions C27_complete_partial.

Definition seq_g : cfg :=
  mkCfg (mkSrc 4 (repeat None 4)) [mkRule 0 [1; 3] (history_new 0)] [0] [] (Some 2).

Example C27_example :
  let s := mkSeq 1 2 3 (Some 7%N) (Liberal 3) None in
  closed_rules seq_g /\ good_limit (limit seq_g) /\ seq_in seq_g s /\ valid_range s /\
  (one_or_more s -> terminal (prods seq_g) (sq_lhs s)) /\ ~ one_or_more s /\
  sequences 2 3 (Some 7%N) (Liberal 3) [2; 3; 2; 3; 2; 3].
Proof.
  cbn zeta. split; [|split; [|split; [|split; [|split; [|split]]]]].
  - intros x [<-|[]]. simpl. split; [unfold num_syms; simpl; lia | repeat constructor; unfold num_syms; simpl; lia].
  - simpl. lia.
  - repeat split; unfold num_syms; simpl; lia.
  - split; [simpl; lia|]. simpl. intros e E. injection E as <-. lia.
  - intros [_ [E _]]. discriminate.
  - intros [_ [E _]]. discriminate.
  - exists 3. split.
    + split; [simpl; lia|]. intros e E. injection E as <-. simpl. lia.
    + right. reflexivity.
Qed.

Example C27_example_open :
  let s := mkSeq 1 2 1 None (Proper 3) None in
  valid_range s /\ one_or_more s /\ terminal (prods seq_g) (sq_lhs s).
Proof.
  cbn zeta. split; [split; [simpl; lia | discriminate] | split; [repeat split|]].
  intros r [x [[<-|[]] [E _]]]. discriminate.
Qed.

(** [l ::= y | x{1..}] derives [y x], which is neither of [l]'s strings. *)
Theorem C27_one_or_more_refuted : exists debug g s g' w,
  closed_rules g /\ good_limit (limit g) /\ seq_in g s /\ valid_range s /\
  seq_rewrite debug g s = Ok g' /\
  language (prods g') (sq_lhs s) w /\ ~ language (and_sequences (prods g) s) (sq_lhs s) w.
Proof.
  exists true, (mkCfg (mkSrc 3 (repeat None 3)) [mkRule 0 [2] (history_new 0)] [0] [] None),
    (mkSeq 0 1 1 None Null None).
  eexists. exists [2; 1].
  split; [|split; [|split; [|split; [|split; [vm_compute; reflexivity|]]]]].
  - intros x [<-|[]]. split; [unfold num_syms; simpl; lia | repeat constructor; unfold num_syms; simpl; lia].
  - exact I.
  - repeat split; unfold num_syms; simpl; lia.
  - split; [simpl; lia | discriminate].
  - cbn [sq_lhs]. split.
    + split.
      * eapply derives_rule_then with (r := [0; 1]).
        { eexists. split; [right; right; left; reflexivity|]. split; reflexivity. }
        apply (derives_app _ [0] [1] [2] [1]); [|constructor].
        apply derives_rule. eexists. split; [left; reflexivity|]. split; reflexivity.
      * repeat constructor; intros r [x [[<-|[<-|[<-|[]]]] [E _]]]; simpl in E; congruence.
    + intros [HD _]. revert HD. generalize (eq_refl [2; 1]).
      assert (HX : forall u w, derives (and_sequences (prods (mkCfg (mkSrc 3 (repeat None 3)) [mkRule 0 [2] (history_new 0)] [0] [] None))
          (mkSeq 0 1 1 None Null None)) u w -> u = [0] \/ u = [2] \/ (exists n, u = repeat 1 n) ->
          w = [0] \/ w = [2] \/ exists n, w = repeat 1 n).
      { induction 1; auto. intros Hu. apply IHderives.
        assert (HA : A = 0 /\ (r = [2] \/ exists n, r = repeat 1 n)).
        { destruct H as [[x [[<-|[]] [<- <-]]]|[-> [n [_ Hr]]]]; [simpl; auto | simpl in Hr; split; [reflexivity | right; exists n; exact Hr]]. }
        destruct HA as [-> HA].
        assert (u = [] /\ v = []) as [-> ->].
        { destruct Hu as [Hu|[Hu|[n Hu]]].
          - destruct u as [|a u]; [injection Hu as ->; auto | destruct u; discriminate].
          - destruct u as [|a u]; [discriminate | destruct u; discriminate].
          - exfalso. assert (In 0 (repeat 1 n)) by (rewrite <- Hu; apply in_or_app; simpl; auto).
            apply repeat_spec in H1. discriminate. }
        simpl. rewrite app_nil_r. tauto. }
      intros _ HD. apply HX in HD; auto. destruct HD as [|[|[n Hn]]]; try discriminate.
      destruct n as [|[|n]]; discriminate.
Qed.
Print Assumptions C27_one_or_more_refuted.

(** ** C28 *)

(** Rewriting ends with a grammar that has the old rules, roots, wrapped roots and limit, and
    whose new symbols come after the old ones.  The added rules are for the left-hand side and
    new symbols, and mention no other old symbols than those of the sequence rule. *)
Theorem C28_terminates : forall debug g s, closed_rules g -> good_limit (limit g) -> seq_in g s -> valid_range s ->
  exists g' c k, seq_rewrite debug g s = Ok g' /\ closed_rules g' /\
    rules g' = rules g ++ c /\ Forall (fun x => lhs x = sq_lhs s \/ num_syms g <= lhs x) c /\
    Forall (fun x => Forall (fun y => num_syms g <= y \/ y = sq_lhs s \/ y = sq_rhs s \/
      sq_sep s = Trailing y \/ sq_sep s = Proper y \/ sq_sep s = Liberal y) (rhs x)) c /\
    num_syms g' = num_syms g + k /\ names (src g') = names (src g) ++ repeat None k /\
    roots g' = roots g /\ wroots g' = wroots g /\ limit g' = limit g.
Proof.
  intros debug g s H1 H2 H3 H4.
  destruct (rewrite_ok' debug g s H1 H2 H3 H4) as [g' [E [Hg [Hc [_ [_ [_ [_ [[c [Ec Hf]] _]]]]]]]]].
  destruct (gr_num _ _ Hg) as [k Hk].
  exists g', c, k. split; auto. split; auto. split; auto.
  split; [eapply Forall_impl; [|exact Hf]; intros x [H _]; exact H|].
  split.
  { eapply Forall_impl; [|exact Hf]. intros x [_ H]. eapply Forall_impl; [|exact H]. cbn beta.
    intros y [Hy|[Hy|Hy]]; auto. unfold key_syms, key_of in Hy. simpl in Hy.
    destruct Hy as [Hy|Hy]; auto. destruct (sq_sep s); simpl in Hy; intuition congruence. }
  unfold num_syms at 1. rewrite Hk. cbn [num names]. split; auto. split; auto.
  destruct Hg; auto.
Qed.
Print Assumptions C28_terminates.

(** Symbols that do not reach the left-hand side derive what they derived. *)
Theorem C28_local : forall debug g s, closed_rules g -> good_limit (limit g) -> seq_in g s -> valid_range s ->
  exists g', seq_rewrite debug g s = Ok g' /\
    forall x, x < num_syms g -> ~ reaches (prods g) x (sq_lhs s) ->
      forall w, Forall (fun y => y < num_syms g) w -> (derives (prods g') [x] w <-> derives (prods g) [x] w).
Proof.
  intros debug g s H1 H2 H3 H4. destruct (rewrite_ok' debug g s H1 H2 H3 H4) as [g' [E [_ [_ [_ [_ [H _]]]]]]].
  exists g'. split; auto.
Qed.
Print Assumptions C28_local.

(** Of the old symbols only the left-hand side becomes a nonterminal; no new symbol is a terminal. *)
Theorem C28_terminals : forall debug g s, closed_rules g -> good_limit (limit g) -> seq_in g s -> valid_range s ->
  exists g', seq_rewrite debug g s = Ok g' /\
    (forall x, x < num_syms g -> (terminal (prods g') x <-> terminal (prods g) x /\ x <> sq_lhs s)) /\
    (forall x, num_syms g <= x < num_syms g' -> nonterminal (prods g') x).
Proof.
  intros debug g s H1 H2 H3 H4. destruct (rewrite_ok' debug g s H1 H2 H3 H4) as [g' [E [_ [_ [_ [_ [_ [H [_ HN]]]]]]]]].
  exists g'. split; auto. split; [|exact HN]. intros x Hx. rewrite (H x Hx). split.
  - intros Ht. split; [intros r Hr; apply (Ht r); left; auto|]. intros ->.
    destruct (Sq_nonempty (num_syms g) (sq_lhs s) (key_of s) (proj1 H3) H4) as [w Hw]. apply (Ht w). right; auto.
  - intros [Ht Hne] r [Hr|[-> _]]; [apply (Ht r Hr) | auto].
Qed.
Print Assumptions C28_terminals.

(** A range whose end is before its start is refused in debug builds. *)
Lemma run_loop_first : forall {A B} (step : A -> A + res B) p a r, step a = inr r -> run_loop step p a = r.
Proof.
  intros. unfold run_loop. assert (E : iter_pow step p a = inr r); [|rewrite E; auto].
  induction p; simpl; auto. rewrite IHp. auto.
Qed.

Lemma run_loop_second : forall {A B} (step : A -> A + res B) p a b r, step a = inl b -> step b = inr r ->
  run_loop step (S p) a = r.
Proof.
  intros. unfold run_loop. assert (E : iter_pow step (S p) a = inr r); [|rewrite E; auto].
  assert (E1 : forall q, iter_pow step q b = inr r) by (induction q; simpl; auto; rewrite IHq; auto).
  induction p; simpl in *; [rewrite H; auto|]. rewrite IHp. auto.
Qed.

Opaque iter_pow.
Theorem C28_reversed_range_panics : forall g s e, good_limit (limit g) ->
  sq_end s = Some e -> (e < sq_start s)%N -> seq_rewrite true g s = Panic.
Proof.
  intros g [l x start end_ sep h0] e HL HE Hlt. cbn [sq_end sq_start] in *. subst end_.
  unfold seq_rewrite. cbn [process_linked bind].
  match goal with |- context [seq_reduce true ?h _ _] => generalize h; intros ht end.
  match goal with |- context [seq_step true ?h] => generalize h; intros hb end.
  assert (HS0 : (start =? 0)%N = false) by (apply N.eqb_neq; lia).
  assert (HLs : (start <=? e)%N = false) by (apply N.leb_gt; lia).
  assert (Hpop : forall g' stk m sp, seq_step true hb (mkSS g' (mkSeq l x start (Some e) sp h0 :: stk) m) = inr Panic).
  { intros. unfold seq_step. cbn [ss_stack sq_start sq_end]. rewrite HLs. auto. }
  assert (Hpop' : forall g' stk m sp l', seq_step true hb (mkSS g' (mkSeq l' x start (Some e) sp h0 :: stk) m) = inr Panic).
  { intros. unfold seq_step. cbn [ss_stack sq_start sq_end]. rewrite HLs. auto. }
  unfold seq_reduce. cbn [sq_lhs sq_rhs sq_start sq_end sq_sep sq_hist].
  assert (Hplain : forall sp, (sp = Null \/ exists p, sp = Proper p) ->
    (do st <- (if (start =? 1)%N then
            match e with
            | 1%N => seq_rhs ht l (mkSS g [] []) [x]
            | 2%N => Ok (mkSS g [] [])
            | end_ =>
                do p <- next_power_of_two true end_;
                let pow2 := (p / 2)%N in
                do d <- sub_u32 true end_ pow2;
                let (rhs1, st1) := seq_recurse (mkSS g [] []) (mkSeq l x 1 (Some pow2) sp h0) in
                let (blk, st2) := seq_recurse st1 (mkSeq l x pow2 (Some pow2) (prefix_separator sp) h0) in
                let (rhs2, st3) := seq_recurse st2 (mkSeq l x 1 (Some d) sp h0) in
                do st4 <- seq_rhs ht l st3 [rhs1];
                seq_rhs ht l st4 [blk; rhs2]
            end
          else Panic);
     do st' <- run_loop (seq_step true hb) 80 st; Ok (ss_cfg st')) = Panic).
  { intros sp Hsp. destruct (start =? 1)%N eqn:E1; [|reflexivity]. apply N.eqb_eq in E1. subst start.
    assert (e = 0%N) by lia. subst e. cbn match. unfold next_power_of_two. cbn [N.leb N.compare bind].
    change (1 / 2)%N with 0%N. unfold sub_u32. change (0 <=? 0)%N with true. cbn match. cbn [bind].
    change (0 - 0)%N with 0%N.
    destruct Hsp as [->|[sy ->]]; cbn [prefix_separator];
      unfold seq_recurse, next_sym, src_next;
      do 4 (try unfold key_of; try unfold key_eqb;
        cbn [ss_map ss_stack ss_cfg key_lookup sq_rhs sq_start sq_end sq_sep sq_hist k_rhs k_start k_end k_sep
             option_eqb separator_eqb N.eqb Pos.eqb andb src num]; rewrite ?Nat.eqb_refl); cbn [andb].
    {match goal with |- context [seq_rhs ht l ?st ?r] =>
      destruct (seq_rhs_ok ht l st r) as [g1 [Eg1 Hg1]]; [exact HL | simpl; lia |]; rewrite Eg1 end; cbn [bind ss_stack ss_map].
    match goal with |- context [seq_rhs ht l ?st ?r] =>
      destruct (seq_rhs_ok ht l st r) as [g2 [Eg2 Hg2]]; [cbn [ss_cfg] in *; rewrite Hg1; exact HL | simpl; lia |]; rewrite Eg2 end; cbn [bind ss_stack ss_map].
    match goal with |- context [run_loop _ 80 (mkSS g2 (?b :: ?rest) ?m)] =>
      destruct (seq_rhs_ok hb (sq_lhs b) (mkSS g2 rest m) []) as [g3 [Eg3 _]];
      [cbn [ss_cfg] in *; rewrite Hg2, Hg1; exact HL | simpl; lia |];
      rewrite (run_loop_second _ 79 (mkSS g2 (b :: rest) m) (mkSS g3 rest m) Panic); [reflexivity | | reflexivity] end.
    (unfold seq_step; cbn [ss_stack ss_cfg ss_map sq_start sq_end]; cbn [N.leb N.compare];
      unfold seq_reduce; cbn [sq_lhs sq_rhs sq_start sq_end sq_sep sq_hist]; change (0 =? 0)%N with true; cbn match;
      cbn [sq_lhs] in Eg3; rewrite Eg3; reflexivity). }
    {match goal with |- context [seq_rhs ht l ?st ?r] =>
      destruct (seq_rhs_ok ht l st r) as [g1 [Eg1 Hg1]]; [exact HL | simpl; lia |]; rewrite Eg1 end; cbn [bind ss_stack ss_map].
    match goal with |- context [seq_rhs ht l ?st ?r] =>
      destruct (seq_rhs_ok ht l st r) as [g2 [Eg2 Hg2]]; [cbn [ss_cfg] in *; rewrite Hg1; exact HL | simpl; lia |]; rewrite Eg2 end; cbn [bind ss_stack ss_map].
    match goal with |- context [run_loop _ 80 (mkSS g2 (?b :: ?rest) ?m)] =>
      destruct (seq_rhs_ok hb (sq_lhs b) (mkSS g2 rest m) []) as [g3 [Eg3 _]];
      [cbn [ss_cfg] in *; rewrite Hg2, Hg1; exact HL | simpl; lia |];
      rewrite (run_loop_second _ 79 (mkSS g2 (b :: rest) m) (mkSS g3 rest m) Panic); [reflexivity | | reflexivity] end.
    (unfold seq_step; cbn [ss_stack ss_cfg ss_map sq_start sq_end]; cbn [N.leb N.compare];
      unfold seq_reduce; cbn [sq_lhs sq_rhs sq_start sq_end sq_sep sq_hist]; change (0 =? 0)%N with true; cbn match;
      cbn [sq_lhs] in Eg3; rewrite Eg3; reflexivity). } }
  destruct sep as [sy|sy|sy|].
  - rewrite HS0. unfold seq_recurse, next_sym, src_next. cbn [ss_map key_lookup ss_cfg].
    match goal with |- context [seq_rhs ht l ?st ?r] =>
      destruct (seq_rhs_ok ht l st r) as [g1 [Eg1 _]]; [exact HL | simpl; lia |]; rewrite Eg1 end. cbn [bind ss_stack ss_map].
    rewrite (run_loop_first _ _ _ _ (Hpop' _ _ _ _ _)). reflexivity.
  - rewrite HS0. specialize (Hplain (Proper sy) ltac:(eauto)).
    destruct (start =? 1)%N eqn:E1; [destruct e as [|[e|e|]]; [exact Hplain | apply N.eqb_eq in E1; lia ..]|].
    destruct ((start =? 2)%N && option_eqb N.eqb (Some e) (Some 2%N)) eqn:E2.
    { apply andb_true_iff in E2. destruct E2 as [E2 E3]. apply N.eqb_eq in E2. cbn [option_eqb] in E3. apply N.eqb_eq in E3. lia. }
    cbn [option_eqb]. destruct (start =? e)%N eqn:E3; [apply N.eqb_eq in E3; lia|].
    unfold sub_u32. rewrite HLs. reflexivity.
  - unfold seq_recurse at 1, next_sym, src_next. cbn [ss_map key_lookup ss_cfg seq_separator key_of].
    unfold seq_recurse, next_sym, src_next. cbn [ss_map ss_stack key_lookup ss_cfg key_of sq_rhs sq_start sq_end sq_sep sq_hist sq_lhs].
    unfold key_eqb. cbn [k_rhs k_start k_end k_sep separator_eqb]. rewrite andb_false_r.
    match goal with |- context [seq_rhs ht l ?st ?r] =>
      destruct (seq_rhs_ok ht l st r) as [g1 [Eg1 Hg1]]; [exact HL | simpl; lia |]; rewrite Eg1 end. cbn [bind ss_stack ss_map].
    match goal with |- context [seq_rhs ht l ?st ?r] =>
      destruct (seq_rhs_ok ht l st r) as [g2 [Eg2 Hg2]]; [cbn [ss_cfg] in *; rewrite Hg1; exact HL | simpl; lia |]; rewrite Eg2 end. cbn [bind ss_stack ss_map].
    rewrite (run_loop_first _ _ _ _ (Hpop' _ _ _ _ _)). reflexivity.
  - rewrite HS0. specialize (Hplain Null ltac:(eauto)).
    destruct (start =? 1)%N eqn:E1; [destruct e as [|[e|e|]]; [exact Hplain | apply N.eqb_eq in E1; lia ..]|].
    destruct ((start =? 2)%N && option_eqb N.eqb (Some e) (Some 2%N)) eqn:E2.
    { apply andb_true_iff in E2. destruct E2 as [E2 E3]. apply N.eqb_eq in E2. cbn [option_eqb] in E3. apply N.eqb_eq in E3. lia. }
    cbn [option_eqb]. destruct (start =? e)%N eqn:E3; [apply N.eqb_eq in E3; lia|].
    unfold sub_u32. rewrite HLs. reflexivity.
Qed.
Print Assumptions C28_reversed_range_panics.

(** Debug builds accept exactly the valid ranges of [u32] numbers; all other ranges panic. *)
Theorem C28_accepted : forall g s, good_limit (limit g) ->
  (sq_start s <= 4294967295)%N -> (forall e, sq_end s = Some e -> (e <= 4294967295)%N) ->
  (valid_range s -> exists g', seq_rewrite true g s = Ok g') /\ (~ valid_range s -> seq_rewrite true g s = Panic).
Proof.
  intros g s HL H1 H2. split; intros HV.
  - destruct (valid_ok true g s HL HV) as [g' [E _]]. eauto.
  - destruct (sq_end s) as [e|] eqn:EE.
    + destruct (e <? sq_start s)%N eqn:EL; [apply N.ltb_lt in EL; apply (C28_reversed_range_panics g s e); auto|]. apply N.ltb_ge in EL.
      apply invalid_panics; auto.
      * intros x Hx. cbn in Hx. rewrite EE in Hx. injection Hx as <-. exact EL.
      * split; [exact H1|]. intros x Hx. cbn in Hx. rewrite EE in Hx. injection Hx as <-. apply H2. reflexivity.
    + apply invalid_panics; auto.
      * intros x Hx. cbn in Hx. congruence.
      * split; [exact H1|]. intros x Hx. cbn in Hx. congruence.
Qed.
Print Assumptions C28_accepted.

(** The bounds: the largest ranges of each kind that are accepted, and the next ones. *)
Example C28_accepted_example : forall l x, let s a b := mkSeq l x a b Null None in
  (valid_range (s 2147483649 None) /\ ~ valid_range (s 2147483650 None) /\
   valid_range (s 2147483648 (Some 2147483648)) /\ ~ valid_range (s 2147483649 (Some 2147483649)) /\
   valid_range (s 2147483648 (Some 4294967295)) /\ ~ valid_range (s 2147483647 (Some 4294967295)) /\
   valid_range (s 0 (Some 2147483648)) /\ ~ valid_range (s 0 (Some 2147483649)))%N.
Proof.
  intros l x s. unfold valid_range, s. cbn [sq_start sq_end].
  repeat match goal with |- _ /\ _ => split end; try lia; try discriminate;
    try (intros e He; injection He as <-; lia); try (intros [H1 H2]; try lia; specialize (H2 _ eq_refl); lia).
Qed.

(** In release builds not every reversed range is rejected: the subtraction wraps. *)
Theorem C28_reversed_range_release : exists g s g', closed_rules g /\ limit g = None /\
  sq_start s = 2147483649%N /\ sq_end s = Some 0%N /\ seq_rewrite false g s = Ok g' /\ length (rules g') = 95.
Proof.
  exists (mkCfg (mkSrc 2 (repeat None 2)) [] [] [] None), (mkSeq 0 1 2147483649 (Some 0%N) Null None). eexists.
  split; [intros x []|]. split; [reflexivity|]. split; [reflexivity|]. split; [reflexivity|]. split; [vm_compute; reflexivity|]. reflexivity.
Qed.
Print Assumptions C28_reversed_range_release.

(** ** C29 *)

(** The counts in a Rust range. *)
Definition in_bounds (lo hi : bound) (n : N) : Prop :=
  match lo with Included a => (a <= n)%N | Excluded a => (a < n)%N | Unbounded => True end /\
  match hi with Included b => (n <= b)%N | Excluded b => (n < b)%N | Unbounded => True end.

Definition u32_bound (b : bound) : Prop :=
  match b with Included n | Excluded n => (n <= 4294967295)%N | Unbounded => True end.

(** The counts of the sequence rule are those of the range. *)
Theorem C29_bounds_partial : forall s lo hi, u32_bound lo -> u32_bound hi ->
  lo <> Excluded 4294967295 -> hi <> Excluded 0 ->
  forall n, in_range (sq_start (seq_range s lo hi)) (sq_end (seq_range s lo hi)) n <-> in_bounds lo hi (N.of_nat n).
Proof.
  intros s lo hi Hlo Hhi Hne1 Hne2 n. unfold seq_range, seq_inclusive, in_range, in_bounds. cbn [sq_start sq_end].
  assert (H1 : (range_start lo <= N.of_nat n)%N <-> match lo with Included a => (a <= N.of_nat n)%N | Excluded a => (a < N.of_nat n)%N | Unbounded => True end).
  { unfold range_start, bound_to_option. destruct lo as [a|a|]; simpl in Hlo; try lia; try tauto.
    assert (a <> 4294967295%N) by congruence.
    rewrite Z.mod_small by lia. lia. }
  assert (H2 : (forall e, range_end hi = Some e -> (N.of_nat n <= e)%N) <->
    match hi with Included b => (N.of_nat n <= b)%N | Excluded b => (N.of_nat n < b)%N | Unbounded => True end).
  { unfold range_end, bound_to_option. destruct hi as [b|b|]; simpl in Hhi.
    - split; [intros H; apply H; auto | intros H e E; injection E as <-; auto].
    - assert (b <> 0%N) by congruence. rewrite Z.mod_small by lia. split.
      + intros H'. specialize (H' _ eq_refl). lia.
      + intros H' e E. injection E as <-. lia.
    - split; auto. intros _ e E. discriminate. }
  rewrite H1, H2. tauto.
Qed.
Print Assumptions C29_bounds_partial.

Example C29_example : u32_bound (Included 2) /\ u32_bound (Excluded 5) /\
  Included 2 <> Excluded 4294967295 /\ Excluded 5 <> Excluded 0 /\ in_bounds (Included 2) (Excluded 5) 4.
Proof. unfold u32_bound, in_bounds. repeat split; try lia; discriminate. Qed.

(** The empty range [0..0] becomes the range of all u32, and so does [(Excluded(u32::MAX), Unbounded)]. *)
Theorem C29_wrap_refuted : exists s lo hi n, u32_bound lo /\ u32_bound hi /\
  ~ in_bounds lo hi (N.of_nat n) /\
  in_range (sq_start (seq_range s lo hi)) (sq_end (seq_range s lo hi)) n.
Proof.
  exists (mkSeq 0 1 0 None Null None), (Included 0%N), (Excluded 0%N), 5. unfold u32_bound, in_bounds, in_range.
  split; [lia|]. split; [lia|]. split; [intros [_ HH]; vm_compute in HH; discriminate|]. split; [vm_compute; discriminate|].
  intros e E. vm_compute in E. injection E as <-. simpl. lia.
Qed.
Print Assumptions C29_wrap_refuted.

Theorem C29_wrap_start_refuted : exists s lo hi n, u32_bound lo /\ u32_bound hi /\
  ~ in_bounds lo hi (N.of_nat n) /\
  in_range (sq_start (seq_range s lo hi)) (sq_end (seq_range s lo hi)) n.
Proof.
  exists (mkSeq 0 1 0 None Null None), (Excluded 4294967295%N), Unbounded, 5. unfold u32_bound, in_bounds, in_range.
  split; [lia|]. split; auto. split; [simpl; lia|]. split; [vm_compute; discriminate|].
  intros e E. discriminate.
Qed.
Print Assumptions C29_wrap_start_refuted.

(** ** C61 *)

(** [before] are the calls made so far, the latest first. *)
Fixpoint latest_sequence (before : list seq_call) : option nat :=
  match before with
  | [] => None
  | SSequence l :: _ => Some l
  | _ :: b => latest_sequence b
  end.
(** The separator set since the latest [sequence]; it stays for all of its alternatives. *)
Fixpoint latest_separator (before : list seq_call) : separator :=
  match before with
  | [] | SSequence _ :: _ => Null
  | SSeparator s :: _ => s
  | _ :: b => latest_separator b
  end.
(** The range set since the latest alternative. *)
Fixpoint waiting_range (before : list seq_call) : option (N * option N) :=
  match before with
  | [] | SRhs _ :: _ | SRhsHistory _ _ :: _ => None
  | SInclusive a b :: _ => Some (a, b)
  | SRange lo hi :: _ => Some (range_start lo, range_end hi)
  | _ :: b => waiting_range b
  end.
(** The history set since the latest [rhs].  As documented, a call of [rhs_with_history]
    overwrites it; [kept] says that it is kept instead. *)
Fixpoint waiting_history (kept : bool) (before : list seq_call) : option history :=
  match before with
  | [] | SRhs _ :: _ => None
  | SHistory h :: _ => Some h
  | SRhsHistory _ _ :: b => if kept then waiting_history kept b else None
  | _ :: b => waiting_history kept b
  end.

(** [declared kept before calls l]: the calls declare the sequence rules [l]. *)
Inductive declared (kept : bool) : list seq_call -> list seq_call -> list sequence -> Prop :=
| dq_nil : forall b, declared kept b [] []
| dq_set : forall b c calls l,
    match c with SRhs _ | SRhsHistory _ _ => False | _ => True end ->
    declared kept (c :: b) calls l -> declared kept b (c :: calls) l
| dq_rhs : forall b x calls l A start end_,
    latest_sequence b = Some A -> waiting_range b = Some (start, end_) ->
    declared kept (SRhs x :: b) calls l ->
    declared kept b (SRhs x :: calls)
      (mkSeq A x start end_ (latest_separator b) (waiting_history kept b) :: l)
| dq_rhs_history : forall b x h calls l A start end_,
    latest_sequence b = Some A -> waiting_range b = Some (start, end_) ->
    declared kept (SRhsHistory x h :: b) calls l ->
    declared kept b (SRhsHistory x h :: calls)
      (mkSeq A x start end_ (latest_separator b) h :: l).

Definition seq_built {D : Type} (r : res (seq_builder D)) : res D := do b <- r; Ok (sb_dest b).

Lemma seq_builder_calls : forall {D : Type} (add : D -> sequence -> res D) calls before b l,
  declared true before calls l ->
  sb_lhs b = latest_sequence before -> sb_sep b = latest_separator before ->
  sb_range b = waiting_range before -> sb_hist b = waiting_history true before ->
  seq_built (fold_res (seq_builder_call add) calls b) = fold_res add l (sb_dest b).
Proof.
  intros D add. induction calls as [|c calls IH]; intros before b l H H1 H2 H3 H4;
    inversion H as [|? ? ? ? Hc Hd|? ? ? ? A start end_ HA HR Hd|? ? ? ? ? A start end_ HA HR Hd]; subst; cbn [fold_res].
  - reflexivity.
  - destruct c; try contradiction; cbn [seq_builder_call bind];
      match goal with |- seq_built (fold_res _ _ ?b') = _ => refine (IH _ b' _ Hd _ _ _ _) end; auto.
  - cbn [seq_builder_call]. unfold sb_rhs_with_history. cbn [sb_range sb_lhs sb_dest sb_sep sb_hist].
    rewrite H3, HR, H1, HA, H2, H4. destruct (add (sb_dest b) _) as [d| |]; try reflexivity. cbn [bind].
    refine (IH _ (mkSB _ _ _ _ d) _ Hd _ _ _ _); auto.
  - cbn [seq_builder_call]. unfold sb_rhs_with_history.
    rewrite H3, HR, H1, HA, H2. destruct (add (sb_dest b) _) as [d| |]; try reflexivity. cbn [bind].
    refine (IH _ (mkSB _ _ _ _ d) _ Hd _ _ _ _); auto.
Qed.

(** What the calls do, with a waiting history kept by [rhs_with_history]; for a vector of
    sequences and for a grammar as destination. *)
Theorem C61_vec_partial : forall d calls l, declared true [] calls l ->
  seq_built (fold_res (seq_builder_call add_to_vec) calls (seq_builder_new d)) = Ok (d ++ l).
Proof.
  intros. rewrite (seq_builder_calls add_to_vec calls [] (seq_builder_new d) l H); try reflexivity.
  cbn [seq_builder_new sb_dest]. clear. revert d. induction l; intros; cbn [fold_res].
  - rewrite app_nil_r. auto.
  - unfold add_to_vec at 1. cbn [bind]. rewrite IHl, <- app_assoc. auto.
Qed.
Print Assumptions C61_vec_partial.

Theorem C61_cfg_partial : forall debug g calls l, declared true [] calls l ->
  seq_built (fold_res (seq_builder_call (add_to_cfg debug)) calls (seq_builder_new g)) =
  fold_res (seq_rewrite debug) l g.
Proof. intros. apply (seq_builder_calls (add_to_cfg debug) calls [] (seq_builder_new g) l H); reflexivity. Qed.
Print Assumptions C61_cfg_partial.

(** An alternative before any sequence call, or without a range of its own, panics. *)
Theorem C61_panics : forall d pre l c post, declared true [] pre l ->
  match c with SRhs _ | SRhsHistory _ _ => True | _ => False end ->
  latest_sequence (rev pre) = None \/ waiting_range (rev pre) = None ->
  fold_res (seq_builder_call add_to_vec) (pre ++ c :: post) (seq_builder_new d) = Panic.
Proof.
  intros d pre l c post HD Hc HN.
  assert (HX : forall pre before b l, declared true before pre l ->
    sb_lhs b = latest_sequence before -> sb_sep b = latest_separator before ->
    sb_range b = waiting_range before -> sb_hist b = waiting_history true before ->
    latest_sequence (rev pre ++ before) = None \/ waiting_range (rev pre ++ before) = None ->
    fold_res (seq_builder_call add_to_vec) (pre ++ c :: post) b = Panic).
  { clear d pre l HD HN. induction pre as [|c' pre IH]; intros before b l H H1 H2 H3 H4 HN; cbn [app fold_res].
    - cbn [rev app] in HN. rewrite <- H1, <- H3 in HN.
      destruct c; try contradiction; cbn [seq_builder_call]; unfold sb_rhs_with_history; cbn [sb_range sb_lhs];
        destruct HN as [-> | ->]; try reflexivity; destruct (sb_range b) as [[? ?]|]; reflexivity.
    - cbn [rev] in HN. rewrite <- app_assoc in HN. cbn [app] in HN.
      inversion H as [|? ? ? ? Hc' Hd|? ? ? ? A start end_ HA HR Hd|? ? ? ? ? A start end_ HA HR Hd]; subst.
      + destruct c'; try contradiction; cbn [seq_builder_call bind];
          match goal with |- fold_res _ _ ?b' = _ => refine (IH _ b' _ Hd _ _ _ _ HN) end; auto.
      + cbn [seq_builder_call]. unfold sb_rhs_with_history. cbn [sb_range sb_lhs sb_dest sb_sep sb_hist].
        rewrite H3, HR, H1, HA. unfold add_to_vec at 1. cbn [bind].
        refine (IH _ (mkSB _ _ _ _ _) _ Hd _ _ _ _ HN); auto.
      + cbn [seq_builder_call]. unfold sb_rhs_with_history. rewrite H3, HR, H1, HA. unfold add_to_vec at 1. cbn [bind].
        refine (IH _ (mkSB _ _ _ _ _) _ Hd _ _ _ _ HN); auto. }
  apply (HX pre [] (seq_builder_new d) l); auto. rewrite app_nil_r. exact HN.
Qed.
Print Assumptions C61_panics.

Example C61_panics_example : declared true [] [SSequence 0; SInclusive 1 None; SRhs 2] [mkSeq 0 2 1 None Null None] /\
  waiting_range (rev [SSequence 0; SInclusive 1 None; SRhs 2]) = None.
Proof.
  split; [|reflexivity]. apply dq_set; [exact I|]. apply dq_set; [exact I|].
  refine (dq_rhs true [SInclusive 1 None; SSequence 0] 2 [] [] 0 1 None eq_refl eq_refl _). constructor.
Qed.

(** As documented, when no history is waiting at calls of [rhs_with_history]. *)
Theorem C61_documented_partial : forall d calls l, declared false [] calls l ->
  (forall pre x h post, calls = pre ++ SRhsHistory x h :: post -> waiting_history true (rev pre) = None) ->
  seq_built (fold_res (seq_builder_call add_to_vec) calls (seq_builder_new d)) = Ok (d ++ l).
Proof.
  intros d calls l HD HS. apply C61_vec_partial.
  assert (HX : forall calls before l, declared false before calls l ->
    waiting_history true before = waiting_history false before ->
    (forall pre x h post, calls = pre ++ SRhsHistory x h :: post -> waiting_history true (rev pre ++ before) = None) ->
    declared true before calls l).
  { clear. induction calls as [|c calls IH]; intros before l H HW HS;
      inversion H as [|? ? ? ? Hc Hd|? ? ? ? A start end_ HA HR Hd|? ? ? ? ? A start end_ HA HR Hd]; subst.
    - constructor.
    - constructor; auto. apply IH; auto.
      + destruct c; simpl in *; auto; contradiction.
      + intros pre x h post E. specialize (HS (c :: pre) x h post). simpl in HS. rewrite <- app_assoc in HS. apply HS. rewrite E; auto.
    - rewrite <- HW. eapply dq_rhs; eauto. apply IH; auto.
      intros pre y h post E. specialize (HS (SRhs x :: pre) y h post). simpl in HS. rewrite <- app_assoc in HS. apply HS. rewrite E; auto.
    - pose proof (HS [] x h calls eq_refl) as W. simpl in W. eapply dq_rhs_history; eauto. apply IH; auto.
      intros pre y h' post E. specialize (HS (SRhsHistory x h :: pre) y h' post). simpl in HS. rewrite <- app_assoc in HS. apply HS. rewrite E; auto. }
  apply HX; auto. intros. rewrite app_nil_r. eapply HS; eauto.
Qed.
Print Assumptions C61_documented_partial.

Example C61_example :
  let calls := [SSequence 0; SSeparator (Proper 3); SInclusive 1 None; SRhs 1; SRange (Included 2) (Excluded 5); SHistory (history_new 7); SRhs 2;
                SSequence 4; SInclusive 0 (Some 1%N); SRhsHistory 1 None] in
  declared false [] calls [mkSeq 0 1 1 None (Proper 3) None; mkSeq 0 2 2 (Some 4%N) (Proper 3) (Some (history_new 7));
                mkSeq 4 1 0 (Some 1%N) Null None] /\
  (forall pre x h post, calls = pre ++ SRhsHistory x h :: post -> waiting_history true (rev pre) = None).
Proof.
  cbn zeta. split.
  - do 3 (apply dq_set; [exact I|]).
    apply (dq_rhs false [SInclusive 1 None; SSeparator (Proper 3); SSequence 0]); try reflexivity.
    do 2 (apply dq_set; [exact I|]).
    apply (dq_rhs false [SHistory (history_new 7); SRange (Included 2) (Excluded 5); SRhs 1; SInclusive 1 None; SSeparator (Proper 3); SSequence 0]); try reflexivity.
    do 2 (apply dq_set; [exact I|]).
    apply (dq_rhs_history false [SInclusive 0 (Some 1%N); SSequence 4; SRhs 2; SHistory (history_new 7); SRange (Included 2) (Excluded 5); SRhs 1; SInclusive 1 None; SSeparator (Proper 3); SSequence 0]); try reflexivity.
    constructor.
  - intros pre x h post E.
    repeat (destruct pre as [|? pre]; [first [discriminate E | injection E as _ _ _; reflexivity]|]; injection E as <- E).
    destruct pre; discriminate.
Qed.

(** The documented overwriting does not happen. *)
Theorem C61_overwrite_refuted : exists d calls l l',
  declared false [] calls l /\
  seq_built (fold_res (seq_builder_call add_to_vec) calls (seq_builder_new d)) = Ok (d ++ l') /\
  map sq_hist l = [None; None] /\ map sq_hist l' = [None; Some (history_new 1)].
Proof.
  exists [], [SSequence 0; SHistory (history_new 1); SInclusive 0 None; SRhsHistory 1 None; SInclusive 0 None; SRhs 2].
  eexists. eexists. split; [|split; [reflexivity|split]].
  - do 3 (apply dq_set; [exact I|]).
    apply (dq_rhs_history false [SInclusive 0 None; SHistory (history_new 1); SSequence 0]); try reflexivity.
    apply dq_set; [exact I|].
    apply (dq_rhs false [SInclusive 0 None; SRhsHistory 1 None; SInclusive 0 None; SHistory (history_new 1); SSequence 0]); try reflexivity.
    constructor.
  - reflexivity.
  - reflexivity.
Qed.
Print Assumptions C61_overwrite_refuted.
