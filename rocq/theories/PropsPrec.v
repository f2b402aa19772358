(** Properties C24 - C26: the precedence builder. *)

From Coq Require Import List Arith NArith Bool Lia.
From Verif Require Import Base ListFacts Spec SpecPrec GrammarFacts SymbolModel HistoryModel CfgModel
  View CfgProof PrecModel PrecView PrecProof PropsGrammar.
Import ListNotations.

(** [E ::= ( E ) group | n  ;  E ^ E right | - E ; E + E left | E ? E : E right] over an
    existing grammar [S ::= E ; T ::= n n]; S = 0, T = 1, E = 2, n = 3, ( = 4, ) = 5, ^ = 6,
    - = 7, + = 8, ? = 9, : = 10. *)
Definition ex_p : cfg :=
  mkCfg (mkSrc 11 (repeat None 11)) [mkRule 0 [2] hd0; mkRule 1 [3; 3] hd0] [0] [] None.
Definition ex_calls : list prec_call :=
  [PAssoc AGroup; PRhs [4; 2; 5]; PRhs [3];
   PLower; PAssoc ARight; PRhs [2; 6; 2]; PRhs [7; 2];
   PLower; PRhs [2; 8; 2]; PAssoc ARight; PHistory hd0; PRhs [2; 9; 2; 10; 2]].

Lemma ex_p_ok : closed_rules ex_p /\ good_limit (limit ex_p) /\ 2 < num_syms ex_p /\
  Forall (fun c => Forall (fun s => s < num_syms ex_p) (call_syms c)) ex_calls.
Proof.
  split; [|split; [exact I|split; [vm_compute; lia|]]].
  - intros x Hx. simpl in Hx. unfold num_syms; simpl.
    repeat (destruct Hx as [<- | Hx]; [simpl; repeat constructor; lia|]). destruct Hx.
  - unfold num_syms; simpl. repeat constructor; lia.
Qed.

(** ** C24 *)
Theorem C24_derives : forall g E calls, closed_rules g -> good_limit (limit g) -> E < num_syms g ->
  Forall (fun c => Forall (fun s => s < num_syms g) (call_syms c)) calls ->
  exists g', prec_build g E calls = Ok g' /\
    forall s w, s < num_syms g -> Forall (fun x => x < num_syms g) w ->
      (derives (prods g') [s] w <->
       expr (prods g) E (loosest calls) (alternatives 0 ALeft calls) [Sym s] w).
Proof.
  intros g E calls HC HL HE HF.
  destruct (prec_build_repr g E calls HC HL HE HF) as [g' [lv [C [E1 [G [L1 [ND [Hlv [HCs [R [_ Ha]]]]]]]]]]].
  exists g'. split; auto. intros s w Hs Hw.
  rewrite (represents_derives _ _ _ (rp_rep _ _ _ R)).
  - replace (loosest calls) with (length lv - 1) by lia.
    rewrite <- (full_iff (prods g) E (num_syms g) lv (alternatives 0 ALeft calls)); auto.
    + reflexivity.
    + intros A r [x [Hx [<- <-]]]. apply HC; auto.
    + eapply Forall_impl; [|exact Hlv]. simpl; intros; lia.
    + intro X. subst lv. discriminate.
    + eapply Forall_impl; [|exact Ha]. simpl. intros x [? ?]; split; auto. lia.
  - constructor; auto. intro Hc. apply HCs in Hc. lia.
  - eapply Forall_impl; [|exact Hw]. simpl. intros x Hx Hc. apply HCs in Hc. lia.
Qed.
Print Assumptions C24_derives.

(** When the tightest level has an alternative, the terminals of the new grammar are the old
    ones, without [E], and the language of every old symbol is that of the expressions. *)
Theorem C24_language : forall g E calls a l, closed_rules g -> good_limit (limit g) -> E < num_syms g ->
  Forall (fun c => Forall (fun s => s < num_syms g) (call_syms c)) calls ->
  In (0, a, l) (alternatives 0 ALeft calls) ->
  exists g', prec_build g E calls = Ok g' /\
    forall s w, s < num_syms g ->
      (language (prods g') s w <->
       expr (prods g) E (loosest calls) (alternatives 0 ALeft calls) [Sym s] w /\
       Forall (fun x => x < num_syms g /\ terminal (prods g) x /\ x <> E) w).
Proof.
  intros g E calls a l HC HL HE HF H0.
  destruct (prec_build_repr g E calls HC HL HE HF) as [g' [lv [C [E1 [G [L1 [ND [Hlv [HCs [R [_ Ha]]]]]]]]]]].
  destruct (C24_derives g E calls HC HL HE HF) as [g2 [E2 HD]].
  rewrite E1 in E2. injection E2 as <-.
  exists g'. split; auto. intros s w Hs.
  assert (HT : forall x, x < num_syms g -> (terminal (prods g') x <-> terminal (prods g) x /\ x <> E)).
  { intros x Hx. rewrite (represents_terminal _ _ _ (rp_rep _ _ _ R)). split.
    - intros [_ Ht]. split.
      + intros r Hr. apply (Ht r). left; auto.
      + intros ->. apply (Ht [nth (length lv - 1) lv 0]). right; right; right; auto.
    - intros [Ht Hne]. split; [intro Hc; apply HCs in Hc; lia|].
      assert (Hl : forall k, k < length lv -> num_syms g <= nth k lv 0).
      { intros. rewrite Forall_forall in Hlv. apply Hlv. apply nth_In. auto. }
      intros r [Hr|[[k [Hk [-> _]]]|[[alt [Hin [-> _]]]|[-> _]]]].
      + eapply Ht; eauto.
      + pose proof (Hl (S k) Hk). lia.
      + rewrite Forall_forall in Ha. destruct (Ha _ Hin). pose proof (Hl (level_of alt)). lia.
      + congruence. }
  assert (HN : forall x, In x lv -> nonterminal (prods g') x).
  { intros x Hx. apply (rep_nt _ _ _ (rp_rep _ _ _ R)).
    - intro Hc. apply HCs in Hc. tauto.
    - apply In_nth with (d := 0) in Hx. destruct Hx as [k [Hk <-]]. destruct k.
      + eexists. right; right; left. exists (0, a, l). split; [auto|]. split; reflexivity.
      + eexists. right; left. exists k. split; auto. }
  split.
  - intros [Hd Hw].
    assert (Hold : Forall (fun x => x < num_syms g) w).
    { assert (HwC : Forall (fun x => ~ C x) w).
      { eapply Forall_impl; [|exact Hw]. intros x Hx.
        apply (represents_terminal _ _ _ (rp_rep _ _ _ R)) in Hx. tauto. }
      assert (Hin : Forall (fun x => x < num_syms g \/ In x lv) w).
      { assert (Hd2 : derives (full (prods g) E lv (alternatives 0 ALeft calls)) [s] w).
        { apply (represents_derives _ _ _ (rp_rep _ _ _ R)); auto. constructor; auto.
          intro Hc. apply HCs in Hc. lia. }
        eapply derives_Forall; [|exact Hd2|constructor; auto].
        intros A r [[x [Hx [<- <-]]]|[[k [Hk [_ ->]]]|[[alt [Hin [_ ->]]]|[_ ->]]]] _.
        - destruct (HC _ Hx) as [_ X]. eapply Forall_impl; [|exact X]. auto.
        - constructor; auto. right. apply nth_In. lia.
        - rewrite Forall_forall in Ha. destruct (Ha _ Hin) as [Hlev Hsy]. destruct alt as [[j b] q].
          pose proof (places_ok (num_syms g) (length lv - 1) E j b q Hsy) as Hp.
          unfold level_of in Hlev. simpl in Hlev. specialize (Hp ltac:(lia)).
          apply Forall_map. eapply Forall_impl; [|exact Hp]. intros [y|y]; simpl; intros; auto.
          right. apply nth_In. lia.
        - constructor; auto. right. apply nth_In. lia. }
      rewrite Forall_forall in *. intros x Hx. destruct (Hin x Hx) as [?|Hl]; auto.
      exfalso. destruct (HN x Hl) as [r Hr]. eapply (Hw x Hx); eauto. }
    split; [apply HD; auto|]. rewrite Forall_forall in *. intros x Hx. split; auto. apply HT; auto.
  - intros [Hx Hw]. split.
    + apply HD; auto. eapply Forall_impl; [|exact Hw]. simpl; tauto.
    + eapply Forall_impl; [|exact Hw]. simpl. intros x [? ?]. apply HT; auto.
Qed.
Print Assumptions C24_language.

(** Symbols that do not reach [E] derive what they derived before, and the roots, names and
    rules that were there stay. *)
Theorem C24_unchanged : forall g E calls g', closed_rules g -> good_limit (limit g) -> E < num_syms g ->
  Forall (fun c => Forall (fun s => s < num_syms g) (call_syms c)) calls ->
  prec_build g E calls = Ok g' ->
  (forall s w, s < num_syms g -> Forall (fun x => x < num_syms g) w -> ~ reaches (prods g) s E ->
     (derives (prods g') [s] w <-> derives (prods g) [s] w)) /\
  roots g' = roots g /\ wroots g' = wroots g /\ limit g' = limit g /\
  (exists added, rules g' = rules g ++ added) /\
  (forall s, s < num_syms g -> nth_error (names (src g')) s = nth_error (names (src g)) s \/
                               length (names (src g)) <= s).
Proof.
  intros g E calls g' HC HL HE HF EQ.
  destruct (prec_build_repr g E calls HC HL HE HF) as [g2 [lv [C [E1 [G [L1 [ND [Hlv [HCs [R [_ Ha]]]]]]]]]]].
  rewrite EQ in E1. injection E1 as <-.
  destruct (C24_derives g E calls HC HL HE HF) as [g2 [E2 HD]].
  rewrite EQ in E2. injection E2 as <-.
  split; [|split; [apply G|split; [apply G|split; [apply G|split; [apply G|]]]]].
  - intros s w Hs Hw Hnr. split; intros H.
    + apply HD in H; auto.
      assert (X : forall u w, expr (prods g) E (loosest calls) (alternatives 0 ALeft calls) u w ->
                forall v, u = map Sym v -> (forall x, In x v -> ~ reaches (prods g) x E) -> derives (prods g) v w).
      { clear. intros u w H. induction H; intros v Ev Hv; destruct v as [|x v]; try discriminate.
        - constructor.
        - injection Ev as -> ->. apply derives_cons_same. apply IHexpr; auto. intros; apply Hv; simpl; auto.
        - injection Ev as -> ->. apply derives_cons; [|apply IHexpr2; auto; intros; apply Hv; simpl; auto].
          eapply derives_rule_then; [exact H|]. apply IHexpr1; auto.
          intros y Hy [p [q Hd]]. apply (Hv x); simpl; auto. apply in_split in Hy. destruct Hy as [l1 [l2 ->]].
          exists (l1 ++ p), (q ++ l2). eapply derives_rule_then; [exact H|].
          pose proof (derives_ctx (prods g) l1 l2 _ _ Hd) as D.
          cbn [app] in D. repeat rewrite <- app_assoc. repeat rewrite <- app_assoc in D. exact D.
        - injection Ev as -> ->. exfalso. apply (Hv x); simpl; auto. exists [], []. constructor. }
      apply (X _ _ H [s]); auto. intros x [<-|[]]; auto.
    + apply (represents_derives _ _ _ (rp_rep _ _ _ R)).
      * constructor; auto. intro Hc. apply HCs in Hc. lia.
      * eapply Forall_impl; [|exact Hw]. simpl. intros x Hx Hc. apply HCs in Hc. lia.
      * eapply derives_mono; [|exact H]. left; auto.
  - intros s Hs. destruct (gr_num _ _ G) as [k ->]. simpl.
    destruct (le_lt_dec (length (names (src g))) s); auto. left. rewrite nth_error_app1; auto.
Qed.
Print Assumptions C24_unchanged.

(** n + n ^ - n : the sum is on top, in either order of operands *)
Example C24_example : exists g', prec_build ex_p 2 ex_calls = Ok g' /\
  map (fun x => (lhs x, rhs x)) (rules g') =
    [(0, [2]); (1, [3; 3]);
     (11, [3]); (12, [11]); (12, [11; 6; 12]); (12, [7; 12]); (13, [12]); (13, [13; 8; 12]);
     (13, [12; 9; 12; 10; 13]); (11, [4; 13; 5]); (2, [13])] /\
  alternatives 0 ALeft ex_calls =
    [(0, AGroup, [4; 2; 5]); (0, ALeft, [3]); (1, ARight, [2; 6; 2]); (1, ALeft, [7; 2]);
     (2, ALeft, [2; 8; 2]); (2, ARight, [2; 9; 2; 10; 2])] /\
  language (prods g') 0 [3; 8; 3; 6; 7; 3].
Proof.
  destruct (C24_language ex_p 2 ex_calls ALeft [3]) as [g' [E HL]].
  1-4: apply ex_p_ok.
  { simpl. auto. }
  exists g'. split; auto.
  assert (E' := E). vm_compute in E'. injection E' as <-. split; [reflexivity|]. split; [reflexivity|].
  apply HL; [vm_compute; lia|]. split.
  - assert (N : forall k u w, expr (prods ex_p) 2 2 (alternatives 0 ALeft ex_calls) u w ->
               expr (prods ex_p) 2 2 (alternatives 0 ALeft ex_calls) (Opd k :: u) (3 :: w)).
    { intros. apply (ex_alt _ _ _ _ k 0 ALeft [3] u [3] w); simpl; auto; [lia|]. repeat constructor. }
    change [3; 8; 3; 6; 7; 3] with ([3; 8; 3; 6; 7; 3] ++ []).
    apply ex_rule with (r := [2]); [exists (mkRule 0 [2] hd0); simpl; auto| |constructor].
    change [3; 8; 3; 6; 7; 3] with ([3; 8; 3; 6; 7; 3] ++ []).
    apply ex_operand; [|constructor].
    change [3; 8; 3; 6; 7; 3] with ([3; 8; 3; 6; 7; 3] ++ []).
    apply ex_alt with (j := 2) (a := ALeft) (l := [2; 8; 2]); [simpl; tauto|auto| |constructor].
    simpl. apply N. apply ex_keep.
    change [3; 6; 7; 3] with ([3; 6; 7; 3] ++ []).
    apply ex_alt with (j := 1) (a := ARight) (l := [2; 6; 2]); [simpl; tauto|auto| |constructor].
    simpl. apply N. apply ex_keep.
    change [7; 3] with ([7; 3] ++ []).
    apply ex_alt with (j := 1) (a := ALeft) (l := [7; 2]); [simpl; tauto|auto| |constructor].
    simpl. apply ex_keep. apply N. constructor.
  - unfold num_syms; simpl.
    repeat (constructor; [split; [lia|split; [|lia]]; intros r [x [Hx [E1 _]]]; simpl in Hx;
      repeat (destruct Hx as [<-|Hx]; [discriminate|]); destruct Hx|]). constructor.
Qed.

(** ** C25 *)
Theorem C25_sound : forall g E calls g' s w, closed_rules g -> good_limit (limit g) -> E < num_syms g ->
  Forall (fun c => Forall (fun s => s < num_syms g) (call_syms c)) calls ->
  prec_build g E calls = Ok g' ->
  s < num_syms g -> Forall (fun x => x < num_syms g) w -> derives (prods g') [s] w ->
  derives (union (prods g) (of_list (map (fun c => (E, call_syms c))
             (filter (fun c => match c with PRhs _ | PRhsHistory _ _ => true | _ => false end) calls)))) [s] w.
Proof.
  intros g E calls g' s w HC HL HE HF EQ Hs Hw HD.
  destruct (C24_derives g E calls HC HL HE HF) as [g2 [E2 HX]].
  rewrite EQ in E2. injection E2 as <-. apply HX in HD; auto. clear HX EQ g'.
  set (flat := fun p => match p with Sym s => s | Opd _ => E end).
  assert (HLp : forall j l, map flat (left_places E j l) = l).
  { induction l as [|x l IH]; simpl; auto. destruct (x =? E) eqn:EX; simpl; f_equal; auto.
    - apply Nat.eqb_eq in EX. auto.
    - rewrite map_map. rewrite <- (map_id l) at 2. apply map_ext. intros y.
      destruct (y =? E) eqn:EY; auto. apply Nat.eqb_eq in EY. auto. }
  assert (HP : forall top alt, map flat (places E top alt) = snd alt).
  { intros top [[j a] l]. destruct a; simpl; auto.
    - rewrite map_rev, HLp, rev_involutive. auto.
    - rewrite map_map. rewrite <- (map_id l) at 2. apply map_ext. intros y.
      destruct (y =? E) eqn:EY; auto. apply Nat.eqb_eq in EY. auto. }
  assert (HA : forall calls k a j b l, In (j, b, l) (alternatives k a calls) ->
    In (E, l) (map (fun c => (E, call_syms c))
       (filter (fun c => match c with PRhs _ | PRhsHistory _ _ => true | _ => false end) calls))).
  { clear. induction calls as [|c calls IH]; simpl; intros; auto.
    destruct c; simpl in *; eauto; destruct H as [X|X]; try (injection X as _ _ ->; auto); eauto. }
  assert (X : forall u w, expr (prods g) E (loosest calls) (alternatives 0 ALeft calls) u w ->
    derives (union (prods g) (of_list (map (fun c => (E, call_syms c))
             (filter (fun c => match c with PRhs _ | PRhsHistory _ _ => true | _ => false end) calls))))
      (map flat u) w).
  { intros u v H. induction H; cbn [map flat].
    - constructor.
    - apply derives_cons_same; auto.
    - apply derives_cons; auto. eapply derives_rule_then; [left; exact H|].
      rewrite map_map in IHexpr1. simpl in IHexpr1. rewrite map_id in IHexpr1. auto.
    - apply derives_cons; auto.
    - apply derives_cons; auto. rewrite HP in IHexpr1. simpl in IHexpr1.
      eapply derives_rule_then; [right; unfold of_list; eapply HA; exact H | auto]. }
  apply X in HD. exact HD.
Qed.
Print Assumptions C25_sound.

Example C25_example : exists g', prec_build ex_p 2 ex_calls = Ok g' /\ derives (prods g') [2] [3; 8; 3; 6; 7; 3].
Proof.
  destruct C24_example as [g' [E [_ [_ [HD _]]]]]. exists g'. split; auto.
  destruct (derives_single_inv _ _ _ HD) as [?|[r [Hr HD2]]]; [discriminate|].
  vm_compute in E. injection E as <-. destruct Hr as [x [Hx [E1 <-]]]. simpl in Hx.
  repeat (destruct Hx as [<-|Hx]; [try discriminate; exact HD2|]). destruct Hx.
Qed.

(** ** C26 *)

(** The operands of a left associative alternative of level [j >= 1], in the grammar itself
    when no length limit is set.  [lv] are the symbols of the levels; [E] at index [i] of the
    alternative becomes the symbol of level [j] if it is the leftmost operand, else that of
    level [j - 1].  The symbol of a level has the productions of its alternatives, and
    otherwise only the step down to the tighter level. *)
Definition operand_rule (E : nat) (lv : list nat) (j : nat) (l r : list nat) (extreme : nat -> Prop) : Prop :=
  length r = length l /\
  forall i x, nth_error l i = Some x ->
    (x <> E -> nth_error r i = Some x) /\
    (x = E -> extreme i -> nth_error r i = Some (nth j lv 0)) /\
    (x = E -> ~ extreme i -> nth_error r i = Some (nth (j - 1) lv 0)).

Lemma left_operand_rule : forall E lv j l,
  operand_rule E lv j l (map (enc lv) (left_places E j l)) (fun i => ~ In E (firstn i l)).
Proof.
  intros E lv j. induction l as [|x l IH].
  - split; auto. intros [|i] x Hx; discriminate.
  - destruct IH as [IL IH]. simpl. destruct (x =? E) eqn:EX.
    + apply Nat.eqb_eq in EX. subst x. split; [simpl; repeat rewrite map_length; auto|].
      intros [|i] y Hy; simpl in *.
      * injection Hy as <-. repeat split; auto; tauto.
      * rewrite map_map. rewrite nth_error_map, Hy. simpl. repeat split; intros.
        -- apply Nat.eqb_neq in H. rewrite H. reflexivity.
        -- exfalso. apply H0. auto.
        -- subst. rewrite Nat.eqb_refl. reflexivity.
    + apply Nat.eqb_neq in EX. split; [simpl; auto|]. intros [|i] y Hy; simpl in *.
      * injection Hy as <-. repeat split; auto; intros; congruence.
      * destruct (IH i y Hy) as [A1 [A2 A3]]. split; [auto|split; [auto|]].
        intros H H0. apply A3; auto. intro Hi. apply H0. intros [?|?]; auto.
Qed.

Lemma right_operand_rule : forall E lv j l,
  operand_rule E lv j l (map (enc lv) (rev (left_places E j (rev l)))) (fun i => ~ In E (skipn (S i) l)).
Proof.
  intros E lv j l. destruct (left_operand_rule E lv j (rev l)) as [HL H].
  rewrite map_rev. set (q := map (enc lv) (left_places E j (rev l))) in *.
  rewrite rev_length in HL. split; [rewrite rev_length; auto|].
  intros i x Hx. assert (Hi : i < length l) by (apply nth_error_Some; congruence).
  assert (E1 : nth_error (rev l) (length l - S i) = Some x).
  { rewrite (nth_error_nth' _ 0) by (rewrite rev_length; lia). rewrite rev_nth by lia.
    replace (length l - S (length l - S i)) with i by lia. f_equal. apply nth_error_nth; auto. }
  assert (E2 : nth_error (rev q) i = nth_error q (length l - S i)).
  { rewrite (nth_error_nth' (rev q) 0) by (rewrite rev_length; lia).
    rewrite (nth_error_nth' q 0) by lia. rewrite rev_nth by lia. f_equal. f_equal. lia. }
  assert (E3 : In E (firstn (length l - S i) (rev l)) <-> In E (skipn (S i) l)).
  { rewrite firstn_rev. rewrite <- in_rev. replace (length l - (length l - S i)) with (S i) by lia. tauto. }
  rewrite E2. destruct (H _ _ E1) as [A1 [A2 A3]]. rewrite E3 in A2, A3. auto.
Qed.

Theorem C26_loose_levels_partial : forall g E calls, closed_rules g -> limit g = None -> E < num_syms g ->
  Forall (fun c => Forall (fun s => s < num_syms g) (call_syms c)) calls ->
  exists g' lv, prec_build g E calls = Ok g' /\ length lv = S (loosest calls) /\ NoDup lv /\
    Forall (fun s => num_syms g <= s) lv /\
    forall j r, 1 <= j <= loosest calls ->
      (prods g' (nth j lv 0) r <->
       r = [nth (j - 1) lv 0] \/
       (exists l, In (j, ALeft, l) (alternatives 0 ALeft calls) /\
          operand_rule E lv j l r (fun i => ~ In E (firstn i l))) \/
       (exists l, In (j, ARight, l) (alternatives 0 ALeft calls) /\
          operand_rule E lv j l r (fun i => ~ In E (skipn (S i) l))) \/
       (exists l, In (j, AGroup, l) (alternatives 0 ALeft calls) /\
          r = map (fun x => if x =? E then nth (loosest calls) lv 0 else x) l)).
Proof.
  intros g E calls HC HN HE HF.
  destruct (prec_build_repr g E calls HC ltac:(rewrite HN; exact I) HE HF)
    as [g' [lv [C [E1 [G [L1 [ND [Hlv [HCs [R [HX Ha]]]]]]]]]]].
  exists g', lv. split; auto. split; auto. split; auto.
  split; [eapply Forall_impl; [|exact Hlv]; simpl; intros; lia|].
  intros j r Hj. rewrite (HX HN).
  assert (Hl : forall k, k < length lv -> num_syms g <= nth k lv 0).
  { intros. rewrite Forall_forall in Hlv. apply Hlv. apply nth_In. auto. }
  assert (HU : forall l ext q1 q2, (forall i, ext i \/ ~ ext i) ->
     operand_rule E lv j l q1 ext -> operand_rule E lv j l q2 ext -> q1 = q2).
  { clear. intros l ext q1 q2 Hdec [LA A] [LB B]. apply nth_error_ext. intros i.
    destruct (nth_error l i) as [x|] eqn:EX.
    - destruct (A _ _ EX) as [A1 [A2 A3]], (B _ _ EX) as [B1 [B2 B3]].
      destruct (Nat.eq_dec x E) as [->|Hne].
      + destruct (Hdec i); [rewrite A2, B2 | rewrite A3, B3]; auto.
      + rewrite A1, B1; auto.
    - apply nth_error_None in EX.
      rewrite (proj2 (nth_error_None q1 i)) by lia. rewrite (proj2 (nth_error_None q2 i)) by lia. auto. }
  assert (Hdec : forall (m : list nat), ~ In E m \/ ~ ~ In E m).
  { intros m. destruct (in_dec Nat.eq_dec E m); tauto. }
  replace (loosest calls) with (length lv - 1) by lia.
  split.
  - intros [Hr|[[k [Hk [EA ->]]]|[[alt [Hin [EA ->]]]|[EA _]]]].
    + destruct Hr as [x [Hx [EA _]]]. destruct (HC _ Hx). pose proof (Hl j ltac:(lia)). lia.
    + left. assert (j = S k) by (eapply NoDup_nth; eauto; lia). subst. simpl. rewrite Nat.sub_0_r. auto.
    + right. pose proof (proj1 (Forall_forall _ _) Ha _ Hin) as [Hlev _].
      assert (j = level_of alt) by (eapply NoDup_nth; eauto; lia). subst j.
      destruct alt as [[j a] l]. unfold level_of; simpl. destruct a.
      * left. exists l. split; auto. apply left_operand_rule.
      * right; left. exists l. split; auto. apply right_operand_rule.
      * right; right. exists l. split; auto. rewrite map_map. apply map_ext. intros x.
        destruct (x =? E); auto.
    + pose proof (Hl j ltac:(lia)). lia.
  - intros [->|[[l [Hin H]]|[[l [Hin H]]|[l [Hin ->]]]]].
    + right; left. exists (j - 1). replace (S (j - 1)) with j by lia. split; [lia|auto].
    + right; right; left. exists (j, ALeft, l). split; auto. split; auto.
      eapply HU; [|exact H|apply left_operand_rule]. intros i; apply Hdec.
    + right; right; left. exists (j, ARight, l). split; auto. split; auto.
      eapply HU; [|exact H|apply right_operand_rule]. intros i; apply Hdec.
    + right; right; left. exists (j, AGroup, l). split; auto. split; auto. simpl. rewrite map_map.
      apply map_ext. intros x. destruct (x =? E); auto.
Qed.
Print Assumptions C26_loose_levels_partial.

Example C26_example : closed_rules ex_p /\ limit ex_p = None /\
  exists g', prec_build ex_p 2 ex_calls = Ok g' /\ prods g' 13 [13; 8; 12] /\ ~ prods g' 13 [13; 8; 13].
Proof.
  split; [apply ex_p_ok|]. split; auto.
  destruct C24_example as [g' [E [ER _]]]. exists g'. split; auto. split.
  - unfold prods. assert (In (13, [13; 8; 12]) (map (fun x => (lhs x, rhs x)) (rules g')))
      by (rewrite ER; simpl; tauto).
    apply in_map_iff in H. destruct H as [x [Ex Hx]]. injection Ex as ? ?. exists x; auto.
  - intros [x [Hx [E1 E2]]]. assert (In (13, [13; 8; 13]) (map (fun x => (lhs x, rhs x)) (rules g'))).
    { apply in_map_iff. exists x. split; auto. congruence. }
    rewrite ER in H. simpl in H. repeat (destruct H as [H|H]; [discriminate|]). destruct H.
Qed.

(** The claim is false on the tightest level: with the single level [E - E | n] the built
    grammar nests the subtraction on both sides, so that n - n - n is also read as
    n - (n - n). E = 0, - = 1, n = 2. *)
Theorem C26_tightest_refuted :
  let g := mkCfg (mkSrc 3 (repeat None 3)) [] [0] [] None in
  exists g', prec_build g 0 [PAssoc ALeft; PRhs [0; 1; 0]; PRhs [2]] = Ok g' /\
    prods g' 3 [3; 1; 3] /\ prods g' 3 [2] /\ prods g' 0 [3].
Proof.
  eexists. split; [vm_compute; reflexivity|].
  unfold prods. cbn [rules].
  split; [|split]; eexists.
  - split; [left; reflexivity | split; reflexivity].
  - split; [right; left; reflexivity | split; reflexivity].
  - split; [right; right; left; reflexivity | split; reflexivity].
Qed.
Print Assumptions C26_tightest_refuted.
