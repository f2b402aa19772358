(** Properties C40 - C43: FIRST, LAST and FOLLOW sets. *)

From Coq Require Import List Arith NArith Bool Lia Sorted.
From Verif Require Import Base ListFacts Spec GrammarFacts HistoryModel CfgModel View
  BitSetModel SetView SetProof CfgProof2 SetsModel SpecPredict SetsProof FollowProof PropsGrammar PropsClassify.
Import ListNotations.
Local Notation length := List.length.

(** ** C40 *)
Theorem C40_first_exact : forall g, closed_rules g -> exists f, first_sets_new g = Ok f /\
  (* there is a set for each nonterminal *)
  (forall A, map_get (fs_map f) A <> None <-> nonterminal (prods g) A) /\
  forall A v, map_get (fs_map f) A = Some v ->
    StronglySorted lt (set_list v) /\
    (forall t, In t (set_list v) <-> begins (prods g) [A] t) /\
    (has_none v = true <-> nullable (prods g) A).
Proof. intros g HC. destruct (first_sets_spec g HC) as [f [E [_ [_ H]]]]. exists f. auto. Qed.
Print Assumptions C40_first_exact.

(** S ::= B x | x ; B ::= y | ;  R ::= S B R | ;   S B R x y = 0 1 2 3 4 *)
Definition ex_first : cfg :=
  mkCfg (mkSrc 5 []) [mkRule 0 [1; 3] hd0; mkRule 0 [3] hd0; mkRule 1 [4] hd0; mkRule 1 [] hd0;
                      mkRule 2 [0; 1; 2] hd0; mkRule 2 [] hd0] [2] [] None.
Lemma ex_first_closed : closed ex_first.
Proof. split; [closed_tac|split; repeat constructor]. Qed.

Example C40_example : closed_rules ex_first /\ exists f, first_sets_new ex_first = Ok f /\
  fs_map f = [(0, mkSet false [3; 4]); (1, mkSet true [4]); (2, mkSet true [3; 4])].
Proof. split; [apply ex_first_closed|]. eexists. split; vm_compute; reflexivity. Qed.

(** ** C41 *)
Theorem C41_last_exact : forall g, closed_rules g -> exists m, last_sets_new g = Ok m /\
  (forall A, map_get m A <> None <-> nonterminal (prods g) A) /\
  forall A v, map_get m A = Some v ->
    StronglySorted lt (set_list v) /\
    (forall t, In t (set_list v) <-> ends (prods g) [A] t) /\
    (has_none v = true <-> nullable (prods g) A).
Proof.
  intros g HC.
  assert (HC' : closed_rules (cfg_reverse g)).
  { intros x Hx. cbn [cfg_reverse set_rules rules] in Hx. apply in_map_iff in Hx. destruct Hx as [y [<- Hy]].
    destruct (HC y Hy) as [A B]. cbn [lhs rhs]. split; auto. apply Forall_rev. auto. }
  destruct (first_sets_spec _ HC') as [f [E [_ [_ [K V]]]]].
  exists (fs_map f). unfold last_sets_new. rewrite E. cbn [bind]. split; auto.
  pose proof (prods_reverse g) as HP.
  assert (HN : forall A, nonterminal (prods (cfg_reverse g)) A <-> nonterminal (prods g) A).
  { intros A. split; intros [r H].
    - apply HP in H. exists (rev r). auto.
    - exists (rev r). apply HP. red. rewrite rev_involutive. auto. }
  split; [intros A; rewrite K; auto|]. intros A v EV. destruct (V A v EV) as [V1 [V2 V3]]. split; auto. split.
  - intros t. rewrite V2. unfold begins, ends. rewrite (terminal_ext _ _ HP), terminal_reversed. split; intros [HT [w D]]; split; auto.
    + exists (rev w). rewrite (derives_ext _ _ HP) in D. apply derives_reversed in D. exact D.
    + exists (rev w). rewrite (derives_ext _ _ HP). apply derives_reversed. simpl. rewrite rev_involutive. exact D.
  - rewrite V3. unfold nullable. rewrite (derives_ext _ _ HP), derives_reversed. simpl. tauto.
Qed.
Print Assumptions C41_last_exact.

Example C41_example : exists m, last_sets_new ex_first = Ok m /\
  m = [(0, mkSet false [3]); (1, mkSet true [4]); (2, mkSet true [3; 4])].
Proof. eexists. split; vm_compute; reflexivity. Qed.

(** ** C42.  The symbols are exact; the end marker is only on the roots: everything it marks can end
    a sentential form of a root, but it is missing elsewhere. *)
Theorem C42_follow_partial : forall g, closed_rules g -> exists m, follow_sets g = Ok m /\
  (forall A, map_get m A <> None <-> nonterminal (prods g) A) /\
  forall A v, map_get m A = Some v ->
    StronglySorted lt (set_list v) /\
    (forall t, In t (set_list v) <-> follows (prods g) A t) /\
    (has_none v = true <-> In A (roots g)) /\
    (has_none v = true -> can_end (prods g) (roots g) A).
Proof.
  intros g HC. destruct (follow_sets_spec g HC) as [m [E [K V]]]. exists m. split; auto. split; auto.
  intros A v EV. destruct (V A v EV) as [V1 [V2 V3]]. split; auto. split; auto. split; auto.
  intros H. exists A, []. split; [apply V3; auto|constructor].
Qed.
Print Assumptions C42_follow_partial.

Example C42_example : exists m, follow_sets ex_first = Ok m /\
  m = [(0, mkSet false [3; 4]); (1, mkSet false [3; 4]); (2, mkSet true [])].
Proof. eexists. split; vm_compute; reflexivity. Qed.

(** R ::= S B R | : here S can end a sentential form of the root, without the end marker. *)
Theorem C42_end_marker_refuted : exists g m A v, closed g /\ follow_sets g = Ok m /\ map_get m A = Some v /\
  can_end (prods g) (roots g) A /\ has_none v = false.
Proof.
  exists ex_first. do 2 eexists. exists (mkSet false [3; 4]). split; [apply ex_first_closed|].
  split; [vm_compute; reflexivity|]. instantiate (1 := 0). split; [reflexivity|]. split; auto.
  exists 2, []. split; [left; auto|].
  eapply derives_rule_then with [0; 1; 2]; [exists (mkRule 2 [0; 1; 2] hd0); simpl; auto 8|].
  apply (derives_step _ [0] 1 [2] []); [exists (mkRule 1 [] hd0); simpl; auto 8|].
  apply (derives_step _ [0] 2 [] []); [exists (mkRule 2 [] hd0); simpl; auto 8|]. constructor.
Qed.
Print Assumptions C42_end_marker_refuted.

(** ** C43.  What the function gives: the FIRST set of the first symbol whose set is not empty. *)
Lemma first_string_spec : forall g f u, closed_rules g -> first_sets_new g = Ok f ->
  Forall (fun s => s < num_syms g) u ->
  exists v u1 u2, first_set_for_string f u = Ok v /\ u = u1 ++ u2 /\
  (forall s t, In s u1 -> ~ begins (prods g) [s] t) /\
  match u2 with
  | [] => v = mkSet true []
  | s :: _ => has_none v = false /\ set_list v <> [] /\ forall t, In t (set_list v) <-> begins (prods g) [s] t
  end.
Proof.
  intros g f u HC E. destruct (first_sets_spec g HC) as [f' [E' [HT [LT [K V]]]]].
  rewrite E in E'. injection E' as <-. unfold first_set_for_string.
  induction u as [|s u IH]; intros HU; cbn [first_string_loop].
  - exists (mkSet true []), [], []. split; [reflexivity|]. split; auto.
  - inversion HU as [|? ? Hs HU']; subst. destruct (bs_get_ok (fs_terminal_set f) s) as [x [EX HX]]; [rewrite LT; auto|].
    rewrite EX. cbn [bind]. destruct x.
    + assert (Ts : terminal (prods g) s) by (apply HT; auto; apply HX; auto).
      exists (mkSet false [s]), [], (s :: u). split; [reflexivity|]. split; auto. split; [intros ? ? []|].
      cbn [has_none set_list]. split; auto. split; [discriminate|]. intros t. rewrite begins_terminal by auto. simpl.
      split; [intros [<-|[]]; auto|intros ->; auto].
    + assert (Ns : nonterminal (prods g) s).
      { destruct (nonterminal_dec g s) as [X|X]; auto. exfalso. apply terminal_not_nonterminal in X.
        apply HT in X; auto. apply HX in X. discriminate. }
      destruct (map_get (fs_map f) s) as [v|] eqn:EV; [|exfalso; apply (proj2 (K s) Ns); auto].
      destruct (V s v EV) as [_ [V1 V2]]. destruct (set_list v) as [|a l] eqn:EL; cbn [is_nil].
      * destruct (IH HU') as [w [u1 [u2 [EW [-> [W1 W2]]]]]]. exists w, (s :: u1), u2. split; auto. split; auto.
        split; auto. intros s' t [<-|H]; auto. intros X. apply V1 in X. destruct X.
      * cbn [bind is_nil]. exists (mkSet false (a :: l)), [], (s :: u). split; auto. split; auto.
        split; [intros ? ? []|]. cbn [has_none set_list]. split; auto. split; [discriminate|auto].
Qed.

(** Exact for strings in which each symbol that comes first, or after symbols that vanish, derives the empty string only if it
    derives nothing else; this holds for grammars without nulling rules and without unproductive symbols.
    Missing: other strings. *)
Theorem C43_first_string_partial : forall g f u, closed_rules g -> first_sets_new g = Ok f ->
  Forall (fun s => s < num_syms g) u ->
  (forall u1 s u2, u = u1 ++ s :: u2 -> derives (prods g) u1 [] ->
     (nullable (prods g) s <-> forall t, ~ begins (prods g) [s] t)) ->
  exists v, first_set_for_string f u = Ok v /\
    (forall t, In t (set_list v) <-> begins (prods g) u t) /\
    (has_none v = true <-> derives (prods g) u []).
Proof.
  intros g f u HC E HU HN. destruct (first_string_spec g f u HC E HU) as [v [u1 [u2 [EV [-> [H1 H2]]]]]].
  exists v. split; auto.
  assert (HN1 : forall w, (forall s, In s u1 -> nullable (prods g) s) -> (forall t, begins (prods g) (u1 ++ w) t <-> begins (prods g) w t) /\
                  (derives (prods g) (u1 ++ w) [] <-> derives (prods g) w [])).
  { intros w. clear -H1. induction u1 as [|s u1 IH]; intros Hn; simpl; [split; [tauto|tauto]|].
    destruct IH as [A B]; [intros; apply H1; right; auto|intros; apply Hn; right; auto|]. split.
    - intros t. rewrite begins_cons, A. split; [|right; split; auto; apply Hn; left; auto].
      intros [H|[_ H]]; auto. exfalso. eapply H1; [left; reflexivity|eauto].
    - rewrite nil_cons, B. split; [tauto|]. split; auto. apply Hn; left; auto. }
  assert (HNU : forall s, In s u1 -> nullable (prods g) s).
  { assert (X : forall a b, u1 = a ++ b -> Forall (nullable (prods g)) a -> Forall (nullable (prods g)) b).
    { intros a b. revert a. induction b as [|s b IH]; intros a Eb Fa; [constructor|].
      assert (Y : nullable (prods g) s).
      { apply (HN a s (b ++ u2)).
        - rewrite Eb, <- app_assoc. reflexivity.
        - clear -Fa. induction Fa; [constructor|]. apply nil_cons. auto.
        - intros t. apply H1. rewrite Eb. apply in_or_app. right. left. reflexivity. }
      constructor; [exact Y|]. apply (IH (a ++ [s])); [rewrite <- app_assoc; exact Eb|]. apply Forall_app. auto. }
    specialize (X [] u1 eq_refl (Forall_nil _)). rewrite Forall_forall in X. exact X. }
  destruct (HN1 u2 HNU) as [A B]. rewrite B. destruct u2 as [|s u2].
  - subst v. cbn [set_list has_none]. split; [|split; auto; intros _; constructor].
    intros t. rewrite A. split; [intros []|]. apply begins_nil.
  - destruct H2 as [N1 [N2 N3]].
    assert (HS : ~ nullable (prods g) s).
    { rewrite (HN u1 s u2 eq_refl) by (clear -HNU; induction u1 as [|x u1 IH]; [constructor|apply nil_cons; split; [apply HNU; left; reflexivity|apply IH; intros; apply HNU; right; auto]]).
      intros X. destruct (set_list v) as [|a l]; [congruence|].
      apply (X a). apply N3. left; auto. }
    rewrite nil_cons, N1. split; [|split; [discriminate|tauto]].
    intros t. rewrite A, begins_cons, N3. tauto.
Qed.
Print Assumptions C43_first_string_partial.

(** Nothing wrong is reported for strings of productive symbols. Missing: what is not reported. *)
Theorem C43_sound_partial : forall g f u, closed_rules g -> first_sets_new g = Ok f ->
  Forall (fun s => s < num_syms g) u -> Forall (productive (prods g)) u ->
  exists v, first_set_for_string f u = Ok v /\
    (forall t, In t (set_list v) -> begins (prods g) u t) /\
    (has_none v = true -> derives (prods g) u []).
Proof.
  intros g f u HC E HU HP. destruct (first_string_spec g f u HC E HU) as [v [u1 [u2 [EV [-> [H1 H2]]]]]].
  exists v. split; auto. apply Forall_app in HP. destruct HP as [HP _].
  assert (HN : derives (prods g) u1 [] /\ forall w t, begins (prods g) w t -> begins (prods g) (u1 ++ w) t).
  { clear -H1 HP. induction HP as [|s u1 [w [HW HT]] _ IH]; [split; [constructor|auto]|].
    destruct IH as [I1 I2]; [intros; apply H1; right; auto|].
    assert (NS : nullable (prods g) s).
    { destruct w as [|a w]; auto. exfalso. apply (H1 s a (or_introl eq_refl)). inversion HT; subst. split; auto. exists w. auto. }
    split; [apply nil_cons; auto|]. intros x t HX. cbn [app]. apply begins_cons. right. auto. }
  destruct HN as [N0 N1]. destruct u2 as [|s u2].
  - subst v. cbn [set_list has_none]. split; [intros t []|]. intros _. rewrite app_nil_r. exact N0.
  - destruct H2 as [M1 [_ M3]]. split; [|rewrite M1; discriminate]. intros t Ht. apply N1, begins_cons. left. apply M3. exact Ht.
Qed.
Print Assumptions C43_sound_partial.

(** The condition holds for strings that start with a non-nullable symbol, here with symbols that derive the empty string
    among others after it. *)
Example C43_example : exists f, first_sets_new ex_first = Ok f /\
  Forall (fun s => s < num_syms ex_first) [0; 3; 1] /\
  (forall u1 s u2, [0; 3; 1] = u1 ++ s :: u2 -> derives (prods ex_first) u1 [] ->
     (nullable (prods ex_first) s <-> forall t, ~ begins (prods ex_first) [s] t)) /\
  first_set_for_string f [0; 3; 1] = Ok (mkSet false [3; 4]).
Proof.
  destruct (C40_first_exact ex_first (proj1 ex_first_closed)) as [f [E [K V]]]. exists f. split; auto.
  assert (EF : fs_map f = [(0, mkSet false [3; 4]); (1, mkSet true [4]); (2, mkSet true [3; 4])]).
  { assert (X : exists f, first_sets_new ex_first = Ok f /\
      fs_map f = [(0, mkSet false [3; 4]); (1, mkSet true [4]); (2, mkSet true [3; 4])]) by apply C40_example.
    destruct X as [f' [E' X]]. congruence. }
  split; [repeat constructor|]. split.
  - assert (T3 : terminal (prods ex_first) 3).
    { intros r [x [Hx [HL _]]]. simpl in Hx. repeat (destruct Hx as [<-|Hx]; [discriminate|]). destruct Hx. }
    destruct (V 0 (mkSet false [3; 4])) as [_ [V1 V2]]; [rewrite EF; reflexivity|]. cbn [has_none] in V2.
    intros u1 s u2 EU DU. destruct u1 as [|x u1]; injection EU as <- EU.
    + rewrite <- V2. split; [discriminate|]. intros X. exfalso. apply (X 3). apply V1. left; auto.
    + exfalso. apply nil_cons in DU. destruct DU as [DU _]. apply V2 in DU. discriminate.
  - revert E. vm_compute. intros E. injection E as <-. reflexivity.
Qed.

(** B x with B ::= y | : x is missing. And B alone: the empty marker is missing. *)
Theorem C43_nullable_refuted : exists g f u v t, closed g /\ first_sets_new g = Ok f /\
  first_set_for_string f u = Ok v /\ begins (prods g) u t /\ ~ In t (set_list v).
Proof.
  exists ex_first. eexists. exists [1; 3]. eexists. exists 3. split; [apply ex_first_closed|].
  split; [vm_compute; reflexivity|]. split; [vm_compute; reflexivity|]. split.
  - assert (T3 : terminal (prods ex_first) 3).
    { intros r [x [Hx [HL _]]]. simpl in Hx. repeat (destruct Hx as [<-|Hx]; [discriminate|]). destruct Hx. }
    split; auto. exists []. apply (derives_step _ [] 1 [3] []); [exists (mkRule 1 [] hd0); simpl; auto 8|]. constructor.
  - simpl. intros [H|[]]; discriminate.
Qed.
Print Assumptions C43_nullable_refuted.

Theorem C43_empty_marker_refuted : exists g f u v, closed g /\ first_sets_new g = Ok f /\
  first_set_for_string f u = Ok v /\ derives (prods g) u [] /\ has_none v = false.
Proof.
  exists ex_first. eexists. exists [1]. eexists. split; [apply ex_first_closed|].
  split; [vm_compute; reflexivity|]. split; [vm_compute; reflexivity|]. split; auto.
  apply derives_rule. exists (mkRule 1 [] hd0); simpl; auto 8.
Qed.
Print Assumptions C43_empty_marker_refuted.
