(** C103: cycles and the number of parse trees. *)

From Coq Require Import List Arith Bool Lia Relations.
From Verif Require Import Base Spec SpecClassify SpecTree GrammarFacts TreeProof TreeLang HistoryModel CfgModel View
  PropsGrammar BitSetModel SetView SetProof MatrixProof UsefulProof ClassifyModel CyclesProof PropsClassify LLProof PropsLL LLTree
  PropsLLTree PropsPipe FiniteProof.
Import ListNotations.

Lemma plain_units : forall g A B, unit_derives (of_list (plain g)) A B <-> unit_derives (prods g) A B.
Proof.
  assert (X : forall (P Q : productions), (forall A r, P A r -> Q A r) -> forall A B, unit_derives P A B -> unit_derives Q A B).
  { intros P Q H A B HU. induction HU as [A B [H1 H2]|A C B _ I1 _ I2]; [apply t_step; split; auto|eapply t_trans; eauto]. }
  intros g A B. split; apply X; intros C r; apply plain_prods.
Qed.

Lemma plain_language : forall g A w, language (of_list (plain g)) A w <-> language (prods g) A w.
Proof. intros g A w. apply language_ext. intros. apply plain_prods. Qed.

(** ** C103.  Without empty rules and rules [A ::= A], a grammar that is reported cycle free has only finitely many parse
    trees for each string. *)
Theorem C103_finite_partial : forall g c c', closed_rules g ->
  (forall x, In x (rules g) -> rhs x <> [] /\ rhs x <> [lhs x]) ->
  cycles_new g = Ok c -> cycle_free c = Ok (true, c') ->
  forall A w, finitely_parsed (plain g) A w.
Proof.
  intros g c c' HC HR EC EF. destruct (C34_cycle_free g HC) as [d [b [d' [E1 [E2 [HB _]]]]]].
  rewrite EC in E1. injection E1 as <-. rewrite EF in E2. injection E2 as <- <-.
  apply finite_trees.
  - intros A r HI. apply plain_prods in HI. destruct HI as [x [Hx [_ <-]]]. apply HR; auto.
  - intros A HU. apply plain_units in HU. exact (proj1 HB eq_refl A HU).
  - intros A HI. apply plain_prods in HI. destruct HI as [x [Hx [HL HX]]]. destruct (HR x Hx) as [_ H]. apply H. congruence.
Qed.
Print Assumptions C103_finite_partial.

(** The rules that are reported to be on a cycle, and the rules [A ::= A], give each string of their left-hand side
    infinitely many parse trees. *)
Theorem C103_infinite : forall g c rs x w, closed_rules g -> cycles_new g = Ok c -> cycle_participants c true = Ok rs ->
  In x rs \/ (In x (rules g) /\ rhs x = [lhs x]) -> language (prods g) (lhs x) w -> infinitely_parsed (plain g) (lhs x) w.
Proof.
  intros g c rs x w HC EC ER HX HW. apply infinite_trees; [|apply plain_language; auto].
  destruct HX as [HX|[HX HE]].
  - destruct (C34_classify g HC) as [d [l [E1 [_ [_ [_ HP]]]]]]. rewrite EC in E1. injection E1 as <-.
    destruct (HP true) as [rs' [E2 HI]]. rewrite ER in E2. injection E2 as <-. apply HI in HX. destruct HX as [HX [B [HB HU]]].
    right. apply plain_units. destruct (Nat.eq_dec (lhs x) B) as [EB|N]; [rewrite EB in *; exact HU|].
    eapply t_trans; [apply t_step; split; [exists x; split; [exact HX|split; [reflexivity|exact HB]]|exact N]|exact HU].
  - left. apply plain_prods. exists x. auto.
Qed.
Print Assumptions C103_infinite.

(** Together: when there are no empty rules and all symbols are productive, the number of parse trees is finite for all
    strings exactly if the grammar is reported cycle free and has no rule [A ::= A]. *)
Theorem C103_exact : forall g c b c', closed_rules g -> (forall x, In x (rules g) -> rhs x <> []) ->
  (forall s, s < num_syms g -> productive (prods g) s) -> cycles_new g = Ok c -> cycle_free c = Ok (b, c') ->
  ((forall A w, finitely_parsed (plain g) A w) <-> b = true /\ forall x, In x (rules g) -> rhs x <> [lhs x]).
Proof.
  intros g c b c' HC HR HP EC EF. split.
  - intros HF.
    assert (NO : forall A w, looping (plain g) A -> language (prods g) A w -> False).
    { intros A w HL HW. apply plain_language in HW. pose proof (infinite_trees (plain g) A w HL HW) as HI.
      destruct (HF A w) as [L H]. destruct (HI L) as [t [H1 [H2 H3]]]. exact (H3 (H t H1 H2)). }
    destruct (C34_cycle_free g HC) as [d [b2 [d' [E1 [E2 [HB _]]]]]].
    rewrite EC in E1. injection E1 as <-. rewrite EF in E2. injection E2 as <- <-. split.
    + apply HB. intros A HU.
      assert (HA : A < num_syms g).
      { assert (X : forall C D, unit_derives (prods g) C D -> C < num_syms g); [|exact (X A A HU)].
        intros C D HCD. induction HCD as [C D [[x [Hx [<- _]]] _]|]; auto. apply (HC x Hx). }
      destruct (HP A HA) as [w HW]. apply (NO A w); auto. right. apply plain_units. auto.
    + intros x Hx HE. destruct (HP (lhs x)) as [w HW]; [apply (HC x Hx)|]. apply (NO (lhs x) w); auto. left. apply plain_prods.
      exists x. auto.
  - intros [-> HS] A w. eapply C103_finite_partial; eauto.
Qed.
Print Assumptions C103_exact.

(** After wrapping, eliminating nulling rules, rewriting cycles and removing useless rules, only rules [A ::= A] can give
    infinitely many parse trees. *)
Theorem C103_prepared_partial : forall g g', closed_rules g -> Forall (fun s => s < num_syms g) (roots g) ->
  good_limit (limit g) -> prepare g = Ok g' -> (forall x, In x (rules g') -> rhs x <> [lhs x]) ->
  forall A w, finitely_parsed (plain g') A w.
Proof.
  intros g g' HC HR HG E HS. destruct (C100_prepared g HC HR HG) as [g2 [E2 [_ [_ [_ [_ [HC' [HL [_ [HF _]]]]]]]]]].
  rewrite E in E2. injection E2 as <-. apply finite_trees.
  - intros A r HI. apply plain_prods in HI. destruct HI as [x [Hx [_ <-]]]. rewrite Forall_forall in HL.
    specialize (HL x Hx). destruct (rhs x); [simpl in HL; lia|discriminate].
  - intros A HU. apply plain_units in HU. exact (HF A HU).
  - intros A HI. apply plain_prods in HI. destruct HI as [x [Hx [HL2 HX]]]. apply (HS x Hx). congruence.
Qed.
Print Assumptions C103_prepared_partial.

(** S ::= S N | a ; N ::=   with S N a = 0..2: eliminating N leaves S ::= S, which is kept, and the input "a" has infinitely many
    parse trees. *)
Definition ex_fin : cfg := mkCfg (mkSrc 3 [None; None; None]) [mkRule 0 [0; 1] hd0; mkRule 0 [2] hd0; mkRule 1 [] hd0] [0] [] None.
Theorem C103_prepared_refuted : exists g g' W, closed g /\ prepare g = Ok g' /\ In W (wroots g') /\
  infinitely_parsed (plain g') (wr_root W) [wr_start W; 2; wr_end W].
Proof.
  exists ex_fin. destruct (prepare ex_fin) as [g'| |] eqn:E; [|vm_compute in E; discriminate..].
  vm_compute in E. injection E as <-.
  match goal with |- exists g' _, _ /\ Ok ?x = _ /\ _ => set (G := x); exists x end.
  eexists. split; [split; [closed_tac|split; repeat constructor]|]. split; [reflexivity|]. split; [left; reflexivity|].
  cbn [wr_root wr_start wr_end]. change (infinitely_parsed (plain G) 3 [4; 2; 5]).
  assert (EP : plain G = [(0, [0; 1]); (0, [2]); (6, [4; 0]); (3, [6; 5]); (0, [0])]) by reflexivity. rewrite EP.
  set (P := [(0, [0; 1]); (0, [2]); (6, [4; 0]); (3, [6; 5]); (0, [0])]).
  assert (T : forall s, In s [2; 4; 5] -> forall r, ~ In (s, r) P).
  { intros s Hs r X. simpl in Hs, X. repeat (destruct X as [X|X]; [injection X as <- _; intuition discriminate|]). exact X. }
  apply tall_infinite. intros n. destruct (looping_tall P 0 [2]) with (n := n) as [t [H1 [H2 H3]]].
  - left. simpl. auto 6.
  - split; [apply derives_rule; simpl; red; simpl; auto|]. constructor; [|constructor]. exact (T 2 (or_introl eq_refl)).
  - exists (Node 3 [Node 2 [Leaf 4; t]; Leaf 5]). split; [|split].
    + apply (parses_node _ _ [6; 5]); [reflexivity|]. apply Forall2_cons.
      * apply (parses_node _ _ [4; 0]); [reflexivity|]. apply Forall2_cons; [constructor; apply T; simpl; auto|].
        apply Forall2_cons; [exact H1|constructor].
      * apply Forall2_cons; [constructor; apply T; simpl; auto|constructor].
    + simpl. rewrite H2. reflexivity.
    + simpl. lia.
Qed.
Print Assumptions C103_prepared_refuted.

(** E ::= E p T | T ; T ::= x E y | x   with E T p x y = 0..4: cycle free, and "x p x" has finitely many trees, at least one. *)
Definition ex_fin2 : cfg :=
  mkCfg (mkSrc 5 [None; None; None; None; None])
    [mkRule 0 [0; 2; 1] hd0; mkRule 0 [1] hd0; mkRule 1 [3; 0; 4] hd0; mkRule 1 [3] hd0] [0] [] None.
Example C103_example : closed ex_fin2 /\ (forall x, In x (rules ex_fin2) -> rhs x <> [] /\ rhs x <> [lhs x]) /\
  (exists c c', cycles_new ex_fin2 = Ok c /\ cycle_free c = Ok (true, c')) /\
  exists t, parses (plain ex_fin2) 0 t /\ yield t = [3; 2; 3].
Proof.
  split; [split; [closed_tac|split; repeat constructor]|]. split.
  { intros x Hx. simpl in Hx. repeat (destruct Hx as [<-|Hx]; [split; discriminate|]). destruct Hx. }
  split; [eexists; eexists; split; vm_compute; reflexivity|].
  assert (L : forall s, 2 <= s -> parses (plain ex_fin2) s (Leaf s)).
  { intros s Hs. constructor. intros r X. simpl in X. repeat (destruct X as [X|X]; [injection X as <- _; lia|]). exact X. }
  assert (X : parses (plain ex_fin2) 1 (Node 3 [Leaf 3])).
  { apply (parses_node _ _ [3]); [reflexivity|]. apply Forall2_cons; [apply L; lia|constructor]. }
  exists (Node 0 [Node 1 [Node 3 [Leaf 3]]; Leaf 2; Node 3 [Leaf 3]]). split; [|reflexivity].
  apply (parses_node _ _ [0; 2; 1]); [reflexivity|]. apply Forall2_cons.
  - apply (parses_node _ _ [1]); [reflexivity|]. apply Forall2_cons; [exact X|constructor].
  - apply Forall2_cons; [apply L; lia|]. apply Forall2_cons; [exact X|constructor].
Qed.

(** A ::= B | a ; B ::= A   with A B a = 0..2. *)
Definition ex_fin3 : cfg := mkCfg (mkSrc 3 [None; None; None]) [mkRule 0 [1] hd0; mkRule 0 [2] hd0; mkRule 1 [0] hd0] [0] [] None.
Example C103_cycle_example : closed ex_fin3 /\ exists c rs x, cycles_new ex_fin3 = Ok c /\ cycle_participants c true = Ok rs /\ In x rs /\
  language (prods ex_fin3) (lhs x) [2].
Proof.
  split; [split; [closed_tac|split; repeat constructor]|]. eexists. eexists. exists (mkRule 0 [1] hd0).
  split; [vm_compute; reflexivity|]. split; [vm_compute; reflexivity|]. split; [left; reflexivity|].
  apply plain_language. split; [apply derives_rule; red; simpl; auto|]. constructor; [|constructor].
  intros r X. red in X. simpl in X. repeat (destruct X as [X|X]; [injection X as X _; lia|]). exact X.
Qed.
