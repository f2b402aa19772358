(** Properties C13 - C16: elimination of nulling rules. *)

From Coq Require Import List Arith NArith Bool Lia.
From Verif Require Import Base ListFacts Spec SetView GrammarFacts SymbolModel HistoryModel CfgModel View
  BitSetModel ClosureModel ElimModel CfgProof CfgProof2 SetProof ElimProof PropsGrammar.
Import ListNotations.
Local Notation length := List.length.

(** [eliminate_nulling g] gives the grammar that is left in place of [g] and the returned
    grammar of nulling rules.  [old_terminal g s]: [s] is a symbol of [g] without rules in [g]. *)

Lemma elim_inv : forall g g' result, closed_rules g -> eliminate_nulling g = Ok (g', result) ->
  exists g1 p q, eliminated g g1 g' result p q.
Proof.
  intros g g' result HC E. destruct (eliminate_spec g HC) as [g1 [x [y [p [q [E' H]]]]]].
  rewrite E in E'. inversion E'; subst. eauto.
Qed.

(** ** C13 *)

Theorem C13_total : forall g, closed_rules g ->
  exists g' result, eliminate_nulling g = Ok (g', result).
Proof.
  intros g HC. destruct (eliminate_spec g HC) as [g1 [x [y [p [q [E _]]]]]]. eauto.
Qed.
Print Assumptions C13_total.

Theorem C13_language : forall g g' result, closed_rules g -> eliminate_nulling g = Ok (g', result) ->
  forall s w, s < num_syms g -> w <> [] -> Forall (fun a => a < num_syms g /\ terminal (prods g) a) w ->
  (derives (prods g') [s] w <-> derives (prods g) [s] w).
Proof.
  intros g g' result HC E s w Hs Hne HT. destruct (elim_inv g g' result HC E) as [g1 [p [q EL]]].
  pose proof (elim_language g g1 g' result p q HC EL s w Hs Hne) as H. unfold language_over in H.
  split; intros HD; apply H; split; auto.
Qed.
Print Assumptions C13_language.

(** S ::= A b A | C ;  A ::= a | ;  C ::= A A ;   (S A b a C = 0 1 2 3 4) *)
Definition ex_null : cfg :=
  mkCfg (mkSrc 5 (repeat None 5))
        [mkRule 0 [1; 2; 1] hd0; mkRule 0 [4] hd0; mkRule 1 [3] hd0; mkRule 1 [] hd0;
         mkRule 4 [1; 1] hd0] [0] [] None.
Lemma ex_null_closed : closed_rules ex_null.
Proof.
  intros x Hx. simpl in Hx. unfold num_syms; simpl.
  repeat (destruct Hx as [<- | Hx]; [simpl; repeat constructor; lia|]). destruct Hx.
Qed.
Example C13_example : exists g' result, closed_rules ex_null /\
  eliminate_nulling ex_null = Ok (g', result) /\
  map (fun x => (lhs x, rhs x)) (rules g') =
    [(5, [1; 2]); (0, [5; 1]); (0, [4]); (1, [3]); (4, [1; 1]);
     (5, [2]); (0, [5]); (4, [1]); (4, [1])] /\
  map (fun x => (lhs x, rhs x)) (rules result) = [(0, [4]); (1, []); (4, [1; 1])].
Proof.
  do 2 eexists. split; [exact ex_null_closed|]. split; [vm_compute; reflexivity|]. vm_compute. auto.
Qed.

(** ** C14 *)

Theorem C14_no_empty_rules : forall g g' result, closed_rules g -> eliminate_nulling g = Ok (g', result) ->
  Forall (fun x => 1 <= length (rhs x) <= 2) (rules g') /\
  (forall s, ~ nullable (prods g') s).
Proof.
  intros g g' result HC E. destruct (elim_inv g g' result HC E) as [g1 [p [q EL]]].
  split; [exact (elim_shape g g1 g' result p q EL)|].
  intros s H. pose proof (elim_no_empty g g1 g' result p q EL [s] H). discriminate.
Qed.
Print Assumptions C14_no_empty_rules.

Theorem C14_returned : forall g g' result, closed_rules g -> eliminate_nulling g = Ok (g', result) ->
  forall s, s < num_syms g -> (nullable (prods result) s <-> nullable (prods g) s).
Proof.
  intros g g' result HC E. destruct (elim_inv g g' result HC E) as [g1 [p [q EL]]].
  exact (result_nullable g g1 g' result p q HC EL).
Qed.
Print Assumptions C14_returned.

(** The returned grammar derives no terminal string but the empty one. *)
Theorem C14_returned_only_empty : forall g g' result, closed_rules g ->
  eliminate_nulling g = Ok (g', result) ->
  forall s w, derives (prods result) [s] w ->
  Forall (fun a => a < num_syms g /\ terminal (prods g) a) w -> w = [] \/ w = [s].
Proof.
  intros g g' result HC E s w HD HT. destruct (elim_inv g g' result HC E) as [g1 [p [q EL]]].
  destruct (result_only_empty g g1 g' result p q HC EL s w (conj HD HT)) as [?|[? _]]; auto.
Qed.
Print Assumptions C14_returned_only_empty.

(** ** C15 *)

(** What is true: a new terminal is a symbol from which no non-empty string of original
    terminals can be derived, in the binarized grammar [g1], which is equivalent (C09). *)
Theorem C15_terminals_partial : forall g g1 g' result, closed_rules g ->
  limit_rhs_len g (Some 2) = Ok g1 -> eliminate_nulling g = Ok (g', result) ->
  forall t, occurs (prods g') t -> terminal (prods g') t ->
  (t < num_syms g /\ terminal (prods g) t) \/
  (nonterminal (prods g1) t /\
   forall w, derives (prods g1) [t] w -> Forall (fun a => a < num_syms g /\ terminal (prods g) a) w -> w = []).
Proof.
  intros g g1 g' result HC E1 E t HO HT. destruct (elim_inv g g' result HC E) as [g2 [p [q EL]]].
  pose proof (el_limit _ _ _ _ _ _ EL) as E2. rewrite E1 in E2. inversion E2; subst g2.
  destruct (elim_terminals g g1 g' result p q HC EL t HO HT) as [H|[H1 H2]]; [left; exact H|].
  right. split; auto. intros w HD HF. destruct w as [|a w]; auto.
  exfalso. apply (H2 (a :: w)); auto. discriminate.
Qed.
Print Assumptions C15_terminals_partial.

(** The claim is false:  S ::= A x ;  A ::= ;  keeps the rule  S ::= A x  and drops the rule of A.
    (S A x = 0 1 2) *)
Theorem C15_refuted : exists g g' result t, closed_rules g /\
  eliminate_nulling g = Ok (g', result) /\
  occurs (prods g') t /\ terminal (prods g') t /\ nonterminal (prods g) t /\ t < num_syms g /\
  (exists w, derives (prods g') [0] w /\ Forall (terminal (prods g')) w /\ In t w) /\ roots g = [0].
Proof.
  set (g := mkCfg (mkSrc 3 (repeat None 3)) [mkRule 0 [1; 2] hd0; mkRule 1 [] hd0] [0] [] None).
  assert (E : exists g' result, eliminate_nulling g = Ok (g', result) /\
                map (fun x => (lhs x, rhs x)) (rules g') = [(0, [1; 2]); (0, [2])]).
  { do 2 eexists. split; vm_compute; reflexivity. }
  destruct E as [g' [result [E ER]]]. exists g, g', result, 1.
  assert (HP : forall A r, prods g' A r <-> (A, r) = (0, [1; 2]) \/ (A, r) = (0, [2])).
  { intros A r. unfold prods. transitivity (In (A, r) (map (fun x => (lhs x, rhs x)) (rules g'))).
    - rewrite in_map_iff. split.
      + intros [x [Hx [<- <-]]]. exists x; auto.
      + intros [x [Hx Hi]]. inversion Hx; subst. exists x; auto.
    - rewrite ER. simpl. split.
      + intros [H|[H|[]]]; auto.
      + intros [H|H]; rewrite H; auto. }
  split; [|split; [exact E|split; [|split; [|split; [|split; [|split; [|reflexivity]]]]]]].
  - intros x Hx. simpl in Hx. unfold num_syms; simpl.
    repeat (destruct Hx as [<- | Hx]; [simpl; repeat constructor; lia|]). destruct Hx.
  - exists 0, [1; 2]. split; [apply HP; auto|]. right; simpl; auto.
  - intros r H. apply HP in H. destruct H as [H|H]; inversion H.
  - exists [], (mkRule 1 [] hd0). simpl. auto.
  - unfold num_syms; simpl; lia.
  - exists [1; 2]. split; [apply derives_rule, HP; auto|]. split; [|simpl; auto].
    repeat constructor; intros r H; apply HP in H; destruct H as [H|H]; inversion H.
Qed.
Print Assumptions C15_refuted.

(** ** C16 *)

(** Every rule that is left is a rule of the binarized grammar [g1] or comes from one with two
    symbols by deleting a nullable one.  If the other symbol is not nullable, then the history
    names the deleted symbol and its side, and keeps origin and weight. *)
Theorem C16_history_partial : forall g g1 g' result, closed_rules g ->
  limit_rhs_len g (Some 2) = Ok g1 -> eliminate_nulling g = Ok (g', result) ->
  forall x, In x (rules g') ->
    In x (rules g1) \/
    exists y a b, In y (rules g1) /\ lhs x = lhs y /\ rhs y = [a; b] /\
      h_origin (hist x) = h_origin (hist y) /\
      ((nullable (prods g1) a /\ ~ nullable (prods g1) b /\ rhs x = [b] /\
        h_nullable (hist x) = Some (a, false) /\ h_weight (hist x) = h_weight (hist y)) \/
       (~ nullable (prods g1) a /\ nullable (prods g1) b /\ rhs x = [a] /\
        h_nullable (hist x) = Some (b, true) /\ h_weight (hist x) = h_weight (hist y)) \/
       (nullable (prods g1) a /\ nullable (prods g1) b /\ (rhs x = [a] \/ rhs x = [b]) /\
        h_nullable (hist x) = None /\ h_weight (hist x) = None)).
Proof.
  intros g g1 g' result HC E1 E. destruct (elim_inv g g' result HC E) as [g2 [p [q EL]]].
  pose proof (el_limit _ _ _ _ _ _ EL) as E2. rewrite E1 in E2. inversion E2; subst g2.
  exact (elim_history g g1 g' result p q EL).
Qed.
Print Assumptions C16_history_partial.

(** The claim is false when both symbols are nullable:  C ::= A A  (with weight 5) gives two
    rules  C ::= A  whose histories name no deleted symbol and no weight. *)
Theorem C16_refuted : exists g g1 g' result x, closed_rules g /\
  limit_rhs_len g (Some 2) = Ok g1 /\ eliminate_nulling g = Ok (g', result) /\
  In x (rules g') /\ (forall y, In y (rules g1) -> rhs y <> rhs x) /\
  (forall y, In y (rules g1) -> lhs y = lhs x -> h_weight (hist y) = Some 5%N) /\
  h_nullable (hist x) = None /\ h_weight (hist x) = None.
Proof.
  set (h5 := mkHistory dot_default dot_default dot_default 0 None (Some 5%N) None).
  set (g := mkCfg (mkSrc 3 (repeat None 3))
              [mkRule 0 [1; 1] h5; mkRule 1 [2] hd0; mkRule 1 [] hd0] [0] [] None).
  exists g. do 3 eexists. exists (mkRule 0 [1] (history_new 0)).
  split.
  { intros x Hx. simpl in Hx. unfold num_syms; simpl.
    repeat (destruct Hx as [<- | Hx]; [simpl; repeat constructor; lia|]). destruct Hx. }
  split; [vm_compute; reflexivity|]. split; [vm_compute; reflexivity|].
  split; [vm_compute; auto|]. split; [|split; [|split; reflexivity]].
  - intros y Hy. simpl in Hy. repeat (destruct Hy as [<- | Hy]; [discriminate|]). destruct Hy.
  - intros y Hy. simpl in Hy.
    repeat (destruct Hy as [<- | Hy]; [intros EE; simpl in EE; try discriminate; reflexivity|]). destruct Hy.
Qed.
Print Assumptions C16_refuted.
