(** Property C104: parse trees under wrap_input. *)

From Coq Require Import List Arith Bool Lia.
From Verif Require Import Base Spec SpecTree GrammarFacts SymbolModel HistoryModel CfgModel View CfgProof CfgProof2
  TreeProof TreeLimit TreeWrap PropsGrammar PropsTree.
Import ListNotations.

(** ** C104: each wrapped root has the parse trees of the root it wraps, with the markers at the two ends; the trees of
    the symbols that were there before are kept. *)
Theorem C104_wrap_input : forall g, closed_rules g -> Forall (fun s => s < num_syms g) (roots g) -> good_limit (limit g) ->
  exists g', wrap_input g = Ok g' /\ map wr_inner (wroots g') = roots g /\ roots g' = map wr_root (wroots g') /\
    same_trees (fun A => A < num_syms g) (fun w => w) (rule_list g) (rule_list g') /\
    forall W, In W (wroots g') ->
      trees_match (fun w => wr_start W :: w ++ [wr_end W]) (rule_list g) (wr_inner W) (rule_list g') (wr_root W) /\
      (unambiguous (rule_list g) (wr_inner W) <-> unambiguous (rule_list g') (wr_root W)).
Proof.
  intros g HC HR HL. destruct (C18_wrap_input g HC HR HL) as [g' [E [R1 [R2 _]]]]. exists g'. split; auto. split; auto. split; auto.
  destruct (wrap_fold_trees (roots g) (mkCfg (src g) (rules g) [] [] (limit g)) g') as [_ [HS [ws [V1 [_ V3]]]]]; auto.
  - apply (rule_list_below g HC).
  - split; [exact HS|]. intros W HW. cbn [wroots app] in V1. rewrite V1 in HW. pose proof (V3 W HW) as M. split; [exact M|].
    eapply match_unambiguous; [|exact M]. cbn beta. intros u v EQ. injection EQ as EQ. apply app_inj_tail in EQ. apply EQ.
Qed.
Print Assumptions C104_wrap_input.

(** E ::= E p E | a, with rules of at most two symbols: the ambiguity is kept inside of the markers. *)
Example C104_example : exists g', wrap_input (mkCfg (mkSrc 3 (repeat None 3)) (rules ex_ambiguous) [0] [] (Some 2)) = Ok g' /\
  rule_list g' = [(0, [0; 1; 0]); (0, [2]); (6, [4; 0]); (3, [6; 5])] /\ wroots g' = [mkWrapped 4 0 5 3] /\
  parses (rule_list g') 3 (Node 3 [Node 2 [Leaf 4; Node 1 [Leaf 2]]; Leaf 5]).
Proof.
  eexists. split; [vm_compute; reflexivity|]. split; [vm_compute; reflexivity|]. split; [reflexivity|].
  assert (T : forall x, In x [2; 4; 5] -> forall q, ~ In (x, q) [(0, [0; 1; 0]); (0, [2]); (6, [4; 0]); (3, [6; 5])]).
  { intros x Hx q Hq. simpl in Hx, Hq. intuition congruence. }
  apply (parses_node _ 3 [6; 5]); [reflexivity|]. apply Forall2_cons.
  - apply (parses_node _ 6 [4; 0]); [reflexivity|]. apply Forall2_cons; [apply parses_leaf, T; simpl; auto|]. apply Forall2_cons; [|apply Forall2_nil].
    apply (parses_node _ 0 [2]); [reflexivity|]. apply Forall2_cons; [apply parses_leaf, T; simpl; auto|apply Forall2_nil].
  - apply Forall2_cons; [apply parses_leaf, T; simpl; auto|apply Forall2_nil].
Qed.
