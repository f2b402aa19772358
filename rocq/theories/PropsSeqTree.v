(** Property C90: sequences are parsed in one way. *)

From Coq Require Import List Arith NArith Bool Lia Permutation.
From Verif Require Import Base ListFacts Spec SpecSeq SpecTree GrammarFacts SymbolModel HistoryModel CfgModel View CfgProof
  SeqModel SeqProof SeqProof2 SeqProof3 TreeProof TreeLang TreeLimit SeqTree SeqTree2 PropsSeq PropsClassify PropsTree.
Import ListNotations.
Local Notation length := List.length.

(** The rules as parse trees refer to them. *)
Definition rule_pairs (c : list rule) : list (nat * list nat) := map (fun x => (lhs x, rhs x)) c.

Definition separator_symbols (s : separator) : list nat :=
  match s with Trailing x | Proper x | Liberal x => [x] | Null => [] end.

(** ** C90.  [c] are the rules that the sequence rule is rewritten to.  Read on their own, the element and the separator
    being terminals, they have one tree for every sequence and no other trees. *)
Theorem C90_one_parse_partial : forall debug g s, closed_rules g ->
  (limit g = None \/ exists n, limit g = Some n /\ 3 <= n) ->
  seq_in g s -> valid_range s ->
  ~ In (sq_lhs s) (sq_rhs s :: separator_symbols (sq_sep s)) ->
  ~ ((exists x, sq_sep s = Liberal x) /\ sq_start s = 0%N) ->
  exists g' c, seq_rewrite debug g s = Ok g' /\ rules g' = rules g ++ c /\
  (forall w, sequences (sq_rhs s) (sq_start s) (sq_end s) (sq_sep s) w <->
     exists t, parses (rule_pairs c) (sq_lhs s) t /\ yield t = w) /\
  unambiguous (rule_pairs c) (sq_lhs s).
Proof.
  intros debug g s HC HL Hin Hv HT Hlib.
  assert (HG : good_limit (limit g)) by (destruct HL as [->|[n [-> ?]]]; cbn; auto; lia).
  assert (H3 : lim3 (limit g)) by (destruct HL as [->|[n [-> ?]]]; cbn; auto).
  destruct (rewrite_ok' debug g s HC HG Hin Hv) as [g' [E [_ [_ [_ [_ [_ [_ [[c [Ec _]] _]]]]]]]]].
  exists g', c. split; auto. split; auto.
  pose proof E as E'. rewrite <- (seq_eta s) in E'.
  destruct (rewrite_rules g (sq_lhs s) (key_of s) (sq_hist s) H3 (proj1 Hin) Hv debug g' E') as [M [ds [E1 [E2 [E3 [E4 [E5 [E6 E7]]]]]]]].
  assert (EC : rule_pairs c = flat_map (block M) ((key_of s, sq_lhs s) :: ds)).
  { rewrite Ec, map_app in E1. apply app_inv_head in E1. exact E1. }
  rewrite EC. pose proof (seq_in_syms g s Hin) as HS. destruct Hin as [Hl _].
  split.
  - intros w. split.
    + intros Hw. eapply (trees_exist (num_syms g)); eauto.
    + intros [t [Ht <-]]. eapply (trees_sound (num_syms g) (sq_lhs s) (key_of s) M ds) with (k := key_of s); eauto. left. reflexivity.
  - intros t t' Ht Ht' EY. eapply (trees_unique (num_syms g) (sq_lhs s) (key_of s) M ds); eauto.
Qed.
Print Assumptions C90_one_parse_partial.

(** With an optional last separator and zero elements allowed, the empty sequence is parsed in two ways. *)
Definition seq_tree_g : cfg := mkCfg (mkSrc 3 (repeat None 3)) [] [0] [] None.

Theorem C90_optional_separator_refuted : exists s g', closed_rules seq_tree_g /\ seq_in seq_tree_g s /\ valid_range s /\
  ~ In (sq_lhs s) (sq_rhs s :: separator_symbols (sq_sep s)) /\
  seq_rewrite true seq_tree_g s = Ok g' /\ ~ unambiguous (rule_pairs (rules g')) (sq_lhs s).
Proof.
  exists (mkSeq 0 1 0 (Some 1%N) (Liberal 2) None).
  eexists. split; [intros x []|]. split; [repeat split; unfold num_syms; cbn; lia|].
  split; [split; [cbn; lia|cbn; intros e He; injection He as <-; lia]|]. split; [cbn; intuition discriminate|].
  split; [vm_compute; reflexivity|].
  cbn [rule_pairs map lhs rhs rules sq_lhs].
  apply (two_trees _ _ (Node 0 [Node 6 []]) (Node 1 [Node 2 []])); [tree_tac|tree_tac|reflexivity|discriminate].
Qed.
Print Assumptions C90_optional_separator_refuted.

(** x{2..=5} with a separator in between: the tree of four elements. *)
Example C90_example : let s := mkSeq 0 1 2 (Some 5%N) (Proper 2) None in
  closed_rules seq_tree_g /\ limit seq_tree_g = None /\ seq_in seq_tree_g s /\ valid_range s /\
  ~ In (sq_lhs s) (sq_rhs s :: separator_symbols (sq_sep s)) /\ ~ ((exists x, sq_sep s = Liberal x) /\ sq_start s = 0%N) /\
  exists g', seq_rewrite true seq_tree_g s = Ok g' /\
    rule_pairs (rules g') = [(0, [3; 4]); (4, [5]); (4, [6; 5]); (6, [7; 2]); (7, [1; 2; 1]); (5, [8]); (5, [7]); (8, [1]); (3, [8; 2])] /\
    exists t, parses (rule_pairs (rules g')) 0 t /\ yield t = [1; 2; 1; 2; 1; 2; 1].
Proof.
  intros s. split; [intros x []|]. split; [reflexivity|]. split; [repeat split; unfold num_syms; cbn; lia|].
  split; [split; [cbn; lia|cbn; intros e He; injection He as <-; lia]|]. split; [cbn; intuition discriminate|].
  split; [intros [[x Hx] _]; discriminate|]. eexists. split; [vm_compute; reflexivity|]. split; [reflexivity|].
  exists (Node 0 [Node 8 [Node 7 [Leaf 1]; Leaf 2]; Node 2 [Node 3 [Node 4 [Leaf 1; Leaf 2; Leaf 1]; Leaf 2]; Node 5 [Node 7 [Leaf 1]]]]).
  split; [cbn [rule_pairs map lhs rhs rules]; tree_tac|reflexivity].
Qed.
