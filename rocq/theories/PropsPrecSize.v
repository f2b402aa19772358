(** Property C125: the size of what the precedence builder adds. *)

From Coq Require Import List Arith NArith Bool Lia.
From Verif Require Import Base ListFacts Spec SpecPrec GrammarFacts SymbolModel HistoryModel CfgModel
  View CfgProof PrecModel PrecView PrecProof PropsGrammar PropsPrec PropsElimSize PropsPipeSize.
Import ListNotations.
Local Notation length := List.length.

(** The same counts as [pairs] and [beyond], of right-hand sides. *)
Definition pairs_of (l : list (list nat)) : nat := list_sum (map (fun r => Nat.max 1 (length r - 1)) l).
Definition beyond_of (l : list (list nat)) : nat := list_sum (map (fun r => length r - 2) l).

Lemma chain_pairs : forall r l p s w c, chain r l p s w c -> 2 <= l -> 2 <= length w ->
  list_sum (map (fun x => Nat.max 1 (length (rhs x) - 1)) c) = length w - 1 /\
  list_sum (map (fun x => length (rhs x) - 2) c) + length c = length w - 1.
Proof.
  induction 1; intros Hl Hw; cbn [map rhs length]; rewrite ?sum_cons.
  - cbn [list_sum fold_right]. lia.
  - assert (H2 : 2 <= length (s :: skipn l w)) by (cbn [length]; rewrite skipn_length; lia).
    destruct (IHchain Hl H2) as [A B]. cbn [length] in A, B. rewrite skipn_length in A, B.
    rewrite firstn_length. lia.
Qed.

Lemma add_rule_size : forall g r g', good_limit (limit g) -> add_rule g r = Ok g' ->
  pairs g' = pairs g + Nat.max 1 (length (rhs r) - 1) /\
  num_syms g' + beyond g' = num_syms g + beyond g + (length (rhs r) - 2) /\ limit g' = limit g.
Proof.
  intros g r g' HG E. destruct (add_rule_spec g r HG) as [k [c [Ea [Hk Hc]]]]. rewrite Ea in E. injection E as <-.
  unfold pairs, beyond, num_syms. cbn [added rules src num limit]. rewrite !map_app, !sum_app.
  destruct Hc as [[-> _]|[l [EL [Hlt Hch]]]].
  - simpl in Hk. cbn [map]. rewrite !sum_cons. cbn [list_sum fold_right]. repeat split; lia.
  - rewrite EL in HG. simpl in HG. destruct (chain_pairs _ _ _ _ _ _ Hch HG) as [A B]; [lia|]. rewrite A. repeat split; lia.
Qed.

Lemma replace_leftmost_length : forall l c t s, length (replace_leftmost l c t s) = length s.
Proof. induction s as [|x s IH]; simpl; auto. destruct (x =? l); simpl; rewrite ?map_length; lia. Qed.

Lemma replace_rightmost_length : forall l c t s, length (replace_rightmost l c t s) = length s.
Proof. intros. unfold replace_rightmost. rewrite rev_length, replace_leftmost_length, rev_length. reflexivity. Qed.

(** The rules of the builder: those of its grammar and those of the groups that are not yet there. *)
Definition bp (b : prec_builder) : nat := pairs (pb_cfg b) + pairs_of (map rhs (pb_group b)).
Definition bb (b : prec_builder) : nat := num_syms (pb_cfg b) + beyond (pb_cfg b) + beyond_of (map rhs (pb_group b)).

Lemma rhs_size : forall b syms h b', good_limit (limit (pb_cfg b)) -> prec_rhs_with_history b syms h = Ok b' ->
  bp b' = bp b + Nat.max 1 (length syms - 1) /\ bb b' = bb b + (length syms - 2) /\ limit (pb_cfg b') = limit (pb_cfg b) /\
  pb_loose b' = pb_loose b /\ pb_assoc b' = ALeft.
Proof.
  intros b syms h b' HG E. unfold prec_rhs_with_history in E.
  destruct (process_linked _ h) as [h'| |]; try discriminate. cbn [bind] in E. unfold bp, bb.
  destruct (pb_assoc b).
  - destruct (add_rule _ _) as [g| |] eqn:EA; try discriminate. cbn [bind] in E. injection E as <-. cbn [pb_cfg pb_group pb_loose pb_assoc].
    destruct (add_rule_size _ _ _ HG EA) as [A [B C]]. cbn [rhs] in A, B. rewrite replace_leftmost_length in A, B. repeat split; auto; lia.
  - destruct (add_rule _ _) as [g| |] eqn:EA; try discriminate. cbn [bind] in E. injection E as <-. cbn [pb_cfg pb_group pb_loose pb_assoc].
    destruct (add_rule_size _ _ _ HG EA) as [A [B C]]. cbn [rhs] in A, B. rewrite replace_rightmost_length in A, B. repeat split; auto; lia.
  - injection E as <-. cbn [pb_cfg pb_group pb_loose pb_assoc]. unfold pairs_of, beyond_of. rewrite !map_app, !sum_app. cbn [map rhs]. rewrite !sum_cons.
    cbn [list_sum fold_right]. repeat split; auto; lia.
Qed.

Lemma calls_size : forall calls b b', good_limit (limit (pb_cfg b)) -> fold_res prec_step calls b = Ok b' ->
  bp b' = bp b + pairs_of (map snd (alternatives (pb_loose b) (pb_assoc b) calls)) + loosest calls /\
  bb b' = bb b + beyond_of (map snd (alternatives (pb_loose b) (pb_assoc b) calls)) + loosest calls /\
  limit (pb_cfg b') = limit (pb_cfg b).
Proof.
  induction calls as [|c calls IH]; intros b b' HG E; cbn [fold_res] in E.
  - injection E as <-. cbn. unfold pairs_of, beyond_of. cbn. repeat split; lia.
  - destruct (prec_step b c) as [b1| |] eqn:E1; try discriminate. cbn [bind] in E.
    destruct c as [h|syms|syms h|a|]; cbn [alternatives loosest].
    + injection E1 as <-. apply IH in E; [|exact HG]. exact E.
    + cbn [prec_step] in E1. destruct (rhs_size _ _ _ _ HG E1) as [A1 [B1 [C1 [D1 F1]]]].
      destruct (IH _ _ ltac:(rewrite C1; exact HG) E) as [A [B C]]. rewrite D1, F1 in A, B.
      cbn [map snd]. unfold pairs_of, beyond_of in *. cbn [map]. rewrite !sum_cons. repeat split; try congruence; lia.
    + cbn [prec_step] in E1. destruct (rhs_size _ _ _ _ HG E1) as [A1 [B1 [C1 [D1 F1]]]].
      destruct (IH _ _ ltac:(rewrite C1; exact HG) E) as [A [B C]]. rewrite D1, F1 in A, B.
      cbn [map snd]. unfold pairs_of, beyond_of in *. cbn [map]. rewrite !sum_cons. repeat split; try congruence; lia.
    + injection E1 as <-. apply IH in E; [|exact HG]. exact E.
    + cbn [prec_step] in E1. destruct (next_sym (pb_cfg b) None) as [cur g1] eqn:EN.
      destruct (add_rule g1 _) as [g2| |] eqn:EA; try discriminate. cbn [bind] in E1. injection E1 as <-.
      unfold next_sym in EN. injection EN as EN1 EN2.
      assert (HG1 : good_limit (limit g1)) by (rewrite <- EN2; exact HG).
      destruct (add_rule_size _ _ _ HG1 EA) as [A1 [B1 C1]]. cbn [rhs length] in A1, B1.
      apply IH in E; [|cbn [pb_cfg]; rewrite C1; exact HG1]. destruct E as [A [B C]]. cbn [pb_cfg pb_loose pb_assoc] in A, B, C.
      unfold bp, bb in *. cbn [pb_cfg pb_group] in A, B. rewrite A1 in A. rewrite B1 in B. rewrite C1 in C. subst g1.
      unfold pairs, beyond, num_syms in *. cbn [rules src num limit] in *. repeat split; try congruence; lia.
Qed.

Lemma prec_size : forall g E calls g', good_limit (limit g) -> prec_build g E calls = Ok g' ->
  pairs g' = pairs g + pairs_of (map snd (alternatives 0 ALeft calls)) + loosest calls + 1 /\
  num_syms g' + beyond g' = num_syms g + beyond g + beyond_of (map snd (alternatives 0 ALeft calls)) + loosest calls + 1 /\
  limit g' = limit g.
Proof.
  intros g e calls g' HG E. unfold prec_build in E. destruct (fold_res _ calls _) as [b| |] eqn:EF; try discriminate. cbn [bind] in E.
  assert (HG0 : good_limit (limit (pb_cfg (prec_new g e)))) by exact HG.
  destruct (calls_size _ _ _ HG0 EF) as [A [B C]]. unfold prec_finalize in E.
  match type of E with bind ?x _ = _ => destruct x as [g2| |] eqn:EG; try discriminate end. cbn [bind] in E.
  assert (HX : forall rs h h', good_limit (limit h) ->
    fold_res (fun g r => add_rule g (mkRule (lhs r) (map (fun x => if x =? pb_lhs b then pb_current b else x) (rhs r)) (hist r))) rs h = Ok h' ->
    pairs h' = pairs h + pairs_of (map rhs rs) /\ num_syms h' + beyond h' = num_syms h + beyond h + beyond_of (map rhs rs) /\ limit h' = limit h).
  { clear. induction rs as [|x rs IH]; intros h h' HG E; cbn [fold_res] in E.
    - injection E as <-. unfold pairs_of, beyond_of. cbn. repeat split; lia.
    - destruct (add_rule h _) as [h1| |] eqn:EA; try discriminate. cbn [bind] in E.
      destruct (add_rule_size _ _ _ HG EA) as [A1 [B1 C1]]. cbn [rhs] in A1, B1. rewrite map_length in A1, B1.
      destruct (IH _ _ ltac:(rewrite C1; exact HG) E) as [A [B C]]. unfold pairs_of, beyond_of in *. cbn [map]. rewrite !sum_cons.
      repeat split; try congruence; lia. }
  assert (HGb : good_limit (limit (pb_cfg b))) by (rewrite C; exact HG0).
  destruct (HX _ _ _ HGb EG) as [A2 [B2 C2]].
  destruct (add_rule_size _ _ _ ltac:(rewrite C2; exact HGb) E) as [A3 [B3 C3]]. cbn [rhs length] in A3, B3.
  cbn [pb_loose pb_assoc prec_new] in A, B. unfold bp, bb in A, B.
  assert (P0 : pairs (pb_cfg (prec_new g e)) = pairs g /\ beyond (pb_cfg (prec_new g e)) = beyond g /\ num_syms (pb_cfg (prec_new g e)) = S (num_syms g) /\
               pb_group (prec_new g e) = [] /\ pb_loose (prec_new g e) = 0 /\ pb_assoc (prec_new g e) = ALeft /\ limit (pb_cfg (prec_new g e)) = limit g)
    by (repeat split).
  destruct P0 as [Q1 [Q2 [Q3 [Q4 [Q5 [Q6 Q7]]]]]]. rewrite Q1, Q4, Q5, Q6 in A. rewrite Q2, Q3, Q4, Q5, Q6 in B.
  change (pairs_of (map rhs [])) with 0 in A. change (beyond_of (map rhs [])) with 0 in B.
  split; [lia|]. split; [lia|congruence].
Qed.

(** A rule for each alternative, one for each step to a looser level and one for the operand symbol; a symbol for
    each level. *)
Theorem C125_size : forall g E calls g', limit g = None -> prec_build g E calls = Ok g' ->
  length (rules g') = length (rules g) + length (alternatives 0 ALeft calls) + loosest calls + 1 /\
  num_syms g' = num_syms g + loosest calls + 1.
Proof.
  intros g e calls g' HL E.
  assert (HA : forall h r h', limit h = None -> add_rule h r = Ok h' -> length (rules h') = S (length (rules h)) /\ num_syms h' = num_syms h /\ limit h' = None).
  { intros h r h' H X. unfold add_rule, add_rule_parts, add_rule_fuel in X. rewrite H in X. cbn [bind] in X. injection X as <-.
    unfold num_syms. cbn. rewrite app_length. simpl. repeat split; auto. lia. }
  assert (HR : forall b s h b', limit (pb_cfg b) = None -> prec_rhs_with_history b s h = Ok b' ->
    length (rules (pb_cfg b')) + length (pb_group b') = S (length (rules (pb_cfg b)) + length (pb_group b)) /\
    num_syms (pb_cfg b') = num_syms (pb_cfg b) /\ limit (pb_cfg b') = None /\ pb_loose b' = pb_loose b /\ pb_assoc b' = ALeft).
  { intros b s h b' H X. unfold prec_rhs_with_history in X. destruct (process_linked _ h) as [h'| |]; try discriminate. cbn [bind] in X.
    destruct (pb_assoc b).
    - destruct (add_rule _ _) as [g0| |] eqn:EA; try discriminate. injection X as <-. destruct (HA _ _ _ H EA) as [A [B C]]. cbn. repeat split; auto; lia.
    - destruct (add_rule _ _) as [g0| |] eqn:EA; try discriminate. injection X as <-. destruct (HA _ _ _ H EA) as [A [B C]]. cbn. repeat split; auto; lia.
    - injection X as <-. cbn. rewrite app_length. simpl. repeat split; auto; lia. }
  assert (HS : forall cs b b', limit (pb_cfg b) = None -> fold_res prec_step cs b = Ok b' ->
    length (rules (pb_cfg b')) + length (pb_group b') = length (rules (pb_cfg b)) + length (pb_group b) + length (alternatives (pb_loose b) (pb_assoc b) cs) + loosest cs /\
    num_syms (pb_cfg b') = num_syms (pb_cfg b) + loosest cs /\ limit (pb_cfg b') = None).
  { clear - HA HR. induction cs as [|c cs IH]; intros b b' H X; cbn [fold_res] in X; [injection X as <-; cbn; repeat split; auto; lia|].
    destruct (prec_step b c) as [b1| |] eqn:E1; try discriminate. cbn [bind] in X.
    destruct c as [h|s|s h|a|]; cbn [alternatives loosest length].
    - injection E1 as <-. apply IH in X; auto.
    - apply HR in E1; auto. destruct E1 as [A [B [C [D F]]]]. apply IH in X; auto. rewrite D, F in X. destruct X as [P [Q R]]. repeat split; auto; lia.
    - apply HR in E1; auto. destruct E1 as [A [B [C [D F]]]]. apply IH in X; auto. rewrite D, F in X. destruct X as [P [Q R]]. repeat split; auto; lia.
    - injection E1 as <-. apply IH in X; auto.
    - cbn [prec_step] in E1. destruct (next_sym (pb_cfg b) None) as [cur g1] eqn:EN.
      destruct (add_rule g1 _) as [g2| |] eqn:EA; try discriminate. cbn [bind] in E1. injection E1 as <-.
      unfold next_sym in EN. injection EN as EN1 EN2. apply HA in EA; [|subst g1; exact H]. destruct EA as [A [B C]].
      apply IH in X; auto. destruct X as [P [Q R]]. cbn [pb_cfg pb_group pb_loose pb_assoc] in P, Q. subst g1. unfold num_syms in *. cbn [rules src num] in *.
      repeat split; auto; lia. }
  unfold prec_build in E. destruct (fold_res _ calls _) as [b| |] eqn:EF; try discriminate. cbn [bind] in E.
  apply HS in EF; [|exact HL]. destruct EF as [P [Q R]]. unfold prec_finalize in E.
  match type of E with bind ?x _ = _ => destruct x as [g2| |] eqn:EG; try discriminate end. cbn [bind] in E.
  assert (HX : forall rs h h', limit h = None ->
    fold_res (fun g r => add_rule g (mkRule (lhs r) (map (fun x => if x =? pb_lhs b then pb_current b else x) (rhs r)) (hist r))) rs h = Ok h' ->
    length (rules h') = length (rules h) + length rs /\ num_syms h' = num_syms h /\ limit h' = None).
  { clear - HA. induction rs as [|x rs IH]; intros h h' H X; cbn [fold_res length] in *; [injection X as <-; auto|].
    destruct (add_rule h _) as [h1| |] eqn:EA; try discriminate. cbn [bind] in X. apply HA in EA; auto. destruct EA as [A [B C]].
    apply IH in X; auto. destruct X as [A2 [B2 C2]]. repeat split; auto; lia. }
  apply HX in EG; auto. destruct EG as [A [B C]]. apply HA in E; auto. destruct E as [A2 [B2 C2]].
  assert (P0 : length (rules (pb_cfg (prec_new g e))) = length (rules g) /\ num_syms (pb_cfg (prec_new g e)) = S (num_syms g) /\
               length (pb_group (prec_new g e)) = 0 /\ pb_loose (prec_new g e) = 0 /\ pb_assoc (prec_new g e) = ALeft) by (repeat split).
  destruct P0 as [Q1 [Q2 [Q3 [Q4 Q5]]]]. rewrite Q1, Q3, Q4, Q5 in P. rewrite Q2 in Q. lia.
Qed.
Print Assumptions C125_size.

(** The same in a grammar with a limit for right-hand sides: in pairs of neighbours. *)
Theorem C125_limited : forall g E calls g', good_limit (limit g) -> prec_build g E calls = Ok g' ->
  pairs g' = pairs g + pairs_of (map snd (alternatives 0 ALeft calls)) + loosest calls + 1 /\
  num_syms g' + beyond g' = num_syms g + beyond g + beyond_of (map snd (alternatives 0 ALeft calls)) + loosest calls + 1.
Proof. intros g e calls g' HG E. destruct (prec_size g e calls g' HG E) as [A [B _]]. auto. Qed.
Print Assumptions C125_limited.

(** Six alternatives on three levels, after two rules. *)
Example C125_non_vacuous : limit ex_p = None /\ length (rules ex_p) = 2 /\ length (alternatives 0 ALeft ex_calls) = 6 /\ loosest ex_calls = 2 /\
  (exists g', prec_build ex_p 2 ex_calls = Ok g' /\ length (rules g') = 11 /\ num_syms g' = num_syms ex_p + 3) /\
  (let h := mkCfg (src ex_p) (rules ex_p) (roots ex_p) (wroots ex_p) (Some 2) in good_limit (limit h) /\
   exists g', prec_build h 2 ex_calls = Ok g' /\ length (rules g') = 17 /\ num_syms g' = num_syms ex_p + 9).
Proof.
  split; [reflexivity|]. split; [reflexivity|]. split; [reflexivity|]. split; [reflexivity|]. split.
  - eexists. split; [vm_compute; reflexivity|]. split; reflexivity.
  - split; [simpl; lia|]. eexists. split; [vm_compute; reflexivity|]. split; reflexivity.
Qed.
