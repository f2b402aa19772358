(** Property C94: the range of allowed lengths. *)

From Coq Require Import List Arith NArith Bool Lia.
From Verif Require Import Base ListFacts Spec HistoryModel SymbolModel CfgModel View CfgProof PropsGrammar.
Import ListNotations.
Local Notation length := List.length.

(** ** C94.  A rule whose length is in the range is stored as it is, in one part; the range never gets in the way without
    a limit. *)
Theorem C94_stored_whole_partial : forall g r, len_allowed (limit g) (length (rhs r)) = true ->
  exists g', add_rule_parts g r = Ok (1, g') /\ rules g' = rules g ++ [r] /\ num_syms g' = num_syms g.
Proof.
  intros g r H. unfold add_rule_parts, add_rule_fuel. unfold len_allowed in H. destruct (limit g) as [l|].
  - rewrite H. eexists. split; [reflexivity|]. split; reflexivity.
  - eexists. split; [reflexivity|]. split; reflexivity.
Qed.
Print Assumptions C94_stored_whole_partial.

Theorem C94_no_limit_partial : forall g, limit g = None -> forall n, len_allowed (limit g) n = true.
Proof. intros g ->. reflexivity. Qed.
Print Assumptions C94_no_limit_partial.

(** After limiting, the lengths are in the range or equal to the limit, the first number after the range; and all of
    these lengths are stored when they are given. *)
Theorem C94_lengths_partial : forall g n g', 2 <= n -> limit_rhs_len g (Some n) = Ok g' ->
  limit g' = Some n /\
  (forall m, len_allowed (limit g') m = true <-> m < n) /\
  (forall x, In x (rules g') -> len_allowed (limit g') (length (rhs x)) = true \/ length (rhs x) = n) /\
  (forall r g2, length (rhs r) <= n -> add_rule g' r = Ok g2 -> rules g2 = rules g' ++ [r]).
Proof.
  intros g n g' Hn E.
  assert (HG : good_limit (Some n)) by (cbn; lia).
  assert (HL : limit g' = Some n).
  { unfold limit_rhs_len in E. revert E.
    assert (HX : forall l g0, limit g0 = Some n -> fold_res add_rule l g0 = Ok g' -> limit g' = Some n).
    { induction l as [|x l IH]; intros g0 H0 E; cbn [fold_res] in E; [injection E as <-; exact H0|].
      destruct (add_rule_spec g0 x ltac:(rewrite H0; exact HG)) as [k [c [E1 _]]]. rewrite E1 in E. cbn [bind] in E. eapply IH; [|exact E]. exact H0. }
    apply HX. reflexivity. }
  rewrite HL. split; auto. split; [intros m; cbn [len_allowed]; apply Nat.ltb_lt|]. split.
  - intros x Hx. pose proof (C10_length_enforced g n g' Hn E) as HF. rewrite Forall_forall in HF. specialize (HF x Hx). cbn [len_allowed].
    destruct (Nat.eq_dec (length (rhs x)) n); auto. left. apply Nat.ltb_lt. lia.
  - intros r g2 Hr E2. destruct (add_rule_spec g' r ltac:(rewrite HL; exact HG)) as [k [c [E1 [_ HC]]]]. rewrite E1 in E2. injection E2 as <-.
    cbn [rules added]. change (rules (added g' k c)) with (rules g' ++ c). destruct HC as [[-> _]|[l [L1 [L2 _]]]]; auto. rewrite HL in L1. injection L1 as <-. lia.
Qed.
Print Assumptions C94_lengths_partial.

(** The range does not contain all stored lengths: its end is the limit, and rules may be as long as the limit. *)
Theorem C94_range_refuted : exists g g', limit_rhs_len g (Some 2) = Ok g' /\ closed_rules g /\
  exists x, In x (rules g') /\ len_allowed (limit g') (length (rhs x)) = false.
Proof.
  exists (mkCfg (mkSrc 3 (repeat None 3)) [mkRule 0 [1; 2] (history_new 0)] [0] [] None). eexists. split; [vm_compute; reflexivity|]. split.
  - intros x [<-|[]]. unfold num_syms; cbn. split; [lia|repeat constructor; lia].
  - eexists. split; [left; reflexivity|reflexivity].
Qed.
Print Assumptions C94_range_refuted.

Example C94_example : exists g', limit_rhs_len ex_g (Some 3) = Ok g' /\
  map (fun n => len_allowed (limit g') n) [0; 1; 2; 3; 4] = [true; true; true; false; false] /\
  map (fun x => length (rhs x)) (rules g') = [3; 3; 3; 1; 0].
Proof. eexists. split; [vm_compute; reflexivity|]. split; reflexivity. Qed.
