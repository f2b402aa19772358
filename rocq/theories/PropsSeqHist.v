(** Property C85: which positions of a sequence the positions of the rules made from it are. *)

From Coq Require Import List Arith NArith Bool Lia.
From Verif Require Import Base ListFacts SymbolModel HistoryModel CfgModel View CfgProof SpecSeq SeqModel HistProof.
Import ListNotations.
Local Notation length := List.length.

(** The three positions that a history records. *)
Definition dots (h : history) : list rule_dot := [h_dot0 h; h_dot1 h; h_dot2 h].

(** Neither an event nor an original position nor a distance. *)
Definition no_dot : rule_dot := mkDot 0 4294967295 4294967295 4294967295.

(** The table in the comment at cfg-history/src/earley/mod.rs 292-297.  A sequence has three
    positions: [d0] in front of its first element, [d1] after an element, [d2] after a separator.
    [e] is the element, [s] the separator and [o] any other symbol.  Each row gives the positions of
    a rule, up to the third: the code has no room for more. *)
Inductive row (d0 d1 d2 : rule_dot) (e : nat) (s : option nat) (o : nat) : list nat -> list rule_dot -> Prop :=
| row_sym_sep : forall t, s = Some t -> row d0 d1 d2 e s o [o; t] [no_dot; d1; d2]
| row_lhs_sep : forall t, s = Some t -> row d0 d1 d2 e s o [o; t; e] [no_dot; d1; d2]
| row_lhs : row d0 d1 d2 e s o [o; e] [no_dot; d0; d1]
| row_one : row d0 d1 d2 e s o [e] [d0; d1; no_dot]
| row_two_sep : forall t, s = Some t -> row d0 d1 d2 e s o [e; t; e] [d0; d1; d2]
| row_two : row d0 d1 d2 e s o [e; e] [d0; d1; d1].

(** The function that is written for this gives the positions of the table, for every rule of its
    shapes.  What is missing: nothing that can be observed uses its result, see below. *)
Theorem C85_table_partial : forall h top e s o r ds, e <> o -> (forall t, s = Some t -> t <> e /\ t <> o) ->
  row (h_dot0 h) (h_dot1 h) (h_dot2 h) e s o r ds ->
  dots (rewrite_sequence h (mkSeqDetails top e s) r) = ds /\
  (top = true -> h_origin (rewrite_sequence h (mkSeqDetails top e s) r) = h_origin h).
Proof.
  intros h top e s o r ds N1 N2 R. split.
  2:{ intros ->. reflexivity. }
  assert (Ke : seq_kind (mkSeqDetails top e s) e = KElement). { unfold seq_kind. cbn [sd_rhs]. rewrite Nat.eqb_refl. reflexivity. }
  assert (Kt : forall t, s = Some t -> seq_kind (mkSeqDetails top e s) t = KSeparator).
  { intros t E. destruct (N2 t E) as [X Y]. unfold seq_kind. cbn [sd_rhs sd_sep]. rewrite E.
    destruct (Nat.eqb_spec t e); [congruence|]. rewrite Nat.eqb_refl. reflexivity. }
  assert (Ko : seq_kind (mkSeqDetails top e s) o = KOther).
  { unfold seq_kind. cbn [sd_rhs sd_sep]. destruct (Nat.eqb_spec o e); [congruence|]. destruct s as [t|]; auto.
    destruct (N2 t eq_refl). destruct (Nat.eqb_spec o t); [congruence|]. reflexivity. }
  assert (B : forall k, dots (rewrite_sequence h (mkSeqDetails top e s) k) = dots (rewrite_sequence_bottom h (mkSeqDetails top e s) k)).
  { intros k. unfold rewrite_sequence. cbn [sd_top]. destruct top; reflexivity. }
  rewrite B. unfold rewrite_sequence_bottom.
  inversion R; subst; cbn [map app]; rewrite ?Ko, ?Ke; try match goal with |- context [seq_kind _ ?t] => rewrite (Kt t eq_refl) end; reflexivity.
Qed.
Print Assumptions C85_table_partial.

(** What the rules made from a sequence have instead: the positions of the history the sequence was
    given, as they are, or none of a rule. *)
Theorem C85_kept_partial : forall debug g s g', limit g = None -> seq_rewrite debug g s = Ok g' ->
  exists c, rules g' = rules g ++ c /\
    Forall (fun x => dots (hist x) =
      match sq_hist s with
      | Some h => dots h
      | None => dots (history_new 0)
      end) c.
Proof.
  intros debug g s g' HL E. destruct (rewrite_hist debug g s g' HL E) as [h1 [h2 [c [P1 [P2 [E1 E2]]]]]].
  exists c. split; auto. cbn [process_linked] in P1, P2. injection P1 as <-. injection P2 as <-.
  eapply Forall_impl; [|exact E2]. intros x [[A B]|[A B]]; rewrite B; destruct (sq_hist s); reflexivity.
Qed.
Print Assumptions C85_kept_partial.

(** The property fails.  The sequence 0 ::= 1 repeated once or more was given the positions 0, 1 and
    2 of rule 7.  It is made into 0 ::= 1 and 0 ::= 0 1.  The second position of the latter, in front of
    the element, is said to be position 1 of rule 7, which is after an element, and its last position
    is said to be after a separator. *)
Definition ex_sh : history := mkHistory (dot_new 7 0) (dot_new 7 1) (dot_new 7 2) 7 None None None.
Definition ex_sg : cfg := mkCfg (mkSrc 3 (repeat None 3)) [] [0] [] None.

Theorem C85_table_refuted : exists g s h g' x ds,
  sq_hist s = Some h /\ seq_rewrite true g s = Ok g' /\ In x (rules g') /\
  row (h_dot0 h) (h_dot1 h) (h_dot2 h) (sq_rhs s) None (sq_lhs s) (rhs x) ds /\
  sq_sep s = Null /\ dots (hist x) <> ds.
Proof.
  exists ex_sg, (mkSeq 0 1 1%N None Null (Some ex_sh)), ex_sh,
    (match seq_rewrite true ex_sg (mkSeq 0 1 1%N None Null (Some ex_sh)) with Ok g => g | _ => ex_sg end),
    (mkRule 0 [0; 1] (mkHistory (dot_new 7 0) (dot_new 7 1) (dot_new 7 2) 7 None None (Some (mkSeqDetails true 1 None)))),
    [no_dot; dot_new 7 0; dot_new 7 1].
  split; [reflexivity|]. split; [vm_compute; reflexivity|]. split; [vm_compute; auto|]. split; [apply row_lhs|].
  split; [reflexivity|]. vm_compute. discriminate.
Qed.
Print Assumptions C85_table_refuted.

(** The rows with a separator, 5, between elements 1: a rule whose repeated symbol is 9. *)
Example C85_example : map (fun r => map dot_trace_pos (dots (rewrite_sequence ex_sh (mkSeqDetails false 1 (Some 5)) r)))
    [[9; 5]; [9; 5; 1]; [9; 1]; [1]; [1; 5; 1]; [1; 1]] =
  [[not0; 1; 2]; [not0; 1; 2]; [not0; 0; 1]; [0; 1; not0]; [0; 1; 2]; [0; 1; 1]]%N /\
  row (h_dot0 ex_sh) (h_dot1 ex_sh) (h_dot2 ex_sh) 1 (Some 5) 9 [9; 5; 1] [no_dot; dot_new 7 1; dot_new 7 2].
Proof. split; [vm_compute; reflexivity|]. apply row_lhs_sep. reflexivity. Qed.
