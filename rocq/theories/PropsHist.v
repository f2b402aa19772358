(** Property C96: what is said about positions for which nothing was recorded. *)

From Coq Require Import List Arith NArith Bool Lia.
From Verif Require Import Base ListFacts SymbolModel HistoryModel SpecHist CfgModel View CfgProof SpecSeq SeqModel FloatModel SpecFloats FloatProof2 SerialModel2 PropsGrammar.
Import ListNotations.
Local Notation length := List.length.

(** ** C96.  Positions after the third. *)
Theorem C96_past_end_partial : forall h n, 3 <= n -> unknown_dot (history_dot h n).
Proof. intros h n H. destruct n as [|[|[|n]]]; try lia. repeat split. Qed.
Print Assumptions C96_past_end_partial.

(** The positions of the parts of a split rule. *)
Theorem C96_split_partial : forall g r g', limit g = Some 2 -> (N.of_nat (length (rhs r)) <= none_u32)%N -> add_rule g r = Ok g' ->
  exists c, rules g' = rules g ++ c /\
    forall x, In x c -> x = r \/
      (forall n, unknown_dot (history_dot (hist x) n) \/
         exists pos, (pos < N.of_nat (length (rhs r)))%N /\ traced_dot (h_origin (hist r)) pos (history_dot (hist x) n)) /\
      (h_origin (hist x) = none_u32 \/ h_origin (hist x) = h_origin (hist r)).
Proof.
  intros g r g' HL Hu E. destruct (le_lt_dec 3 (length (rhs r))) as [Hn|Hn].
  - destruct (C17_exact_partial g r g' (length (rhs r)) HL eq_refl Hn Hu E) as [c [E1 [E2 E3]]]. exists c. split; auto.
    intros x Hx. right. apply In_nth_error in Hx. destruct Hx as [i Hi]. pose proof (nth_error_Some c i) as HS. rewrite Hi in HS.
    assert (HS' : i < length c) by (apply HS; discriminate). destruct (E3 i x Hi) as [A B].
    destruct (Nat.eq_dec (S i) (length (rhs r) - 1)) as [Q|Q].
    + destruct (B Q) as [B0 [B1 [B2 B3]]]. split; [|right; auto]. intros [|[|[|n]]]; cbn [history_dot]; rewrite ?B1, ?B2, ?B3.
      * right. exists 0%N. split; [lia|]. repeat split.
      * right. exists (N.of_nat (length (rhs r) - 2)). split; [lia|]. repeat split.
      * right. exists (N.of_nat (length (rhs r) - 1)). split; [lia|]. repeat split.
      * left. repeat split.
    + destruct (A ltac:(lia)) as [A0 [A1 [A2 A3]]]. split; [|left; auto]. intros [|[|[|n]]]; cbn [history_dot]; rewrite ?A1, ?A2, ?A3.
      * left. repeat split.
      * right. exists (N.of_nat (length (rhs r) - 2 - i)). split; [lia|]. repeat split.
      * left. repeat split.
      * left. repeat split.
  - exists [r]. destruct (add_rule_spec g r) as [k [c [E' [Hk Hc]]]]; [rewrite HL; simpl; auto|]. rewrite E in E'. injection E' as ->.
    destruct Hc as [[-> _]|[l [L1 [L2 _]]]]; [split; auto; intros x [<-|[]]; auto|]. rewrite HL in L1. injection L1 as <-. lia.
Qed.
Print Assumptions C96_split_partial.

(** The other steps keep what is said about positions and about the original rule, except that removing all symbols
    forgets the positions. *)
Theorem C96_kept_partial : forall node h h', process_linked node h = Ok h' ->
  (forall height full_len is_top, node <> LBinarize height full_len is_top) ->
  h_origin h' = h_origin h /\
  ((forall rhs0 rhs1 n, node <> LEliminateNulling rhs0 rhs1 (RAll n)) ->
   (forall n, history_dot h' n = history_dot h n) /\
   (match node with
    | LWeight w => is_f64 w -> exists n, h_weight h' = Some n /\ in_thousandths w n
    | _ => h_weight h' = h_weight h
    end) /\
   h_sequence h' = match node with LRewriteSequence top e s => Some (mkSeqDetails top e s) | _ => h_sequence h end).
Proof.
  intros node h h' E NB. destruct node as [a b c|r0 r1 w|lo|tp el sp|rh|mi]; cbn [process_linked] in E.
  - exfalso. eapply NB. reflexivity.
  - unfold history_eliminate_nulling in E. destruct w as [| |al].
    + destruct r0 as [s0|]; [|discriminate]. injection E as <-. split; [reflexivity|]. intros _. split; [intros [|[|[|n]]]; reflexivity|]. split; reflexivity.
    + destruct r1 as [s1|]; [|discriminate]. injection E as <-. split; [reflexivity|]. intros _. split; [intros [|[|[|n]]]; reflexivity|]. split; reflexivity.
    + injection E as <-. split; [reflexivity|]. intros NA. exfalso. eapply NA. reflexivity.
  - injection E as <-. split; [reflexivity|]. intros _. split; auto.
  - injection E as <-. split; [reflexivity|]. intros _. split; [intros [|[|[|n]]]; reflexivity|]. split; reflexivity.
  - injection E as <-. split; [reflexivity|]. intros _. split; auto.
  - injection E as <-. split; [reflexivity|]. intros _. split; [intros [|[|[|n]]]; reflexivity|]. split; [|reflexivity].
    intros HV. eexists. split; [reflexivity|]. apply kept_thousandths. auto.
Qed.
Print Assumptions C96_kept_partial.

(** The original rule of a new history: known for numbers that fit, unknown for a rule that is the result of nothing, rule 0 for
    the default history.  [is_null] tells whether it is unknown. *)
Theorem C96_origin_partial :
  (forall id, h_origin (history_new id) = id) /\
  (forall n, (N.of_nat n <= none_u32)%N -> h_origin (process_root (ROrigin n)) = N.of_nat n) /\
  h_origin (process_root RNoOp) = none_u32 /\
  (forall id, h_nullable (history_new id) = None /\ h_weight (history_new id) = None /\ h_sequence (history_new id) = None) /\
  h_origin history_default = 0%N /\
  (forall h, origin_is_null (h_origin h) = true <-> h_origin h = none_u32).
Proof.
  split; [reflexivity|]. split; [|split; [reflexivity|split; [repeat split|split; [reflexivity|intros; apply N.eqb_eq]]]].
  intros n Hn. cbn [process_root history_new h_origin]. unfold as_u32. apply N.mod_small. unfold none_u32, u32_max in *. lia.
Qed.
Print Assumptions C96_origin_partial.

(** The claim fails for new histories, whatever the rule: each position is said to be the first position of the rule with
    number 0, at distance 0.  The same after all symbols were removed from a rule. *)
Theorem C96_new_refuted :
  (forall node n, n < 3 -> let d := history_dot (process_root node) n in
     dot_event d = 0%N /\ dot_trace_id d = 0%N /\ dot_trace_pos d = 0%N /\ dot_distance d = 0%N /\ ~ unknown_dot d) /\
  (forall h h' r0 r1 k n, n < 3 -> process_linked (LEliminateNulling r0 r1 (RAll k)) h = Ok h' -> let d := history_dot h' n in
     dot_event d = 0%N /\ dot_trace_id d = 0%N /\ dot_trace_pos d = 0%N /\ dot_distance d = 0%N /\ ~ unknown_dot d).
Proof.
  assert (HX : forall d, d = mkDot 0 0 0 0 -> dot_event d = 0%N /\ dot_trace_id d = 0%N /\ dot_trace_pos d = 0%N /\ dot_distance d = 0%N /\ ~ unknown_dot d).
  { intros d ->. repeat split. intros [_ [X _]]. discriminate. }
  split.
  - intros node n H d. apply HX. unfold d. destruct node; destruct n as [|[|[|n]]]; try lia; reflexivity.
  - intros h h' r0 r1 k n H E d. apply HX. unfold d. cbn [process_linked history_eliminate_nulling] in E. injection E as <-. destruct n as [|[|[|n]]]; try lia; reflexivity.
Qed.
Print Assumptions C96_new_refuted.

Example C96_example : exists g', add_rule (mkCfg (mkSrc 5 (repeat None 5)) [] [] [] (Some 2)) (mkRule 0 [1; 2; 3; 4] (history_new 7)) = Ok g' /\
  map (fun x => (h_origin (hist x), map (fun n => dot_trace_pos (history_dot (hist x) n)) [0; 1; 2; 3])) (rules g') =
    [(none_u32, [none_u32; 2; none_u32; none_u32]); (none_u32, [none_u32; 1; none_u32; none_u32]); (7, [0; 2; 3; none_u32])]%N.
Proof. eexists. split; vm_compute; reflexivity. Qed.
