(** Property C60: the plain rule builder. *)

From Coq Require Import List Arith NArith Bool Lia.
From Verif Require Import Base ListFacts Spec HistoryModel CfgModel View CfgProof PropsGrammar.
Import ListNotations.

(** [before] are the calls made so far, the latest first. *)
Fixpoint latest_rule (before : list build_call) : option nat :=
  match before with
  | [] => None
  | BRule l :: _ => Some l
  | _ :: b => latest_rule b
  end.

(** The history waiting for the next alternative: the one assigned after the latest [rule] or
    [rhs].  As documented, a call of [rhs_with_history] overwrites it; [kept] says that it is
    kept instead. *)
Fixpoint waiting (kept : bool) (before : list build_call) : option history :=
  match before with
  | [] => None
  | BHistory h :: _ => Some h
  | BRule _ :: _ | BRhs _ :: _ => None
  | BRhsHistory _ _ :: b | BRhsLinked _ _ :: b => if kept then waiting kept b else None
  end.

(** [declares kept before calls l]: the calls declare the rules [l]. *)
Inductive declares (kept : bool) : list build_call -> list build_call -> list rule -> Prop :=
| dc_nil : forall b, declares kept b [] []
| dc_rule : forall b l c rs, declares kept (BRule l :: b) c rs -> declares kept b (BRule l :: c) rs
| dc_history : forall b h c rs,
    declares kept (BHistory h :: b) c rs -> declares kept b (BHistory h :: c) rs
| dc_rhs : forall b r c rs A,
    latest_rule b = Some A -> declares kept (BRhs r :: b) c rs ->
    declares kept b (BRhs r :: c)
      (mkRule A r (match waiting kept b with
                   | Some h => h
                   | None => process_root (RRule A)
                   end) :: rs)
| dc_rhs_history : forall b r h c rs A,
    latest_rule b = Some A -> declares kept (BRhsHistory r h :: b) c rs ->
    declares kept b (BRhsHistory r h :: c) (mkRule A r h :: rs)
| dc_rhs_linked : forall b r n h c rs A,
    latest_rule b = Some A -> process_linked n (process_root (RRule A)) = Ok h ->
    declares kept (BRhsLinked r n :: b) c rs ->
    declares kept b (BRhsLinked r n :: c) (mkRule A r h :: rs).

Definition built (r : res builder) : res cfg := do b <- r; Ok (b_cfg b).

Lemma builder_calls : forall calls before b rs, declares true before calls rs ->
  b_lhs b = latest_rule before -> b_hist b = waiting true before ->
  built (fold_res builder_call calls b) = fold_res add_rule rs (b_cfg b).
Proof.
  induction calls as [|c calls IH]; intros before b rs H HL HH; inversion H; subst; cbn [fold_res].
  - reflexivity.
  - cbn [builder_call bind]. rewrite (IH _ (mkBuilder (Some l) None (b_cfg b)) _ H4); reflexivity.
  - cbn [builder_call bind]. rewrite (IH _ (mkBuilder (b_lhs b) (Some h) (b_cfg b)) _ H4); auto.
  - cbn [builder_call]. rewrite <- HH.
    match goal with H : latest_rule before = Some A |- _ => rename H into HA end.
    destruct (b_hist b) as [h|] eqn:EH; unfold builder_rhs_with_history; cbn [b_lhs b_hist b_cfg].
    + rewrite HL, HA. destruct (add_rule (b_cfg b) (mkRule A r h)) as [g1| |]; try reflexivity.
      refine (IH _ (mkBuilder _ _ g1) _ _ _ _); [eassumption | symmetry; exact HA | reflexivity].
    + rewrite HL, HA. destruct (add_rule (b_cfg b) _) as [g1| |]; try reflexivity.
      refine (IH _ (mkBuilder _ _ g1) _ _ _ _); [eassumption | symmetry; exact HA | exact EH].
  - match goal with H : latest_rule before = Some A |- _ => rename H into HA end.
    cbn [builder_call]. unfold builder_rhs_with_history. rewrite HL, HA.
    destruct (add_rule (b_cfg b) (mkRule A r h)) as [g1| |]; try reflexivity.
    refine (IH _ (mkBuilder _ _ g1) _ _ _ _); [eassumption | symmetry; exact HA | exact HH].
  - match goal with H : latest_rule before = Some A |- _ => rename H into HA end.
    match goal with H : process_linked _ _ = _ |- _ => rename H into HP end.
    cbn [builder_call]. rewrite HL, HA, HP. cbn [bind]. unfold builder_rhs_with_history. rewrite HL, HA.
    destruct (add_rule (b_cfg b) (mkRule A r h)) as [g1| |]; try reflexivity.
    refine (IH _ (mkBuilder _ _ g1) _ _ _ _); [eassumption | symmetry; exact HA | exact HH].
Qed.

(** ** C60 *)

(** What the calls do, with a waiting history kept by [rhs_with_history].  It is what the
    documentation says when no history is waiting at those calls (see [C60_documented]). *)
Theorem C60_calls_partial : forall g calls rs, declares true [] calls rs ->
  built (fold_res builder_call calls (builder_new g)) = fold_res add_rule rs g.
Proof. intros. apply (builder_calls calls [] (builder_new g) rs H); reflexivity. Qed.
Print Assumptions C60_calls_partial.

Lemma declares_kept : forall calls before rs, declares false before calls rs ->
  (waiting true before = waiting false before) ->
  (forall pre c post, calls = pre ++ c :: post ->
     match c with BRhsHistory _ _ | BRhsLinked _ _ => waiting true (rev pre ++ before) = None | _ => True end) ->
  declares true before calls rs.
Proof.
  induction calls as [|c calls IH]; intros before rs H HW HS; inversion H; subst.
  - constructor.
  - constructor. apply IH; auto. intros pre x post E. specialize (HS (BRule l :: pre) x post).
    simpl in HS. rewrite <- app_assoc in HS. apply HS. rewrite E; auto.
  - constructor. apply IH; auto. intros pre x post E. specialize (HS (BHistory h :: pre) x post).
    simpl in HS. rewrite <- app_assoc in HS. apply HS. rewrite E; auto.
  - rewrite <- HW. constructor; auto. apply IH; auto. intros pre x post E. specialize (HS (BRhs r :: pre) x post).
    simpl in HS. rewrite <- app_assoc in HS. apply HS. rewrite E; auto.
  - pose proof (HS [] _ calls eq_refl) as W. simpl in W. constructor; auto. apply IH; auto.
    intros pre x post E. specialize (HS (BRhsHistory r h :: pre) x post).
    simpl in HS. rewrite <- app_assoc in HS. apply HS. rewrite E; auto.
  - pose proof (HS [] _ calls eq_refl) as W. simpl in W. econstructor; eauto. apply IH; auto.
    intros pre x post E. specialize (HS (BRhsLinked r n :: pre) x post).
    simpl in HS. rewrite <- app_assoc in HS. apply HS. rewrite E; auto.
Qed.

Theorem C60_documented_partial : forall g calls rs, declares false [] calls rs ->
  (forall pre c post, calls = pre ++ c :: post ->
     match c with BRhsHistory _ _ | BRhsLinked _ _ => waiting true (rev pre) = None | _ => True end) ->
  built (fold_res builder_call calls (builder_new g)) = fold_res add_rule rs g.
Proof.
  intros. apply C60_calls_partial. apply declares_kept; auto.
  intros pre c post E. specialize (H0 pre c post E). rewrite app_nil_r. auto.
Qed.
Print Assumptions C60_documented_partial.

(** The first alternative without a [rule] call before it panics, whatever follows; nothing else in the builder itself
    panics. *)
Definition is_alternative (c : build_call) : Prop :=
  match c with BRhs _ | BRhsHistory _ _ | BRhsLinked _ _ => True | BRule _ | BHistory _ => False end.

Theorem C60_no_rule_panics : forall g hs c post, is_alternative c ->
  fold_res builder_call (map BHistory hs ++ c :: post) (builder_new g) = Panic.
Proof.
  intros g hs c post Hc. assert (HX : forall hs b, b_lhs b = None -> fold_res builder_call (map BHistory hs ++ c :: post) b = Panic).
  { clear hs. induction hs as [|h hs IH]; intros b Hb; cbn [map app fold_res].
    - destruct c; cbn [is_alternative] in Hc; try contradiction; cbn [builder_call]; unfold builder_rhs_with_history; cbn [b_lhs]; rewrite Hb; try reflexivity.
      destruct (b_hist b); reflexivity.
    - cbn [builder_call bind]. apply IH. exact Hb. }
  apply HX. reflexivity.
Qed.
Print Assumptions C60_no_rule_panics.

Example C60_example :
  let g := mkCfg (mkSrc 3 (repeat None 3)) [] [] [] None in
  let calls := [BRule 0; BHistory (history_new 7); BRhs [1; 2]; BRhs [2]; BRule 1; BRhsHistory [] (history_new 5)] in
  declares false [] calls [mkRule 0 [1; 2] (history_new 7); mkRule 0 [2] (history_new 0); mkRule 1 [] (history_new 5)] /\
  (forall pre c post, calls = pre ++ c :: post ->
     match c with BRhsHistory _ _ | BRhsLinked _ _ => waiting true (rev pre) = None | _ => True end).
Proof.
  split.
  - constructor. constructor.
    apply (dc_rhs false [BHistory (history_new 7); BRule 0]); [reflexivity|].
    apply (dc_rhs false [BRhs [1; 2]; BHistory (history_new 7); BRule 0]); [reflexivity|].
    constructor. constructor; [reflexivity|]. constructor.
  - intros pre c post E.
    repeat (destruct pre as [|? pre]; [injection E as <- _; (reflexivity || exact I)|]; injection E as <- E).
    destruct pre; discriminate.
Qed.

(** The documented overwriting does not happen: the history assigned before
    [rhs_with_history] shows up on a later alternative. *)
Theorem C60_overwrite_refuted : exists g calls rs rs' g',
  declares false [] calls rs /\
  built (fold_res builder_call calls (builder_new g)) = Ok g' /\ rules g' = rs' /\
  map hist rs = [history_new 2; history_new 0] /\ map hist rs' = [history_new 2; history_new 1].
Proof.
  exists (mkCfg (mkSrc 3 (repeat None 3)) [] [] [] None),
    [BRule 0; BHistory (history_new 1); BRhsHistory [1] (history_new 2); BRhs [2]].
  eexists. eexists. eexists. split; [|split; [vm_compute; reflexivity|split; [reflexivity|]]].
  - constructor. constructor. constructor; [reflexivity|].
    apply (dc_rhs false [BRhsHistory [1] (history_new 2); BHistory (history_new 1); BRule 0]); [reflexivity|].
    constructor.
  - split; vm_compute; reflexivity.
Qed.
Print Assumptions C60_overwrite_refuted.
