(** Property C12: grammars stay closed under every operation. *)

From Coq Require Import List Arith NArith Bool Lia String.
From Verif Require Import Base Spec SpecSeq SpecPrec SymbolModel HistoryModel CfgModel View BitSetModel ElimModel
  PrecModel SeqModel ClassifyModel LRModel RemapModel SpecRemap RemapProof2 OpsModel OpsProof.
Import ListNotations.
Local Notation length := List.length.

(** ** C12 *)

(** One operation that returns.  The symbols of the new grammar are issued ones.  Each of them was
    in the grammar before, or is an argument, or is new.  New symbols were nowhere before.  Symbols
    keep their names. *)
Theorem C12_step : forall debug g o g', closed g -> names_wf g -> renumbers o = false ->
  (forall s, given o s -> s < num_syms g) -> op_step debug g o = Ok g' ->
  closed g' /\ num_syms g <= num_syms g' /\
  (exists l, names (src g') = names (src g) ++ l /\ num_syms g' = num_syms g + length l) /\
  (forall s, in_cfg g' s -> in_cfg g s \/ given o s \/ num_syms g <= s < num_syms g') /\
  (forall s, num_syms g <= s -> ~ in_cfg g s).
Proof.
  intros debug g o g' HC HN HR HG E. pose proof (proj1 (closed_in_cfg g) HC) as HC'.
  assert (HI : inv (fun s => in_cfg g s \/ given o s) (num_syms g) (names (src g)) g').
  { apply (step_inv debug (fun s => in_cfg g s \/ given o s) (num_syms g) (names (src g))) with (g := g) (o := o); auto.
    - intros s [Hs|Hs]; auto.
    - apply Nat.eqb_eq. exact HN.
    - split; [exists []; rewrite app_nil_r, Nat.add_0_r; auto|]. intros s Hs. split; auto. }
  split; [eapply inv_closed; eauto|]. destruct HI as [[l [L1 L2]] HF].
  split; [lia|]. split; [exists l; auto|]. split.
  - intros s Hs. destruct (HF s Hs) as [[[H|H]|H] H']; auto.
  - intros s Hs H. apply HC' in H. lia.
Qed.
Print Assumptions C12_step.

(** Arguments are issued symbols.  Renumbering asks for roots that are used. *)
Definition allowed (g : cfg) (o : operation) : Prop :=
  (forall s, given o s -> s < num_syms g) /\ (renumbers o = true -> fits g /\ used_roots g).

(** The grammars that can be made. *)
Inductive made (debug : bool) : cfg -> Prop :=
| made_new : made debug cfg_new
| made_step : forall g o g', made debug g -> allowed g o -> op_step debug g o = Ok g' -> made debug g'.

Theorem C12_closed_partial : forall debug g, made debug g -> closed g /\ names_wf g.
Proof.
  intros debug g H. induction H as [|g o g' H [HC HN] [HA HU] E].
  - split; [|reflexivity]. split; [intros x []|]. split; constructor.
  - destruct (renumbers o) eqn:ER.
    + destruct o; try discriminate. cbn [op_step] in E. destruct (remap_run ops g) as [r| |] eqn:EO; try discriminate.
      cbn [bind] in E. injection E as <-. destruct (HU eq_refl) as [HF HUR].
      assert (HI : remap_inv g r) by (apply (run_inv g ops (remap_new g)); [apply new_inv; auto|exact EO]).
      split; [eapply RemapProof2.inv_closed; eauto|exact (ri_wf _ _ HI)].
    + destruct (C12_step debug g o g' HC HN ER HA E) as [A [_ [[l [L1 L2]] _]]]. split; auto.
      unfold names_wf in *. rewrite L1, app_length. lia.
Qed.
Print Assumptions C12_closed_partial.

(** False in general: removing unused symbols takes back a root that is in no rule. *)
Theorem C12_unused_root_refuted : exists g g', made false g /\
  op_step false g (OpRemap [RemoveUnused]) = Ok g' /\ ~ closed g'.
Proof.
  exists (mkCfg (mkSrc 2 [None; None]) [mkRule 0 [] history_default] [1] [] None). eexists.
  split; [|split; [vm_compute; reflexivity|]].
  - apply (made_step false (mkCfg (mkSrc 2 [None; None]) [] [1] [] None) (OpAddRule (mkRule 0 [] history_default))).
    + apply (made_step false (mkCfg (mkSrc 2 [None; None]) [] [] [] None) (OpSetRoots [1])).
      * apply (made_step false (mkCfg (mkSrc 1 [None]) [] [] [] None) (OpSym None)).
        -- apply (made_step false cfg_new (OpSym None)); [constructor| |reflexivity]. split; [intros s []|discriminate].
        -- split; [intros s []|discriminate].
        -- reflexivity.
      * split; [|discriminate]. intros s [<-|[]]. cbn. lia.
      * reflexivity.
    + split; [|discriminate]. intros s [->|[]]. cbn. lia.
    + reflexivity.
  - intros [_ [H _]]. inversion H; subst. vm_compute in H2. lia.
Qed.
Print Assumptions C12_unused_root_refuted.

(** S ::= a b c ; then a sequence, precedence rules, a limit, wrapping, elimination, renumbering. *)
Definition ex_ops : list operation :=
  [OpSym (Some "S"%string); OpSym (Some "a"%string); OpSym None; OpSym None; OpSetRoots [0];
   OpRules [BRule 0; BRhs [1; 2; 3]; BRhs []];
   OpSequences [SSequence 2; SSeparator (Proper 3); SInclusive 2 (Some 5%N); SRhs 1];
   OpPrecedence 3 [PRhs [1]; PLower; PRhs [3; 1; 3]];
   OpLimit (Some 2); OpWrap; OpEliminate; OpMakeProper; OpReverse; OpSort; OpDedup; OpAutomaton 0;
   OpRewriteCycles; OpRetain (fun r => negb (is_nil (rhs r)))].

Ltac given_tac :=
  repeat match goal with
         | H : _ \/ _ |- _ => destruct H
         | H : exists _, _ |- _ => destruct H
         | H : _ /\ _ |- _ => destruct H
         | H : False |- _ => destruct H
         | H : _ = _ |- _ => first [discriminate H | progress subst]
         | H : in_rule _ _ |- _ => unfold in_rule in H; cbn in H
         | H : in_separator _ _ |- _ => unfold in_separator in H; cbn in H
         | H : In _ _ |- _ => progress cbn in H
         end; vm_compute; try lia.
Ltac made_tac ops :=
  match ops with
  | nil => idtac
  | cons ?o ?ops' =>
      match goal with
      | H : made false ?g |- _ =>
          let r := eval vm_compute in (op_step false g o) in
          match r with
          | Ok ?g' =>
              let H' := fresh in
              assert (H' : made false g');
              [ apply (made_step false g o g' H);
                [split; [intros s Hs; cbn in Hs; given_tac | try discriminate] | vm_compute; reflexivity]
              | clear H; made_tac ops' ]
          end
      end
  end.

Example C12_example : exists g, fold_res (op_step false) ex_ops cfg_new = Ok g /\ made false g /\
  num_syms g = 20 /\ List.length (rules g) = 21 /\ roots g = [15].
Proof.
  eexists. split; [vm_compute; reflexivity|].
  pose proof (made_new false) as H.
  let l := eval unfold ex_ops in ex_ops in made_tac l.
  split; [assumption|]. split; [reflexivity|]. split; [reflexivity|reflexivity].
Qed.
