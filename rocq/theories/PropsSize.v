(** Property C119: large bounds of a sequence rule cost few rules. *)

From Coq Require Import List Arith NArith ZArith Bool Lia.
From Verif Require Import Base ListFacts Spec SpecSeq GrammarFacts SymbolModel LoopModel LoopFacts
  HistoryModel CfgModel View CfgProof SeqModel SeqProof SeqProof2 SeqProof3 SeqExact SeqSize PropsSeq.
Import ListNotations.

(** The bounds of a sequence rule are at most [2^k]. *)
Definition bounds_up_to (s : sequence) (k : nat) : Prop :=
  (sq_start s <= 2 ^ N.of_nat k)%N /\ (forall e, sq_end s = Some e -> (e <= 2 ^ N.of_nat k)%N).

(** With [k] at least the logarithm of the bounds, for every limit of the length of rules. *)
Theorem C119_logarithmic : forall debug g s k, closed_rules g -> good_limit (limit g) -> seq_in g s -> valid_range s ->
  bounds_up_to s k ->
  exists g', seq_rewrite debug g s = Ok g' /\
    length (rules g') <= length (rules g) + (10 * k + 27) /\ num_syms g' <= num_syms g + (5 * k + 14).
Proof.
  intros debug g s k HC HL HI HV [HB1 HB2]. destruct (rewrite_ok' debug g s HC HL HI HV) as [g' [E _]].
  exists g'. split; [exact E|]. rewrite <- (seq_eta s) in E.
  apply (rewrite_size g (key_of s) k HL HB1 HB2 debug (sq_lhs s) (sq_hist s) g' HV E).
Qed.
Print Assumptions C119_logarithmic.

(** A million elements with a separator and the limit of two symbols: [2^20] is the bound. *)
Example C119_non_vacuous :
  let g := mkCfg (mkSrc 4 (repeat None 4)) [mkRule 0 [1; 3] (history_new 0)] [0] [] (Some 2) in
  let s := mkSeq 1 2 1000 (Some 1000000%N) (Liberal 3) None in
  closed_rules g /\ good_limit (limit g) /\ seq_in g s /\ valid_range s /\ bounds_up_to s 20 /\
  exists g', seq_rewrite true g s = Ok g' /\ length (rules g') = 115 /\ num_syms g' = 85.
Proof.
  cbn zeta. split; [|split; [|split; [|split; [|split]]]].
  - intros x [<-|[]]. split; [unfold num_syms; simpl; lia | repeat constructor; unfold num_syms; simpl; lia].
  - simpl. lia.
  - repeat split; unfold num_syms; simpl; lia.
  - split; [simpl; lia|]. intros e E. cbn [sq_start sq_end] in *. injection E as <-. lia.
  - split; [simpl; lia|]. intros e E. injection E as <-. simpl. lia.
  - eexists. split; [vm_compute; reflexivity|]. split; reflexivity.
Qed.
