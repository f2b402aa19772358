(** Property C123: the size of the grammar of a regular expression. *)

From Coq Require Import List Arith NArith Bool Lia String.
From Verif Require Import Base ListFacts Spec SpecRegex SpecSeq GrammarFacts SymbolModel LoopModel LoopFacts HistoryModel CfgModel View CfgProof
  SeqModel SeqProof SeqProof2 SeqProof3 SeqExact SeqSize RegexModel RegexProof AdvRegexProof PropsSeq PropsRegex.
Import ListNotations.
Local Notation length := List.length.

(** The number of bytes and of parts of an expression *)
Fixpoint parts (h : hir) : nat :=
  match h with
  | HEmpty | HClass _ | HLook => 1
  | HLiteral bytes => 1 + length bytes
  | HRepetition _ _ sub | HCapture sub => 1 + parts sub
  | HConcat l | HAlternation l => 1 + list_sum (map parts l)
  end.

(** The number of repetitions in an expression *)
Fixpoint repetitions (h : hir) : nat :=
  match h with
  | HRepetition _ _ sub => 1 + repetitions sub
  | HCapture sub => repetitions sub
  | HConcat l | HAlternation l => list_sum (map repetitions l)
  | _ => 0
  end.

(** All counts of repetitions are at most [2^k]. *)
Inductive counts_up_to (k : nat) : hir -> Prop :=
| cu_empty : counts_up_to k HEmpty
| cu_literal : forall bytes, counts_up_to k (HLiteral bytes)
| cu_class : forall ranges, counts_up_to k (HClass ranges)
| cu_look : counts_up_to k HLook
| cu_repetition : forall min max sub, (min <= 2 ^ N.of_nat k)%N -> (forall m, max = Some m -> (m <= 2 ^ N.of_nat k)%N) ->
    counts_up_to k sub -> counts_up_to k (HRepetition min max sub)
| cu_capture : forall sub, counts_up_to k sub -> counts_up_to k (HCapture sub)
| cu_concat : forall l, Forall (counts_up_to k) l -> counts_up_to k (HConcat l)
| cu_alternation : forall l, Forall (counts_up_to k) l -> counts_up_to k (HAlternation l).

Section Size.
  Context (debug : bool) (k : nat).
  Local Notation nr tr := (length (rules (tr_cfg tr))).
  Local Notation ns tr := (num_syms (tr_cfg tr)).
  Local Notation KR := (10 * k + 27).
  Local Notation KS := (5 * k + 14).

  Lemma new_symbol_size : forall tr x s tr', kept (tr_cfg tr) -> new_symbol_with tr x = Ok (s, tr') ->
    nr tr' = nr tr + length x /\ ns tr' = ns tr + 1.
  Proof.
    intros tr x s tr' H E. unfold new_symbol_with in E. destruct (next_sym (tr_cfg tr) None) as [s0 g] eqn:En.
    pose proof (next_kept _ _ _ _ H En) as Hg. apply bind_ok in E. destruct E as [g' [E1 E2]]. injection E2 as <- <-. cbn [tr_cfg].
    assert (HG : length (rules g) = nr tr /\ num_syms g = ns tr + 1).
    { unfold next_sym, src_next in En. injection En as <- <-. unfold num_syms. cbn. split; auto. lia. }
    destruct HG as [<- <-]. clear H En. revert g Hg E1. induction x as [|r x IH]; intros g H E1; cbn [fold_res] in E1.
    - injection E1 as <-. cbn. lia.
    - apply bind_ok in E1. destruct E1 as [g1 [E1 E2]]. pose proof (rule_kept _ _ _ _ H E1) as K1. destruct (IH g1 K1 E2) as [-> ->].
      unfold rule_rhs, add_rule, add_rule_parts, add_rule_fuel in E1. rewrite (k_limit _ H) in E1. injection E1 as <-.
      unfold num_syms. cbn. rewrite app_length. cbn. split; lia.
  Qed.

  Lemma symbol_for_size : forall tr x s tr', kept (tr_cfg tr) -> symbol_for tr x = Ok (s, tr') ->
    nr tr' <= nr tr + length x /\ ns tr' <= ns tr + 1.
  Proof.
    intros tr x s tr' H E. destruct x as [|[|a [|b r]] [|r2 x]]; cbn [symbol_for] in E;
      try (apply (new_symbol_size _ _ _ _ H) in E; lia). injection E as <- <-. lia.
  Qed.

  Lemma class_size : forall tr c n s tr', class_sym tr c n = (s, tr') -> nr tr' = nr tr /\ ns tr' <= ns tr + 1.
  Proof.
    intros tr c n s tr' E. unfold class_sym in E. destruct (table_get (tr_classes tr) c).
    - injection E as <- <-. lia.
    - destruct (next_sym (tr_cfg tr) n) as [s0 g] eqn:En. injection E as <- <-. unfold next_sym, src_next in En. injection En as <- <-.
      unfold num_syms. cbn. lia.
  Qed.

  Lemma literal_size : forall bytes acc tr l tr', fold_res (walk_byte debug) bytes (acc, tr) = Ok (l, tr') ->
    nr tr' = nr tr /\ ns tr' <= ns tr + length bytes.
  Proof.
    induction bytes as [|b bytes IH]; intros acc tr l tr' E.
    - injection E as _ <-. cbn. lia.
    - cbn [fold_res] in E. apply bind_ok in E. destruct E as [[acc1 tr1] [H1 H2]].
      unfold walk_byte in H1. apply bind_ok in H1. destruct H1 as [c [E1 H1]]. cbn [fst snd] in H1.
      destruct (class_sym tr c _) as [s tr2] eqn:EC. injection H1 as <- <-. apply IH in H2. apply class_size in EC. cbn [length]. lia.
  Qed.

  Lemma repetition_size : forall g l mi ma x g', kept g -> counts_fit mi ma -> (mi <= 2 ^ N.of_nat k)%N ->
    (forall m, ma = Some m -> (m <= 2 ^ N.of_nat k)%N) -> add_repetition debug g l mi ma x = Ok g' ->
    length (rules g') <= length (rules g) + KR /\ num_syms g' <= num_syms g + KS.
  Proof.
    intros g l mi ma x g' HK HF H1 H2 E. rewrite add_repetition_eq in E. set (s := mkSeq l x mi ma Null None) in *.
    assert (HL : good_limit (limit g)) by (rewrite (k_limit _ HK); exact I). rewrite <- (seq_eta s) in E.
    apply (rewrite_size g (key_of s) k HL H1 H2 debug (sq_lhs s) (sq_hist s) g'); auto.
  Qed.

  Lemma walk_size : forall h tr x tr', kept (tr_cfg tr) -> supported h -> counts_up_to k h -> walk_hir debug h tr = Ok (x, tr') ->
    nr tr' + Nat.max 1 (length x) <= nr tr + parts h + repetitions h * KR /\
    ns tr' + 1 <= ns tr + 2 * parts h + repetitions h * KS.
  Proof.
    induction h using hir_ind'; intros tr x tr' HK HS HB HE.
    - injection HE as <- <-. cbn. lia.
    - cbn [walk_hir] in HE. apply bind_ok in HE. destruct HE as [[l tr1] [E1 E2]]. injection E2 as <- <-.
      apply literal_size in E1. cbn [parts repetitions length Nat.max]. lia.
    - cbn [walk_hir] in HE. destruct (class_sym tr (classes_of_class r) None) as [s tr1] eqn:EC. injection HE as <- <-.
      apply class_size in EC. cbn [parts repetitions length Nat.max]. lia.
    - discriminate.
    - cbn [walk_hir] in HE. destruct (next_sym (tr_cfg tr) None) as [l g0] eqn:En. apply bind_ok in HE.
      destruct HE as [[x1 tr1] [E1 E2]]. pose proof (next_kept _ _ _ _ HK En) as K0. inversion HS; subst. inversion HB; subst.
      pose proof (walk_kept debug _ _ _ _ (K0 : kept (tr_cfg (mkTr g0 (tr_classes tr)))) E1) as K1.
      apply IHh in E1; auto. cbn [tr_cfg] in E1.
      assert (HG : length (rules g0) = nr tr /\ num_syms g0 = ns tr + 1).
      { unfold next_sym, src_next in En. injection En as <- <-. unfold num_syms. cbn. split; auto. lia. }
      destruct x1 as [|y x1]; [discriminate|]. apply bind_ok in E2. destruct E2 as [[s tr2] [E2 E3]].
      pose proof (symbol_for_kept _ _ _ _ K1 E2) as K2. apply symbol_for_size in E2; [|exact K1].
      apply bind_ok in E3. destruct E3 as [g' [E3 E4]]. injection E4 as <- <-. cbn [tr_cfg].
      apply repetition_size in E3; auto. cbn [parts repetitions]. 
      change (length [[l]]) with 1. rewrite Nat.mul_add_distr_r, Nat.mul_1_l, (Nat.mul_add_distr_r 1 _ KS), Nat.mul_1_l.
      generalize dependent (repetitions h * KR). generalize dependent (repetitions h * KS). intros. lia.
    - cbn [walk_hir] in HE. inversion HS; subst. inversion HB; subst. apply IHh in HE; auto. cbn [parts repetitions]. lia.
    - cbn [walk_hir] in HE. apply bind_ok in HE. destruct HE as [[r tr1] [E1 E2]]. injection E2 as <- <-.
      inversion HS as [| | | | |? HS1|]; subst. inversion HB as [| | | | | |? HB1|]; subst. clear HS HB.
      cbn [parts repetitions]. change (Nat.max 1 (length [r])) with 1.
      assert (X : nr tr1 <= nr tr + list_sum (map parts l) + list_sum (map repetitions l) * KR /\
                  ns tr1 <= ns tr + 2 * list_sum (map parts l) + list_sum (map repetitions l) * KS); [|lia].
      revert E1. generalize (@nil nat) as acc. revert tr HK.
      induction H as [|h l Hh HF IH]; intros tr HK acc E1; cbn [walk_concat] in E1.
      + injection E1 as _ <-. cbn. lia.
      + apply bind_ok in E1. destruct E1 as [[x1 tr2] [E2 E3]]. apply bind_ok in E3. destruct E3 as [[acc2 tr3] [E3 E4]].
        inversion HS1; subst. inversion HB1; subst. pose proof (walk_kept debug _ _ _ _ HK E2) as K2. apply Hh in E2; auto.
        assert (K3 : kept (tr_cfg tr3) /\ nr tr3 <= nr tr2 + length x1 /\ ns tr3 <= ns tr2 + 1).
        { destruct x1 as [|r1 [|r2 x1]]; cbn [concat_part] in E3.
          - injection E3 as _ <-. split; [auto|lia].
          - injection E3 as _ <-. split; [auto|lia].
          - apply bind_ok in E3. destruct E3 as [[s tr4] [E5 E6]]. injection E6 as _ <-. split; [apply (new_symbol_kept _ _ _ _ K2 E5)|].
            apply (new_symbol_size _ _ _ _ K2) in E5. lia. }
        destruct K3 as [K3 [N3 S3]]. apply IH in E4; auto.
        change (list_sum (map parts (h :: l))) with (parts h + list_sum (map parts l)).
        change (list_sum (map repetitions (h :: l))) with (repetitions h + list_sum (map repetitions l)).
        rewrite !Nat.mul_add_distr_r with (n := repetitions h). lia.
    - cbn [walk_hir] in HE. inversion HS as [| | | | | |? HS0 HS1]; subst. inversion HB as [| | | | | | |? HB1]; subst. clear HS HB HS0.
      cbn [parts repetitions].
      assert (X : forall acc, (fix walk_all (l : list hir) (result : list (list nat)) (tr : translator) {struct l} : res (list (list nat) * translator) :=
           match l with
           | [] => Ok (result, tr)
           | e :: l' => do (x, tr1) <- walk_hir debug e tr; walk_all l' (result ++ x) tr1
           end) l acc tr = Ok (x, tr') ->
         nr tr' + length x <= nr tr + length acc + list_sum (map parts l) + list_sum (map repetitions l) * KR /\
         ns tr' <= ns tr + 2 * list_sum (map parts l) + list_sum (map repetitions l) * KS).
      { clear HE. revert tr HK. induction H as [|h l Hh HF IH]; intros tr HK acc HE.
        + injection HE as <- <-. cbn. lia.
        + apply bind_ok in HE. destruct HE as [[x1 tr2] [E2 E3]]. inversion HS1; subst. inversion HB1; subst.
          pose proof (walk_kept debug _ _ _ _ HK E2) as K2. apply Hh in E2; auto. apply IH in E3; auto. rewrite app_length in E3.
          change (list_sum (map parts (h :: l))) with (parts h + list_sum (map parts l)).
          change (list_sum (map repetitions (h :: l))) with (repetitions h + list_sum (map repetitions l)).
          rewrite !Nat.mul_add_distr_r with (n := repetitions h). lia. }
      apply X in HE. cbn [length] in HE.
      destruct x; cbn [length] in *; lia.
  Qed.
End Size.

(** * C123 *)
Theorem C123_size : forall debug h k, supported h -> counts_up_to k h ->
  exists g lm, cfg_from_hir debug h = Ok (g, lm) /\
    length (rules g) <= parts h + repetitions h * (10 * k + 27) /\
    num_syms g <= 2 * parts h + repetitions h * (5 * k + 14).
Proof.
  intros debug h k HS HB. destruct (C51_language_partial debug h HS) as [g [lm [root [E _]]]]. exists g, lm. split; auto.
  unfold cfg_from_hir in E. apply bind_ok in E. destruct E as [[x tr1] [E1 E]].
  apply bind_ok in E. destruct E as [[l tr2] [E2 E]]. injection E as <- _.
  assert (K0 : kept (tr_cfg (mkTr cfg_new []))) by (constructor; try reflexivity; constructor).
  pose proof (walk_kept debug _ _ _ _ K0 E1) as K1. apply (walk_size debug k) in E1; auto.
  change (length (rules (tr_cfg (mkTr cfg_new [])))) with 0 in E1. change (num_syms (tr_cfg (mkTr cfg_new []))) with 0 in E1.
  change (rules (set_roots (tr_cfg tr2) [l])) with (rules (tr_cfg tr2)). change (num_syms (set_roots (tr_cfg tr2) [l])) with (num_syms (tr_cfg tr2)).
  destruct x as [|y x].
  - apply (new_symbol_size _ _ _ _ K1) in E2. cbn [length Nat.max] in *. lia.
  - apply (symbol_for_size _ _ _ _ K1) in E2. lia.
Qed.
Print Assumptions C123_size.

(** (ab|[0-9]{3,1000})*c: 11 parts, 2 repetitions, counts up to 2^10 *)
Example C123_example :
  let h := HConcat [HRepetition 0 None (HCapture (HAlternation [HLiteral [97; 98]; HRepetition 3 (Some 1000) (HClass [(48, 57)])])); HLiteral [99]]%N in
  supported h /\ counts_up_to 10 h /\ parts h = 11 /\ repetitions h = 2 /\
  exists g lm, cfg_from_hir true h = Ok (g, lm) /\ length (rules g) = 48 /\ num_syms g = 34.
Proof.
  cbn zeta. split; [|split; [|split; [reflexivity|split; [reflexivity|]]]].
  - apply s_concat. constructor; [|constructor; [|constructor]].
    + apply s_repetition; [split; [lia|discriminate]|]. apply s_capture, s_alternation; [discriminate|].
      constructor; [|constructor; [|constructor]].
      * constructor. repeat constructor.
      * apply s_repetition; [|constructor]. split; [lia|]. intros m Hm. injection Hm as <-. lia.
    + constructor. repeat constructor.
  - apply cu_concat. constructor; [|constructor; [|constructor]]; [|constructor].
    apply cu_repetition; [simpl; lia|discriminate|]. apply cu_capture, cu_alternation.
    constructor; [constructor|constructor; [|constructor]]. apply cu_repetition; [simpl; lia| |constructor].
    intros m Hm. injection Hm as <-. simpl. lia.
  - eexists. eexists. split; [vm_compute; reflexivity|]. split; reflexivity.
Qed.
