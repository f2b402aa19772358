(** Properties C01 - C04: symbol sources, names, serialization, mappings. *)

From Coq Require Import List Arith NArith Bool Lia String.
From Verif Require Import Base ListFacts SymbolModel View SymbolProof.
Import ListNotations.
Local Notation length := List.length.

(** C01.  The [i]-th symbol created by a new source has usize value [i]; all are distinct; the
    counter counts them.  The only hypothesis is that fewer than 2^32 - 1 symbols are created. *)
Theorem C01_new_symbols : forall debug w names l src',
  source_issue debug w source_new names = Ok (l, src') ->
  (N.of_nat (length names) < u32_max)%N ->
  map sym_usize l = map N.of_nat (seq 0 (length names)) /\
  NoDup l /\ source_num_syms src' = N.of_nat (length names).
Proof. exact source_new_numbers. Qed.
Print Assumptions C01_new_symbols.

(** C01.  No panic before the range is used up (debug builds stop one symbol earlier). *)
Theorem C01_no_early_panic : forall (debug : bool) w names,
  (N.of_nat (length names) + (if debug then 1 else 0) < max_of w)%N ->
  exists l src', source_issue debug w source_new names = Ok (l, src').
Proof.
  intros. apply issue_ok; unfold source_new, sym_first; cbn [next_symbol]; lia.
Qed.
Print Assumptions C01_no_early_panic.

(** C01.  8 and 16 bit sources panic when the range is used up. *)
Theorem C01_exhaustion_panics : forall debug w names,
  w <> W32 -> (max_of w <= N.of_nat (length names))%N ->
  source_issue debug w source_new names = Panic.
Proof.
  intros. apply issue_panic; auto; unfold source_new, sym_first; cbn [next_symbol]; try lia.
  pose proof (max_of_pos w). lia.
Qed.
Print Assumptions C01_exhaustion_panics.

(** C01.  The static generator numbers its symbols in the same way. *)
Theorem C01_generate_fresh : forall debug w k l,
  generate_fresh debug w k = Ok l -> (N.of_nat k < u32_max)%N ->
  map sym_usize l = map N.of_nat (seq 0 k).
Proof.
  intros. unfold generate_fresh in H. apply generate_spec in H; unfold sym_first in *; try lia.
  rewrite H. apply map_ext. intros. unfold sym_usize. lia.
Qed.
Print Assumptions C01_generate_fresh.

(** C01.  Outside of the claim: a 32 bit source in a release build saturates instead, and
    then returns the same symbol twice. *)
Theorem C01_u32_saturates : exists names l src',
  source_issue false W32 source_new names = Ok (l, src') /\ ~ NoDup l.
Proof.
  set (n0 := repeat (@None string) (N.to_nat (u32_max - 1))).
  assert (HL : N.of_nat (length n0) = (u32_max - 1)%N).
  { unfold n0. rewrite repeat_length. apply N2Nat.id. }
  destruct (issue_ok false W32 n0 source_new) as [l [s1 E]].
  - unfold source_new, sym_first; cbn [next_symbol]; lia.
  - rewrite HL. unfold source_new, sym_first; cbn [next_symbol max_of]. unfold u32_max. lia.
  - assert (Hs : next_symbol s1 = u32_max).
    { apply issue_spec in E; [|unfold source_new, sym_first; cbn [next_symbol]; lia|].
      - destruct E as [_ [E _]]. rewrite E, HL. reflexivity.
      - rewrite HL. unfold source_new, sym_first; cbn [next_symbol]. unfold u32_max. lia. }
    exists (n0 ++ [None; None]), (l ++ [u32_max; u32_max]),
      (mkSource u32_max ((source_names s1 ++ [None]) ++ [None])).
    split.
    + rewrite issue_app, E. cbn [bind source_issue]. unfold source_next_sym. rewrite Hs. reflexivity.
    + rewrite NoDup_app. intros [_ [H _]]. inversion H; subst. apply H2. left; auto.
Qed.
Print Assumptions C01_u32_saturates.

Example C01_example :
  source_issue true W8 source_new [Some "a"; None; Some "c"]%string
  = Ok ([1; 2; 3]%N, mkSource 4%N [Some "a"; None; Some "c"]%string).
Proof. reflexivity. Qed.

(** C02.  The name given at creation is the one reported later, whatever is created or
    truncated in between, unless the symbol itself is truncated away. *)
Theorem C02_names_attached : forall debug w before src name s src1 after src2,
  fold_res (source_step debug w) before source_new = Ok src ->
  shrinking debug w source_new before ->
  source_next_sym debug w src name = Ok (s, src1) ->
  fold_res (source_step debug w) after src1 = Ok src2 ->
  shrinking debug w src1 after ->
  (N.of_nat (length before) + N.of_nat (length after) + 2 < u32_max)%N ->
  (forall n, In (STruncate n) after -> (sym_usize s < n)%N) ->
  source_original_name_of src2 s = name /\
  source_name_of src2 s =
    match name with
    | Some x => x
    | None => append "g" (string_of_nat (N.to_nat (sym_usize s)))
    end.
Proof.
  intros debug w before src name s src1 after src2 E1 S1 E2 E3 S2 HN HT.
  assert (W0 : source_wf source_new) by (split; reflexivity).
  assert (W1 : source_wf src).
  { eapply history_wf; eauto. unfold source_new, sym_first; cbn [next_symbol]. lia. }
  assert (HB : forall ops a b, source_wf a -> shrinking debug w a ops ->
     fold_res (source_step debug w) ops a = Ok b ->
     (next_symbol a + N.of_nat (length ops) < u32_max)%N ->
     (next_symbol b <= next_symbol a + N.of_nat (length ops))%N).
  { clear. induction ops; intros a0 b W S E HN.
    - simpl in E. inversion E; subst. lia.
    - cbn [fold_res] in E. apply bind_ok in E. destruct E as [s1 [E1 E2]].
      cbn [length] in *. cbn [shrinking] in S. rewrite E1 in S. destruct S as [S1 S2].
      destruct (step_wf debug w a0 a s1 W ltac:(lia) S1 E1) as [W1 N1].
      pose proof (IHops s1 b W1 S2 E2 ltac:(lia)). lia. }
  assert (N1 : (next_symbol src <= 1 + N.of_nat (length before))%N).
  { apply (HB before source_new src); auto. unfold source_new, sym_first; cbn [next_symbol]. lia. }
  assert (ES : source_step debug w src (SNext name) = Ok src1) by (simpl; rewrite E2; auto).
  destruct (step_wf debug w src (SNext name) src1 W1 ltac:(lia) I ES) as [W2 N2].
  unfold source_next_sym in E2. apply bind_ok in E2. destruct E2 as [nx [EA EB]].
  inversion EB; subst; clear EB.
  set (i := N.to_nat (sym_usize (next_symbol src))) in *.
  assert (Hi : i = length (source_names src)).
  { destruct W1 as [_ W1]. unfold source_num_syms in W1. unfold i. rewrite W1. apply Nat2N.id. }
  destruct (names_kept debug w after _ src2 i W2 ltac:(lia) S2 E3) as [W3 E4].
  - simpl. rewrite app_length. simpl. lia.
  - intros n Hn. apply HT in Hn. unfold i. rewrite N2Nat.id. auto.
  - cbn [source_names] in E4. rewrite nth_error_app2, Hi, Nat.sub_diag in E4 by lia. simpl in E4.
    unfold source_original_name_of, source_name_of, names_original_name_of, names_name_of.
    fold i. rewrite Hi, E4. destruct name; auto.
Qed.
Print Assumptions C02_names_attached.

(** C02.  A symbol that does not exist (any more) has no name. *)
Theorem C02_truncated_forgotten : forall debug w ops src s,
  fold_res (source_step debug w) ops source_new = Ok src ->
  shrinking debug w source_new ops -> (N.of_nat (length ops) + 1 <= u32_max)%N ->
  (source_num_syms src <= sym_usize s)%N ->
  source_original_name_of src s = None /\
  source_name_of src s = append "g" (string_of_nat (N.to_nat (sym_usize s))).
Proof.
  intros debug w ops src s E S HN Hs.
  assert (W1 : source_wf src).
  { eapply history_wf; [|  |exact S|exact E].
    - split; reflexivity.
    - unfold source_new, sym_first; cbn [next_symbol]. lia. }
  destruct W1 as [_ W1].
  assert (HX : nth_error (source_names src) (N.to_nat (sym_usize s)) = None).
  { apply nth_error_None. lia. }
  unfold source_original_name_of, source_name_of, names_original_name_of, names_name_of.
  rewrite HX. auto.
Qed.
Print Assumptions C02_truncated_forgotten.

(** C02.  Outside of the claim: truncating to a larger size shifts the later names. *)
Theorem C02_enlarging_truncate_shifts_names :
  exists src, fold_res (source_step true W32)
    [SNext (Some "a"); STruncate 3; SNext (Some "b")]%string source_new = Ok src /\
    source_name_of src 4%N = "g3"%string /\ source_name_of src 2%N = "b"%string.
Proof. eexists. split; [vm_compute; reflexivity|]. split; reflexivity. Qed.
Print Assumptions C02_enlarging_truncate_shifts_names.

(** Truncation panics exactly for zero and for lengths from the largest number on, the largest number included. *)
Theorem C02_truncate : forall w src n,
  (source_truncate w src n = Panic <-> n = 0 \/ max_of w <= n)%N /\
  ((0 < n < max_of w)%N -> exists src', source_truncate w src n = Ok src' /\ source_num_syms src' = n /\
     forall s, source_original_name_of src' s = if (sym_usize s <? n)%N then source_original_name_of src s else None).
Proof.
  intros w src n. unfold source_truncate. split.
  - destruct (N.eqb_spec n 0); [intuition|]. destruct (N.ltb_spec (max_of w) n); [intuition lia|].
    destruct (N.ltb_spec (max_of w) (n + 1)); [intuition lia|]. split; [discriminate|lia].
  - intros H. destruct (N.eqb_spec n 0); [lia|]. destruct (N.ltb_spec (max_of w) n); [lia|].
    destruct (N.ltb_spec (max_of w) (n + 1)); [lia|]. eexists. split; [reflexivity|].
    split; [unfold source_num_syms, sym_usize; cbn [next_symbol]; lia|].
    intros s. unfold source_original_name_of, names_original_name_of. cbn [source_names].
    destruct (N.ltb_spec (sym_usize s) n) as [HL|HL].
    + assert (HE : forall {A} (l : list A) i k, i < k -> nth_error (firstn k l) i = nth_error l i).
      { clear. intros A l i k. revert l i. induction k as [|k IH]; intros l i H; [lia|]. destruct l as [|x l]; [destruct i; reflexivity|].
        destruct i; [reflexivity|]. cbn. apply IH. lia. }
      rewrite HE by lia. reflexivity.
    + assert (HE : nth_error (firstn (N.to_nat n) (source_names src)) (N.to_nat (sym_usize s)) = None).
      { apply nth_error_None. rewrite firstn_length. lia. }
      rewrite HE. reflexivity.
Qed.
Print Assumptions C02_truncate.

Example C02_example : exists src,
  fold_res (source_step true W32) [SNext (Some "a"); SNext None; SNext (Some "c"); STruncate 2; SNext (Some "d")]%string
    source_new = Ok src /\
  shrinking true W32 source_new [SNext (Some "a"); SNext None; SNext (Some "c"); STruncate 2; SNext (Some "d")]%string /\
  source_name_of src 1%N = "a"%string /\ source_name_of src 2%N = "g1"%string /\
  source_name_of src 3%N = "d"%string /\ source_name_of src 4%N = "g3"%string.
Proof. eexists. split; [vm_compute; reflexivity|]. repeat split; try reflexivity; vm_compute; discriminate. Qed.

(** C03 *)
Theorem C03_roundtrip : forall w s, valid_sym w s -> sym_deserialize w (sym_serialize s) = Some s.
Proof. exact serialize_roundtrip. Qed.
Print Assumptions C03_roundtrip.

Theorem C03_rejects_others : forall w n,
  (forall s, valid_sym w s -> sym_serialize s <> n) -> sym_deserialize w n = None.
Proof.
  intros. destruct (sym_deserialize w n) eqn:E; auto. apply deserialize_sound in E.
  destruct E. exfalso. eapply H; eauto.
Qed.
Print Assumptions C03_rejects_others.

Theorem C03_reads_valid : forall w n s, sym_deserialize w n = Some s ->
  valid_sym w s /\ sym_serialize s = n.
Proof. exact deserialize_sound. Qed.
Print Assumptions C03_reads_valid.

Example C03_example : sym_deserialize W8 254%N = Some 255%N /\ sym_deserialize W8 255%N = None /\
  sym_deserialize W32 4294967295%N = None /\ valid_sym W8 255%N.
Proof. repeat split; vm_compute; discriminate. Qed.

(** C04 *)
Theorem C04_translate_composes : forall self other r, mapping_translate self other = Ok r ->
  (forall x, internal_of r x =
     match internal_of self x with Some y => internal_of other y | None => None end) /\
  (forall z, external_of r z =
     match external_of other z with Some y => external_of self y | None => None end).
Proof. exact translate_spec. Qed.
Print Assumptions C04_translate_composes.

Theorem C04_translate_total : forall self other,
  (forall y, In y (to_external other) -> y < length (to_external self)) ->
  exists r, mapping_translate self other = Ok r.
Proof. exact translate_total. Qed.
Print Assumptions C04_translate_total.

Theorem C04_translate_inverse : forall self other r, mapping_translate self other = Ok r ->
  inverse_pair self -> inverse_pair other -> inverse_pair r.
Proof. exact translate_inverse. Qed.
Print Assumptions C04_translate_inverse.

(** A new mapping has room for the external symbols and maps none of them. *)
Theorem C04_new : forall n,
  length (to_internal (mapping_new n)) = n /\
  (forall x, internal_of (mapping_new n) x = None) /\ (forall y, external_of (mapping_new n) y = None) /\
  inverse_pair (mapping_new n) /\
  (forall other, to_external other = [] -> mapping_translate (mapping_new n) other = Ok (mapping_new n)).
Proof.
  intros n.
  assert (HI : forall x, internal_of (mapping_new n) x = None).
  { intros x. unfold internal_of, mapping_new. cbn [to_internal].
    destruct (nth_error (repeat None n) x) as [[y|]|] eqn:E; auto.
    apply nth_error_In in E. apply repeat_spec in E. discriminate. }
  assert (HE : forall y, external_of (mapping_new n) y = None).
  { intros y. unfold external_of, mapping_new. cbn [to_external]. destruct y; reflexivity. }
  split; [apply repeat_length|]. split; auto. split; auto. split.
  - intros x y. rewrite HI, HE. split; discriminate.
  - intros other H. unfold mapping_translate, mapping_new. rewrite H. cbn [map_res bind to_internal].
    do 2 f_equal. induction n; cbn; [reflexivity|]. f_equal; auto.
    apply IHn; intros; [unfold internal_of|]; cbn; auto.
    + destruct (nth_error (repeat None n) x) as [[y|]|] eqn:E; auto.
      apply nth_error_In in E. apply repeat_spec in E. discriminate.
    + unfold external_of. cbn. destruct y; reflexivity.
Qed.
Print Assumptions C04_new.

Example C04_example :
  let a := mkMapping [Some 1; None; Some 0] [2; 0] in
  let b := mkMapping [None; Some 0] [1] in
  inverse_pair a /\ inverse_pair b /\
  mapping_translate a b = Ok (mkMapping [Some 0; None; None] [0]).
Proof.
  split; [|split; [|reflexivity]].
  - intros x y. unfold internal_of, external_of. simpl.
    destruct x as [|[|[|x]]]; destruct y as [|[|y]]; simpl; try (destruct x); try (destruct y); split; intros H; inversion H; auto.
  - intros x y. unfold internal_of, external_of. simpl.
    destruct x as [|[|x]]; destruct y as [|y]; simpl; try (destruct x); try (destruct y); split; intros H; inversion H; auto.
Qed.
