(** Rules that are written with names, and comparing the rules of a grammar with them. *)

From Coq Require Import List Arith NArith Bool String Lia.
From Verif Require Import Base Spec SymbolModel SymbolProof HistoryModel CfgModel View CfgProof2 NamedModel.
Import ListNotations.
Local Open Scope list_scope.
Local Notation length := List.length.

Lemma fresh_all : forall debug k n, (1 <= n)%N -> (n + N.of_nat k < u32_max)%N ->
  exists l, generate_from debug W32 n k = Ok l /\ map (fun s => N.to_nat (sym_usize s)) l = seq (N.to_nat n - 1) k.
Proof.
  induction k as [|k IH]; intros n H1 H2; cbn [generate_from seq].
  - exists []. auto.
  - assert (E : sym_advance debug W32 n = Ok (n + 1)%N).
    { unfold sym_advance. cbn [max_of]. replace (n =? u32_max)%N with false by (symmetry; apply N.eqb_neq; lia).
      replace (n + 1 <=? u32_max)%N with true by (symmetry; apply N.leb_le; lia).
      replace (n + 1 =? u32_max)%N with false by (symmetry; apply N.eqb_neq; lia). rewrite andb_false_r. reflexivity. }
    rewrite E. cbn [bind]. destruct (IH (n + 1)%N) as [l [E1 E2]]; [lia|lia|]. rewrite E1. cbn [bind]. exists (n :: l). split; [reflexivity|].
    cbn [map]. rewrite E2. unfold sym_usize. f_equal; [lia|]. f_equal. lia.
Qed.

Lemma names_seq : forall (l : list (option string)),
  map (fun i => match nth_error l i with Some n => n | None => None end) (seq 0 (length l)) = l.
Proof.
  induction l as [|x l IH]; [reflexivity|]. cbn [length seq map nth_error]. rewrite <- seq_shift, map_map. cbn [nth_error]. rewrite IH. reflexivity.
Qed.

(** * C98 *)

(** A list of names makes a rule with the first name on its left-hand side and the others on its right-hand side. *)
Theorem C98_written : forall debug x xs h, (N.of_nat (length xs) + 2 < u32_max)%N -> exists n,
  named_new debug (x :: xs) h = Ok n /\ named_ok n /\ name_at n (nr_lhs n) = x /\ map (name_at n) (nr_rhs n) = xs /\
  nr_hist n = h /\ NoDup (nr_lhs n :: nr_rhs n).
Proof.
  intros debug x xs h HL. unfold named_new, generate_fresh. destruct (fresh_all debug (length (x :: xs)) sym_first) as [l [E1 E2]];
    [unfold sym_first; lia|unfold sym_first; cbn [length]; lia|].
  rewrite E1. cbn [bind]. rewrite E2. change (N.to_nat sym_first - 1) with 0. cbn [length seq].
  eexists. split; [reflexivity|]. unfold named_ok, name_at. cbn [nr_lhs nr_rhs nr_names nr_hist length].
  split; [split; [lia|]; apply Forall_forall; intros s Hs; apply in_seq in Hs; lia|].
  split; [reflexivity|]. split; [|split; [reflexivity|apply (seq_NoDup (S (length xs)) 0)]].
  rewrite <- seq_shift, map_map. cbn [nth_error]. apply names_seq.
Qed.
Print Assumptions C98_written.

(** A rule of a grammar equals it exactly if the names of its symbols are these, and the histories are the same if
    there is one. *)
Theorem C98_compare : forall debug r s x xs h n, named_new debug (x :: xs) h = Ok n -> (N.of_nat (length xs) + 2 < u32_max)%N ->
  lhs r < length (names s) -> Forall (fun y => y < length (names s)) (rhs r) ->
  exists e, named_eq (rule_named r s) n = Ok e /\
  (e = true <-> x = names_original_name_of (names s) (lhs r) /\ xs = map (names_original_name_of (names s)) (rhs r) /\
                (h = None \/ h = Some (hist r))).
Proof.
  intros debug r s x xs h n EN HL H1 H2. destruct (C98_written debug x xs h HL) as [n' [EN' [HO [E1 [E2 [E3 _]]]]]].
  assert (n' = n) by congruence. subst n'. destruct (named_eq_spec (rule_named r s) n) as [e [E HE]]; [split; assumption|exact HO|].
  exists e. split; [exact E|]. rewrite HE, E1, E2, E3. unfold rule_named, name_at, names_original_name_of. cbn [nr_lhs nr_rhs nr_names nr_hist].
  split.
  - intros [A [B C]]. split; [symmetry; exact A|]. split; [symmetry; exact B|]. destruct h as [h|]; [|left; reflexivity].
    right. f_equal. symmetry. apply C; reflexivity.
  - intros [A [B C]]. split; [symmetry; exact A|]. split; [symmetry; exact B|]. intros ha hb X Y. destruct C as [C|C]; congruence.
Qed.
Print Assumptions C98_compare.

(** There is a panic for the empty list in debug builds. *)
Theorem C98_empty_partial : forall h, named_new true [] h = Panic.
Proof. reflexivity. Qed.
Print Assumptions C98_empty_partial.

(** In release builds there is none: the memory is used up. *)
Theorem C98_empty_refuted : forall h, named_new false [] h <> Panic.
Proof. discriminate. Qed.
Print Assumptions C98_empty_refuted.

Example C98_example : let s := mkSrc 3 [Some "a"; Some "b"; None]%string in
  exists n, named_new true [Some "b"; Some "b"; None]%string None = Ok n /\ nr_lhs n = 0 /\ nr_rhs n = [1; 2] /\
  named_eq (rule_named (mkRule 1 [1; 2] (history_new 4)) s) n = Ok true /\
  named_eq (rule_named (mkRule 1 [0; 2] (history_new 4)) s) n = Ok false.
Proof. cbv zeta. exists (mkNamed 0 [1; 2] None [Some "b"; Some "b"; None]%string). repeat split; vm_compute; reflexivity. Qed.
