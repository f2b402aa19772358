(** C82 - C84: looking up symbols by name, serialized sources and mappings, symbols as bytes. *)

From Coq Require Import List Arith NArith Bool String Lia.
From Verif Require Import Base SymbolModel SymbolProof SerialModel.
Import ListNotations.
Local Open Scope string_scope.
Local Open Scope list_scope.
Local Notation length := List.length.

(** ** C82 *)

(** The symbol found under a name is the last one that has it. *)
Lemma name_pairs_lookup : forall names i x s, map_lookup (name_pairs i names) x = Some s <->
  (exists k, s = i + k /\ nth_error names k = Some (Some x) /\ forall k', k < k' -> nth_error names k' <> Some (Some x)).
Proof.
  induction names as [|n names IH]; intros i x s.
  - cbn. split; [discriminate|]. intros [k [_ [H _]]]. destruct k; discriminate.
  - assert (HN : map_lookup (name_pairs (S i) names) x = None -> forall k', nth_error names k' <> Some (Some x)).
    { clear - IH. intros H. assert (forall m k', length names - k' <= m -> nth_error names k' <> Some (Some x)) as G.
      { induction m; intros k' Hk HX.
        - assert (k' < length names) by (apply nth_error_Some; congruence). lia.
        - assert (E : map_lookup (name_pairs (S i) names) x = Some (S i + k')); [|congruence].
          apply IH. exists k'. split; auto. split; auto. intros k2 H2. apply IHm.
          assert (k' < length names) by (apply nth_error_Some; congruence). lia. }
      intros k'. apply (G (length names)). lia. }
    destruct (map_lookup (name_pairs (S i) names) x) as [y|] eqn:E.
    + assert (HL : map_lookup (name_pairs i (n :: names)) x = Some y).
      { destruct n; cbn [name_pairs map_lookup]; rewrite E; reflexivity. }
      rewrite HL. clear HL. apply IH in E. destruct E as [k [-> [H1 H2]]]. split.
      * intros [= <-]. exists (S k). split; [lia|]. split; [exact H1|]. intros [|k'] Hk; [lia|]. apply H2. lia.
      * intros [k2 [-> [H3 H4]]]. destruct k2 as [|k2].
        -- exfalso. apply (H4 (S k)); [lia|exact H1].
        -- cbn [nth_error] in H3. destruct (lt_eq_lt_dec k k2) as [[Hl| ->]|Hl]; [| f_equal; lia |].
           ++ exfalso. exact (H2 _ Hl H3).
           ++ exfalso. apply (H4 (S k)); [lia|exact H1].
    + specialize (HN eq_refl). split.
      * intros H. exists 0. destruct n as [n|]; cbn [name_pairs map_lookup] in H; rewrite E in H; [|discriminate].
        destruct (String.eqb_spec n x) as [->|]; [|discriminate]. injection H as <-. split; [lia|]. split; [reflexivity|].
        intros [|k'] Hk; [lia|]. apply HN.
      * intros [k [-> [H1 H2]]]. destruct k as [|k]; [|exfalso; exact (HN k H1)].
        cbn in H1. injection H1 as ->. cbn [name_pairs map_lookup]. rewrite E, String.eqb_refl. f_equal. lia.
Qed.

Theorem C82_name_map : forall src x s,
  map_lookup (name_map (source_names src)) x = Some s <->
  (source_original_name_of src (N.of_nat s + 1)%N = Some x /\
   forall s', s < s' -> source_original_name_of src (N.of_nat s' + 1)%N <> Some x).
Proof.
  intros src x s.
  assert (HO : forall k, source_original_name_of src (N.of_nat k + 1)%N = Some x <-> nth_error (source_names src) k = Some (Some x)).
  { intros k. unfold source_original_name_of, names_original_name_of, sym_usize.
    replace (N.to_nat (N.of_nat k + 1 - 1)) with k by lia. destruct (nth_error (source_names src) k) as [[y|]|]; split; congruence. }
  unfold name_map. rewrite name_pairs_lookup. split.
  - intros [k [-> [H1 H2]]]. split; [apply HO; exact H1|]. intros s' Hs H. apply (H2 s'); [lia|apply HO; exact H].
  - intros [H1 H2]. exists s. split; [reflexivity|]. split; [apply HO; exact H1|]. intros k' Hk H. apply (H2 k' Hk). apply HO. exact H.
Qed.
Print Assumptions C82_name_map.

(** With different names it is the inverse of name_of, on named symbols. *)
Theorem C82_inverse : forall src, (forall a b x, source_original_name_of src a = Some x -> source_original_name_of src b = Some x ->
    (1 <= a)%N -> (1 <= b)%N -> a = b) ->
  forall x s, map_lookup (name_map (source_names src)) x = Some s <-> source_original_name_of src (N.of_nat s + 1)%N = Some x.
Proof.
  intros src HU x s. rewrite C82_name_map. split; [tauto|]. intros H. split; auto. intros s' Hs H'.
  pose proof (HU _ _ _ H H'). lia.
Qed.
Print Assumptions C82_inverse.

Example C82_example :
  let src := mkSource 5%N [Some "a"; None; Some "b"; Some "a"] in
  map_lookup (name_map (source_names src)) "a" = Some 3 /\ map_lookup (name_map (source_names src)) "b" = Some 2 /\
  map_lookup (name_map (source_names src)) "c" = None.
Proof. repeat split. Qed.
Example C82_inverse_example : let src := mkSource 4%N [Some "a"; None; Some "b"] in
  forall a b x, source_original_name_of src a = Some x -> source_original_name_of src b = Some x ->
    (1 <= a)%N -> (1 <= b)%N -> a = b.
Proof.
  intros src a b x. unfold source_original_name_of, names_original_name_of, sym_usize, src. cbn [source_names].
  assert (G : forall c, (1 <= c)%N -> c = (N.of_nat (N.to_nat (c - 1)) + 1)%N) by (intros; lia).
  intros Ha Hb H1 H2. rewrite (G a H1), (G b H2). revert Ha Hb.
  generalize (N.to_nat (a - 1)), (N.to_nat (b - 1)). clear.
  intros n m. destruct n as [|[|[|[|]]]], m as [|[|[|[|]]]]; cbn; congruence.
Qed.

(** ** C83 *)

Lemma read_all_map : forall {A} (B : Type) (read : json -> option A) (write : A -> json) (l : list A),
  (forall a, In a l -> read (write a) = Some a) -> @read_all A read (map write l) = Some l.
Proof.
  intros A B read write l. induction l as [|a l IH]; intros H; cbn; auto.
  rewrite (H a (or_introl eq_refl)), IH; auto. intros b Hb. apply H. right. exact Hb.
Qed.
Lemma read_option_write : forall {A} (read : json -> option A) (write : A -> json) x,
  (forall a, x = Some a -> read (write a) = Some a /\ write a <> JNull) -> read_option read (write_option write x) = Some x.
Proof.
  intros A read write [a|] H; cbn; auto. destruct (H a eq_refl) as [H1 H2]. unfold read_option.
  destruct (write a) eqn:E; try congruence; rewrite H1; reflexivity.
Qed.

Theorem C83_source : forall w src, valid_sym w (next_symbol src) -> source_read w (source_write src) = Some src.
Proof.
  intros w [n names] Hn. cbn in Hn. unfold source_read, source_write. cbn [obj_field next_symbol source_names].
  cbn [String.eqb Ascii.eqb Bool.eqb]. unfold sym_write, sym_read. rewrite (serialize_roundtrip w n Hn). cbn [read_vec].
  rewrite (@read_all_map _ unit); auto. intros x _. apply read_option_write. intros a _. split; [reflexivity|discriminate].
Qed.
Print Assumptions C83_source.

(** A symbol below the last of u32. *)
Definition sym_fits (s : nat) : Prop := (N.of_nat s < u32_max)%N.
Lemma usize_roundtrip : forall s, sym_fits s -> usize_read (usize_write s) = Some s.
Proof.
  intros s Hs. unfold usize_read, usize_write, sym_read.
  pose proof (serialize_roundtrip W32 (N.of_nat s + 1)%N) as H. unfold sym_serialize, sym_usize in H.
  replace (N.of_nat s + 1 - 1)%N with (N.of_nat s) in H by lia. rewrite H.
  - unfold sym_usize. f_equal. lia.
  - unfold valid_sym. cbn [max_of]. unfold sym_fits in Hs. lia.
Qed.
Theorem C83_mapping : forall m,
  (forall x s, In x (to_internal m) -> x = Some s -> sym_fits s) -> (forall s, In s (to_external m) -> sym_fits s) ->
  mapping_read (mapping_write m) = Some m.
Proof.
  intros [a b] HA HB. cbn in HA, HB. unfold mapping_read, mapping_write. cbn [obj_field to_internal to_external].
  cbn [String.eqb Ascii.eqb Bool.eqb read_vec].
  rewrite (@read_all_map _ unit), (@read_all_map _ unit); auto.
  - intros s Hs. apply usize_roundtrip; auto.
  - intros x Hx. apply read_option_write. intros s E. split; [apply usize_roundtrip; eauto|discriminate].
Qed.
Print Assumptions C83_mapping.

(** What is read has a valid next symbol. *)
Lemma obj_field_read : forall {A} (read : json -> option A) key l a, obj_field read key l = Some (Some a) ->
  exists v, In (key, v) l /\ read v = Some a.
Proof.
  intros A read key l. induction l as [|[k v] l IH]; intros a H; cbn in H; [discriminate|].
  destruct (String.eqb_spec k key) as [->|].
  - destruct (read v) as [b|] eqn:E; [|discriminate]. destruct (obj_field read key l) as [[c|]|] eqn:F; [|injection H as <-|discriminate].
    + injection H as <-. destruct (IH c eq_refl) as [v' [X Y]]. exists v'. split; [right|]; auto.
    + exists v. split; [left|]; auto.
  - destruct (IH a H) as [v' [X Y]]. exists v'. split; [right|]; auto.
Qed.
Lemma read_all_forall : forall {A} (read : json -> option A) (R : json -> A -> Prop) l r, read_all read l = Some r ->
  (forall v a, read v = Some a -> R v a) -> Forall2 R l r.
Proof.
  intros A read R l. induction l as [|v l IH]; intros r H HR; cbn in H.
  - injection H as <-. constructor.
  - destruct (read v) as [a|] eqn:E; [|discriminate]. destruct (read_all read l) as [r'|]; [|discriminate]. injection H as <-. constructor; auto.
Qed.
Theorem C83_reads_valid_partial : forall w j src, source_read w j = Some src ->
  valid_sym w (next_symbol src) /\
  exists l, j = JObj l /\ In ("next_symbol", JNat (source_num_syms src)) l /\
    exists names, In ("names", JArr names) l /\
      Forall2 (fun v o => match o with None => v = JNull | Some x => v = JStr x end) names (source_names src).
Proof.
  intros w j src H. destruct j as [| | | | | |l]; try discriminate. unfold source_read in H.
  destruct (obj_field (sym_read w) "next_symbol" l) as [[n|]|] eqn:E1; try discriminate.
  destruct (obj_field _ "names" l) as [[names|]|] eqn:E2; try discriminate. injection H as <-.
  apply obj_field_read in E1. destruct E1 as [v [I1 R1]]. destruct v; try discriminate. cbn in R1. apply deserialize_sound in R1.
  apply obj_field_read in E2. destruct E2 as [v [I2 R2]]. destruct v; try discriminate. cbn [read_vec] in R2.
  split; [apply R1|]. exists l. split; auto. split.
  - destruct R1 as [_ R1]. unfold source_num_syms. cbn [next_symbol]. unfold sym_serialize in R1. rewrite R1. exact I1.
  - exists l0. split; auto. cbn [source_names]. apply (read_all_forall _ _ _ _ R2). intros v o E.
    destruct v; cbn in E; try discriminate; injection E as <-; reflexivity.
Qed.
Print Assumptions C83_reads_valid_partial.

(** What is read as a mapping has only symbols that are in the text. *)
Theorem C83_mapping_valid : forall j m, mapping_read j = Some m -> exists l a b, j = JObj l /\
  In ("to_internal", JArr a) l /\ In ("to_external", JArr b) l /\
  Forall2 (fun v o => match o with None => v = JNull | Some s => v = JNat (N.of_nat s) /\ sym_fits s end) a (to_internal m) /\
  Forall2 (fun v s => v = JNat (N.of_nat s) /\ sym_fits s) b (to_external m).
Proof.
  assert (R : forall v s, usize_read v = Some s -> v = JNat (N.of_nat s) /\ sym_fits s).
  { intros v s H. unfold usize_read in H. destruct v as [| |n| | | |]; cbn [sym_read] in H; try discriminate.
    destruct (sym_deserialize W32 n) as [z|] eqn:E; [|discriminate]. apply deserialize_sound in E. destruct E as [[E1 E2] E3]. cbn [max_of] in E2.
    unfold sym_serialize, sym_usize in *. injection H as <-. split; [f_equal; lia|]. unfold sym_fits. lia. }
  intros j m H. destruct j as [| | | | | |l]; try discriminate. unfold mapping_read in H.
  destruct (obj_field _ "to_internal" l) as [[a|]|] eqn:E1; try discriminate.
  destruct (obj_field _ "to_external" l) as [[b|]|] eqn:E2; try discriminate. injection H as <-. cbn [to_internal to_external].
  apply obj_field_read in E1. destruct E1 as [v [I1 R1]]. destruct v as [| | | | |a'|]; try discriminate. cbn [read_vec] in R1.
  apply obj_field_read in E2. destruct E2 as [v [I2 R2]]. destruct v as [| | | | |b'|]; try discriminate. cbn [read_vec] in R2.
  exists l, a', b'. split; [reflexivity|]. split; [exact I1|]. split; [exact I2|]. split.
  - apply (read_all_forall _ _ _ _ R1). intros v o E. unfold read_option in E.
    destruct v as [|b0|n0| |s0|l0|l0]; [injection E as <-; reflexivity|..];
      (destruct (usize_read _) as [s|] eqn:Es in E; [|discriminate]; injection E as <-; apply R; exact Es).
  - apply (read_all_forall _ _ _ _ R2). exact R.
Qed.
Print Assumptions C83_mapping_valid.

(** A source is read although it has fewer names than symbols; the next symbol's name is another symbol's. *)
Theorem C83_names_refuted : exists j src s src', source_read W32 j = Some src /\
  length (source_names src) <> N.to_nat (source_num_syms src) /\
  source_next_sym true W32 src (Some "b") = Ok (s, src') /\ source_original_name_of src' s = None /\
  source_original_name_of src' sym_first = Some "b".
Proof.
  exists (JObj [("next_symbol", JNat 2%N); ("names", JArr [])]), (mkSource 3%N []), 3%N, (mkSource 4%N [Some "b"]).
  split; [vm_compute; reflexivity|]. split; [cbn; lia|]. repeat split; reflexivity.
Qed.
Print Assumptions C83_names_refuted.

Example C83_example : valid_sym W8 255%N /\ source_read W8 (source_write (mkSource 255%N [Some "a"; None])) = Some (mkSource 255%N [Some "a"; None]) /\
  mapping_read (mapping_write (mkMapping [Some 1; None; Some 0] [2; 0])) = Some (mkMapping [Some 1; None; Some 0] [2; 0]) /\
  source_read W8 (JObj [("names", JArr []); ("next_symbol", JNat 255%N)]) = None.
Proof. split; [split; cbn; lia|]. repeat split; vm_compute; reflexivity. Qed.

(** ** C84 *)

Theorem C84_roundtrip : forall s before after, valid_sym W32 s ->
  sym_de_bin (length before) (before ++ sym_ser_bin s ++ after) = Ok (Some (s, length before + 4)).
Proof.
  intros s before after [H1 H2]. cbn in H2. unfold sym_de_bin, u32_de_bin.
  rewrite skipn_app, skipn_all, Nat.sub_diag. cbn [app skipn sym_ser_bin u32_ser_bin].
  assert (E : (s mod 256 + 256 * (s / 256 mod 256) + 65536 * (s / 65536 mod 256) + 16777216 * (s / 16777216 mod 256) = s)%N).
  { unfold u32_max in H2.
    assert (E4 : (s / 16777216 < 256)%N) by (apply N.div_lt_upper_bound; lia).
    rewrite (N.mod_small (s / 16777216)) by exact E4.
    assert (A1 : (s / 65536 / 256 = s / 16777216)%N) by (rewrite N.div_div by lia; reflexivity).
    assert (A2 : (s / 256 / 256 = s / 65536)%N) by (rewrite N.div_div by lia; reflexivity).
    pose proof (N.div_mod s 256). pose proof (N.div_mod (s / 256) 256). pose proof (N.div_mod (s / 65536) 256). lia. }
  rewrite E. destruct (N.eqb_spec s 0); [lia|]. reflexivity.
Qed.
Print Assumptions C84_roundtrip.

(** Bytes that are too short are an error, four zero bytes are a panic, others are a symbol. *)
Theorem C84_total_partial : forall offset bytes, Forall (fun b => (b < 256)%N) bytes ->
  (length bytes < offset + 4 -> sym_de_bin offset bytes = Ok None) /\
  (offset + 4 <= length bytes ->
     (sym_de_bin offset bytes = Panic /\ exists before after, bytes = before ++ [0; 0; 0; 0]%N ++ after /\ length before = offset) \/
     exists s, sym_de_bin offset bytes = Ok (Some (s, offset + 4)) /\ valid_sym W32 s).
Proof.
  intros offset bytes HB. unfold sym_de_bin, u32_de_bin. split; intros HL.
  - assert (HS : length (skipn offset bytes) < 4) by (rewrite skipn_length; lia).
    destruct (skipn offset bytes) as [|? [|? [|? [|]]]]; cbn in HS; try lia; reflexivity.
  - assert (HS : 4 <= length (skipn offset bytes)) by (rewrite skipn_length; lia).
    assert (HF : Forall (fun b => (b < 256)%N) (skipn offset bytes)).
    { rewrite <- (firstn_skipn offset bytes) in HB. apply Forall_app in HB. apply HB. }
    destruct (skipn offset bytes) as [|a [|b [|c [|d rest]]]] eqn:E; cbn in HS; try lia.
    inversion HF as [|? ? Ha HF1]; subst. inversion HF1 as [|? ? Hb HF2]; subst. inversion HF2 as [|? ? Hc HF3]; subst.
    inversion HF3 as [|? ? Hd HF4]; subst. destruct (N.eqb_spec (a + 256 * b + 65536 * c + 16777216 * d) 0) as [Z|Z].
    + left. split; auto. exists (firstn offset bytes), rest. assert (a = 0 /\ b = 0 /\ c = 0 /\ d = 0)%N as [-> [-> [-> ->]]] by lia.
      split; [|rewrite firstn_length; lia]. cbn [app]. rewrite <- E. symmetry. apply firstn_skipn.
    + right. eexists. split; [reflexivity|]. unfold valid_sym. cbn [max_of]. unfold u32_max. lia.
Qed.
Print Assumptions C84_total_partial.

Theorem C84_zero_refuted : forall before after, sym_de_bin (length before) (before ++ [0; 0; 0; 0]%N ++ after) = Panic.
Proof.
  intros before after. unfold sym_de_bin, u32_de_bin. rewrite skipn_app, skipn_all, Nat.sub_diag. reflexivity.
Qed.
Print Assumptions C84_zero_refuted.

Example C84_example : sym_ser_bin 258%N = [2; 1; 0; 0]%N /\ sym_de_bin 1 [9; 2; 1; 0; 0]%N = Ok (Some (258%N, 5)) /\
  sym_de_bin 2 [9; 2; 1; 0; 0]%N = Ok None.
Proof. repeat split. Qed.
