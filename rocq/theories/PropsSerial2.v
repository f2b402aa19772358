(** Writing and reading origins, events, distances, dotted rules and symbol sets. *)

From Coq Require Import List Arith NArith Bool String Lia.
From Verif Require Import Base SymbolModel SymbolProof BitSetModel SetView SerialModel SerialModel2 PropsSerial.
Import ListNotations.
Local Open Scope string_scope.
Local Open Scope list_scope.
Local Notation length := List.length.

Lemma u32_roundtrip : forall n, (n <= u32_max)%N -> u32_read (u32_write n) = Some n.
Proof. intros n H. unfold u32_read, u32_write. apply N.leb_le in H. rewrite H. reflexivity. Qed.

Lemma u32_reads : forall j n, u32_read j = Some n -> j = JNat n /\ (n <= u32_max)%N.
Proof.
  intros j n H. destruct j as [| |m| | | |]; try discriminate. cbn in H. destruct (m <=? u32_max)%N eqn:E; [|discriminate].
  injection H as <-. split; [reflexivity|]. apply N.leb_le. exact E.
Qed.

(** * C99 *)

(** Numbers of 32 bits are read as they were written. *)
Theorem C99_json : forall n p, (n <= u32_max)%N -> (p <= u32_max)%N ->
  origin_read (origin_write n) = Some n /\ event_read (event_write n) = Some n /\ distance_read (distance_write n) = Some n /\
  dotted_read (dotted_write (n, p)) = Some (n, p).
Proof.
  intros n p Hn Hp. unfold origin_read, event_read, distance_read, dotted_read, field_read, origin_write, event_write, distance_write, dotted_write, field_write.
  cbn [obj_field fst snd]. cbn [String.eqb Ascii.eqb Bool.eqb]. rewrite (u32_roundtrip n Hn), (u32_roundtrip p Hp). auto.
Qed.
Print Assumptions C99_json.

(** What is read is in the text and has 32 bits. *)
Theorem C99_json_valid :
  (forall j n, origin_read j = Some n -> (n <= u32_max)%N /\ exists l, j = JObj l /\ In ("id", JNat n) l) /\
  (forall j n, event_read j = Some n -> (n <= u32_max)%N /\ exists l, j = JObj l /\ In ("id", JNat n) l) /\
  (forall j n, distance_read j = Some n -> (n <= u32_max)%N /\ exists l, j = JObj l /\ In ("distance", JNat n) l) /\
  (forall j n p, dotted_read j = Some (n, p) -> (n <= u32_max)%N /\ (p <= u32_max)%N /\
     exists l, j = JObj l /\ In ("id", JNat n) l /\ In ("pos", JNat p) l).
Proof.
  assert (F : forall key j n, field_read key j = Some n -> (n <= u32_max)%N /\ exists l, j = JObj l /\ In (key, JNat n) l).
  { intros key j n H. destruct j as [| | | | | |l]; try discriminate. cbn [field_read] in H.
    destruct (obj_field u32_read key l) as [[m|]|] eqn:E; try discriminate. injection H as <-.
    apply obj_field_read in E. destruct E as [v [HI HV]]. apply u32_reads in HV. destruct HV as [-> HV]. split; [exact HV|]. exists l. auto. }
  split; [apply F|]. split; [apply F|]. split; [apply F|].
  intros j n p H. destruct j as [| | | | | |l]; try discriminate. cbn [dotted_read] in H.
  destruct (obj_field u32_read "id" l) as [[m|]|] eqn:E; try discriminate.
  destruct (obj_field u32_read "pos" l) as [[q|]|] eqn:E'; try discriminate. injection H as <- <-.
  apply obj_field_read in E. destruct E as [v [HI HV]]. apply u32_reads in HV. destruct HV as [-> HV].
  apply obj_field_read in E'. destruct E' as [v [HI' HV']]. apply u32_reads in HV'. destruct HV' as [-> HV'].
  split; [exact HV|]. split; [exact HV'|]. exists l. auto.
Qed.
Print Assumptions C99_json_valid.

Lemma u32_bin : forall n before after, (n <= u32_max)%N ->
  u32_de_bin (length before) (before ++ u32_ser_bin n ++ after) = Some (n, length before + 4).
Proof.
  intros n before after H. unfold u32_de_bin. rewrite skipn_app, skipn_all, Nat.sub_diag. cbn [app skipn u32_ser_bin].
  f_equal. f_equal. unfold u32_max in H.
  assert (E4 : (n / 16777216 < 256)%N) by (apply N.div_lt_upper_bound; lia). rewrite (N.mod_small (n / 16777216)) by exact E4.
  pose proof (N.div_mod n 256). pose proof (N.div_mod (n / 256) 256). pose proof (N.div_mod (n / 65536) 256).
  assert (D1 : (n / 256 / 256 = n / 65536)%N) by (rewrite N.div_div by lia; reflexivity).
  assert (D2 : (n / 65536 / 256 = n / 16777216)%N) by (rewrite N.div_div by lia; reflexivity).
  lia.
Qed.

(** The same in bytes, wherever they are. *)
Theorem C99_binary : forall n p before after, (n <= u32_max)%N -> (p <= u32_max)%N ->
  number_de_bin (length before) (before ++ number_ser_bin n ++ after) = Some (n, length before + 4) /\
  dotted_de_bin (length before) (before ++ dotted_ser_bin (n, p) ++ after) = Some (n, p, length before + 8).
Proof.
  intros n p before after Hn Hp. split; [apply u32_bin; exact Hn|].
  unfold dotted_de_bin, dotted_ser_bin. cbn [fst snd]. rewrite <- app_assoc. rewrite (u32_bin n before _ Hn).
  replace (length before + 4) with (length (before ++ u32_ser_bin n)) by (rewrite app_length; reflexivity).
  rewrite app_assoc. rewrite (u32_bin p _ after Hp). do 2 f_equal. rewrite app_length. cbn [length u32_ser_bin]. lia.
Qed.
Print Assumptions C99_binary.

(** Too few bytes are an error, and others are a number of 32 bits. *)
Theorem C99_binary_total : forall offset bytes, Forall (fun b => (b < 256)%N) bytes ->
  (length bytes < offset + 4 <-> number_de_bin offset bytes = None) /\
  (length bytes < offset + 8 <-> dotted_de_bin offset bytes = None) /\
  (forall n o, number_de_bin offset bytes = Some (n, o) -> (n <= u32_max)%N /\ o = offset + 4) /\
  (forall n p o, dotted_de_bin offset bytes = Some (n, p, o) -> (n <= u32_max)%N /\ (p <= u32_max)%N /\ o = offset + 8).
Proof.
  assert (U : forall offset bytes, Forall (fun b => (b < 256)%N) bytes ->
    (length bytes < offset + 4 /\ u32_de_bin offset bytes = None) \/
    (offset + 4 <= length bytes /\ exists n, u32_de_bin offset bytes = Some (n, offset + 4) /\ (n <= u32_max)%N)).
  { intros offset bytes HB. unfold u32_de_bin. pose proof (skipn_length offset bytes) as HL.
    destruct (skipn offset bytes) as [|a [|b [|c [|d l]]]] eqn:E; cbn [length] in HL; try (left; split; [lia|reflexivity]).
    right. split; [lia|]. eexists. split; [reflexivity|].
    assert (HB' : Forall (fun b => (b < 256)%N) (skipn offset bytes)).
    { apply Forall_forall. intros x Hx. rewrite Forall_forall in HB. apply HB. rewrite <- (firstn_skipn offset bytes). apply in_or_app. right. exact Hx. }
    rewrite E in HB'. inversion HB' as [|? ? A1 B1]. inversion B1 as [|? ? A2 B2]. inversion B2 as [|? ? A3 B3]. inversion B3 as [|? ? A4 B4].
    unfold u32_max. lia. }
  intros offset bytes HB. unfold number_de_bin, dotted_de_bin.
  destruct (U offset bytes HB) as [[L E]|[L [n [E HN]]]]; rewrite E.
  - split; [split; [reflexivity|auto]|]. split; [split; [reflexivity|intros _; lia]|]. split; discriminate.
  - split; [split; [intros; lia|discriminate]|].
    destruct (U (offset + 4) bytes HB) as [[L' E']|[L' [p [E' HP]]]]; rewrite E'.
    + split; [split; [reflexivity|intros _; lia]|]. split; [|discriminate]. intros m o X. injection X as <- <-. auto.
    + split; [split; [intros; lia|discriminate]|]. split; [intros m o X; injection X as <- <-; auto|].
      intros m q o X. injection X as <- <- <-. split; [exact HN|]. split; [exact HP|]. lia.
Qed.
Print Assumptions C99_binary_total.

(** ** Sets *)

Lemma block_bit : forall l i, i < length l -> N.testbit (block_of l) (N.of_nat i) = nth i l false.
Proof.
  induction l as [|b l IH]; intros i Hi; [inversion Hi|]. destruct i as [|i]; cbn [block_of nth].
  - change (N.of_nat 0) with 0%N. destruct b; rewrite ?N.add_0_l.
    + rewrite N.add_comm. apply N.testbit_odd_0.
    + rewrite <- (N.add_0_r (2 * block_of l)). apply N.testbit_even_0 || (rewrite N.add_0_r; apply N.testbit_even_0).
  - rewrite Nat2N.inj_succ. rewrite <- (IH i) by (cbn in Hi; lia). destruct b; rewrite ?N.add_0_l.
    + rewrite N.add_comm. apply N.testbit_odd_succ. lia.
    + apply N.testbit_even_succ. lia.
Qed.

Lemma block_small : forall l k, length l <= k -> (block_of l < 2 ^ N.of_nat k)%N.
Proof.
  induction l as [|b l IH]; intros k H; cbn [block_of].
  - apply N.neq_0_lt_0, N.pow_nonzero. discriminate.
  - destruct k as [|k]; [cbn in H; lia|]. rewrite Nat2N.inj_succ, N.pow_succ_r by lia. specialize (IH k). cbn in H. specialize (IH ltac:(lia)).
    destruct b; lia.
Qed.

Lemma blocks_get : forall fuel b i, length b <= fuel -> i < length b ->
  exists x, nth_error (blocks_of fuel b) (i / 32) = Some x /\ Some (N.testbit x (N.of_nat (i mod 32))) = nth_error b i.
Proof.
  induction fuel as [|fuel IH]; intros b i HF Hi; [lia|]. destruct b as [|b0 b'] eqn:Eb; [cbn in Hi; lia|]. rewrite <- Eb in *.
  assert (EB : blocks_of (S fuel) b = block_of (firstn 32 b) :: blocks_of fuel (skipn 32 b)) by (rewrite Eb; reflexivity). rewrite EB.
  destruct (le_lt_dec 32 i) as [H|H].
  - assert (Ei : i = 32 + (i - 32)) by lia. destruct (IH (skipn 32 b) (i - 32)) as [x [E1 E2]]; [rewrite skipn_length; lia|rewrite skipn_length; lia|].
    exists x. assert (ED : i / 32 = S ((i - 32) / 32)).
    { rewrite Ei at 1. replace (32 + (i - 32)) with (i - 32 + 1 * 32) by lia. rewrite Nat.div_add by lia. lia. }
    assert (EM : i mod 32 = (i - 32) mod 32).
    { rewrite Ei at 1. replace (32 + (i - 32)) with (i - 32 + 1 * 32) by lia. apply Nat.mod_add. lia. }
    rewrite ED, EM. split; [exact E1|]. rewrite E2. rewrite <- (firstn_skipn 32 b) at 2. rewrite nth_error_app2; rewrite firstn_length, Nat.min_l by lia; [|lia]. reflexivity.
  - rewrite Nat.div_small, Nat.mod_small by lia. exists (block_of (firstn 32 b)). split; [reflexivity|].
    assert (HL : i < length (firstn 32 b)) by (rewrite firstn_length; lia). rewrite (block_bit _ _ HL).
    rewrite <- (nth_error_nth' _ false HL). rewrite <- (firstn_skipn 32 b) at 2. rewrite nth_error_app1 by exact HL. reflexivity.
Qed.

Lemma blocks_small : forall fuel b, Forall (fun n => (n <= u32_max)%N) (blocks_of fuel b).
Proof.
  induction fuel as [|fuel IH]; intros b; [constructor|]. destruct b as [|x b]; [constructor|].
  change (blocks_of (S fuel) (x :: b)) with (block_of (firstn 32 (x :: b)) :: blocks_of fuel (skipn 32 (x :: b))). constructor; [|apply IH].
  pose proof (block_small (firstn 32 (x :: b)) 32) as H. specialize (H (firstn_le_length 32 _)). unfold u32_max.
  change (2 ^ N.of_nat 32)%N with 4294967296%N in H. lia.
Qed.

(** A set that is read has the symbols of the one that was written. *)
Theorem C99_set : forall b, (N.of_nat (length b) <= usize_max)%N -> exists v, set_read (set_write b) = Some v /\
  bv_nbits v = length b /\
  forall s, set_index v s = match nth_error b s with Some x => Ok x | None => Panic end.
Proof.
  intros b HB. exists (bit_vec_of b). split; [|split; [reflexivity|]].
  - unfold set_read, set_write. cbn [obj_field]. cbn [String.eqb Ascii.eqb Bool.eqb]. unfold bit_vec_write, bit_vec_read. cbn [obj_field].
    cbn [String.eqb Ascii.eqb Bool.eqb]. cbn [read_vec bit_vec_of bv_storage bv_nbits]. rewrite (@read_all_map _ unit).
    + unfold size_read. apply N.leb_le in HB. rewrite HB, Nat2N.id. reflexivity.
    + intros n Hn. apply u32_roundtrip. pose proof (blocks_small (length b) b) as H. rewrite Forall_forall in H. exact (H n Hn).
  - intros s. unfold set_index, bv_get, bit_vec_of. cbn [bv_nbits bv_storage]. destruct (Nat.ltb_spec s (length b)) as [H|H].
    + destruct (blocks_get (length b) b s (le_n _) H) as [x [E1 E2]]. rewrite E1, <- E2. reflexivity.
    + apply nth_error_None in H. rewrite H. reflexivity.
Qed.
Print Assumptions C99_set.

(** What is read is what the tree says: a number of bits and a list of blocks of 32 bits. *)
Lemma field_in : forall (A : Type) (read : json -> option A) key l a, obj_field read key l = Some (Some a) -> exists v, In (key, v) l /\ read v = Some a.
Proof.
  intros A read key l. induction l as [|[k v] l IH]; intros a H; cbn [obj_field] in H; [discriminate|]. destruct (String.eqb_spec k key) as [->|].
  - destruct (read v) as [x|] eqn:E; [|discriminate]. destruct (obj_field read key l) as [[b|]|]; try discriminate.
    + injection H as <-. destruct (IH b eq_refl) as [w [W1 W2]]. exists w. split; [right; exact W1|exact W2].
    + injection H as <-. exists v. split; [left; reflexivity|exact E].
  - destruct (IH a H) as [w [W1 W2]]. exists w. split; [right; exact W1|exact W2].
Qed.
Theorem C99_set_tree : forall j v, set_read j = Some v -> exists fields storage nbits inner,
  j = JObj fields /\ In ("bit_vec"%string, JObj inner) fields /\ In ("storage"%string, JArr storage) inner /\ In ("nbits"%string, JNat nbits) inner /\
  bv_nbits v = N.to_nat nbits /\ Forall2 (fun x n => x = JNat n /\ (n <= u32_max)%N) storage (bv_storage v).
Proof.
  intros j v H. unfold set_read in H. destruct j as [| | | | | |fields]; try discriminate.
  destruct (obj_field bit_vec_read "bit_vec" fields) as [[v'|]|] eqn:E; try discriminate. injection H as ->.
  apply field_in in E. destruct E as [w [W1 W2]]. unfold bit_vec_read in W2. destruct w as [| | | | | |inner]; try discriminate.
  destruct (obj_field (read_vec u32_read) "storage" inner) as [[s|]|] eqn:E1; try discriminate.
  destruct (obj_field size_read "nbits" inner) as [[n|]|] eqn:E2; try discriminate. injection W2 as <-.
  apply field_in in E1. destruct E1 as [js [J1 J2]]. apply field_in in E2. destruct E2 as [jn [J3 J4]].
  destruct js as [| | | | |storage|]; try discriminate. destruct jn as [| |nbits| | | |]; try discriminate. exists fields, storage, nbits, inner.
  split; [reflexivity|]. split; [exact W1|]. split; [exact J1|]. split; [exact J3|]. cbn [bv_nbits bv_storage]. split.
  - unfold size_read in J4. destruct (nbits <=? usize_max)%N; [|discriminate]. injection J4 as <-. reflexivity.
  - clear - J2. cbn [read_vec] in J2. revert s J2. induction storage as [|x l IH]; intros s H; cbn [read_all] in H; [injection H as <-; constructor|].
    destruct (u32_read x) as [y|] eqn:E; [|discriminate]. destruct (read_all u32_read l) as [ys|]; [|discriminate]. injection H as <-. constructor; auto.
    unfold u32_read in E. destruct x as [| |z| | | |]; try discriminate. destruct (z <=? u32_max)%N eqn:L; [|discriminate]. injection E as ->. split; [reflexivity|]. apply N.leb_le. exact L.
Qed.
Print Assumptions C99_set_tree.

(** Membership is defined for every symbol of a set that is read, if there are blocks for them. *)
Theorem C99_set_valid_partial : forall j v, set_read j = Some v -> bv_nbits v <= 32 * length (bv_storage v) ->
  forall s, s < bv_nbits v -> exists b, set_index v s = Ok b.
Proof.
  intros j v _ HB s Hs. unfold set_index, bv_get. replace (Nat.ltb s (bv_nbits v)) with true by (symmetry; apply Nat.ltb_lt; exact Hs).
  destruct (nth_error (bv_storage v) (s / 32)) as [x|] eqn:E; [eexists; reflexivity|]. exfalso. apply nth_error_None in E.
  assert (s / 32 < length (bv_storage v)) by (apply Nat.div_lt_upper_bound; lia). lia.
Qed.
Print Assumptions C99_set_valid_partial.

(** A set without blocks is read, and whether its symbol is in it is a panic. *)
Theorem C99_set_valid_refuted : exists v,
  set_read (JObj [("bit_vec", JObj [("storage", JArr []); ("nbits", JNat 1)])]) = Some v /\ 0 < bv_nbits v /\ set_index v 0 = Panic.
Proof. exists (mkBitVec [] 1). repeat split. cbn. lia. Qed.
Print Assumptions C99_set_valid_refuted.

Example C99_example : set_write [true; false; true] =
  JObj [("bit_vec", JObj [("storage", JArr [JNat 5]); ("nbits", JNat 3)])] /\
  dotted_de_bin 1 [9; 2; 1; 0; 0; 255; 255; 255; 255]%N = Some (258%N, 4294967295%N, 9) /\
  origin_read (JObj [("id", JNat 4294967296%N)]) = None.
Proof. repeat split. Qed.
