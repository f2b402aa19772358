(** Sequences have one parse: the alternatives of a symbol and how they split a string. *)

From Coq Require Import List Arith NArith Bool Lia.
From Verif Require Import Base ListFacts LoopModel LoopFacts Spec SpecSeq GrammarFacts SymbolModel HistoryModel CfgModel View CfgProof
  SeqModel SeqProof SeqProof2 SeqProof3 SpecTree TreeProof TreeLang TreeLimit.
Import ListNotations.
Local Notation length := List.length.

(** The strings of one item. *)
Definition ifit (k : seq_key) (i : item) (v : list nat) : Prop :=
  match i with IS s => v = [s] | ISelf => Sq k v | ISub k' => Sq k' v end.

Lemma ilang_fit : forall k q vs, Forall2 (ifit k) q vs -> ilang k q (concat vs).
Proof.
  intros k q vs H. induction H as [|i v q vs Hi H IH]; cbn [concat]; [constructor|].
  destruct i; cbn [ifit] in Hi; [subst v; cbn [app]; constructor; auto|constructor; auto|constructor; auto].
Qed.

Lemma len_concat2 : forall (a b n : nat), length (concat (repeat [a; b] n)) = 2 * n.
Proof. induction n; cbn [repeat concat app length]; [reflexivity|]. rewrite IHn. lia. Qed.

Lemma rep_len : forall x sep n, length (rep_str x sep n) =
  match sep with Null => n | Trailing _ => 2 * n | _ => 2 * n - 1 end.
Proof.
  intros x [s|s|s|] n; cbn [rep_str].
  - unfold followed. apply len_concat2.
  - destruct n; [reflexivity|]. cbn [between length]. rewrite len_concat2. lia.
  - destruct n; [reflexivity|]. cbn [between length]. rewrite len_concat2. lia.
  - apply repeat_length.
Qed.

Lemma rep_inj : forall x y sep n m, rep_str x sep n = rep_str y sep m -> n = m.
Proof. intros x y sep n m E. apply (f_equal (@length nat)) in E. rewrite !rep_len in E. destruct sep; lia. Qed.

(** A key of a single number of repetitions has one string. *)
Lemma both_unique : forall k n sep v v', (forall s, sep <> Liberal s) -> Sq (both k n sep) v -> Sq (both k n sep) v' -> v = v'.
Proof.
  intros k n sep v v' HL H H'. apply (proj1 (Sq_str (both k n sep) HL _)) in H. apply (proj1 (Sq_str (both k n sep) HL _)) in H'.
  cbn [both k_start k_end k_rhs k_sep] in *. destruct H as [a [[A1 A2] ->]]. destruct H' as [b [[B1 B2] ->]].
  specialize (A2 n eq_refl). specialize (B2 n eq_refl). replace a with b by lia. reflexivity.
Qed.

Definition fixed (k : seq_key) (i : item) : Prop := forall v v', ifit k i v -> ifit k i v' -> v = v'.

Lemma fixed_list : forall k q, Forall (fixed k) q -> forall vs vs', Forall2 (ifit k) q vs -> Forall2 (ifit k) q vs' -> vs = vs'.
Proof.
  intros k q H. induction H as [|i q Hi H IH]; intros vs vs' F F'; inversion F; inversion F'; subst; auto. f_equal; auto.
Qed.

Lemma one_open_item : forall k pre i post vs vs', Forall (fixed k) pre -> Forall (fixed k) post ->
  Forall2 (ifit k) (pre ++ i :: post) vs -> Forall2 (ifit k) (pre ++ i :: post) vs' -> concat vs = concat vs' -> vs = vs'.
Proof.
  intros k pre i post vs vs' HP HQ F F' E.
  apply Forall2_app_inv_l in F. destruct F as [a [r [Fa [Fr ->]]]]. inversion Fr as [|? b ? c Fb Fc]; subst.
  apply Forall2_app_inv_l in F'. destruct F' as [a' [r' [Fa' [Fr' ->]]]]. inversion Fr' as [|? b' ? c' Fb' Fc']; subst.
  assert (a = a') by (eapply (fixed_list k pre); eauto). assert (c = c') by (eapply (fixed_list k post); eauto). subst a' c'.
  rewrite !concat_app in E. apply app_inv_head in E. cbn [concat] in E. apply app_inv_tail in E. subst b'. reflexivity.
Qed.

Lemma fixed_sym : forall k s, fixed k (IS s).
Proof. intros k s v v' H H'. cbn in *. congruence. Qed.
Lemma fixed_both : forall k k' n sep, (forall s, sep <> Liberal s) -> fixed k (ISub (both k' n sep)).
Proof. intros k k' n sep HL v v' H H'. cbn [ifit] in *. eapply both_unique; eauto. Qed.

Lemma split_unique : forall k q vs vs', valid_key k -> In q (rules_of k) ->
  Forall2 (ifit k) q vs -> Forall2 (ifit k) q vs' -> concat vs = concat vs' -> vs = vs'.
Proof.
  intros k q vs vs' HV Hq F F' E. unfold rules_of in Hq.
  destruct (prog_view k HV) as [s HS|HS HE HL|HS HE HL|s HL HS|HP HS HE|HP HS HE|HP HS HE|e HP HS HE He|HP HS HE|HP HS HE|n HP HS HE];
    cbn [flat_map app In] in Hq; repeat (destruct Hq as [<-|Hq]; [|]); try contradiction.
  all: try (eapply (one_open_item k [] _ []); eauto; fail).
  - inversion F; inversion F'; reflexivity.
  - inversion F; inversion F'; reflexivity.
  - eapply (one_open_item k [] _ [IS s]); eauto. repeat constructor. apply fixed_sym.
  - apply (one_open_item k [] ISelf (sep_items (k_sep k) ++ [IS (k_rhs k)])); [constructor| |exact F|exact F'|exact E]. rewrite sep_items_map. apply Forall_app. split; [|repeat constructor; apply fixed_sym].
    apply Forall_forall. intros i Hi. apply in_map_iff in Hi. destruct Hi as [y [<- _]]. apply fixed_sym.
  - refine (one_open_item k [_] _ [] vs vs' _ _ F F' E); [constructor; [|constructor]|constructor]. apply fixed_both. apply prefix_nl. auto.
  - apply (one_open_item k [] (IS (k_rhs k)) (sep_items (k_sep k) ++ [IS (k_rhs k)])); [constructor| |exact F|exact F'|exact E]. rewrite sep_items_map. apply Forall_app. split; [|repeat constructor; apply fixed_sym].
    apply Forall_forall. intros i Hi. apply in_map_iff in Hi. destruct Hi as [y [<- _]]. apply fixed_sym.
  - refine (one_open_item k [_] _ [] vs vs' _ _ F F' E); [constructor; [|constructor]|constructor]. apply fixed_both. apply prefix_nl. auto.
  - refine (one_open_item k [_] _ [] vs vs' _ _ F F' E); [constructor; [|constructor]|constructor]. apply fixed_both. apply prefix_nl. auto.
Qed.

(** A separator that is optional, with zero repetitions: two alternatives for the empty string. *)
Definition lib0 (k : seq_key) : Prop := (exists s, k_sep k = Liberal s) /\ k_start k = 0%N.

Lemma alt_unique : forall k q q' w, valid_key k -> ~ lib0 k -> In q (rules_of k) -> In q' (rules_of k) ->
  ilang k q w -> ilang k q' w -> q = q'.
Proof.
  intros k q q' w HV HN Hq Hq' HI HI'. unfold rules_of in *.
  assert (HRs : forall a b, (exists n, in_range a (Some b) n /\ True) -> True) by auto. clear HRs.
  destruct (prog_view k HV) as [s HS|HS HE HL|HS HE HL|s HL HS|HP HS HE|HP HS HE|HP HS HE|e HP HS HE He|HP HS HE|HP HS HE|n HP HS HE];
    cbn [flat_map app In] in Hq, Hq'.
  - (* Liberal *)
    assert (HX : forall v, ilang k [ISub (with_sep k (Proper s))] v -> ilang k [ISub (with_sep k (Trailing s))] v -> False).
    { intros v A B. apply il_one in A. apply il_one in B.
      apply (proj1 (Sq_str (with_sep k (Proper s)) ltac:(intros ?; discriminate) _)) in A. apply (proj1 (Sq_str (with_sep k (Trailing s)) ltac:(intros ?; discriminate) _)) in B.
      cbn [with_sep k_start k_end k_rhs k_sep] in *. destruct A as [a [[A1 _] ->]]. destruct B as [b [[B1 _] B]].
      apply (f_equal (@length nat)) in B. rewrite !rep_len in B. apply HN. split; [eauto|]. lia. }
    destruct Hq as [<-|[<-|[]]]; destruct Hq' as [<-|[<-|[]]]; auto; exfalso; eapply HX; eauto.
  - destruct Hq as [<-|[]]; destruct Hq' as [<-|[]]; auto.
  - assert (HX : forall v, ilang k [] v -> ilang k [ISub (with_range k 1 (k_end k))] v -> False).
    { intros v A B. inversion A; subst. apply il_one in B. apply (proj1 (Sq_str (with_range k 1 (k_end k)) HL _)) in B.
      cbn [with_range k_start k_end k_rhs k_sep] in *. destruct B as [b [[B1 _] B]]. apply (f_equal (@length nat)) in B.
      rewrite rep_len in B. cbn [length] in B. destruct (k_sep k); lia. }
    destruct Hq as [<-|[<-|[]]]; destruct Hq' as [<-|[<-|[]]]; auto; exfalso; eapply HX; eauto.
  - destruct Hq as [<-|[]]; destruct Hq' as [<-|[]]; auto.
  - (* one or more *)
    assert (HX : forall v, ilang k [IS (k_rhs k)] v -> ilang k (ISelf :: sep_items (k_sep k) ++ [IS (k_rhs k)]) v -> False).
    { intros v A B. apply (il_syms k [k_rhs k]) in A. subst v. inversion B as [| |q1 v1 w1 B1 B2 X1 X2|]; subst.
      rewrite sep_items_map in B2. change [IS (k_rhs k)] with (map IS [k_rhs k]) in B2. rewrite <- map_app in B2. apply il_syms in B2.
      apply (proj1 (Sq_str k (plain_nl _ HP) _)) in B1. destruct B1 as [b [[B1 _] ->]]. apply (f_equal (@length nat)) in X2. rewrite B2, !app_length in X2.
      rewrite rep_len in X2. cbn [length] in X2. destruct (k_sep k); cbn in HP, X2; try contradiction; lia. }
    destruct Hq as [<-|[<-|[]]]; destruct Hq' as [<-|[<-|[]]]; auto; exfalso; eapply HX; eauto.
  - destruct Hq as [<-|[]]; destruct Hq' as [<-|[]]; auto.
  - (* 1..2 *)
    assert (HX : forall v, ilang k [ISub (both k 1 (k_sep k))] v -> ilang k [ISub (both k 2 (k_sep k))] v -> False).
    { intros v A B. apply il_one in A. apply il_one in B. pose proof (plain_nl _ HP) as HL.
      apply (proj1 (Sq_str (both k 1 (k_sep k)) HL _)) in A. apply (proj1 (Sq_str (both k 2 (k_sep k)) HL _)) in B.
      cbn [both k_start k_end k_rhs k_sep] in *. destruct A as [a [[A1 A2] ->]]. destruct B as [b [[B1 _] B]].
      specialize (A2 1%N eq_refl). apply rep_inj in B. lia. }
    destruct Hq as [<-|[<-|[]]]; destruct Hq' as [<-|[<-|[]]]; auto; exfalso; eapply HX; eauto.
  - (* 1..e *)
    assert (HX : forall v, ilang k [ISub (with_range k 1 (Some (half e)))] v ->
      ilang k [ISub (both k (half e) (prefix_separator (k_sep k))); ISub (with_range k 1 (Some (e - half e)%N))] v -> False).
    { intros v A B. apply il_one in A. apply il_two in B. destruct B as [u [z [-> [B C]]]]. pose proof (plain_nl _ HP) as HL.
      apply (proj1 (Sq_str (with_range k 1 (Some (half e))) HL _)) in A. apply (proj1 (Sq_str (with_range k 1 (Some (e - half e)%N)) HL _)) in C.
      apply (proj1 (Sq_str (both k (half e) (prefix_separator (k_sep k))) (prefix_nl _ HP) _)) in B.
      cbn [both with_range k_start k_end k_rhs k_sep] in *. destruct A as [a [[A1 A2] A]]. destruct B as [b [[B1 _] ->]].
      destruct C as [c [[C1 _] ->]]. specialize (A2 _ eq_refl). rewrite rep_join in A by (auto; lia). apply rep_inj in A. lia. }
    destruct Hq as [<-|[<-|[]]]; destruct Hq' as [<-|[<-|[]]]; auto; exfalso; eapply HX; eauto.
  - destruct Hq as [<-|[]]; destruct Hq' as [<-|[]]; auto.
  - destruct Hq as [<-|[]]; destruct Hq' as [<-|[]]; auto.
  - destruct Hq as [<-|[]]; destruct Hq' as [<-|[]]; auto.
Qed.

Lemma recs_not_liberal : forall k k', valid_key k -> In k' (recs_of k) -> forall s, k_sep k' <> Liberal s.
Proof.
  intros k k' HV Hk. unfold recs_of in Hk.
  destruct (prog_view k HV) as [s HS|HS HE HL|HS HE HL|s HL HS|HP HS HE|HP HS HE|HP HS HE|e HP HS HE He|HP HS HE|HP HS HE|n HP HS HE];
    cbn [flat_map app In] in Hk; repeat (destruct Hk as [<-|Hk]; [|]); try contradiction;
    cbn [with_sep with_range both k_sep]; auto; try discriminate; auto using plain_nl, prefix_nl.
Qed.

(** Encoded, the alternatives of a symbol are different, too. *)
Lemma rules_nodup : forall k M s, valid_key k -> NoDup (map fst M) -> NoDup (map snd M) ->
  (forall k', In k' (recs_of k) -> In k' (map fst M)) -> NoDup (map (map (enc_item M s)) (rules_of k)).
Proof.
  intros k M s HV HK HS HR.
  assert (HE : forall a b, In a (recs_of k) -> In b (recs_of k) -> a <> b -> enc_item M s (ISub a) <> enc_item M s (ISub b)).
  { intros a b Ha Hb HN E. apply HR in Ha. apply HR in Hb. apply in_map_iff in Ha. apply in_map_iff in Hb.
    destruct Ha as [[a' x] [Ea Ha]]. destruct Hb as [[b' y] [Eb Hb]]. cbn [fst] in *. subst a' b'. cbn [enc_item] in E.
    rewrite (lookup_in _ _ _ HK Ha), (lookup_in _ _ _ HK Hb) in E. subst y. apply HN.
    assert (HI : forall l, NoDup (map snd l) -> In (a, x) l -> In (b, x) l -> a = b).
    { clear. induction l as [|[c z] l IH]; [intros _ []|]. intros HN Ha Hb. inversion HN as [|? ? N1 N2]; subst. cbn [snd] in *.
      destruct Ha as [Ha|Ha]; destruct Hb as [Hb|Hb].
      - congruence.
      - injection Ha as -> ->. exfalso. apply N1. change x with (snd (b, x)). apply in_map. auto.
      - injection Hb as -> ->. exfalso. apply N1. change x with (snd (a, x)). apply in_map. auto.
      - auto. }
    eauto. }
  unfold rules_of, recs_of in *.
  destruct (prog_view k HV) as [x HX|HX HY HL|HX HY HL|x HL HX|HP HX HY|HP HX HY|HP HX HY|e HP HX HY He|HP HX HY|HP HX HY|n HP HX HY];
    cbn [flat_map app map] in *.
  all: try (constructor; [intros []|constructor]; fail).
  - constructor; [|constructor; [intros []|constructor]]. intros [E|[]]. injection E as E. symmetry in E. revert E. apply HE; simpl; auto.
    intros E. discriminate E.
  - constructor; [|constructor; [intros []|constructor]]. intros [E|[]]. discriminate E.
  - constructor; [|constructor; [intros []|constructor]]. intros [E|[]]. apply (f_equal (@length nat)) in E.
    cbn [length map] in E. rewrite map_length, app_length in E. cbn [length] in E. lia.
  - constructor; [|constructor; [intros []|constructor]]. intros [E|[]]. injection E as E. symmetry in E. revert E. apply HE; simpl; auto.
    intros E. discriminate E.
  - constructor; [|constructor; [intros []|constructor]]. intros [E|[]]. discriminate E.
Qed.
