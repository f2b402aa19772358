(** FOLLOW sets. *)

From Coq Require Import List Arith NArith Bool Lia Sorted Permutation.
From Verif Require Import Base ListFacts Spec GrammarFacts LoopModel LoopFacts HistoryModel CfgModel View
  BitSetModel SetView SetProof CfgProof2 SetsModel SpecPredict SetsProof.
Import ListNotations.
Local Notation length := List.length.

Lemma begins_cons : forall P s u t, begins P (s :: u) t <-> begins P [s] t \/ (nullable P s /\ begins P u t).
Proof.
  intros P s u t. split.
  - intros [HT [v D]]. apply derives_cons_inv in D. destruct D as [w1 [w2 [E [D1 D2]]]].
    destruct w1 as [|a w1]; simpl in E.
    + right. split; auto. split; auto. exists v. rewrite E. auto.
    + injection E as <- _. left. split; auto. exists w1; auto.
  - intros [[HT [v D]]|[HN [HT [v D]]]].
    + split; auto. exists (v ++ u). apply (derives_cons P s u (t :: v) u); auto. constructor.
    + split; auto. exists v. apply (derives_cons P s u [] (t :: v)); auto.
Qed.

Lemma begins_nil : forall P t, ~ begins P [] t.
Proof. intros P t [_ [v D]]. apply derives_nil_inv in D. discriminate. Qed.

Lemma begins_terminal : forall P s t, terminal P s -> (begins P [s] t <-> t = s).
Proof.
  intros P s t HT. split.
  - intros [_ [v D]]. apply derives_terminal_inv in D; [|constructor; auto]. congruence.
  - intros ->. split; auto. exists []. constructor.
Qed.

Lemma terminal_not_nullable : forall P s, terminal P s -> ~ nullable P s.
Proof. intros P s HT D. apply derives_terminal_inv in D; [discriminate|constructor; auto]. Qed.

Lemma nil_cons : forall P s u, derives P (s :: u) [] <-> nullable P s /\ derives P u [].
Proof.
  intros P s u. split.
  - intros D. apply derives_cons_inv in D. destruct D as [w1 [w2 [E [D1 D2]]]].
    symmetry in E. apply app_eq_nil in E. destruct E as [-> ->]. auto.
  - intros [A B]. apply (derives_cons P s u [] []); auto.
Qed.

Section Follow.
  Context (g : cfg) (b : bitset) (F : set_map).
  Context (HC : closed_rules g) (LB : length b = num_syms g).
  Context (HB : forall s, member b s <-> s < num_syms g /\ terminal (prods g) s).
  Let n := num_syms g.
  Let P := prods g.
  Context (HFirst : forall A, nonterminal P A -> exists v, map_get F A = Some v /\
     (forall t, In t (set_list v) <-> begins P [A] t) /\ (has_none v = true <-> nullable P A)).

  Record follow_inv (m : set_map) : Prop := {
    fo_sorted : forall s, StronglySorted lt (set_list (map_entry m s));
    fo_sound : forall s t, In t (set_list (map_entry m s)) -> t < n /\ follows P s t;
    fo_none : forall s, has_none (map_entry m s) = has_none (map_entry (follow_init g) s);
    fo_keys : forall s, map_get m s <> None <-> nonterminal P s
  }.

  Lemma begins_below : forall u t, Forall (fun s => s < n) u -> begins P u t -> t < n.
  Proof.
    intros u t HU [_ [v D]].
    assert (HF : Forall (fun s => s < n) (t :: v)).
    { eapply derives_Forall; [|exact D|auto]. intros B q [x [Hx [<- <-]]] _. apply (HC x Hx). }
    inversion HF; auto.
  Qed.

  (** What the set contains for each symbol of a right-hand side [a]; [F0] is the set of the left-hand
      side. *)
  Definition follow_closed (V : nat -> set_val) (F0 : nat -> Prop) (a c : list nat) : Prop :=
    forall a1 A a2, a = a1 ++ A :: a2 -> nonterminal P A ->
    forall t, begins P (a2 ++ c) t \/ (derives P (a2 ++ c) [] /\ F0 t) -> In t (set_list (V A)).

  Lemma follow_symbols : forall x (F0 : nat -> Prop), In x (rules g) -> (forall t, F0 t -> t < n /\ follows P (lhs x) t) ->
    forall l c m fs ch, rhs x = rev l ++ c -> follow_inv m ->
    (forall t, In t (set_list fs) <-> begins P c t \/ (derives P c [] /\ F0 t)) ->
    exists m' fs' ch', fold_res (follow_symbol b F) l (m, fs, ch) = Ok (m', fs', ch') /\ follow_inv m' /\
      total g m <= total g m' /\
      (ch' = false -> ch = false /\ same_sets (map_entry m) (map_entry m') /\
                      follow_closed (map_entry m') F0 (rev l) c) /\
      (ch' = true -> ch = true \/ total g m < total g m').
  Proof.
    intros x F0 Hx HF0. destruct (HC x Hx) as [HL HR]. fold n in HL, HR.
    assert (HP : P (lhs x) (rhs x)) by (exists x; auto).
    induction l as [|s l IH]; intros c m fs ch EX I HFS; cbn [fold_res].
    - exists m, fs, ch. split; auto. split; auto. split; auto. split; auto. intros ->. split; auto.
      split; [apply same_sets_refl|]. intros a1 A a2 E. destruct a1; discriminate.
    - cbn [rev] in EX |- *. rewrite <- app_assoc in EX. cbn [app] in EX.
      assert (HS : s < n).
      { rewrite EX in HR. apply Forall_app in HR. destruct HR as [_ HR]. inversion HR; auto. }
      assert (Hc : Forall (fun s => s < n) c).
      { rewrite EX in HR. apply Forall_app in HR. destruct HR as [_ HR]. inversion HR; auto. }
      set (k := fold_res (follow_symbol b F)) in *. unfold follow_symbol. destruct (bs_get_ok b s) as [t [ET HT]]; [rewrite LB; auto|].
      rewrite ET. cbn [bind]. destruct t.
      + assert (HTs : terminal P s) by (apply HB, HT; auto). cbn [bind].
        destruct (IH (s :: c) m (mkSet false [s]) ch EX I) as [m' [fs' [ch' [E [I' [L [C1 C2]]]]]]].
        * intros t. cbn [set_list]. rewrite begins_cons, begins_terminal by auto. rewrite nil_cons. split.
          -- intros [<-|[]]; auto.
          -- intros [[->|[X _]]|[[X _] _]]; [left; auto| |]; exfalso; eapply terminal_not_nullable; eauto.
        * exists m', fs', ch'. split; auto. split; auto. split; auto. split; auto. intros E'.
          destruct (C1 E') as [-> [HSS HCl]]. split; auto. split; auto. intros a1 A a2 EA HA t Ht.
          destruct a2 as [|z a2 _] using rev_ind.
          -- apply app_inj_tail in EA. destruct EA as [_ ->]. destruct HA as [r HA]. exfalso. eapply HTs; eauto.
          -- rewrite app_comm_cons, app_assoc in EA. apply app_inj_tail in EA. destruct EA as [EA ->].
             apply (HCl a1 A a2); auto. rewrite <- app_assoc in Ht. exact Ht.
      + assert (HNT : nonterminal P s).
        { destruct (nonterminal_dec g s) as [X|X]; auto. exfalso. apply terminal_not_nonterminal in X.
          assert (member b s) by (apply HB; auto). apply HT in H. discriminate. }
        destruct (map_get m s) as [fd|] eqn:EG; [|exfalso; apply (proj2 (fo_keys _ I s) HNT); auto].
        destruct (HFirst s HNT) as [v [EV [V1 V2]]]. rewrite EV. cbn [bind].
        assert (EE : map_entry m s = fd) by (unfold map_entry; rewrite EG; auto).
        pose proof (grow fd false (set_list fs)) as G. rewrite orb_false_r in G.
        destruct G as [G1 G2]; [rewrite <- EE; apply (fo_sorted _ I)|].
        set (new := mkSet (has_none fd) (sort_dedup (set_list fd ++ set_list fs))) in *.
        set (m1 := map_put m s new).
        assert (Hle : forall s', set_len (map_entry m s') <= set_len (map_entry m1 s')).
        { intros s'. unfold m1. rewrite map_entry_put. destruct (Nat.eqb_spec s s') as [<-|]; auto. rewrite EE. auto. }
        assert (I1 : follow_inv m1).
        { constructor.
          - intros s'. unfold m1. rewrite map_entry_put. destruct (s =? s'); [apply sort_dedup_sorted|apply (fo_sorted _ I)].
          - intros s' t. unfold m1. rewrite map_entry_put. destruct (Nat.eqb_spec s s') as [<-|]; [|apply (fo_sound _ I)].
            unfold new. cbn [set_list]. rewrite sort_dedup_In, in_app_iff, HFS. intros [H|[H|[Hd H]]].
            + apply (fo_sound _ I). rewrite EE. auto.
            + split; [eapply begins_below; eauto|]. destruct H as [H1 [w D]]. split; auto.
              exists (lhs x), (rev l), w. eapply derives_rule_then; [exact HP|]. rewrite EX.
              apply derives_app; [constructor|]. apply derives_cons_same. auto.
            + destruct (HF0 t H) as [A [B [C [u [w D]]]]]. split; auto. split; auto.
              exists C, (u ++ rev l), w. rewrite <- app_assoc. eapply derives_trans; [exact D|].
              apply derives_app; [constructor|]. apply (derives_step P [] (lhs x) (t :: w) (rhs x)); [exact HP|].
              rewrite EX. cbn [app]. rewrite <- app_assoc. apply derives_app; [constructor|]. cbn [app].
              apply derives_cons_same. apply (derives_app P c (t :: w) [] (t :: w)); auto. constructor.
          - intros s'. unfold m1. rewrite map_entry_put. destruct (Nat.eqb_spec s s') as [<-|]; [|apply (fo_none _ I)].
            unfold new. cbn [has_none]. rewrite <- EE. apply (fo_none _ I).
          - intros s'. unfold m1. rewrite map_get_put. destruct (Nat.eqb_spec s s') as [<-|]; [|apply (fo_keys _ I)].
            split; auto. discriminate. }
        set (fs1 := mkSet _ (_ ++ set_list v)).
        assert (HFS1 : forall t, In t (set_list fs1) <-> begins P (s :: c) t \/ (derives P (s :: c) [] /\ F0 t)).
        { intros t. unfold fs1. cbn [set_list]. rewrite in_app_iff, V1, (begins_cons P s c), nil_cons.
          destruct (has_none v) eqn:EN.
          - rewrite HFS. assert (nullable P s) by (apply V2; auto). tauto.
          - cbn [set_new set_list]. assert (~ nullable P s) by (rewrite <- V2; discriminate). simpl. tauto. }
        destruct (IH (s :: c) m1 fs1 (ch || negb (set_len fd =? set_len new)) EX I1 HFS1)
          as [m' [fs' [ch' [E [I' [L [C1 C2]]]]]]].
        exists m', fs', ch'. split; auto. split; auto.
        assert (Hle' : total g m <= total g m1) by (apply sum_le; auto).
        split; [lia|]. split.
        * intros E'. destruct (C1 E') as [Ec [HSS HCl]]. apply orb_false_iff in Ec. destruct Ec as [-> Ec].
          apply negb_false_iff, Nat.eqb_eq in Ec. destruct (G2 Ec) as [_ N2]. split; auto.
          assert (HS1 : same_sets (map_entry m) (map_entry m1)).
          { intros s'. unfold m1. rewrite map_entry_put. destruct (Nat.eqb_spec s s') as [<-|]; [|split; auto; tauto].
            rewrite EE. unfold new. cbn [has_none set_list]. split; auto. intros t. rewrite sort_dedup_In, in_app_iff.
            split; auto. intros [H|H]; auto. }
          split; [eapply same_sets_trans; eauto|]. intros a1 A a2 EA HA t Ht.
          destruct a2 as [|z a2 _] using rev_ind.
          -- apply app_inj_tail in EA. destruct EA as [_ <-]. cbn [app] in Ht. apply HSS, HS1. rewrite EE.
             apply N2. apply HFS. auto.
          -- rewrite app_comm_cons, app_assoc in EA. apply app_inj_tail in EA. destruct EA as [EA <-].
             apply (HCl a1 A a2); auto. rewrite <- app_assoc in Ht. exact Ht.
        * intros E'. destruct (C2 E') as [H|H]; [|right; lia]. apply orb_true_iff in H.
          destruct H as [H|H]; auto. right. apply negb_true_iff, Nat.eqb_neq in H.
          apply Nat.lt_le_trans with (total g m1); auto. apply sum_lt with s; auto.
          unfold m1. rewrite map_entry_put, Nat.eqb_refl, EE. lia.
  Qed.

  Definition follow_rule_closed (V : nat -> set_val) (x : rule) : Prop :=
    follow_closed V (fun t => In t (set_list (V (lhs x)))) (rhs x) [].

  Lemma follow_rule_closed_same : forall V V' x, same_sets V V' -> follow_rule_closed V x -> follow_rule_closed V' x.
  Proof.
    intros V V' x H HF a1 A a2 E HA t Ht. apply H. apply (HF a1 A a2); auto.
    destruct Ht as [Ht|[D Ht]]; auto. right. split; auto. apply H. auto.
  Qed.

  Lemma follow_rule_spec : forall m ch x, In x (rules g) -> follow_inv m ->
    exists m' ch', follow_rule b F (m, ch) x = Ok (m', ch') /\ follow_inv m' /\ total g m <= total g m' /\
      (ch' = false -> ch = false /\ same_sets (map_entry m) (map_entry m') /\ follow_rule_closed (map_entry m') x) /\
      (ch' = true -> ch = true \/ total g m < total g m').
  Proof.
    intros m ch x Hx I. unfold follow_rule.
    destruct (map_get m (lhs x)) as [fs|] eqn:EG.
    2: { exfalso. apply (proj2 (fo_keys _ I (lhs x))); auto. exists (rhs x), x. auto. }
    assert (EE : map_entry m (lhs x) = fs) by (unfold map_entry; rewrite EG; auto).
    destruct (follow_symbols x (fun t => In t (set_list fs)) Hx) with (l := rev (rhs x)) (c := @nil nat) (m := m) (fs := fs) (ch := ch)
      as [m' [fs' [ch' [E [I' [L [C1 C2]]]]]]]; auto.
    - intros t Ht. apply (fo_sound _ I). rewrite EE. auto.
    - rewrite rev_involutive, app_nil_r. auto.
    - intros t. split; [intros H; right; split; auto; constructor|]. intros [H|[_ H]]; auto. exfalso. eapply begins_nil; eauto.
    - rewrite E. cbn [bind fst]. exists m', ch'. split; auto. split; auto. split; auto. split; auto.
      intros E'. destruct (C1 E') as [-> [HSS HCl]]. split; auto. split; auto. rewrite rev_involutive in HCl.
      intros a1 A a2 EA HA t Ht. apply (HCl a1 A a2); auto. destruct Ht as [Ht|[D Ht]]; auto. right. split; auto.
      rewrite <- EE. apply HSS. auto.
  Qed.

  Lemma follow_pass : forall l m ch, incl l (rules g) -> follow_inv m ->
    exists m' ch', fold_res (follow_rule b F) l (m, ch) = Ok (m', ch') /\ follow_inv m' /\ total g m <= total g m' /\
      (ch' = false -> ch = false /\ same_sets (map_entry m) (map_entry m') /\
                      forall x, In x l -> follow_rule_closed (map_entry m') x) /\
      (ch' = true -> ch = true \/ total g m < total g m').
  Proof.
    induction l as [|x l IH]; intros m ch Hl I; cbn [fold_res].
    - exists m, ch. split; auto. split; auto. split; auto. split; auto.
      intros ->. split; auto. split; [apply same_sets_refl|]. intros x [].
    - destruct (follow_rule_spec m ch x) as [m1 [ch1 [E1 [I1 [L1 [F1 T1]]]]]]; auto; [apply Hl; left; auto|].
      rewrite E1. cbn [bind].
      destruct (IH m1 ch1) as [m2 [ch2 [E2 [I2 [L2 [F2 T2]]]]]]; auto; [intros y Hy; apply Hl; right; auto|].
      exists m2, ch2. split; auto. split; auto. split; [|split].
      + lia.
      + intros E. destruct (F2 E) as [-> [S2 R2]]. destruct (F1 eq_refl) as [-> [S1 R1]]. split; auto.
        split; [eapply same_sets_trans; eauto|]. intros y [<-|Hy]; auto.
        eapply follow_rule_closed_same; eauto.
      + intros E. destruct (T2 E) as [->|H]; [|right; lia]. destruct (T1 eq_refl); [auto|right; lia].
  Qed.

  Lemma follow_total_bound : forall m, follow_inv m -> total g m <= n * (n + 1).
  Proof.
    intros m I. apply sum_bound. intros s _. unfold set_len.
    assert (length (set_list (map_entry m s)) <= n).
    { apply sorted_below; [apply (fo_sorted _ I)|]. intros x Hx. apply (fo_sound _ I _ _ Hx). }
    destruct (has_none _); simpl; lia.
  Qed.

  Lemma follow_init_from : forall l m s,
    let m' := fold_left (fun m r =>
      let follow_set := map_entry m (lhs r) in
      map_put m (lhs r) (if mem (lhs r) (roots g) then mkSet true (set_list follow_set) else follow_set)) l m in
    (map_get m' s <> None <-> map_get m s <> None \/ In s (map lhs l)) /\
    set_list (map_entry m' s) = set_list (map_entry m s) /\
    (has_none (map_entry m' s) = true <-> has_none (map_entry m s) = true \/ (In s (map lhs l) /\ In s (roots g))).
  Proof.
    induction l as [|x l IH]; intros m s; cbn [fold_left].
    - simpl. split; [tauto|]. split; auto. tauto.
    - cbn zeta in IH |- *. set (m1 := map_put _ _ _ : set_map). destruct (IH m1 s) as [A [B C]].
      rewrite A, B, C. unfold m1. rewrite map_get_put, map_entry_put. cbn [map In].
      destruct (Nat.eqb_spec (lhs x) s) as [<-|Hn].
      + split; [split; auto; intros _; left; discriminate|]. destruct (mem (lhs x) (roots g)) eqn:EM; cbn [set_list has_none].
        * apply mem_In in EM. split; auto. split; auto.
        * apply mem_not_In in EM. split; auto. split; tauto.
      + split; [tauto|]. split; auto. tauto.
  Qed.

  Lemma follow_init_spec : forall s,
    (map_get (follow_init g) s <> None <-> nonterminal P s) /\
    set_list (map_entry (follow_init g) s) = [] /\
    (has_none (map_entry (follow_init g) s) = true <-> nonterminal P s /\ In s (roots g)).
  Proof.
    intros s. destruct (follow_init_from (rules g) [] s) as [A [B C]]. cbn zeta in A, B, C.
    fold (follow_init g) in A, B, C.
    assert (HN : In s (map lhs (rules g)) <-> nonterminal P s).
    { rewrite in_map_iff. split.
      - intros [x [<- Hx]]. exists (rhs x), x. auto.
      - intros [r [x [Hx [<- _]]]]. exists x; auto. }
    rewrite A, B, C, HN. simpl. split; [split; [intros [H|H]; [congruence|auto]|auto]|]. split; auto.
    split; [intros [H|H]; [discriminate|auto]|auto].
  Qed.

  Lemma follow_inv_init : follow_inv (follow_init g).
  Proof.
    constructor.
    - intros s. destruct (follow_init_spec s) as [_ [-> _]]. constructor.
    - intros s t. destruct (follow_init_spec s) as [_ [-> _]]. intros [].
    - auto.
    - intros s. apply follow_init_spec.
  Qed.

  Lemma follow_complete : forall V, (forall x, In x (rules g) -> follow_rule_closed V x) ->
    forall x w, derives P x w ->
    (forall u A v t, x = u ++ A :: v -> nonterminal P A -> begins P v t -> In t (set_list (V A))) ->
    forall u A v t, w = u ++ A :: v -> nonterminal P A -> begins P v t -> In t (set_list (V A)).
  Proof.
    intros V HV x w D. induction D as [|x B y r w HP D IH]; intros HG; auto.
    apply IH. clear IH D. intros u A v t E HA Ht.
    apply app_cons_split in E. destruct E as [[z [-> ->]]|[z [-> E]]].
    - (* left of the replaced symbol *)
      apply (HG u A (z ++ B :: y) t); auto; [rewrite <- app_assoc; auto|].
      destruct Ht as [HT [q Dq]]. split; auto. exists q. eapply derives_trans; [|exact Dq].
      apply derives_step with r; auto. constructor.
    - apply app_cons_split in E. destruct E as [[z' [-> ->]]|[z' [-> ->]]].
      + (* inside of the right-hand side *)
        destruct HP as [X [HX [<- EX]]]. apply (HV X HX z A z'); auto. rewrite app_nil_r.
        destruct Ht as [HT [q Dq]]. apply derives_app_inv in Dq. destruct Dq as [w1 [w2 [Ew [D1 D2]]]].
        destruct w1 as [|a w1]; simpl in Ew.
        * right. split; auto. apply (HG x (lhs X) y t); auto; [exists (rhs X), X; auto|]. split; auto. exists q. rewrite Ew; auto.
        * left. injection Ew as <- _. split; auto. exists w1; auto.
      + (* right of it *)
        apply (HG (x ++ B :: z') A v t); auto. rewrite <- app_assoc. auto.
  Qed.

  Lemma follow_loop_spec : exists m, run_loop (follow_step b F (rules g)) (2 * n + 2) (follow_init g) = Ok m /\
    follow_inv m /\ (forall x, In x (rules g) -> follow_rule_closed (map_entry m) x).
  Proof.
    destruct (iter_pow_ends (follow_step b F (rules g)) follow_inv (fun m => N.of_nat (n * (n + 1) - total g m)))
      with (p := 2 * n + 2) (s := follow_init g) as [m [r [I [E1 E2]]]].
    - intros m m' I E. unfold follow_step in E.
      destruct (follow_pass (rules g) m false) as [m1 [ch1 [E1 [I1 [L1 [_ T1]]]]]]; auto; [apply incl_refl|].
      rewrite E1 in E. destruct ch1; [|discriminate]. injection E as <-. split; auto.
      destruct (T1 eq_refl) as [H|H]; [discriminate|]. pose proof (follow_total_bound _ I1). lia.
    - apply follow_inv_init.
    - apply fuel_enough. lia.
    - unfold run_loop. rewrite E2. unfold follow_step in E1.
      destruct (follow_pass (rules g) m false) as [m1 [ch1 [E3 [I1 [_ [F1 _]]]]]]; auto; [apply incl_refl|].
      rewrite E3 in E1. destruct ch1; [discriminate|]. injection E1 as <-. exists m1. split; auto. split; auto.
      destruct (F1 eq_refl) as [_ [_ R]]. auto.
  Qed.
End Follow.

(** FOLLOW from any exact FIRST sets. *)
Theorem follow_sets_spec : forall g, closed_rules g -> exists m, follow_sets g = Ok m /\
  (forall A, map_get m A <> None <-> nonterminal (prods g) A) /\
  forall A v, map_get m A = Some v ->
    StronglySorted lt (set_list v) /\
    (forall t, In t (set_list v) <-> follows (prods g) A t) /\
    (has_none v = true <-> In A (roots g)).
Proof.
  intros g HC. destruct (bs_terminal_spec g HC) as [b [E [L M]]].
  destruct (first_sets_spec g HC) as [f [EF [_ [_ [KF VF]]]]].
  assert (HFirst : forall A, nonterminal (prods g) A -> exists v, map_get (fs_map f) A = Some v /\
     (forall t, In t (set_list v) <-> begins (prods g) [A] t) /\ (has_none v = true <-> nullable (prods g) A)).
  { intros A HA. destruct (map_get (fs_map f) A) as [v|] eqn:EV.
    - exists v. split; auto. destruct (VF A v EV) as [_ [X Y]]. auto.
    - exfalso. apply (proj2 (KF A) HA); auto. }
  destruct (follow_loop_spec g b (fs_map f) HC L M HFirst) as [m [EM [I R]]].
  exists m. unfold follow_sets. rewrite EF. cbn [bind]. unfold follow_sets_new, terminal_symbols. rewrite E. cbn [bind].
  split; auto. split; [apply (fo_keys _ _ I)|].
  intros A v EV. assert (HA : nonterminal (prods g) A) by (apply (fo_keys _ _ I); congruence).
  assert (EE : map_entry m A = v) by (unfold map_entry; rewrite EV; auto). rewrite <- EE.
  split; [apply (fo_sorted _ _ I)|]. split.
  - intros t. split; [intros H; apply (fo_sound _ _ I); auto|]. intros [HT [C [u [w D]]]].
    eapply (follow_complete g (map_entry m) R) with (1 := D); [| reflexivity | auto |].
    + intros u' A' v' t' E' _ Ht'. destruct u' as [|a u']; [injection E' as _ <-; exfalso; eapply begins_nil; eauto|].
      injection E' as _ E'. destruct u'; discriminate.
    + split; auto. exists w. constructor.
  - rewrite (fo_none _ _ I). destruct (follow_init_spec g A) as [_ [_ ->]]. tauto.
Qed.
