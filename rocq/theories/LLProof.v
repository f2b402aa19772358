(** LL(1) parse tables. *)

From Coq Require Import List Arith NArith Bool Lia Sorted Permutation.
From Verif Require Import Base ListFacts Spec GrammarFacts LoopModel HistoryModel SymbolModel CfgModel View
  BitSetModel SetView SetProof CfgProof2 ClosureModel SetsModel SpecPredict SetsProof FollowProof LLModel.
Import ListNotations.
Local Notation length := List.length.

(** * Ordered keys *)
Lemma map_put_keys : forall {V} (m : list (nat * V)) s v k, In k (map fst (map_put m s v)) <-> k = s \/ In k (map fst m).
Proof.
  intros V m s v k. induction m as [|[k' w] m IH]; cbn [map_put map fst In]; [split; intros [H|H]; auto|].
  destruct (Nat.compare_spec s k') as [->|H|H]; cbn [map fst In]; rewrite ?IH; split; intros X; intuition.
Qed.

Lemma map_put_sorted : forall {V} (m : list (nat * V)) s v, StronglySorted lt (map fst m) ->
  StronglySorted lt (map fst (map_put m s v)).
Proof.
  intros V m s v H. induction m as [|[k w] m IH]; cbn [map_put map fst]; [repeat constructor|].
  cbn [map fst] in H. inversion H as [|? ? H1 H2]; subst.
  destruct (Nat.compare_spec s k) as [->|HL|HL]; cbn [map fst]; auto.
  - constructor; auto. constructor; auto. eapply Forall_impl; [|exact H2]. simpl. intros; lia.
  - constructor; auto. apply Forall_forall. intros x Hx. apply map_put_keys in Hx.
    destruct Hx as [->|Hx]; auto. apply (proj1 (Forall_forall _ _) H2 x Hx).
Qed.

Lemma map_get_In : forall {V} (m : list (nat * V)) s v, NoDup (map fst m) -> (In (s, v) m <-> map_get m s = Some v).
Proof.
  intros V m s v H. induction m as [|[k w] m IH]; cbn [map_get In]; [split; [tauto|discriminate]|].
  cbn [map fst] in H. inversion H as [|? ? H1 H2]; subst. specialize (IH H2). destruct (Nat.eqb_spec k s) as [->|Hn].
  - split.
    + intros [E|Hi]; [congruence|]. exfalso. apply H1. apply (in_map fst) in Hi. exact Hi.
    + intros E. left. congruence.
  - rewrite <- IH. split; auto. intros [E|Hi]; auto. congruence.
Qed.

(** * The table *)
Fixpoint ll_entry (m : ll_table) (k : nat * nat) : list nat :=
  match m with
  | [] => []
  | (k', l) :: m' => match key_compare k k' with Eq => l | _ => ll_entry m' k end
  end.

Lemma key_compare_eq : forall a b, key_compare a b = Eq <-> a = b.
Proof.
  intros [a1 a2] [b1 b2]. unfold key_compare. cbn [fst snd].
  destruct (Nat.compare_spec a1 b1) as [->|H|H].
  - rewrite Nat.compare_eq_iff. split; intros; congruence.
  - split; intros E; [discriminate|]. injection E as -> ->. lia.
  - split; intros E; [discriminate|]. injection E as -> ->. lia.
Qed.

Definition key_lt (a b : nat * nat) : Prop := key_compare a b = Lt.

Lemma key_compare_opp : forall a b, key_compare b a = CompOpp (key_compare a b).
Proof.
  intros [a1 a2] [b1 b2]. unfold key_compare. cbn [fst snd]. rewrite (Nat.compare_antisym a1 b1).
  destruct (a1 ?= b1); simpl; auto. apply Nat.compare_antisym.
Qed.

Lemma key_lt_iff : forall a b, key_lt a b <-> fst a < fst b \/ (fst a = fst b /\ snd a < snd b).
Proof.
  intros [a1 a2] [b1 b2]. unfold key_lt, key_compare. cbn [fst snd].
  destruct (Nat.compare_spec a1 b1) as [->|H|H].
  - rewrite Nat.compare_lt_iff. lia.
  - split; auto.
  - split; [discriminate|lia].
Qed.


Lemma ll_push_spec : forall m k i, StronglySorted key_lt (map fst m) ->
  StronglySorted key_lt (map fst (ll_push m k i)) /\
  (forall k', In k' (map fst (ll_push m k i)) <-> k' = k \/ In k' (map fst m)) /\
  forall k', ll_entry (ll_push m k i) k' = match key_compare k' k with Eq => ll_entry m k' ++ [i] | _ => ll_entry m k' end.
Proof.
  induction m as [|[k0 l] m IH]; intros k i HS; cbn [ll_push map fst ll_entry].
  - split; [repeat constructor|]. split; [intros k'; simpl; intuition|]. intros k'. destruct (key_compare k' k); auto.
  - cbn [map fst] in HS. inversion HS as [|? ? H1 H2]; subst. destruct (IH k i H1) as [I1 [I2 I3]].
    destruct (key_compare k k0) eqn:EC; cbn [map fst ll_entry In].
    + apply key_compare_eq in EC. subst k0. split; auto. split; [intros k'; intuition|].
      intros k'. destruct (key_compare k' k) eqn:E; auto.
    + split; [constructor; auto; constructor; auto|split; [intros k'; intuition|]].
      * eapply Forall_impl; [|exact H2]. intros a Ha. apply key_lt_iff in Ha. assert (X : key_lt k k0) by exact EC.
        apply key_lt_iff in X. apply key_lt_iff. lia.
      * intros k'. destruct (key_compare k' k) eqn:E; auto. apply key_compare_eq in E. subst k'.
        rewrite EC. assert (HN : ll_entry m k = []).
        { clear -H2 EC. induction m as [|[k1 l1] m IH]; auto. cbn [map fst] in H2. inversion H2 as [|? ? A B]; subst.
          cbn [ll_entry]. assert (X : key_lt k k0) by exact EC. apply key_lt_iff in X. apply key_lt_iff in A.
          assert (Y : key_lt k k1) by (apply key_lt_iff; lia). unfold key_lt in Y. rewrite Y. auto. }
        rewrite HN. auto.
    + split; [|split].
      * constructor; auto. apply Forall_forall. intros x Hx. apply I2 in Hx. destruct Hx as [->|Hx].
        -- red. rewrite key_compare_opp, EC. auto.
        -- apply (proj1 (Forall_forall _ _) H2 x Hx).
      * intros k'. rewrite I2. intuition.
      * intros k'. rewrite I3. destruct (key_compare k' k0) eqn:E; auto. apply key_compare_eq in E. subst k'.
        rewrite key_compare_opp, EC. auto.
Qed.

Lemma ll_entry_In : forall m k l, StronglySorted key_lt (map fst m) -> In (k, l) m -> ll_entry m k = l.
Proof.
  induction m as [|[k0 l0] m IH]; intros k l HS H; [destruct H|].
  cbn [ll_entry]. cbn [map fst] in HS. inversion HS as [|? ? H1 H2]; subst. destruct H as [E|Hi].
  - injection E as -> ->. replace (key_compare k k) with Eq; auto. symmetry. apply key_compare_eq; auto.
  - destruct (key_compare k k0) eqn:E; auto. apply key_compare_eq in E. subst k0. exfalso.
    apply (in_map fst) in Hi. apply (proj1 (Forall_forall _ _) H2) in Hi. unfold key_lt in Hi. cbn [fst] in Hi.
    assert (key_compare k k = Eq) by (apply key_compare_eq; auto). congruence.
Qed.

Lemma ll_entry_key : forall m k, (forall k, In k (map fst m) -> ll_entry m k <> []) ->
  (In k (map fst m) <-> ll_entry m k <> []).
Proof.
  intros m k H. split; auto. clear H. induction m as [|[k0 l] m IH]; cbn [ll_entry map fst In]; [congruence|].
  destruct (key_compare k k0) eqn:E; auto. apply key_compare_eq in E. auto.
Qed.

(** Pushes for a list of terminals. *)
Lemma ll_pushes : forall l A i m, StronglySorted key_lt (map fst m) -> NoDup l ->
  let m' := fold_left (fun m t => ll_push m (A, t) i) l m in
  StronglySorted key_lt (map fst m') /\
  (forall k', In k' (map fst m') <-> (fst k' = A /\ In (snd k') l) \/ In k' (map fst m)) /\
  forall B t, ll_entry m' (B, t) = ll_entry m (B, t) ++ (if (B =? A) && mem t l then [i] else []).
Proof.
  induction l as [|a l IH]; intros A i m HS HN; cbn [fold_left].
  - cbn zeta. split; auto. split; [intros k'; simpl; intuition|]. intros B t. simpl. rewrite andb_false_r, app_nil_r. auto.
  - inversion HN as [|? ? Ha HN']; subst. destruct (ll_push_spec m (A, a) i HS) as [P1 [P2 P3]].
    destruct (IH A i (ll_push m (A, a) i) P1 HN') as [Q1 [Q2 Q3]]. cbn zeta in *. split; auto. split.
    + intros [B t]. rewrite Q2, P2. cbn [fst snd In]. split.
      * intros [[-> H]|[E|H]]; auto. injection E as -> ->. auto.
      * intros [[-> [->|H]]|H]; auto.
    + intros B t. rewrite Q3, P3. unfold mem. cbn [existsb]. fold (mem t l).
      destruct (key_compare (B, t) (A, a)) eqn:E.
      * apply key_compare_eq in E. injection E as -> ->. rewrite !Nat.eqb_refl. cbn [andb orb].
        destruct (mem a l) eqn:EM; [apply mem_In in EM; tauto|]. rewrite app_nil_r. auto.
      * destruct (Nat.eqb_spec B A), (Nat.eqb_spec t a); subst; auto.
        assert (key_compare (A, a) (A, a) = Eq) by (apply key_compare_eq; auto). congruence.
      * destruct (Nat.eqb_spec B A), (Nat.eqb_spec t a); subst; auto.
        assert (key_compare (A, a) (A, a) = Eq) by (apply key_compare_eq; auto). congruence.
Qed.

Section Table.
  Context (first : first_sets) (follow : set_map).

  (** The terminals under which a rule is put into the table. *)
  Definition puts (r : rule) (t : nat) : Prop :=
    exists v, first_set_for_string first (rhs r) = Ok v /\
    (In t (set_list v) \/
     (has_none v = true /\ exists w, map_get follow (lhs r) = Some w /\ In t (set_list w))).

  Record table_ok (m : ll_table) : Prop := {
    to_sorted : StronglySorted key_lt (map fst m);
    to_keys : forall k, In k (map fst m) -> ll_entry m k <> []
  }.

  Lemma add_rule_spec : forall i r m v, table_ok m -> first_set_for_string first (rhs r) = Ok v ->
    NoDup (set_list v) -> (has_none v = true -> set_list v = []) ->
    (exists w, map_get follow (lhs r) = Some w /\ NoDup (set_list w)) ->
    exists m', ll_add_rule first follow m (i, r) = Ok m' /\ table_ok m' /\
    forall A t, exists l, ll_entry m' (A, t) = ll_entry m (A, t) ++ l /\
      ((A = lhs r /\ puts r t /\ l = [i]) \/ (~ (A = lhs r /\ puts r t) /\ l = [])).
  Proof.
    intros i r m v [S K] EV ND HN [w [EW NDw]]. unfold ll_add_rule. rewrite EV. cbn [bind].
    assert (HE : forall (l : list nat) (m0 : ll_table), table_ok m0 -> NoDup l ->
      let m' := fold_left (fun m t => ll_push m (lhs r, t) i) l m0 in
      table_ok m' /\ forall B t, ll_entry m' (B, t) = ll_entry m0 (B, t) ++ (if (B =? lhs r) && mem t l then [i] else [])).
    { intros l m0 [S0 K0] HL. destruct (ll_pushes l (lhs r) i m0 S0 HL) as [P1 [P2 P3]]. cbn zeta in *. split; auto.
      constructor; auto. intros [B t] Hk. apply P2 in Hk. rewrite P3. cbn [fst snd] in Hk. destruct Hk as [[-> Hk]|Hk].
      - rewrite Nat.eqb_refl. apply mem_In in Hk. rewrite Hk. cbn [andb]. destruct (ll_entry m0 (lhs r, t)); discriminate.
      - specialize (K0 _ Hk). destruct (ll_entry m0 (B, t)); [congruence|discriminate]. }
    destruct (HE (set_list v) m (Build_table_ok _ S K) ND) as [T1 E1]. cbn zeta in T1, E1.
    assert (HP : forall t, puts r t <-> In t (set_list v) \/ (has_none v = true /\ In t (set_list w))).
    { intros t. unfold puts. split.
      - intros [v' [E' H]]. rewrite EV in E'. injection E' as <-. destruct H as [H|[H [w' [E2 H2]]]]; auto.
        rewrite EW in E2. injection E2 as <-. auto.
      - intros H. exists v. split; auto. destruct H as [H|[H H2]]; auto. right. split; auto. exists w. auto. }
    assert (HF : forall A t lst, NoDup lst -> (forall t, puts r t <-> In t lst) ->
      exists l, (if (A =? lhs r) && mem t lst then [i] else []) = l /\
      ((A = lhs r /\ puts r t /\ l = [i]) \/ (~ (A = lhs r /\ puts r t) /\ l = []))).
    { intros A t lst _ HL. eexists. split; [reflexivity|]. rewrite HL. destruct (Nat.eqb_spec A (lhs r)); simpl.
      - destruct (mem t lst) eqn:EM; [apply mem_In in EM; auto|apply mem_not_In in EM; right; tauto].
      - right. tauto. }
    destruct (has_none v) eqn:EN.
    - rewrite (HN eq_refl) in *. cbn [fold_left] in *. rewrite EW.
      destruct (HE (set_list w) m (Build_table_ok _ S K) NDw) as [T2 E2]. cbn zeta in T2, E2.
      eexists. split; [reflexivity|]. split; auto. intros A t. rewrite E2.
      destruct (HF A t (set_list w) NDw) as [l [EL H]].
      + intros t'. rewrite HP. simpl. tauto.
      + exists l. rewrite EL. auto.
    - eexists. split; [reflexivity|]. split; auto. intros A t. rewrite E1.
      destruct (HF A t (set_list v) ND) as [l [EL H]].
      + intros t'. rewrite HP. split; auto. intros [H|[H _]]; auto. discriminate.
      + exists l. rewrite EL. auto.
  Qed.

  Lemma table_spec : forall l k m,
    (forall r, In r l -> exists v, first_set_for_string first (rhs r) = Ok v /\ NoDup (set_list v) /\
        (has_none v = true -> set_list v = [])) ->
    (forall r, In r l -> exists w, map_get follow (lhs r) = Some w /\ NoDup (set_list w)) ->
    table_ok m -> (forall A t, NoDup (ll_entry m (A, t))) ->
    (forall A t i, In i (ll_entry m (A, t)) -> i < k) ->
    exists m', fold_res (ll_add_rule first follow) (combine (seq k (length l)) l) m = Ok m' /\ table_ok m' /\
      (forall A t, NoDup (ll_entry m' (A, t))) /\
      forall A t i, In i (ll_entry m' (A, t)) <->
        In i (ll_entry m (A, t)) \/ exists j r, i = k + j /\ nth_error l j = Some r /\ lhs r = A /\ puts r t.
  Proof.
    induction l as [|r l IH]; intros k m HV HW HT ND HK; cbn [length seq combine fold_res].
    - exists m. split; auto. split; auto. split; auto. intros A t i. split; auto.
      intros [H|[j [r [_ [H _]]]]]; auto. destruct j; discriminate.
    - destruct (HV r (or_introl eq_refl)) as [v [EV [NDv HN]]].
      destruct (add_rule_spec k r m v HT EV NDv HN (HW r (or_introl eq_refl))) as [m1 [E1 [T1 H1]]].
      rewrite E1. cbn [bind].
      destruct (IH (S k) m1) as [m2 [E2 [T2 [N2 H2]]]]; auto.
      + intros r' Hr'. apply HV; right; auto.
      + intros r' Hr'. apply HW; right; auto.
      + intros A t. destruct (H1 A t) as [x [-> H]]. destruct H as [[_ [_ ->]]|[_ ->]]; [|rewrite app_nil_r; auto].
        apply NoDup_app. split; auto. split; [repeat constructor; auto|]. intros y Hy [<-|[]]. apply HK in Hy. lia.
      + intros A t i Hi. destruct (H1 A t) as [x [E H]]. rewrite E in Hi. apply in_app_or in Hi.
        destruct Hi as [Hi|Hi]; [apply HK in Hi; lia|]. destruct H as [[_ [_ ->]]|[_ ->]]; [|destruct Hi].
        destruct Hi as [<-|[]]. lia.
      + exists m2. split; auto. split; auto. split; auto. intros A t i. rewrite H2.
        destruct (H1 A t) as [x [-> H]]. rewrite in_app_iff. split.
        * intros [[Hi|Hi]|[j [r' [-> [Hj Hr']]]]]; auto.
          -- destruct H as [[-> [HP ->]]|[_ ->]]; [|destruct Hi]. destruct Hi as [<-|[]]. right. exists 0, r.
             split; [lia|]. auto.
          -- right. exists (S j), r'. split; [lia|]. auto.
        * intros [Hi|[[|j] [r' [-> [Hj [EA HP]]]]]]; auto.
          -- simpl in Hj. injection Hj as <-. left. right. destruct H as [[_ [_ ->]]|[H ->]]; [left; lia|].
             exfalso. apply H. auto.
          -- right. exists j, r'. split; [lia|]. auto.
  Qed.
End Table.

Lemma two_distinct : forall (l : list nat), NoDup l -> (1 < length l <-> exists i j, i <> j /\ In i l /\ In j l).
Proof.
  intros l ND. split.
  - destruct l as [|a [|b l]]; simpl; try lia. intros _. exists a, b. inversion ND as [|? ? H _]; subst.
    split; [intros ->; apply H; left; auto|auto].
  - intros [i [j [Hn [Hi Hj]]]]. assert (H : length [i; j] <= length l); [|simpl in H; lia].
    apply NoDup_incl_length; [constructor; [simpl; intuition congruence|constructor; [simpl; tauto|constructor]]|]. intros x [<-|[<-|[]]]; auto.
Qed.

(** * Classes *)
Lemma classes_spec : forall (l : ll_table) c, StronglySorted lt (map fst c) ->
  let c' := fold_left ll_class_entry l c in
  StronglySorted lt (map fst c') /\
  (forall A, map_get c' A <> None <-> map_get c A <> None \/ exists t rs, In ((A, t), rs) l) /\
  (forall A, map_get c' A = Some ContextFree <->
             map_get c A = Some ContextFree \/ exists t rs, In ((A, t), rs) l /\ 1 < length rs).
Proof.
  induction l as [|[[B t] rs] l IH]; intros c HS; cbn [fold_left].
  - cbn zeta. split; auto. split; intros A; (split; [auto|]); intros [H|H]; auto.
    + destruct H as [? [? []]].
    + destruct H as [? [? [[] _]]].
  - assert (HX : exists c1, ll_class_entry c ((B, t), rs) = c1 /\ StronglySorted lt (map fst c1) /\
       (forall A, map_get c1 A <> None <-> map_get c A <> None \/ A = B) /\
       (forall A, map_get c1 A = Some ContextFree <-> map_get c A = Some ContextFree \/ (A = B /\ 1 < length rs))).
    { eexists. split; [reflexivity|]. cbn [ll_class_entry]. destruct (1 <? length rs) eqn:EL.
      - apply Nat.ltb_lt in EL. split; [apply map_put_sorted; auto|].
        split; intros A; rewrite map_get_put; (destruct (Nat.eq_dec A B) as [->|Hn];
          [rewrite Nat.eqb_refl|rewrite (proj2 (Nat.eqb_neq _ _)) by congruence]);
          first [tauto | split; [auto|discriminate] | split; [auto|intuition congruence]].
      - apply Nat.ltb_ge in EL. destruct (map_get c B) as [x|] eqn:EB.
        + split; auto. split; intros A; split; auto.
          * intros [H|H]; auto. subst A. congruence.
          * intros [H|[_ H]]; auto. lia.
        + split; [apply map_put_sorted; auto|].
          split; intros A; rewrite map_get_put; (destruct (Nat.eq_dec A B) as [->|Hn];
            [rewrite Nat.eqb_refl|rewrite (proj2 (Nat.eqb_neq _ _)) by congruence]).
          * split; [auto|discriminate].
          * intuition.
          * split; [discriminate|]. intros [X|[_ X]]; [congruence|lia].
          * intuition. }
    destruct HX as [c1 [-> [S1 [K1 C1]]]]. destruct (IH c1 S1) as [S2 [K2 C2]]. cbn zeta in *. split; auto. split; intros A.
    + rewrite K2, K1. split.
      * intros [[H| ->]|[t' [rs' H]]]; auto; right; [exists t, rs; left; auto|exists t', rs'; right; auto].
      * intros [H|[t' [rs' [H|H]]]]; auto; [injection H as -> _ _; auto|right; exists t', rs'; auto].
    + rewrite C2, C1. split.
      * intros [[H|[-> H]]|[t' [rs' [H HL]]]]; auto; right; [exists t, rs; split; auto; left; auto|exists t', rs'; split; auto; right; auto].
      * intros [H|[t' [rs' [[H|H] HL]]]]; auto; [injection H as -> -> ->; auto|right; exists t', rs'; auto].
Qed.

Lemma mark_classes : forall (c : list (nat * ll_class)) b, Forall (fun e => fst e < length b) c ->
  exists b', fold_res (fun p e => match snd e with ContextFree => bs_set p (fst e) true | Ll1 => Ok p end) c b = Ok b' /\
  length b' = length b /\ forall A, member b' A <-> member b A \/ In (A, ContextFree) c.
Proof.
  induction c as [|[B x] c IH]; intros b HF; cbn [fold_res].
  - exists b. split; auto. split; auto. intros A. simpl. tauto.
  - inversion HF as [|? ? H1 H2]; subst. cbn [fst snd] in *. destruct x.
    + cbn [bind]. destruct (IH b H2) as [b' [E [L M]]]. exists b'. split; auto. split; auto. intros A. rewrite M. simpl.
      split; [tauto|]. intros [H|[H|H]]; auto. discriminate.
    + rewrite bs_set_ok by auto. cbn [bind]. destruct (IH (upd b B true)) as [b' [E [L M]]].
      { rewrite upd_length. auto. }
      exists b'. split; auto. split; [rewrite upd_length in L; auto|]. intros A. rewrite M, member_upd by auto. simpl.
      split.
      * intros [[[-> _]|[_ H]]|H]; auto.
      * intros [H|[H|H]]; auto; [|injection H as ->; auto]. destruct (Nat.eq_dec A B); auto.
Qed.

Lemma final_classes : forall p (c : list (nat * ll_class)), Forall (fun e => fst e < length p) c ->
  exists c', map_res (fun e : nat * ll_class => do b <- bs_get p (fst e); Ok (fst e, if b then ContextFree else snd e)) c = Ok c' /\
  forall A, match map_get c A with
            | None => map_get c' A = None
            | Some x => exists y, map_get c' A = Some y /\ (y = ContextFree <-> member p A \/ x = ContextFree)
            end.
Proof.
  intros p c. induction c as [|[B x] c IH]; intros HF; cbn [map_res].
  - exists []. split; auto. intros A. reflexivity.
  - inversion HF as [|? ? H1 H2]; subst. cbn [fst snd] in *. destruct (bs_get_ok p B H1) as [z [EZ HZ]]. rewrite EZ. cbn [bind].
    destruct (IH H2) as [c' [E H]]. rewrite E. cbn [bind]. eexists. split; [reflexivity|].
    intros A. cbn [map_get]. destruct (Nat.eqb_spec B A) as [->|Hn]; [|apply H].
    eexists. split; [reflexivity|]. rewrite <- HZ. destruct z; split; auto; intros [X|X]; auto; discriminate.
Qed.

(** * The whole classification, with what the table holds *)
Theorem ll_spec : forall g, closed_rules g -> exists f fo table cls,
  first_sets_new g = Ok f /\ follow_sets g = Ok fo /\
  ll_parse_table g = Ok table /\ ll_classify g table = Ok cls /\
  (forall A, map_get cls A <> None <-> exists r t, In r (rules g) /\ lhs r = A /\ puts f fo r t) /\
  (forall A, map_get cls A = Some ContextFree <->
     map_get cls A <> None /\
     closure_any (prods g) (fun B => exists i j ri rj t, i <> j /\ nth_error (rules g) i = Some ri /\
        nth_error (rules g) j = Some rj /\ lhs ri = B /\ lhs rj = B /\ puts f fo ri t /\ puts f fo rj t) A).
Proof.
  intros g HC.
  destruct (first_sets_spec g HC) as [f [EF [HT [LT [KF VF]]]]].
  destruct (follow_sets_spec g HC) as [fo [EFO [KFO VFO]]].
  assert (EFO' : follow_sets_new g (fs_map f) = Ok fo) by (unfold follow_sets in EFO; rewrite EF in EFO; exact EFO).
  destruct (table_spec f fo (rules g) 0 []) as [table [ET [TT [NT HE]]]].
  - intros r Hr. destruct (HC r Hr) as [_ HR].
    assert (HX : forall u, Forall (fun s => s < num_syms g) u -> exists l, first_string_loop f u = Ok l /\ NoDup l).
    { induction u as [|s u IH]; intros HU; cbn [first_string_loop]; [exists []; split; auto; constructor|].
      inversion HU as [|? ? Hs HU']; subst. destruct (bs_get_ok (fs_terminal_set f) s) as [x [EX HX]]; [rewrite LT; auto|].
      rewrite EX. cbn [bind]. destruct x; [exists [s]; split; auto; repeat constructor; auto|].
      destruct (map_get (fs_map f) s) as [v|] eqn:EV.
      - destruct (is_nil (set_list v)); auto. exists (set_list v). split; auto. apply sorted_lt_NoDup, (VF s v EV).
      - exfalso. destruct (nonterminal_dec g s) as [X|X].
        + apply (proj2 (KF s) X); auto.
        + apply terminal_not_nonterminal in X. apply HT in X; auto. apply HX in X. discriminate. }
    destruct (HX _ HR) as [l [EL NL]]. unfold first_set_for_string. rewrite EL. cbn [bind].
    eexists. split; [reflexivity|]. cbn [set_list has_none]. split; auto. apply is_nil_true.
  - intros r Hr. assert (HN : nonterminal (prods g) (lhs r)) by (exists (rhs r), r; auto).
    apply KFO in HN. destruct (map_get fo (lhs r)) as [w|] eqn:EW; [|congruence]. exists w. split; auto.
    apply sorted_lt_NoDup, (VFO _ _ EW).
  - constructor; simpl; [constructor|tauto].
  - intros; constructor.
  - intros A t i [].
  - assert (EPT : ll_parse_table g = Ok table) by (unfold ll_parse_table; rewrite EF; cbn [bind]; rewrite EFO'; exact ET).
    destruct (classes_spec table []) as [S1 [K1 C1]]; [constructor|]. cbn zeta in *.
    set (classes := fold_left ll_class_entry table []) in *.
    assert (HEnt : forall A t i, In i (ll_entry table (A, t)) <->
       exists r, nth_error (rules g) i = Some r /\ lhs r = A /\ puts f fo r t).
    { intros A t i. rewrite HE. split.
      - intros [[]|[j [r [-> H]]]]. exists r. auto.
      - intros [r H]. right. exists i, r. split; auto. }
    assert (HIn : forall A t rs, In ((A, t), rs) table <-> rs = ll_entry table (A, t) /\ rs <> []).
    { intros A t rs. split.
      - intros H. pose proof (ll_entry_In _ _ _ (to_sorted _ TT) H). split; auto. subst rs.
        apply (to_keys _ TT). apply (in_map fst) in H. exact H.
      - intros [-> H]. apply (ll_entry_key table (A, t) (to_keys _ TT)) in H. apply in_map_iff in H.
        destruct H as [[k l] [E H]]. cbn [fst] in E. subst k. rewrite (ll_entry_In _ _ _ (to_sorted _ TT) H). auto. }
    assert (HKey : forall A, map_get classes A <> None <-> exists r t, In r (rules g) /\ lhs r = A /\ puts f fo r t).
    { intros A. rewrite K1. split.
      - intros [H|[t [rs H]]]; [simpl in H; congruence|]. apply HIn in H. destruct H as [-> H].
        destruct (ll_entry table (A, t)) as [|i l] eqn:EE; [congruence|].
        assert (Hi : In i (ll_entry table (A, t))) by (rewrite EE; left; auto).
        apply HEnt in Hi. destruct Hi as [r [Hr H']]. exists r, t. split; auto. eapply nth_error_In; eauto.
      - intros [r [t [Hr H]]]. right. exists t, (ll_entry table (A, t)). apply HIn. split; auto.
        apply In_nth_error in Hr. destruct Hr as [i Hi]. intros E.
        assert (Hx : In i (ll_entry table (A, t))) by (apply HEnt; exists r; auto). rewrite E in Hx. destruct Hx. }
    assert (HCF : forall A, map_get classes A = Some ContextFree <->
       exists i j ri rj t, i <> j /\ nth_error (rules g) i = Some ri /\
        nth_error (rules g) j = Some rj /\ lhs ri = A /\ lhs rj = A /\ puts f fo ri t /\ puts f fo rj t).
    { intros A. rewrite C1. split.
      - intros [H|[t [rs [H HL]]]]; [discriminate|]. apply HIn in H. destruct H as [-> _].
        apply two_distinct in HL; auto. destruct HL as [i [j [Hn [Hi Hj]]]]. apply HEnt in Hi, Hj.
        destruct Hi as [ri [? [? ?]]], Hj as [rj [? [? ?]]]. exists i, j, ri, rj, t. auto 8.
      - intros [i [j [ri [rj [t [Hn [Hi [Hj [Li [Lj [Pi Pj]]]]]]]]]]]. right. exists t, (ll_entry table (A, t)).
        assert (I1 : In i (ll_entry table (A, t))) by (apply HEnt; exists ri; auto).
        assert (I2 : In j (ll_entry table (A, t))) by (apply HEnt; exists rj; auto).
        split; [|apply two_distinct; auto; exists i, j; auto]. apply HIn. split; auto. intros E. rewrite E in I1. destruct I1. }
    assert (HLt : forall n, length n = num_syms g -> Forall (fun e : nat * ll_class => fst e < @length bool n) classes).
    { intros n Ln. apply Forall_forall. intros [A x] Hx. cbn [fst]. rewrite Ln.
      assert (HX : map_get classes A <> None).
      { apply map_get_In in Hx; [|apply sorted_lt_NoDup; auto]. congruence. }
      apply HKey in HX. destruct HX as [r [t [Hr [<- _]]]]. apply (HC r Hr). }
    destruct (mark_classes classes (bs_from_elem g false)) as [b [EB [LB MB]]]; [apply HLt, length_from_elem|].
    rewrite length_from_elem in LB.
    destruct (rhs_closure_any_spec g b HC) as [p [EP [LP MP]]]; [lia|].
    destruct (final_classes p classes) as [cls [EC HCl]]; [apply HLt; lia|].
    exists f, fo, table, cls. split; auto. split; auto. split; auto. split.
    { unfold ll_classify. fold classes. rewrite EB. cbn [bind]. rewrite EP. cbn [bind]. exact EC. }
    assert (HSame : forall A, map_get cls A <> None <-> map_get classes A <> None).
    { intros A. specialize (HCl A). destruct (map_get classes A) as [x|].
      - destruct HCl as [y [-> _]]. split; discriminate.
      - rewrite HCl. tauto. }
    split; [intros A; rewrite HSame; apply HKey|].
    assert (HMB : forall A, member b A <-> map_get classes A = Some ContextFree).
    { intros A. rewrite MB. split.
      - intros [H|H]; [unfold bs_from_elem in H; apply member_repeat in H; destruct H; discriminate|].
        apply map_get_In in H; auto. apply sorted_lt_NoDup; auto.
      - intros H. right. apply map_get_In; auto. apply sorted_lt_NoDup; auto. }
    assert (HClo : forall A, member p A <-> closure_any (prods g) (fun B => exists i j ri rj t, i <> j /\ nth_error (rules g) i = Some ri /\
        nth_error (rules g) j = Some rj /\ lhs ri = B /\ lhs rj = B /\ puts f fo ri t /\ puts f fo rj t) A).
    { intros A. rewrite MP. split; intros H.
      - induction H as [s H|B r s HP Hs _ IH]; [constructor; apply HCF, HMB; auto|eapply cy_rule; eauto].
      - induction H as [s H|B r s HP Hs _ IH]; [constructor; apply HMB, HCF; auto|eapply cy_rule; eauto]. }
    intros A. rewrite HSame, <- HClo. specialize (HCl A). destruct (map_get classes A) as [x|] eqn:EA.
    + destruct HCl as [y [Ey Hy]]. rewrite Ey. split.
      * intros X. injection X as X. split; [discriminate|]. apply Hy in X. destruct X as [X|X]; auto.
        apply MP. constructor. apply HMB. congruence.
      * intros [_ X]. f_equal. apply Hy. auto.
    + rewrite HCl. split; [discriminate|]. intros [X _]. congruence.
Qed.
