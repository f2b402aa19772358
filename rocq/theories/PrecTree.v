(** The rules of an operator table have one parse. *)

From Coq Require Import List Arith Bool Lia Permutation.
From Verif Require Import Base ListFacts Spec SpecPrec SpecOps SpecTree GrammarFacts TreeProof.
Import ListNotations.

Fixpoint tsize (t : tree) : nat :=
  match t with Leaf _ => 1 | Node _ ts => S (list_sum (map tsize ts)) end.

Lemma tsize_child : forall i ts t, In t ts -> tsize t < tsize (Node i ts).
Proof.
  intros i ts t H. cbn [tsize]. induction ts as [|x ts IH]; [destruct H|]. cbn [map list_sum fold_right].
  destruct H as [->|H]; [|specialize (IH H)]; unfold list_sum in *; lia.
Qed.

Definition lev (alt : alternative) : nat := fst (fst alt).
Definition asc (alt : alternative) : assoc := snd (fst alt).

(** What a symbol of an alternative is as a place. *)
Definition at_place (E top : nat) (alt : alternative) (x : nat) (p : place) : Prop :=
  (x <> E /\ p = Sym x) \/
  (x = E /\ exists m, p = Opd m /\ ((asc alt = AGroup /\ m = top) \/ (asc alt <> AGroup /\ (m = lev alt \/ m = lev alt - 1)))).

Lemma left_rel : forall E j l, Forall2 (fun x p => (x <> E /\ p = Sym x) \/ (x = E /\ exists m, p = Opd m /\ (m = j \/ m = j - 1)))
  l (left_places E j l).
Proof.
  induction l as [|x l IH]; cbn [left_places]; [constructor|]. destruct (x =? E) eqn:EX.
  - apply Nat.eqb_eq in EX. constructor; [right; eauto|]. clear IH. induction l as [|y l IH]; cbn [map]; constructor; auto.
    destruct (y =? E) eqn:EY; [apply Nat.eqb_eq in EY; right; eauto|apply Nat.eqb_neq in EY; left; auto].
  - apply Nat.eqb_neq in EX. constructor; auto.
Qed.

Lemma F2_rev' : forall (A B : Type) (R : A -> B -> Prop) l l', Forall2 R l l' -> Forall2 R (rev l) (rev l').
Proof. induction 1; cbn [rev]; [constructor|]. apply Forall2_app; auto. Qed.

Lemma F2_impl : forall (A B : Type) (R R' : A -> B -> Prop) l l', (forall x y, R x y -> R' x y) -> Forall2 R l l' -> Forall2 R' l l'.
Proof. induction 2; constructor; auto. Qed.

Lemma places_rel : forall E top alt, Forall2 (at_place E top alt) (snd alt) (places E top alt).
Proof.
  intros E top [[j a] l]. cbn [snd]. unfold at_place, asc, lev. cbn [fst snd]. destruct a; cbn [places].
  - eapply F2_impl; [|apply left_rel]. cbn beta. intros x p [H|[H [m [H1 H2]]]]; [left; auto|right]. split; auto. exists m. split; auto.
    right. split; auto. discriminate.
  - pose proof (F2_rev' _ _ _ _ _ (left_rel E j (rev l))) as H. rewrite rev_involutive in H.
    eapply F2_impl; [|exact H]. cbn beta. intros x p [H0|[H0 [m [H1 H2]]]]; [left; auto|right]. split; auto. exists m. split; auto.
    right. split; auto. discriminate.
  - induction l as [|x l IH]; cbn [map]; constructor; auto. destruct (x =? E) eqn:EX.
    + apply Nat.eqb_eq in EX. right. split; auto. exists top. auto.
    + apply Nat.eqb_neq in EX. left. auto.
Qed.

Definition encp (n : nat) (p : place) : nat := match p with Sym s => s | Opd k => n + k end.
Definition enc_alt (n E top : nat) (alt : alternative) : nat * list nat := (n + lev alt, map (encp n) (places E top alt)).
Definition units (n top : nat) : list (nat * list nat) := map (fun k => (n + S k, [n + k])) (seq 0 top).
Definition op_rules (n E top : nat) (alts : list alternative) : list (nat * list nat) :=
  (E, [n + top]) :: units n top ++ map (enc_alt n E top) alts.

Section Ops.
  Variables (n E top : nat) (alts : list alternative).
  Hypothesis HE : E < n.
  Hypothesis HA : forall alt, In alt alts -> lev alt <= top /\ Forall (fun s => s < n) (snd alt).
  Hypothesis OT : operator_table E top alts.

  Local Notation L := (op_rules n E top alts).
  Local Notation pls := (places E top).

  Lemma ops_in : forall A r, In (A, r) L <-> (A = E /\ r = [n + top]) \/ (exists k, k < top /\ A = n + S k /\ r = [n + k]) \/
    (exists alt, In alt alts /\ A = n + lev alt /\ r = map (encp n) (pls alt)).
  Proof.
    intros A r. unfold op_rules, units. cbn [In]. rewrite in_app_iff, !in_map_iff. split.
    - intros [H|[[k [H1 H2]]|[alt [H1 H2]]]].
      + injection H as <- <-. auto.
      + injection H1 as <- <-. apply in_seq in H2. right; left. exists k. split; [lia|auto].
      + injection H1 as <- <-. right; right. eauto.
    - intros [[-> ->]|[[k [H1 [-> ->]]]|[alt [H1 [-> ->]]]]]; auto.
      + right; left. exists k. split; auto. apply in_seq. lia.
      + right; right. exists alt. auto.
  Qed.

  (** The rest of an alternative. *)
  Inductive good (j : nat) : list place -> Prop :=
  | good_nil : good j []
  | good_sym : forall x ps, x < n -> x <> E -> good j ps -> good j (Sym x :: ps)
  | good_opd : forall m x ps, m <= top -> (forall alt, In alt alts -> ~ operator E alt x) -> good j (Sym x :: ps) -> good j (Opd m :: Sym x :: ps)
  | good_last : forall m, m <= j -> m <= top -> good j [Opd m].

  Lemma good_rest : forall alt, In alt alts -> forall l u ps, snd alt = u ++ l -> u <> [] -> Forall2 (at_place E top alt) l ps -> good (lev alt) ps.
  Proof.
    intros alt Hin. destruct (HA _ Hin) as [HA1 HA2]. induction l as [|x l IH]; intros u ps El Hu F; inversion F as [|? p ? ps' Hp Fp]; subst; [constructor|].
    assert (G : good (lev alt) ps') by (apply (IH (u ++ [x])); auto; [rewrite <- app_assoc; exact El|destruct u; discriminate]).
    assert (Hx : x < n).
    { rewrite El in HA2. apply Forall_app in HA2. destruct HA2 as [_ HA2]. inversion HA2; auto. }
    destruct Hp as [[Hne ->]|[-> [m [-> Hm]]]]; [constructor; auto|].
    destruct l as [|y l]; inversion Fp as [|? q ? qs Hq Fq]; subst.
    - destruct Hm as [[Hm _]|[_ Hm]]; [|apply good_last; lia]. exfalso. destruct alt as [[j a] l]. cbn [asc fst snd] in *. unfold asc in Hm. cbn in Hm. subst a.
      destruct (ot_group E top alts OT j l u Hin) as [_ H]. auto.
    - destruct Hq as [[Hne ->]|[-> _]].
      + constructor; auto; [destruct Hm as [[_ ->]|[_ Hm]]; lia|]. intros alt' Hin'. eapply (ot_inner E top alts OT alt alt' u y l); eauto.
      + exfalso. eapply (ot_apart E top alts OT alt u l); eauto.
  Qed.

  Definition shape_sym (alt : alternative) : Prop := exists x ps, x < n /\ x <> E /\ begins alt x /\ pls alt = Sym x :: ps /\ good (lev alt) ps.
  Definition shape_op (alt : alternative) : Prop := exists m o ps, o < n /\ o <> E /\ operator E alt o /\ pls alt = Opd m :: Sym o :: ps /\
    (m = lev alt \/ m = lev alt - 1) /\ good (lev alt) ps.

  Lemma shapes : forall alt, In alt alts -> shape_sym alt \/ shape_op alt.
  Proof.
    intros alt Hin. destruct (HA _ Hin) as [HA1 HA2]. pose proof (places_rel E top alt) as F.
    destruct (ot_some E top alts OT alt Hin) as [S1 S2].
    destruct (snd alt) as [|x l] eqn:El; [congruence|]. inversion F as [|? p ? ps Hp Fp Ea Eps]. subst.
    destruct Hp as [[Hne ->]|[-> [m [-> Hm]]]].
    - left. exists x, ps. split; [inversion HA2; auto|]. split; auto. split; [exists l; auto|]. split; auto. eapply (good_rest alt Hin l [x]); eauto. discriminate.
    - right. destruct l as [|o l]; [congruence|]. inversion Fp as [|? q ? qs Hq Fq]. subst.
      destruct Hq as [[Hne ->]|[-> _]]; [|exfalso; eapply (ot_apart E top alts OT alt [] l); eauto].
      exists m, o, qs. split; [inversion HA2 as [|? ? ? HA3]; inversion HA3; auto|]. split; auto. split; [exists l; auto|]. split; auto.
      split; [|eapply (good_rest alt Hin l [E; o]); eauto; discriminate].
      destruct Hm as [[Hm _]|[_ Hm]]; auto. exfalso. destruct alt as [[j a] l0]. unfold asc in Hm. cbn in Hm. subst a.
      destruct (ot_group E top alts OT j l0 (o :: l) Hin) as [H _]. auto.
  Qed.

  Lemma ops_nodup : NoDup L.
  Proof.
    unfold op_rules. constructor.
    - intros H. apply in_app_or in H. destruct H as [H|H]; apply in_map_iff in H; destruct H as [k [H _]]; injection H as H _; lia.
    - apply (proj2 (ListFacts.NoDup_app _ _)). split; [|split].
      + apply FinFun.Injective_map_NoDup; [|apply seq_NoDup]. intros a b H. injection H as H _. lia.
      + apply NoDup_nth_error. intros i i' Hi Heq. rewrite map_length in Hi.
        destruct (nth_error alts i) as [alt|] eqn:E1; [|apply nth_error_None in E1; lia].
        rewrite (map_nth_error _ _ _ E1) in Heq.
        destruct (nth_error alts i') as [alt'|] eqn:E2.
        2:{ exfalso. assert (nth_error (map (enc_alt n E top) alts) i' = None) by (apply nth_error_None; rewrite map_length; apply nth_error_None; auto). congruence. }
        rewrite (map_nth_error _ _ _ E2) in Heq. injection Heq as _ Heq.
        pose proof (nth_error_In _ _ E1) as I1. pose proof (nth_error_In _ _ E2) as I2.
        destruct (shapes alt I1) as [[x [ps [X1 [X2 [X3 [X4 X5]]]]]]|[m [o [ps [X1 [X2 [X3 [X4 X5]]]]]]]];
        destruct (shapes alt' I2) as [[x' [ps' [Y1 [Y2 [Y3 [Y4 Y5]]]]]]|[m' [o' [ps' [Y1 [Y2 [Y3 [Y4 Y5]]]]]]]];
        rewrite X4, Y4 in Heq; cbn [map encp] in Heq.
        * injection Heq as -> _. eapply (ot_begin E top alts OT); eauto.
        * injection Heq as Hx _. lia.
        * injection Heq as Hx _. lia.
        * injection Heq as _ -> _. eapply (ot_operator E top alts OT); eauto.
      + intros p H H'. apply in_map_iff in H. destruct H as [k [<- _]]. apply in_map_iff in H'. destruct H' as [alt [H' Hin]].
        injection H' as _ H'. destruct (shapes alt Hin) as [[x [ps [X1 [X2 [X3 [X4 X5]]]]]]|[m [o [ps [X1 [X2 [X3 [X4 X5]]]]]]]];
          rewrite X4 in H'; cbn [map encp] in H'; injection H' as H'; [lia|discriminate].
  Qed.

  Lemma index : forall i i' p, nth_error L i = Some p -> nth_error L i' = Some p -> i = i'.
  Proof. intros i i' p H H'. eapply (NoDup_nth_error L); [exact ops_nodup|apply nth_error_Some; congruence|congruence]. Qed.

  Lemma leaf_tree : forall x t, x < n -> x <> E -> parses L x t -> t = Leaf x.
  Proof.
    intros x [s|i ts] H1 H2 H.
    - apply parses_leaf_inv in H. destruct H as [-> _]. reflexivity.
    - apply parses_node_inv in H. destruct H as [r [H _]]. apply nth_error_In, ops_in in H.
      destruct H as [[H _]|[[k [_ [H _]]]|[alt [_ [H _]]]]]; [congruence|lia|lia].
  Qed.

  Lemma node_tree : forall k t, k <= top -> parses L (n + k) t ->
    (k = 0 /\ t = Leaf n /\ (forall alt, In alt alts -> lev alt <> 0)) \/
    (exists i t1, t = Node i [t1] /\ 1 <= k /\ nth_error L i = Some (n + k, [n + (k - 1)]) /\ parses L (n + (k - 1)) t1) \/
    (exists alt i ts, In alt alts /\ lev alt = k /\ t = Node i ts /\ nth_error L i = Some (n + k, map (encp n) (pls alt)) /\
       Forall2 (parses L) (map (encp n) (pls alt)) ts).
  Proof.
    intros k [s|i ts] Hk H.
    - left. apply parses_leaf_inv in H. destruct H as [<- H]. destruct k as [|k].
      + rewrite Nat.add_0_r. split; auto. split; auto. intros alt Hin Hl. apply (H (map (encp n) (pls alt))). apply ops_in. right; right. exists alt. split; [exact Hin|]. split; [lia|reflexivity].
      + exfalso. apply (H [n + k]). apply ops_in. right; left. exists k. split; [lia|]. split; reflexivity.
    - right. apply parses_node_inv in H. destruct H as [r [H HF]]. pose proof (nth_error_In _ _ H) as HI. apply ops_in in HI.
      destruct HI as [[HI _]|[[k' [H1 [H2 ->]]]|[alt [H1 [H2 ->]]]]].
      + lia.
      + left. inversion HF as [|? t1 ? ts1 F1 F2]; subst. inversion F2; subst. exists i, t1. replace (k - 1) with k' by lia. split; auto. split; [lia|]. auto.
      + right. exists alt, i, ts. assert (lev alt = k) by lia. auto.
  Qed.

  (** The symbol that an expression begins with. *)
  Lemma first_sym : forall k t, k <= top -> parses L (n + k) t -> exists x w, yield t = x :: w /\
    (x = n \/ exists alt, In alt alts /\ lev alt <= k /\ x < n /\ x <> E /\ begins alt x).
  Proof.
    intros k t. revert k. induction t as [t IH] using (well_founded_induction (Wf_nat.well_founded_ltof _ tsize)).
    unfold Wf_nat.ltof in IH. intros k Hk H. destruct (node_tree k t Hk H) as [[-> [-> _]]|[[i [t1 [-> [K1 [K2 K3]]]]]|[alt [i [ts [A1 [A2 [-> [A3 A4]]]]]]]]].
    - exists n, []. auto.
    - destruct (IH t1 ltac:(apply tsize_child; left; auto) (k - 1) ltac:(lia) K3) as [x [w [Y HX]]]. cbn [yield flat_map]. rewrite Y.
      exists x, (w ++ []). split; auto. destruct HX as [HX|[alt [B1 [B2 B3]]]]; auto. right. exists alt. split; auto. split; [lia|auto].
    - destruct (shapes alt A1) as [[x [ps [X1 [X2 [X3 [X4 X5]]]]]]|[m [o [ps [X1 [X2 [X3 [X4 [X5 X6]]]]]]]]]; rewrite X4 in A4; cbn [map encp] in A4;
        inversion A4 as [|? t1 ? ts1 F1 F2]; subst.
      + apply leaf_tree in F1; auto. subst t1. exists x, (flat_map yield ts1). split; auto. right. exists alt. auto.
      + destruct (IH t1 ltac:(apply tsize_child; left; auto) m ltac:(lia) F1) as [y [w [Y HX]]]. cbn [yield flat_map]. rewrite Y.
        exists y, (w ++ flat_map yield ts1). split; auto. destruct HX as [HX|[alt' [B1 [B2 B3]]]]; auto. right. exists alt'. split; auto. split; [lia|auto].
  Qed.

  (** [R] does not go on with an operator of a level up to [k]. *)
  Definition stop (k : nat) (R : list nat) : Prop := forall o R1 alt, R = o :: R1 -> In alt alts -> operator E alt o -> k < lev alt.

  Definition det (u : tree) : Prop := forall k u' R R', k <= top -> parses L (n + k) u -> parses L (n + k) u' -> stop k R -> stop k R' ->
    yield u ++ R = yield u' ++ R' -> u = u' /\ R = R'.

  Lemma rest_det : forall j ps, good j ps -> forall ts ts' R R', Forall2 (parses L) (map (encp n) ps) ts -> Forall2 (parses L) (map (encp n) ps) ts' ->
    (forall u, In u ts -> det u) -> (forall m u, ps = u ++ [Opd m] -> stop m R /\ stop m R') ->
    flat_map yield ts ++ R = flat_map yield ts' ++ R' -> ts = ts' /\ R = R'.
  Proof.
    intros j ps G. induction G as [|x ps Hx HxE G IH|m x ps Hm Hop G IH|m Hm Hm2]; intros ts ts' R R' F F' HD HS EQ; cbn [map encp] in F, F'.
    - inversion F; inversion F'; subst. auto.
    - inversion F as [|? t ? us Ft Fu]; inversion F' as [|? t' ? us' Ft' Fu']; subst.
      apply leaf_tree in Ft; auto. apply leaf_tree in Ft'; auto. subst t t'. cbn [flat_map yield app] in EQ. injection EQ as EQ.
      destruct (IH us us' R R' Fu Fu') as [-> ->]; auto.
      + intros u Hu. apply HD. right; auto.
      + intros m u ->. apply (HS m (Sym x :: u)). reflexivity.
    - inversion F as [|? t ? us Ft Fu]; inversion F' as [|? t' ? us' Ft' Fu']; subst.
      assert (HF : forall vs Q, Forall2 (parses L) (map (encp n) (Sym x :: ps)) vs -> stop m (flat_map yield vs ++ Q)).
      { intros vs Q Fv. inversion G; subst. cbn [map encp] in Fv. inversion Fv as [|? v ? vs' Fv1 Fv2]; subst. apply leaf_tree in Fv1; auto. subst v.
        cbn [flat_map yield app]. intros o R1 alt Heq Hin Ho. injection Heq as <- _. exfalso. eapply Hop; eauto. }
      cbn [flat_map] in EQ. rewrite <- !app_assoc in EQ.
      destruct (HD t (or_introl eq_refl) m t' _ _ Hm Ft Ft' (HF us R Fu) (HF us' R' Fu') EQ) as [-> EQ2].
      destruct (IH us us' R R' Fu Fu') as [-> ->]; auto.
      + intros u Hu. apply HD. right; auto.
      + intros m' u Hu. apply (HS m' (Opd m :: u)). cbn [app]. rewrite <- Hu. reflexivity.
    - inversion F as [|? t ? us Ft Fu]; inversion F' as [|? t' ? us' Ft' Fu']; subst. inversion Fu; inversion Fu'; subst.
      cbn [flat_map] in EQ. rewrite !app_nil_r in EQ. destruct (HS m [] eq_refl) as [S1 S2].
      destruct (HD t (or_introl eq_refl) m t' R R' Hm2 Ft Ft' S1 S2 EQ) as [-> ->]. auto.
  Qed.

  (** ** An expression of a level: what it begins with, and then operators of the level with their other operands *)

  Inductive base (j : nat) : tree -> Prop :=
  | base_none : j = 0 -> (forall alt, In alt alts -> lev alt <> 0) -> base j (Leaf n)
  | base_unit : forall i t1, 1 <= j -> nth_error L i = Some (n + j, [n + (j - 1)]) -> parses L (n + (j - 1)) t1 -> base j (Node i [t1])
  | base_sym : forall alt i x ps ts, In alt alts -> lev alt = j -> x < n -> x <> E -> begins alt x -> pls alt = Sym x :: ps -> good j ps ->
      nth_error L i = Some (n + j, map (encp n) (pls alt)) -> Forall2 (parses L) (map (encp n) ps) ts -> base j (Node i (Leaf x :: ts))
  | base_op : forall alt i o ps t1 ts, In alt alts -> lev alt = j -> 1 <= j -> o < n -> o <> E -> operator E alt o -> pls alt = Opd (j - 1) :: Sym o :: ps ->
      good j ps -> nth_error L i = Some (n + j, map (encp n) (pls alt)) -> parses L (n + (j - 1)) t1 -> Forall2 (parses L) (map (encp n) ps) ts ->
      base j (Node i (t1 :: Leaf o :: ts)).

  Inductive tail (j : nat) : nat * list tree -> Prop :=
  | tail_op : forall alt i o ps ts, In alt alts -> lev alt = j -> o < n -> o <> E -> operator E alt o -> pls alt = Opd j :: Sym o :: ps ->
      good j ps -> nth_error L i = Some (n + j, map (encp n) (pls alt)) -> Forall2 (parses L) (map (encp n) ps) ts -> tail j (i, Leaf o :: ts).

  Definition grow (t : tree) (p : nat * list tree) : tree := Node (fst p) (t :: snd p).

  Lemma spine : forall j t, j <= top -> parses L (n + j) t -> exists b tails, t = fold_left grow tails b /\ base j b /\ Forall (tail j) tails.
  Proof.
    intros j t Hj. induction t as [t IH] using (well_founded_induction (Wf_nat.well_founded_ltof _ tsize)).
    unfold Wf_nat.ltof in IH. intros H. destruct (node_tree j t Hj H) as [[J0 [-> HN]]|[[i [t1 [-> [K1 [K2 K3]]]]]|[alt [i [ts [A1 [A2 [-> [A3 A4]]]]]]]]].
    - exists (Leaf n), []. split; auto. split; auto. constructor; auto.
    - exists (Node i [t1]), []. split; auto. split; auto. constructor; auto.
    - destruct (shapes alt A1) as [[x [ps [X1 [X2 [X3 [X4 X5]]]]]]|[m [o [ps [X1 [X2 [X3 [X4 [X5 X6]]]]]]]]]; pose proof A4 as A5; rewrite X4 in A5; cbn [map encp] in A5;
        inversion A5 as [|? t1 ? ts1 F1 F2]; subst.
      + apply leaf_tree in F1; auto. subst t1. exists (Node i (Leaf x :: ts1)), []. split; auto. split; auto. eapply base_sym; eauto.
      + inversion F2 as [|? t2 ? ts2 F3 F4]; subst. apply leaf_tree in F3; auto. subst t2.
        destruct (Nat.eq_dec m (lev alt)) as [->|Hm].
        * destruct (IH t1 ltac:(apply tsize_child; left; auto) F1) as [b [tails [-> [HB HT]]]].
          exists b, (tails ++ [(i, Leaf o :: ts2)]). rewrite fold_left_app. split; [reflexivity|]. split; auto. apply Forall_app. split; auto.
          constructor; [|constructor]. eapply tail_op; eauto.
        * assert (m = lev alt - 1) by lia. subst m. exists (Node i (t1 :: Leaf o :: ts2)), []. split; auto. split; auto.
          eapply base_op; eauto. lia.
  Qed.

  Definition tail_yield (tails : list (nat * list tree)) : list nat := flat_map (fun p => flat_map yield (snd p)) tails.

  Lemma spine_yield : forall tails b, yield (fold_left grow tails b) = yield b ++ tail_yield tails.
  Proof.
    induction tails as [|p tails IH]; intros b; cbn [fold_left tail_yield flat_map]; [rewrite app_nil_r; reflexivity|].
    rewrite IH. cbn [grow yield flat_map]. rewrite <- app_assoc. reflexivity.
  Qed.

  Lemma spine_size : forall tails b, tsize b <= tsize (fold_left grow tails b) /\
    (forall p u, In p tails -> In u (snd p) -> tsize u < tsize (fold_left grow tails b)).
  Proof.
    induction tails as [|p tails IH]; intros b; cbn [fold_left]; [split; [lia|intros p u []]|].
    destruct (IH (grow b p)) as [H1 H2]. assert (HB : tsize b < tsize (grow b p)) by (apply tsize_child; left; auto). split; [lia|].
    intros q u [->|Hq] Hu; [|eauto]. assert (tsize u < tsize (grow b q)) by (apply tsize_child; right; auto). lia.
  Qed.

  Lemma same_alt : forall alt alt' o, In alt alts -> In alt' alts -> operator E alt o -> operator E alt' o -> alt = alt'.
  Proof.
    intros alt alt' o H H' O O'. apply In_nth_error in H. apply In_nth_error in H'. destruct H as [i H], H' as [i' H'].
    assert (i = i') by (eapply (ot_operator E top alts OT); eauto). subst i'. congruence.
  Qed.
  Lemma same_alt_sym : forall alt alt' x, In alt alts -> In alt' alts -> x <> E -> begins alt x -> begins alt' x -> alt = alt'.
  Proof.
    intros alt alt' o H H' HX O O'. apply In_nth_error in H. apply In_nth_error in H'. destruct H as [i H], H' as [i' H'].
    assert (i = i') by (eapply (ot_begin E top alts OT); eauto). subst i'. congruence.
  Qed.

  Lemma stop_le : forall k k' R, k' <= k -> stop k R -> stop k' R.
  Proof. intros k k' R H HS o R1 alt H1 H2 H3. specialize (HS o R1 alt H1 H2 H3). lia. Qed.

  (** What follows the beginning of an expression of level [j]. *)
  Definition follow (j : nat) (tails : list (nat * list tree)) (R : list nat) : Prop := Forall (tail j) tails /\ stop j R.

  Lemma follow_stop : forall j tails R m, follow j tails R -> m <= j -> (tails <> [] -> m < j) -> stop m (tail_yield tails ++ R).
  Proof.
    intros j tails R m [HT HS] Hm Hm2. destruct tails as [|p tails]; [apply (stop_le j); auto|].
    inversion HT as [|? ? Hp Hps]; subst. destruct Hp as [alt i o ps ts Hin Hl Ho1 Ho2 Hop Hpl HG Hi HF].
    intros o' R1 alt' Heq Hin' Hop'. cbn in Heq. injection Heq as <- _. assert (alt' = alt) by (eapply same_alt; eauto). subst alt'.
    rewrite Hl. apply Hm2. discriminate.
  Qed.

  (** The last operand of an alternative of the level, if it is at the end, can be read in one way. *)
  Lemma end_stop : forall j tails R alt u m v ps, follow j tails R -> In alt alts -> lev alt = j -> pls alt = v ++ ps -> good j ps -> ps = u ++ [Opd m] ->
    stop m (tail_yield tails ++ R).
  Proof.
    intros j tails R alt u m v ps HF Hin Hl Hpl HG ->.
    assert (Hm : m <= j).
    { clear - HG. remember (u ++ [Opd m]) as q. revert u Heqq. induction HG as [|x ps Hx HxE G IH|m' x ps Hm Hop G IH|m' Hm Hm2]; intros u Hq.
      - destruct u; discriminate.
      - destruct u as [|y u]; [destruct ps; discriminate|]. injection Hq as _ Hq. eauto.
      - destruct u as [|y u]; [discriminate|]. injection Hq as _ Hq. eauto.
      - destruct u as [|y u]; [injection Hq as ->; auto|]. destruct u; discriminate. }
    apply (follow_stop j); auto. intros HN. destruct (Nat.eq_dec m j) as [->|]; [exfalso|lia].
    destruct HF as [HT _]. destruct tails as [|p tails]; [congruence|]. inversion HT as [|? ? Hp Hps]; subst. destruct Hp as [alt' i o ps ts Hin' Hl' Ho1 Ho2 Hop Hpl' HG' Hi HF'].
    destruct alt as [[j a] l], alt' as [[j' a'] l']. cbn [lev fst] in *. unfold lev in Hl'. cbn in Hl'. subst j'.
    eapply (ot_level E top alts OT); [exact Hin'|exact Hin|exact Hpl'|]. rewrite Hpl, app_assoc. reflexivity.
  Qed.

  Lemma tails_det : forall j tails tails' R R', Forall (tail j) tails -> Forall (tail j) tails' -> stop j R -> stop j R' ->
    (forall p u, In p tails -> In u (snd p) -> det u) -> tail_yield tails ++ R = tail_yield tails' ++ R' -> tails = tails' /\ R = R'.
  Proof.
    intros j tails. induction tails as [|p tails IH]; intros [|p' tails'] R R' HT HT' HS HS' HD EQ; auto.
    - exfalso. inversion HT' as [|? ? Hp Hps]; subst. destruct Hp as [alt i o ps ts Hin Hl Ho1 Ho2 Hop Hpl HG Hi HF].
      cbn [tail_yield flat_map app snd yield] in EQ. specialize (HS o _ alt EQ Hin Hop). lia.
    - exfalso. inversion HT as [|? ? Hp Hps]; subst. destruct Hp as [alt i o ps ts Hin Hl Ho1 Ho2 Hop Hpl HG Hi HF].
      cbn [tail_yield flat_map app snd yield] in EQ. symmetry in EQ. specialize (HS' o _ alt EQ Hin Hop). lia.
    - inversion HT as [|? ? Hp Hps]; inversion HT' as [|? ? Hp' Hps']; subst.
      destruct Hp as [alt i o ps ts Hin Hl Ho1 Ho2 Hop Hpl HG Hi HF], Hp' as [alt' i' o' ps' ts' Hin' Hl' Ho1' Ho2' Hop' Hpl' HG' Hi' HF'].
      unfold tail_yield in EQ. cbn [flat_map snd] in EQ. fold (tail_yield tails) in EQ. fold (tail_yield tails') in EQ. cbn [flat_map yield app] in EQ.
      injection EQ as <- EQ. assert (alt' = alt) by (eapply same_alt; eauto). subst alt'. rewrite Hpl in Hpl'. injection Hpl' as <-.
      assert (i' = i) by (eapply index; eauto). subst i'. rewrite <- !app_assoc in EQ.
      destruct (rest_det j ps HG ts ts' (tail_yield tails ++ R) (tail_yield tails' ++ R') HF HF') with (3 := EQ) as [-> EQ2].
      + intros u Hu. eapply HD; [left; reflexivity|]. right; auto.
      + intros m u Hu. split; apply (end_stop j _ _ alt u m [Opd j; Sym o] ps); auto; split; auto.
      + destruct (IH tails' R R') as [-> ->]; auto. intros p u H1 H2. eapply HD; [right; exact H1|auto].
  Qed.

  Lemma det_all : forall t, det t.
  Proof.
    induction t as [t IH] using (well_founded_induction (Wf_nat.well_founded_ltof _ tsize)).
    unfold Wf_nat.ltof in IH. intros j t' R R' Hj H H' HS HS' EQ.
    destruct (spine j t Hj H) as [b [tails [-> [HB HT]]]]. destruct (spine j t' Hj H') as [b' [tails' [-> [HB' HT']]]].
    destruct (spine_size tails b) as [Z1 Z2]. rewrite !spine_yield, <- !app_assoc in EQ.
    assert (F : follow j tails R) by (split; auto). assert (F' : follow j tails' R') by (split; auto).
    assert (KEY : b = b' /\ tail_yield tails ++ R = tail_yield tails' ++ R').
    { remember (tail_yield tails ++ R) as Q eqn:EQ1. remember (tail_yield tails' ++ R') as Q' eqn:EQ1'.
      assert (HI : forall i ts u, b = Node i ts -> In u ts -> det u).
      { intros i ts u -> Hu. apply IH. apply (tsize_child i) in Hu. lia. }
      assert (HQ : 1 <= j -> stop (j - 1) Q) by (intros; subst Q; apply (follow_stop j); auto; lia).
      assert (HQ' : 1 <= j -> stop (j - 1) Q') by (intros; subst Q'; apply (follow_stop j); auto; lia).
      (* no operator of the level with a tighter operand can come after the beginning *)
      assert (NO : forall tl R0 alt o w, follow j tl R0 -> In alt alts -> lev alt = j -> 1 <= j -> operator E alt o ->
                   (exists ps, pls alt = Opd (j - 1) :: Sym o :: ps) -> tail_yield tl ++ R0 <> o :: w).
      { intros tl R0 alt o w [T1 T2] A1 A2 A3 A4 [ps A5] A6. destruct tl as [|p tl].
        - cbn in A6. specialize (T2 o w alt A6 A1 A4). lia.
        - inversion T1 as [|? ? Hp Hps]; subst. destruct Hp as [alt' i o' ps' ts Hin Hl Ho1 Ho2 Hop Hpl HG Hi HF].
          cbn in A6. injection A6 as -> _. assert (alt' = alt) by (eapply same_alt; eauto). subst alt'. rewrite A5 in Hpl. injection Hpl as Hpl _. lia. }
      assert (FS : forall u alt x w w' , 1 <= j -> parses L (n + (j - 1)) u -> In alt alts -> lev alt = j -> x < n -> x <> E -> begins alt x ->
                   yield u ++ w <> x :: w').
      { intros u alt x w w' J1 Hu A1 A2 A3 A4 A5 A6. destruct (first_sym (j - 1) u ltac:(lia) Hu) as [y [v [Y HY]]]. rewrite Y in A6. injection A6 as -> _.
        destruct HY as [->|[alt' [B1 [B2 [B3 [B4 B5]]]]]]; [lia|]. assert (alt' = alt) by (eapply same_alt_sym; eauto). subst alt'. lia. }
      destruct HB as [J0 HN|i t1 J1 Hi Ht1|alt i x ps ts Hin Hl Hx HxE Hb Hpl HG Hi HF|alt i o ps t1 ts Hin Hl J1 Ho HoE Hop Hpl HG Hi Ht1 HF];
      destruct HB' as [J0' HN'|i' t1' J1' Hi' Ht1'|alt' i' x' ps' ts' Hin' Hl' Hx' HxE' Hb' Hpl' HG' Hi' HF'|alt' i' o' ps' t1' ts' Hin' Hl' J1' Ho' HoE' Hop' Hpl' HG' Hi' Ht1' HF'];
      try lia; try (exfalso; eapply HN; [eassumption|lia]); try (exfalso; eapply HN'; [eassumption|lia]);
      cbn [yield flat_map] in EQ; rewrite ?app_nil_r in EQ.
      - cbn [app] in EQ. injection EQ as EQ. auto.
      - assert (i' = i) by (eapply index; eauto). subst i'.
        destruct (HI i [t1] t1 eq_refl (or_introl eq_refl) (j - 1) t1' Q Q') as [-> ->]; auto. lia.
      - exfalso. rewrite <- ?app_assoc in EQ. exact (FS t1 alt' x' _ _ J1 Ht1 Hin' Hl' Hx' HxE' Hb' EQ).
      - exfalso. rewrite <- !app_assoc in EQ. cbn [app] in EQ. destruct (HI i [t1] t1 eq_refl (or_introl eq_refl) (j - 1) t1' Q (o' :: flat_map yield ts' ++ Q')) as [_ EQ2]; auto; [lia| |].
        + intros o2 R1 alt2 Heq Hin2 Ho2. injection Heq as <- _. assert (alt2 = alt') by (eapply same_alt; eauto). subst alt2. lia.
        + rewrite EQ1 in EQ2. eapply NO; [exact F|exact Hin'|exact Hl'|exact J1'|exact Hop'|eauto|exact EQ2].
      - exfalso. rewrite <- ?app_assoc in EQ. symmetry in EQ. exact (FS t1' alt x _ _ J1' Ht1' Hin Hl Hx HxE Hb EQ).
      - cbn [app] in EQ. injection EQ as <- EQ. assert (alt' = alt) by (eapply same_alt_sym; eauto). subst alt'.
        rewrite Hpl in Hpl'. injection Hpl' as <-. assert (i' = i) by (eapply index; eauto). subst i'.
        destruct (rest_det j ps HG ts ts' Q Q' HF HF') with (3 := EQ) as [-> ->]; auto.
        + intros u Hu. eapply HI; [reflexivity|right; auto].
        + intros m u Hu. subst Q Q'. split; apply (end_stop j _ _ alt u m [Sym x] ps); auto.
      - exfalso. rewrite <- ?app_assoc in EQ. symmetry in EQ. exact (FS t1' alt x _ _ J1' Ht1' Hin Hl Hx HxE Hb EQ).
      - exfalso. rewrite <- !app_assoc in EQ. cbn [app] in EQ.
        destruct (HI i (t1 :: Leaf o :: ts) t1 eq_refl (or_introl eq_refl) (j - 1) t1' (o :: flat_map yield ts ++ Q) Q') as [_ EQ2]; auto; [lia| |].
        + intros o2 R1 alt2 Heq Hin2 Ho2. injection Heq as <- _. assert (alt2 = alt) by (eapply same_alt; eauto). subst alt2. lia.
        + rewrite EQ1' in EQ2. symmetry in EQ2. eapply NO; [exact F'|exact Hin|exact Hl|exact J1|exact Hop|eauto|exact EQ2].
      - exfalso. rewrite <- ?app_assoc in EQ. exact (FS t1 alt' x' _ _ J1 Ht1 Hin' Hl' Hx' HxE' Hb' EQ).
      - rewrite <- !app_assoc in EQ. cbn [app] in EQ.
        destruct (HI i (t1 :: Leaf o :: ts) t1 eq_refl (or_introl eq_refl) (j - 1) t1' (o :: flat_map yield ts ++ Q) (o' :: flat_map yield ts' ++ Q')) as [-> EQ2]; auto; [lia| | |].
        + intros o2 R1 alt2 Heq Hin2 Ho2. injection Heq as <- _. assert (alt2 = alt) by (eapply same_alt; eauto). subst alt2. lia.
        + intros o2 R1 alt2 Heq Hin2 Ho2. injection Heq as <- _. assert (alt2 = alt') by (eapply same_alt; eauto). subst alt2. lia.
        + injection EQ2 as <- EQ2. assert (alt' = alt) by (eapply same_alt; eauto). subst alt'.
          rewrite Hpl in Hpl'. injection Hpl' as <-. assert (i' = i) by (eapply index; eauto). subst i'.
          destruct (rest_det j ps HG ts ts' Q Q' HF HF') with (3 := EQ2) as [-> ->]; auto.
          * intros u Hu. eapply HI; [reflexivity|right; right; auto].
          * intros m u Hu. subst Q Q'. split; apply (end_stop j _ _ alt u m [Opd (j - 1); Sym o] ps); auto. }
    destruct KEY as [-> EQ2]. destruct (tails_det j tails tails' R R' HT HT' HS HS') as [-> ->]; auto.
    intros p u H1 H2. apply IH. eapply Z2; eauto.
  Qed.

  Theorem ops_unambiguous : unambiguous L E.
  Proof.
    intros t t' H H' EQ.
    assert (HR : forall u, parses L E u -> exists u1, u = Node 0 [u1] /\ parses L (n + top) u1).
    { intros [s|i ts] Hu.
      - apply parses_leaf_inv in Hu. destruct Hu as [<- Hu]. exfalso. eapply Hu. left. reflexivity.
      - apply parses_node_inv in Hu. destruct Hu as [r [Hi HF]]. pose proof (nth_error_In _ _ Hi) as HI. apply ops_in in HI.
        destruct HI as [[_ ->]|[[k [_ [HI _]]]|[alt [_ [HI _]]]]]; try lia.
        assert (i = 0) by (eapply index; [exact Hi|reflexivity]). subst i. inversion HF as [|? u1 ? us F1 F2]; subst. inversion F2; subst. eauto. }
    destruct (HR t H) as [u [-> Hu]]. destruct (HR t' H') as [u' [-> Hu']]. cbn [yield flat_map] in EQ.
    destruct (det_all u top u' [] [] (Nat.le_refl _) Hu Hu') as [-> _]; auto; intros o R1 alt Heq; discriminate.
  Qed.
End Ops.
