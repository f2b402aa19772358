(** Proofs about the precedence builder. *)

From Coq Require Import List Arith NArith Bool Lia.
From Verif Require Import Base ListFacts Spec SpecPrec GrammarFacts SymbolModel HistoryModel CfgModel
  View CfgProof PrecModel PrecView.
Import ListNotations.

(** * From places to symbols *)

Definition enc (lv : list nat) (p : place) : nat :=
  match p with Sym s => s | Opd k => nth k lv 0 end.

Definition is_group (alt : alternative) : bool :=
  match alt with (_, AGroup, _) => true | _ => false end.
Definition level_of (alt : alternative) : nat := fst (fst alt).

Lemma enc_left : forall lv E j l,
  map (enc lv) (left_places E j l) = replace_leftmost E (nth j lv 0) (nth (j - 1) lv 0) l.
Proof.
  induction l as [|x l IH]; simpl; auto. destruct (x =? E); simpl.
  - f_equal. rewrite map_map. apply map_ext. intros y. destruct (y =? E); auto.
  - f_equal; auto.
Qed.

Lemma enc_right : forall lv E j l,
  map (enc lv) (rev (left_places E j (rev l))) = replace_rightmost E (nth j lv 0) (nth (j - 1) lv 0) l.
Proof. intros. unfold replace_rightmost. rewrite map_rev, enc_left. auto. Qed.

Definition place_ok (n top : nat) (p : place) : Prop :=
  match p with Sym s => s < n | Opd k => k <= top end.

Lemma left_places_ok : forall n top E j l, Forall (fun s => s < n) l -> j <= top ->
  Forall (place_ok n top) (left_places E j l).
Proof.
  induction l as [|x l IH]; simpl; intros; auto. inversion H; subst.
  destruct (x =? E); constructor; simpl; auto.
  apply Forall_map. eapply Forall_impl; [| exact H4]. simpl. intros y Hy.
  destruct (y =? E); simpl; auto; lia.
Qed.

Lemma places_ok : forall n top E j a l, Forall (fun s => s < n) l -> j <= top ->
  Forall (place_ok n top) (places E top (j, a, l)).
Proof.
  intros. destruct a; simpl.
  - apply left_places_ok; auto.
  - apply Forall_rev. apply left_places_ok; auto. apply Forall_rev; auto.
  - apply Forall_map. eapply Forall_impl; [| exact H]. simpl. intros y Hy.
    destruct (y =? E); simpl; auto.
Qed.

Lemma places_ok_self : forall n E top j a l, Forall (fun s => s < n) l -> a <> AGroup ->
  Forall (place_ok n j) (places E top (j, a, l)).
Proof.
  intros. destruct a; simpl; [| |congruence].
  - apply left_places_ok; auto.
  - apply Forall_rev. apply left_places_ok; auto. apply Forall_rev; auto.
Qed.

(** * The productions that the builder makes *)

(** Before [finalize]. *)
Definition mid (P : productions) (E : nat) (lv : list nat) (alts : list alternative) : productions :=
  fun A r => P A r \/
    (exists k, S k < length lv /\ A = nth (S k) lv 0 /\ r = [nth k lv 0]) \/
    (exists alt, In alt alts /\ is_group alt = false /\
       A = nth (level_of alt) lv 0 /\ r = map (enc lv) (places E 0 alt)).

(** After it. *)
Definition full (P : productions) (E : nat) (lv : list nat) (alts : list alternative) : productions :=
  fun A r => P A r \/
    (exists k, S k < length lv /\ A = nth (S k) lv 0 /\ r = [nth k lv 0]) \/
    (exists alt, In alt alts /\
       A = nth (level_of alt) lv 0 /\ r = map (enc lv) (places E (length lv - 1) alt)) \/
    (A = E /\ r = [nth (length lv - 1) lv 0]).

Record pinv (g : cfg) (E : nat) (lv : list nat) (alts : list alternative) (b : prec_builder) : Prop := {
  pi_lhs : pb_lhs b = E;
  pi_len : length lv = S (pb_loose b);
  pi_nodup : NoDup lv;
  pi_new : Forall (fun s => num_syms g <= s < num_syms (pb_cfg b)) lv;
  pi_cur : pb_current b = nth (pb_loose b) lv 0;
  pi_tight : pb_tighter b = nth (pb_loose b - 1) lv 0;
  pi_alts : Forall (fun alt => level_of alt <= pb_loose b /\ Forall (fun s => s < num_syms g) (snd alt)) alts;
  pi_grows : grows g (pb_cfg b);
  pi_group : map (fun r => (lhs r, rhs r)) (pb_group b) =
             map (fun alt => (nth (level_of alt) lv 0, snd alt)) (filter is_group alts);
  pi_repr : exists C : nat -> Prop, (forall s, C s -> num_syms g <= s /\ ~ In s lv) /\
             Repr (pb_cfg b) (mid (prods g) E lv alts) C;
  pi_exact : limit g = None -> forall A r, prods (pb_cfg b) A r <-> mid (prods g) E lv alts A r
}.

Lemma grows_next : forall g s g', next_sym g None = (s, g') -> grows g g'.
Proof.
  intros. unfold next_sym, src_next in H. inversion H; subst. constructor; auto.
  - exists 1. simpl. unfold num_syms. f_equal. lia.
  - exists []. rewrite app_nil_r. reflexivity.
Qed.

Lemma prods_next : forall g s g', next_sym g None = (s, g') -> forall A r, prods g' A r <-> prods g A r.
Proof. intros. unfold next_sym, src_next in H. inversion H; subst. unfold prods; simpl. tauto. Qed.

Lemma add_rule_exact : forall g x g', limit g = None -> add_rule g x = Ok g' ->
  forall A r, prods g' A r <-> plus_rule (prods g) (lhs x) (rhs x) A r.
Proof.
  intros g x g' HL E A r. unfold add_rule in E. rewrite add_rule_none in E by auto.
  simpl in E. inversion E; subst. unfold prods, plus_rule, push_rule, set_rules; simpl. split.
  - intros [y [Hy [? ?]]]. apply in_app_or in Hy. destruct Hy as [Hy|[<-|[]]]; [left; eauto | auto].
  - intros [[y [Hy ?]]|[-> ->]]; [exists y | exists x]; split; auto; apply in_or_app; simpl; auto.
Qed.

Lemma plus_rule_ext : forall V V' A r, (forall B q, V B q <-> V' B q) ->
  forall B q, plus_rule V A r B q <-> plus_rule V' A r B q.
Proof. unfold plus_rule; intros. rewrite H. tauto. Qed.

Lemma enc_bound : forall n top lv m u, Forall (fun s => n <= s < m) lv -> n <= m ->
  top < length lv -> Forall (place_ok n top) u -> Forall (fun s => s < m) (map (enc lv) u).
Proof.
  intros. apply Forall_map. eapply Forall_impl; [| exact H2]. intros [s|k]; simpl; intros; [lia|].
  rewrite Forall_forall in H. apply H. apply nth_In. lia.
Qed.

Lemma enc_notC : forall n top lv (C : nat -> Prop) u, (forall s, C s -> n <= s /\ ~ In s lv) ->
  top < length lv -> Forall (place_ok n top) u -> Forall (fun s => ~ C s) (map (enc lv) u).
Proof.
  intros. apply Forall_map. eapply Forall_impl; [| exact H1]. intros [s|k]; simpl; intros; intro Hc.
  - apply H in Hc. lia.
  - apply H in Hc. destruct Hc as [_ Hc]. apply Hc. apply nth_In. lia.
Qed.

Lemma prec_new_inv : forall g E, closed_rules g -> pinv g E [num_syms g] [] (prec_new g E).
Proof.
  intros g E HC. unfold prec_new. destruct (next_sym g None) as [s g1] eqn:EN.
  destruct (next_sym_Repr _ _ _ _ _ _ EN (closed_Repr g HC)) as [-> [HN HR]].
  constructor; simpl; auto.
  - repeat constructor; auto.
  - constructor; auto. lia.
  - eapply grows_next; eauto.
  - exists (fun _ => False). split; [tauto|]. eapply Repr_ext; [exact HR | | tauto].
    intros A r. unfold mid. split; auto. intros [?|[[k [? _]]|[? [[] _]]]]; auto. simpl in *; lia.
  - intros HL A r. rewrite (prods_next _ _ _ EN). unfold mid.
    split; auto. intros [?|[[k [? _]]|[? [[] _]]]]; auto. simpl in *; lia.
Qed.

Definition is_rhs (c : prec_call) (l : list nat) : Prop := call_syms c = l.

(** One alternative. *)
Lemma rhs_group_inv : forall g E lv alts b l h, good_limit (limit g) ->
  pinv g E lv alts b -> Forall (fun s => s < num_syms g) l -> pb_assoc b = AGroup ->
  exists b', prec_rhs_with_history b l h = Ok b' /\ pb_loose b' = pb_loose b /\ pb_assoc b' = ALeft /\
    pinv g E lv (alts ++ [(pb_loose b, pb_assoc b, l)]) b'.
Proof.
  intros g E lv alts b l h HL [I1 I2 I3 I4 I5 I6 I7 I8 I9 [C [IC I10]] I11] Hl HG.
  assert (Ha : Forall (fun alt => level_of alt <= pb_loose b /\ Forall (fun s => s < num_syms g) (snd alt))
                 (alts ++ [(pb_loose b, pb_assoc b, l)])).
  { apply Forall_app. split; auto. }
  pose proof (grows_num _ _ I8) as Hge.
  unfold prec_rhs_with_history. cbn [process_linked bind].
  rewrite HG in *.
  { eexists. split; [reflexivity|]. split; [reflexivity|]. split; [reflexivity|].
      assert (EQ : forall A r, mid (prods g) E lv alts A r <->
                               mid (prods g) E lv (alts ++ [(pb_loose b, AGroup, l)]) A r).
      { intros. unfold mid. split.
        - intros [?|[?|[alt [? ?]]]]; auto. right; right. exists alt; split; auto. apply in_or_app; auto.
        - intros [?|[?|[alt [Hin [Hg ?]]]]]; auto. right; right. exists alt. split; auto.
          apply in_app_or in Hin. destruct Hin as [?|[<-|[]]]; auto. discriminate. }
      constructor; simpl; auto.
      - rewrite map_app, I9, filter_app, map_app. simpl. rewrite I5. reflexivity.
      - exists C. split; auto. eapply Repr_ext; [exact I10 | exact EQ | tauto].
      - intros HN A r. rewrite <- EQ. auto. }
Qed.

Lemma rhs_plain : forall E lv b l h, pb_lhs b = E -> pb_current b = nth (pb_loose b) lv 0 ->
  pb_tighter b = nth (pb_loose b - 1) lv 0 -> pb_assoc b <> AGroup ->
  prec_rhs_with_history b l h =
  (do g <- add_rule (pb_cfg b)
     (mkRule (pb_current b) (map (enc lv) (places E 0 (pb_loose b, pb_assoc b, l))) h);
   Ok (mkPrec g (pb_lhs b) (pb_tighter b) (pb_current b) None default_assoc (pb_loose b) (pb_group b))).
Proof.
  intros E lv b l h H1 H2 H3 H4. unfold prec_rhs_with_history. cbn [process_linked bind].
  destruct (pb_assoc b); [| |congruence]; cbn [places].
  - rewrite enc_left, <- H2, <- H3, H1. reflexivity.
  - rewrite enc_right, <- H2, <- H3, H1. reflexivity.
Qed.

Lemma rhs_inv : forall g E lv alts b l h, good_limit (limit g) ->
  pinv g E lv alts b -> Forall (fun s => s < num_syms g) l ->
  exists b', prec_rhs_with_history b l h = Ok b' /\ pb_loose b' = pb_loose b /\ pb_assoc b' = ALeft /\
    pinv g E lv (alts ++ [(pb_loose b, pb_assoc b, l)]) b'.
Proof.
  intros g E lv alts b l h HL HI Hl.
  assert (pb_assoc b = AGroup \/ pb_assoc b <> AGroup) as [HG|HG]
    by (destruct (pb_assoc b); auto; right; discriminate).
  { apply rhs_group_inv; auto. }
  destruct HI as [I1 I2 I3 I4 I5 I6 I7 I8 I9 [C [IC I10]] I11].
  assert (Ha : Forall (fun alt => level_of alt <= pb_loose b /\ Forall (fun s => s < num_syms g) (snd alt))
                 (alts ++ [(pb_loose b, pb_assoc b, l)])).
  { apply Forall_app. split; auto. }
  pose proof (grows_num _ _ I8) as Hge.
  rewrite (rhs_plain E lv b l h I1 I5 I6 HG).
  assert (Hig : is_group (pb_loose b, pb_assoc b, l) = false) by (destruct (pb_assoc b); auto; congruence).
  assert (Hpo : Forall (place_ok (num_syms g) (pb_loose b)) (places E 0 (pb_loose b, pb_assoc b, l)))
    by (apply places_ok_self; auto).
  assert (Hlv : level_of (pb_loose b, pb_assoc b, l) = pb_loose b) by reflexivity.
  remember (pb_loose b, pb_assoc b, l) as alt eqn:Ealt. clear Ealt.
  destruct (add_rule_Repr (pb_cfg b) _ _ (pb_current b) (map (enc lv) (places E 0 alt)) h
                ltac:(rewrite (gr_limit _ _ I8); auto) I10) as [g' [EQ [G R]]].
  { rewrite I5. rewrite Forall_forall in I4. apply I4. apply nth_In. lia. }
  { rewrite I5. intro Hc. apply IC in Hc. destruct Hc as [_ Hc]. apply Hc. apply nth_In. lia. }
  { eapply enc_bound; [exact I4| lia | | exact Hpo]. lia. }
  { eapply enc_notC; [exact IC | | exact Hpo]. lia. }
  rewrite EQ. cbn [bind]. eexists. split; [reflexivity|]. split; [reflexivity|]. split; [reflexivity|].
  pose proof (grows_num _ _ G) as Hge2.
  assert (EV : forall A r, plus_rule (mid (prods g) E lv alts) (pb_current b)
                  (map (enc lv) (places E 0 alt)) A r <-> mid (prods g) E lv (alts ++ [alt]) A r).
  { intros A r; unfold plus_rule, mid; split.
    - intros [[?|[?|[x [? ?]]]]|[-> ->]]; auto; right; right.
      + exists x; split; auto; apply in_or_app; auto.
      + exists alt. split; [apply in_or_app; simpl; auto |]. rewrite I5, Hlv; auto.
    - intros [?|[?|[x [Hin [? [-> ->]]]]]]; auto.
      apply in_app_or in Hin; destruct Hin as [?|[<-|[]]].
      + left; right; right. exists x; auto.
      + right. rewrite I5, Hlv. auto. }
  constructor; simpl; auto.
  - eapply Forall_impl; [|exact I4]; simpl; intros; lia.
  - eapply grows_trans; eauto.
  - rewrite I9, filter_app. simpl. rewrite Hig, app_nil_r. reflexivity.
  - eexists. split; [| eapply Repr_ext; [exact R | exact EV | intros; apply iff_refl]].
    simpl; intros s [Hs|Hs].
    + apply IC; auto.
    + split; [lia|]. intro Hi. rewrite Forall_forall in I4. apply I4 in Hi. lia.
  - intros HN A r. rewrite (add_rule_exact _ _ _ ltac:(rewrite (gr_limit _ _ I8); auto) EQ).
    simpl. rewrite <- EV. apply plus_rule_ext; auto.
Qed.

Lemma nth_snoc : forall (l : list nat) x k, k < length l -> nth k (l ++ [x]) 0 = nth k l 0.
Proof. intros. apply app_nth1; auto. Qed.

Lemma nth_last : forall (l : list nat) x n, length l = n -> nth n (l ++ [x]) 0 = x.
Proof. intros. rewrite app_nth2 by lia. replace (n - length l) with 0 by lia. reflexivity. Qed.

Lemma enc_snoc : forall n top lv x u, top < length lv -> Forall (place_ok n top) u ->
  map (enc (lv ++ [x])) u = map (enc lv) u.
Proof.
  intros. apply map_ext_in. intros [s|k] Hi; simpl; auto. rewrite Forall_forall in H0.
  apply H0 in Hi. simpl in Hi. apply nth_snoc. lia.
Qed.

Lemma is_group_false : forall alt, is_group alt = false -> snd (fst alt) <> AGroup.
Proof. intros [[j []] l]; simpl; congruence. Qed.

Lemma lower_inv : forall g E lv alts b, good_limit (limit g) ->
  pinv g E lv alts b ->
  exists b' lv', prec_step b PLower = Ok b' /\ pb_loose b' = S (pb_loose b) /\
    pb_assoc b' = pb_assoc b /\ pinv g E lv' alts b'.
Proof.
  intros g E lv alts b HL [I1 I2 I3 I4 I5 I6 I7 I8 I9 [C [IC I10]] I11].
  pose proof (grows_num _ _ I8) as Hge.
  unfold prec_step. destruct (next_sym (pb_cfg b) None) as [s g1] eqn:EN.
  destruct (next_sym_Repr _ _ _ _ _ _ EN I10) as [-> [HN1 R1]].
  pose proof (grows_next _ _ _ EN) as G1. set (s := num_syms (pb_cfg b)) in *.
  assert (Hcur : In (pb_current b) lv) by (rewrite I5; apply nth_In; lia).
  assert (Hcb : num_syms g <= pb_current b < s) by (rewrite Forall_forall in I4; auto).
  assert (HCs : forall x, C x -> x < s) by (apply (rp_C _ _ _ I10)).
  destruct (add_rule_Repr g1 _ _ s [pb_current b] (process_root RNoOp)
              ltac:(rewrite (gr_limit _ _ G1), (gr_limit _ _ I8); auto) R1) as [g2 [EQ [G2 R2]]].
  - lia.
  - intro Hc. apply HCs in Hc. lia.
  - constructor; auto. lia.
  - constructor; auto. intro Hc. apply IC in Hc. tauto.
  - rewrite EQ. cbn [bind]. exists (mkPrec g2 (pb_lhs b) (pb_current b) s (pb_hist b) (pb_assoc b)
      (S (pb_loose b)) (pb_group b)), (lv ++ [s]).
    do 3 (split; [reflexivity|]).
    pose proof (grows_num _ _ G2) as Hge2.
    assert (Hs : ~ In s lv).
    { intro Hi. rewrite Forall_forall in I4. apply I4 in Hi. lia. }
    assert (EV : forall A r, plus_rule (mid (prods g) E lv alts) s [pb_current b] A r <->
                             mid (prods g) E (lv ++ [s]) alts A r).
    { intros A r. unfold plus_rule, mid. split.
      - intros [[?|[[k [Hk [-> ->]]]|[x [Hin [Hg [-> ->]]]]]]|[-> ->]]; auto.
        + right; left. exists k. rewrite app_length. repeat rewrite nth_snoc by lia. simpl. split; [lia|auto].
        + right; right. exists x. split; auto. split; auto.
          rewrite Forall_forall in I7. destruct (I7 _ Hin) as [Hlev Hsy].
          rewrite nth_snoc by lia. split; auto. apply is_group_false in Hg. destruct x as [[j a] l]. simpl in *.
          symmetry. apply (enc_snoc (num_syms g) j); [unfold level_of in *; simpl in *; lia|].
          apply (places_ok_self (num_syms g) E 0); auto.
        + right; left. exists (pb_loose b). rewrite app_length. simpl. split; [lia|].
          rewrite (nth_last lv s (S (pb_loose b))) by lia. rewrite nth_snoc by lia. rewrite I5. auto.
      - intros [?|[[k [Hk [-> ->]]]|[x [Hin [Hg [-> ->]]]]]]; auto.
        + rewrite app_length in Hk. simpl in Hk. destruct (Nat.eq_dec (S k) (length lv)).
          * right. rewrite (nth_last lv s (S k)) by lia. rewrite nth_snoc by lia. rewrite I5.
            split; auto. do 2 f_equal. lia.
          * left; right; left. exists k. repeat rewrite nth_snoc by lia. split; [lia|auto].
        + left; right; right. exists x. split; auto. split; auto.
          rewrite Forall_forall in I7. destruct (I7 _ Hin) as [Hlev Hsy].
          rewrite nth_snoc by lia. split; auto. apply is_group_false in Hg. destruct x as [[j a] l]. simpl in *.
          apply (enc_snoc (num_syms g) j); [unfold level_of in *; simpl in *; lia|].
          apply (places_ok_self (num_syms g) E 0); auto. }
    constructor; simpl; auto.
    + rewrite app_length. simpl. lia.
    + apply NoDup_app. split; auto. split; [repeat constructor; auto|]. intros x Hx [<-|[]]; auto.
    + apply Forall_app. split; [|constructor; auto; lia].
      eapply Forall_impl; [|exact I4]. simpl; intros; lia.
    + rewrite nth_last; auto.
    + rewrite Nat.sub_0_r. rewrite nth_snoc by lia. auto.
    + eapply Forall_impl; [|exact I7]. simpl. intros x [? ?]; split; auto.
    + eapply grows_trans; [exact I8|]. eapply grows_trans; eauto.
    + rewrite I9. apply map_ext_in. intros x Hx. apply filter_In in Hx. destruct Hx as [Hx _].
      rewrite Forall_forall in I7. destruct (I7 _ Hx). rewrite nth_snoc by lia. auto.
    + eexists. split; [| eapply Repr_ext; [exact R2 | exact EV | intros; apply iff_refl]].
      simpl. intros x [Hx|Hx].
      * split; [apply IC; auto|]. intro Hi. apply in_app_or in Hi. destruct Hi as [Hi|[<-|[]]].
        -- eapply IC; eauto.
        -- apply HCs in Hx. lia.
      * split; [lia|]. intro Hi. apply in_app_or in Hi. destruct Hi as [Hi|[<-|[]]]; [|lia].
        rewrite Forall_forall in I4. apply I4 in Hi. lia.
    + intros HN A r.
      rewrite (add_rule_exact _ _ _ ltac:(rewrite (gr_limit _ _ G1), (gr_limit _ _ I8); auto) EQ).
      simpl. rewrite <- EV. apply plus_rule_ext. intros. rewrite (prods_next _ _ _ EN). auto.
Qed.

Lemma steps_inv : forall g E, good_limit (limit g) -> forall calls lv alts b,
  pinv g E lv alts b -> Forall (fun c => Forall (fun s => s < num_syms g) (call_syms c)) calls ->
  exists b' lv', fold_res prec_step calls b = Ok b' /\
    pb_loose b' = pb_loose b + loosest calls /\
    pinv g E lv' (alts ++ alternatives (pb_loose b) (pb_assoc b) calls) b'.
Proof.
  intros g E HL. induction calls as [|c calls IH]; intros lv alts b HI HF.
  - exists b, lv. simpl. rewrite Nat.add_0_r, app_nil_r. auto.
  - inversion HF as [|? ? Hc HF']; subst. destruct c; cbn [fold_res].
    + simpl. apply (IH lv alts (mkPrec (pb_cfg b) (pb_lhs b) (pb_tighter b) (pb_current b) (Some h)
                 (pb_assoc b) (pb_loose b) (pb_group b))); auto. destruct HI; constructor; auto.
    + cbn [prec_step]. destruct (rhs_inv g E lv alts b syms
        (match pb_hist b with Some h => h | None => process_root (RRule (pb_lhs b)) end) HL HI Hc)
        as [b' [EQ [L1 [L2 HI']]]].
      rewrite EQ. cbn [bind]. destruct (IH _ _ _ HI' HF') as [b2 [lv2 [E2 [L3 HI2]]]].
      exists b2, lv2. rewrite L1, L2, <- app_assoc in *. simpl. auto.
    + cbn [prec_step]. destruct (rhs_inv g E lv alts b syms h HL HI Hc) as [b' [EQ [L1 [L2 HI']]]].
      rewrite EQ. cbn [bind]. destruct (IH _ _ _ HI' HF') as [b2 [lv2 [E2 [L3 HI2]]]].
      exists b2, lv2. rewrite L1, L2, <- app_assoc in *. simpl. auto.
    + simpl. apply (IH lv alts (mkPrec (pb_cfg b) (pb_lhs b) (pb_tighter b) (pb_current b) (pb_hist b)
                 a (pb_loose b) (pb_group b))); auto. destruct HI; constructor; auto.
    + destruct (lower_inv g E lv alts b HL HI) as [b' [lv' [EQ [L1 [L2 HI']]]]].
      rewrite EQ. cbn [bind]. destruct (IH _ _ _ HI' HF') as [b2 [lv2 [E2 [L3 HI2]]]].
      exists b2, lv2. rewrite L1, L2 in *. simpl. split; auto. split; auto. lia.
Qed.

Lemma fold_res_map : forall {A B C : Type} (f : A -> B -> res A) (h : C -> B) l a,
  fold_res (fun a c => f a (h c)) l a = fold_res f (map h l) a.
Proof. induction l; simpl; intros; auto. destruct (f a0 (h a)); simpl; auto. Qed.

Lemma add_rules_exact : forall l g g', limit g = None -> fold_res add_rule l g = Ok g' ->
  limit g' = None /\
  forall A r, prods g' A r <-> prods g A r \/ exists x, In x l /\ lhs x = A /\ rhs x = r.
Proof.
  induction l as [|x l IH]; intros g g' HL E.
  - simpl in E. inversion E; subst. split; auto. intros; split; auto. intros [?|[? [[] ?]]]; auto.
  - cbn [fold_res] in E. destruct (add_rule g x) as [g1| |] eqn:E1; try discriminate. cbn [bind] in E.
    assert (HL1 : limit g1 = None).
    { unfold add_rule in E1. rewrite add_rule_none in E1 by auto. simpl in E1. inversion E1; subst. auto. }
    destruct (IH _ _ HL1 E) as [H1 H2]. split; auto. intros A r. rewrite H2.
    rewrite (add_rule_exact _ _ _ HL E1). unfold plus_rule. simpl. split.
    + intros [[?|[-> ->]]|[y [? ?]]]; auto; right; eauto.
    + intros [?|[y [[<-|?] [? ?]]]]; auto. right; eauto.
Qed.

Lemma is_group_true : forall alt, is_group alt = true -> snd (fst alt) = AGroup.
Proof. intros [[j []] l]; simpl; congruence. Qed.

Lemma places_nongroup : forall E top top' alt, is_group alt = false -> places E top alt = places E top' alt.
Proof. intros E top top' [[j []] l] H; auto. discriminate. Qed.

Theorem prec_build_repr : forall g E calls, closed_rules g -> good_limit (limit g) -> E < num_syms g ->
  Forall (fun c => Forall (fun s => s < num_syms g) (call_syms c)) calls ->
  exists g' lv (C : nat -> Prop), prec_build g E calls = Ok g' /\ grows g g' /\
    length lv = S (loosest calls) /\ NoDup lv /\
    Forall (fun s => num_syms g <= s < num_syms g') lv /\
    (forall s, C s -> num_syms g <= s /\ ~ In s lv) /\
    Repr g' (full (prods g) E lv (alternatives 0 ALeft calls)) C /\
    (limit g = None -> forall A r,
       prods g' A r <-> full (prods g) E lv (alternatives 0 ALeft calls) A r) /\
    Forall (fun alt => level_of alt <= loosest calls /\ Forall (fun s => s < num_syms g) (snd alt))
           (alternatives 0 ALeft calls).
Proof.
  intros g E calls HC HL HE HF.
  destruct (steps_inv g E HL calls _ _ _ (prec_new_inv g E HC) HF) as [b [lv [E1 [L1 HI]]]].
  unfold prec_build. rewrite E1. cbn [bind]. clear E1.
  change (pb_loose (prec_new g E)) with 0 in *. change (pb_assoc (prec_new g E)) with ALeft in *.
  cbn [app plus] in *. set (alts := alternatives 0 ALeft calls) in *.
  destruct HI as [I1 I2 I3 I4 I5 I6 I7 I8 I9 [C [IC I10]] I11].
  pose proof (grows_num _ _ I8) as Hge.
  assert (Hcur : In (pb_current b) lv) by (rewrite I5; apply nth_In; lia).
  assert (Hcb : num_syms g <= pb_current b < num_syms (pb_cfg b)) by (rewrite Forall_forall in I4; auto).
  unfold prec_finalize.
  set (h := fun r => mkRule (lhs r) (map (fun x => if x =? pb_lhs b then pb_current b else x) (rhs r)) (hist r)).
  rewrite (fold_res_map add_rule h).
  assert (Hgrp : forall x, In x (map h (pb_group b)) -> exists alt, In alt alts /\ is_group alt = true /\
            lhs x = nth (level_of alt) lv 0 /\ rhs x = map (enc lv) (places E (length lv - 1) alt)).
  { intros x Hx. apply in_map_iff in Hx. destruct Hx as [y [<- Hy]].
    assert (Hi : In (lhs y, rhs y) (map (fun r => (lhs r, rhs r)) (pb_group b))) by (apply in_map_iff; eauto).
    rewrite I9 in Hi. apply in_map_iff in Hi. destruct Hi as [alt [Ea Hi]]. apply filter_In in Hi.
    destruct Hi as [Hi Hg]. exists alt. split; auto. split; auto. injection Ea as E2 E3.
    unfold h. cbn [lhs rhs]. split; auto. apply is_group_true in Hg. destruct alt as [[j a] l].
    simpl in Hg, E3. subst a l. cbn [places]. rewrite map_map. apply map_ext. intros s. rewrite I1.
    destruct (s =? E); simpl; auto. rewrite I5. f_equal. lia. }
  assert (Hgrp2 : forall alt, In alt alts -> is_group alt = true ->
            exists x, In x (map h (pb_group b)) /\
            lhs x = nth (level_of alt) lv 0 /\ rhs x = map (enc lv) (places E (length lv - 1) alt)).
  { intros alt Hin Hg.
    assert (Hi : In (nth (level_of alt) lv 0, snd alt) (map (fun r => (lhs r, rhs r)) (pb_group b))).
    { rewrite I9. apply in_map_iff. exists alt. split; auto. apply filter_In. auto. }
    apply in_map_iff in Hi. destruct Hi as [y [Ey Hy]]. exists (h y). split; [apply in_map; auto|].
    injection Ey as E2 E3. unfold h; cbn [lhs rhs]. split; auto. apply is_group_true in Hg.
    destruct alt as [[j a] l]. simpl in Hg, E3. subst a l. cbn [places]. rewrite map_map. apply map_ext.
    intros s. rewrite I1. destruct (s =? E); simpl; auto. rewrite I5. f_equal. lia. }
  destruct (add_rules_Repr (map h (pb_group b)) (pb_cfg b) _ _
              ltac:(rewrite (gr_limit _ _ I8); auto) I10) as [g1 [E1 [G1 R1]]].
  { apply Forall_forall. intros x Hx. destruct (Hgrp _ Hx) as [alt [Hin [Hg [-> ->]]]].
    rewrite Forall_forall in I7. destruct (I7 _ Hin) as [Hlev Hsy].
    assert (Hl : In (nth (level_of alt) lv 0) lv) by (apply nth_In; lia).
    assert (Hp : Forall (place_ok (num_syms g) (length lv - 1)) (places E (length lv - 1) alt)).
    { destruct alt as [[j a] l]. apply places_ok; auto. unfold level_of in Hlev. simpl in Hlev. lia. }
    split; [rewrite Forall_forall in I4; apply I4; auto|].
    split; [intro Hc; apply IC in Hc; tauto|].
    split; [eapply enc_bound; [exact I4|lia| |exact Hp]; lia|].
    eapply enc_notC; [exact IC| |exact Hp]; lia. }
  rewrite E1. cbn [bind].
  pose proof (grows_num _ _ G1) as Hge1.
  destruct (add_rule_Repr g1 _ _ (pb_lhs b) [pb_current b] (process_root RNoOp)
              ltac:(rewrite (gr_limit _ _ G1), (gr_limit _ _ I8); auto) R1) as [g2 [E2 [G2 R2]]].
  { rewrite I1. lia. }
  { rewrite I1. intros [Hc|Hc]; [apply IC in Hc; lia | lia]. }
  { constructor; auto. lia. }
  { constructor; auto. intros [Hc|Hc]; [apply IC in Hc; tauto | lia]. }
  rewrite E2.
  assert (EV : forall A r,
    plus_rule (fun A r => mid (prods g) E lv alts A r \/
       exists x, In x (map h (pb_group b)) /\ lhs x = A /\ rhs x = r) (pb_lhs b) [pb_current b] A r <->
    full (prods g) E lv alts A r).
  { intros A r. unfold plus_rule, mid, full. rewrite I1, I5. replace (length lv - 1) with (pb_loose b) by lia.
    replace (length lv - 1) with (pb_loose b) in Hgrp, Hgrp2 by lia. split.
    - intros [[[?|[?|[alt [Hin [Hg [-> ->]]]]]]|[x [Hx [<- <-]]]]|[-> ->]]; auto.
      + right; right; left. exists alt. rewrite (places_nongroup E 0 (pb_loose b)) by auto. auto.
      + destruct (Hgrp _ Hx) as [alt [Hin [Hg [-> ->]]]]. right; right; left. exists alt; auto.
    - intros [?|[?|[[alt [Hin [-> ->]]]|?]]]; auto. destruct (is_group alt) eqn:Hg.
      + left; right. destruct (Hgrp2 _ Hin Hg) as [x [? [<- <-]]]. exists x; auto.
      + left; left; right; right. exists alt. rewrite (places_nongroup E 0 (pb_loose b)) by auto. auto. }
  pose proof (grows_num _ _ G2) as Hge2.
  exists g2, lv. eexists. split; [reflexivity|].
  split; [eapply grows_trans; [exact I8|]; eapply grows_trans; eauto|].
  split; [lia|]. split; auto.
  split; [eapply Forall_impl; [|exact I4]; simpl; intros; lia|].
  split; [|split; [eapply Repr_ext; [exact R2 | exact EV | intros; apply iff_refl]|]].
  - simpl. intros s [[Hs|Hs]|Hs]; [apply IC; auto| |]; (split; [lia|]; intro Hi;
      rewrite Forall_forall in I4; apply I4 in Hi; lia).
  - split; [|rewrite <- L1; exact I7].
    intros HN A r.
    destruct (add_rules_exact _ _ _ ltac:(rewrite (gr_limit _ _ I8); auto) E1) as [HN1 X1].
    rewrite (add_rule_exact _ _ _ HN1 E2). cbn [lhs rhs]. rewrite <- EV.
    apply plus_rule_ext. intros B q. rewrite X1, (I11 HN). tauto.
Qed.

(** * The productions derive the expressions *)

Section Equiv.
Variable P : productions.
Variable E n : nat.
Variable lv : list nat.
Variable alts : list alternative.
Hypothesis HP : forall A r, P A r -> A < n /\ Forall (fun s => s < n) r.
Hypothesis HE : E < n.
Hypothesis Hnd : NoDup lv.
Hypothesis Hlv : Forall (fun s => n <= s) lv.
Hypothesis Hne : lv <> [].
Hypothesis Halts : Forall (fun alt => level_of alt < length lv /\ Forall (fun s => s < n) (snd alt)) alts.
Let top := length lv - 1.
Let V := full P E lv alts.

Lemma top_lt : top < length lv.
Proof. unfold top. destruct lv; [congruence|simpl; lia]. Qed.

Lemma expr_looser : forall u w, expr P E top alts u w -> forall k k' u', u = Opd k :: u' -> k <= k' ->
  expr P E top alts (Opd k' :: u') w.
Proof.
  intros u w H. destruct H; intros k0 k' u' Eu Hk; inversion Eu; subst.
  eapply ex_alt; [exact H | lia | auto | auto].
Qed.

Lemma enc_sym : forall r, map (enc lv) (map Sym r) = r.
Proof. intros. rewrite map_map. simpl. apply map_id. Qed.

Lemma level_new : forall k, k < length lv -> n <= nth k lv 0.
Proof. intros. rewrite Forall_forall in Hlv. apply Hlv. apply nth_In; auto. Qed.

Lemma place_level : forall p k, place_ok n top p -> k < length lv -> enc lv p = nth k lv 0 -> p = Opd k.
Proof.
  intros [s|i] k; simpl; intros Hp Hk Ep.
  - pose proof (level_new k Hk). lia.
  - f_equal. pose proof top_lt. eapply NoDup_nth; eauto. lia.
Qed.

Lemma place_old : forall p s, place_ok n top p -> s < n -> enc lv p = s -> p = Sym s.
Proof.
  intros [x|i] s; simpl; intros Hp Hs Ep; [congruence|].
  pose proof top_lt. pose proof (level_new i ltac:(lia)). lia.
Qed.

Lemma alt_places_ok : forall j a l, In (j, a, l) alts -> Forall (place_ok n top) (places E top (j, a, l)).
Proof.
  intros. rewrite Forall_forall in Halts. destruct (Halts _ H). unfold level_of in H0. simpl in *.
  apply (places_ok n top E j a l); auto. unfold top. lia.
Qed.

Lemma sym_ok : forall r, Forall (fun s => s < n) r -> Forall (place_ok n top) (map Sym r).
Proof. intros. apply Forall_map. exact H. Qed.

Lemma full_expr : forall x w, yields V x w -> forall u, x = map (enc lv) u -> Forall (place_ok n top) u ->
  Forall (fun s => s < n) w -> expr P E top alts u w.
Proof.
  intros x w H. induction H as [|s x w H IH|A r x w1 w2 HA Hr IHr Hx IHx]; intros u Eu Hu Hw.
  - destruct u; [constructor|discriminate].
  - destruct u as [|p u]; [discriminate|]. simpl in Eu. injection Eu as E1 E2.
    inversion Hu; subst. inversion Hw; subst. rewrite (place_old p _ H2 H4 eq_refl) at 1.
    constructor. auto.
  - destruct u as [|p u]; [discriminate|]. simpl in Eu. injection Eu as E1 E2.
    inversion Hu as [|? ? Hp Hu']; subst. apply Forall_app in Hw. destruct Hw as [Hw1 Hw2].
    specialize (IHx u eq_refl Hu' Hw2).
    destruct HA as [HA|[[k [Hk [EA ->]]]|[[alt [Hin [EA ->]]]|[EA ->]]]].
    + destruct (HP _ _ HA) as [Ha Hrr]. rewrite (place_old p _ Hp Ha eq_refl) at 1.
      eapply ex_rule; [exact HA | | exact IHx].
      apply IHr; auto. { rewrite enc_sym; auto. } apply sym_ok; auto.
    + rewrite (place_level p (S k) Hp Hk EA).
      assert (Hx1 : expr P E top alts [Opd k] w1).
      { apply IHr; auto. constructor; auto. simpl. unfold top. lia. }
      inversion Hx1 as [| | | |k0 j a l u0 w3 w4 Hin Hjk Hpl Hnil]; subst.
      inversion Hnil; subst. rewrite app_nil_r.
      eapply ex_alt; [exact Hin | lia | exact Hpl | exact IHx].
    + destruct (proj1 (Forall_forall _ _) Halts _ Hin) as [Hlev Hsy].
      rewrite (place_level p (level_of alt) Hp Hlev EA). destruct alt as [[j a] l].
      eapply ex_alt; [exact Hin | unfold level_of; simpl; lia | | exact IHx].
      apply IHr; auto. apply alt_places_ok; auto.
    + rewrite (place_old p E Hp HE EA). apply ex_operand; auto.
      apply IHr; auto. constructor; auto. simpl. lia.
Qed.

Lemma chain_down : forall k j w, j <= k -> k < length lv -> yields V [nth j lv 0] w -> yields V [nth k lv 0] w.
Proof.
  induction k; intros.
  - assert (j = 0) by lia. subst. auto.
  - destruct (Nat.eq_dec j (S k)); [subst; auto|].
    rewrite <- (app_nil_r w). apply y_rule with (r := [nth k lv 0]).
    + right; left. exists k; auto.
    + apply (IHk j); auto; lia.
    + constructor.
Qed.

Lemma expr_full : forall u w, expr P E top alts u w -> Forall (place_ok n top) u ->
  yields V (map (enc lv) u) w.
Proof.
  intros u w H. induction H; intros Hu; cbn [map enc].
  - constructor.
  - constructor. inversion Hu; auto.
  - inversion Hu; subst. destruct (HP _ _ H). eapply y_rule; [left; exact H | | auto].
    rewrite <- (enc_sym r). apply IHexpr1. apply sym_ok; auto.
  - inversion Hu; subst. eapply y_rule with (r := [nth top lv 0]); [right; right; right; auto | | auto].
    apply IHexpr1. constructor; auto. simpl. lia.
  - inversion Hu as [|? ? Hk Hu']; subst. simpl in Hk. pose proof top_lt.
    pose proof (alt_places_ok _ _ _ H) as Hp.
    assert (Y : yields V [nth k lv 0] w1).
    { apply (chain_down k j); auto; [lia|]. rewrite <- (app_nil_r w1).
      eapply y_rule; [| apply IHexpr1; exact Hp | constructor].
      right; right; left. exists (j, a, l). auto. }
    apply (yields_app V [nth k lv 0] w1); auto.
Qed.

Lemma full_iff : forall u w, Forall (place_ok n top) u -> Forall (fun s => s < n) w ->
  (derives V (map (enc lv) u) w <-> expr P E top alts u w).
Proof.
  intros. rewrite derives_iff_yields. split; intros.
  - eapply full_expr; eauto.
  - apply expr_full; auto.
Qed.

End Equiv.
