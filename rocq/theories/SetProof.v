(** Symbol sets and the two boolean closures. *)

From Coq Require Import List Arith NArith Bool Lia Sorted.
From Verif Require Import Base Spec SetView ListFacts SymbolModel LoopModel CfgModel View
  BitSetModel ClosureModel.
Import ListNotations.
Local Notation length := List.length.

(** * Folds *)

Lemma fold_res_inv : forall {A B} (f : A -> B -> res A) (I : list B -> A -> Prop) l a,
  I l a ->
  (forall x rest acc, In x l -> I (x :: rest) acc -> exists acc', f acc x = Ok acc' /\ I rest acc') ->
  exists a', fold_res f l a = Ok a' /\ I [] a'.
Proof.
  intros A B f I. induction l as [|x l IH]; intros a HI HS; simpl.
  - exists a; auto.
  - destruct (HS x l a) as [a' [E HI']]; simpl; auto. rewrite E. simpl.
    apply IH; auto. intros. apply HS; simpl; auto.
Qed.

Lemma fold_res_ok : forall {A B} (f : A -> B -> res A) (I : A -> Prop) l a,
  I a -> (forall x acc, In x l -> I acc -> exists acc', f acc x = Ok acc' /\ I acc') ->
  exists a', fold_res f l a = Ok a' /\ I a'.
Proof.
  intros. apply (fold_res_inv f (fun _ => I)); auto.
Qed.

Lemma fold_res_app : forall {A B} (f : A -> B -> res A) l m a,
  fold_res f (l ++ m) a = bind (fold_res f l a) (fold_res f m).
Proof. induction l; simpl; intros; auto. destruct (f a0 a); simpl; auto. Qed.

(** * Sets *)

Lemma member_dec : forall b s, {member b s} + {~ member b s}.
Proof. intros. unfold member. destruct (nth_error b s) as [[|]|]; auto; right; discriminate. Qed.

Lemma member_lt : forall b s, member b s -> s < length b.
Proof. unfold member; intros. apply nth_error_Some. congruence. Qed.

Lemma bs_set_ok : forall b s e, s < length b -> bs_set b s e = Ok (upd b s e).
Proof. intros. unfold bs_set, set_ix. apply Nat.ltb_lt in H. rewrite H. auto. Qed.

Lemma bs_get_ok : forall b s, s < length b -> exists x, bs_get b s = Ok x /\ (x = true <-> member b s).
Proof.
  intros. unfold bs_get, get_ix, member. destruct (nth_error b s) eqn:E.
  - exists b0; split; auto. split; intros; congruence.
  - apply nth_error_None in E. lia.
Qed.

Lemma member_upd : forall b s e t, s < length b ->
  (member (upd b s e) t <-> (t = s /\ e = true) \/ (t <> s /\ member b t)).
Proof.
  intros. unfold member. rewrite nth_error_upd. destruct (Nat.eq_dec s t) as [->|].
  - rewrite Nat.eqb_refl. apply Nat.ltb_lt in H. rewrite ?H. simpl.
    split; intros H0; [left; split; [auto|]; congruence|]. destruct H0 as [[_ ->]|[? _]]; congruence.
  - replace (s =? t) with false by (symmetry; apply Nat.eqb_neq; auto). simpl.
    split; intros H0; [right; auto|]. destruct H0 as [[? _]|[_ ?]]; congruence.
Qed.

Lemma member_repeat : forall e n s, member (repeat e n) s <-> e = true /\ s < n.
Proof.
  unfold member; induction n; simpl; intros.
  - destruct s; simpl; split; intros; try discriminate; lia.
  - destruct s; simpl.
    + split; intros; [split; [congruence|lia]|]. destruct H; congruence.
    + rewrite IHn. split; intros [? ?]; split; auto; lia.
Qed.

Lemma bs_iter_from_In : forall b i s, In s (bs_iter_from i b) <-> exists k, s = i + k /\ member b k.
Proof.
  unfold member. induction b; simpl; intros.
  - split; [tauto|]. intros [k [_ H]]. destruct k; discriminate.
  - destruct a; simpl; rewrite IHb.
    + split.
      * intros [<-|[k [-> H]]]; [exists 0|exists (S k)]; simpl; split; auto; lia.
      * intros [[|k] [-> H]]; simpl in *; [left; lia|right; exists k; split; auto; lia].
    + split.
      * intros [k [-> H]]. exists (S k); simpl; split; auto; lia.
      * intros [[|k] [-> H]]; simpl in *; [discriminate|exists k; split; auto; lia].
Qed.

Lemma bs_iter_In : forall b s, In s (bs_iter b) <-> member b s.
Proof.
  intros. unfold bs_iter. rewrite bs_iter_from_In. simpl. split.
  - intros [k [-> ?]]; auto.
  - intros; eauto.
Qed.

Lemma bs_iter_from_sorted : forall b i, StronglySorted lt (bs_iter_from i b).
Proof.
  induction b; simpl; intros; [constructor|].
  destruct a; auto. constructor; auto. apply Forall_forall. intros x Hx.
  apply bs_iter_from_In in Hx. destruct Hx as [k [-> _]]. lia.
Qed.

Lemma bs_iter_sorted : forall b, StronglySorted lt (bs_iter b).
Proof. intros. apply bs_iter_from_sorted. Qed.

Lemma bs_negate_member : forall b s, member (bs_negate b) s <-> s < length b /\ ~ member b s.
Proof.
  intros. unfold member, bs_negate. rewrite nth_error_map.
  destruct (nth_error b s) as [[|]|] eqn:E; simpl; split; intros H; try discriminate.
  - destruct H as [_ H]. elim H; auto.
  - split; [|discriminate]. apply nth_error_Some. congruence.
  - auto.
  - apply nth_error_None in E. destruct H. lia.
Qed.

Lemma bs_all_spec : forall b, bs_all b = true <-> forall s, s < length b -> member b s.
Proof.
  unfold bs_all, member. intros b. rewrite forallb_forall. split; intros.
  - destruct (nth_error b s) eqn:E; [|apply nth_error_None in E; lia].
    f_equal. apply H. eapply nth_error_In; eauto.
  - apply In_nth_error in H0. destruct H0 as [n E].
    assert (n < length b) by (apply nth_error_Some; congruence). apply H in H0. congruence.
Qed.

Lemma bs_is_empty_spec : forall b, bs_is_empty b = true <-> exists s, member b s.
Proof.
  unfold bs_is_empty, member. intros b. rewrite existsb_exists. split.
  - intros [x [Hx ->]]. apply In_nth_error in Hx. auto.
  - intros [s E]. exists true; split; auto. eapply nth_error_In; eauto.
Qed.

Lemma bs_union_spec : forall a b, length a = length b -> exists c, bs_union a b = Ok c /\
  length c = length a /\ forall s, member c s <-> member a s \/ member b s.
Proof.
  intros a b H. unfold bs_union. rewrite H, Nat.eqb_refl. eexists; split; [reflexivity|].
  split; [rewrite map_length, combine_length; lia|].
  unfold member. intros s. rewrite nth_error_map. revert b H s.
  induction a; destruct b; simpl; intros; try discriminate.
  - destruct s; simpl; split; intros; try discriminate; destruct H0; discriminate.
  - destruct s; simpl.
    + destruct a, b; simpl; split; intros; auto; try (destruct H0; congruence); try discriminate.
    + apply IHa. lia.
Qed.

Lemma bs_union_panics : forall a b, length a <> length b -> bs_union a b = Panic.
Proof. intros. unfold bs_union. apply Nat.eqb_neq in H. rewrite H. auto. Qed.

(** Marks a list of symbols. *)
Lemma mark_all : forall l b e, Forall (fun s => s < length b) l ->
  exists b', fold_res (fun b s => bs_set b s e) l b = Ok b' /\ length b' = length b /\
  forall t, member b' t <-> (In t l /\ e = true) \/ (~ In t l /\ member b t).
Proof.
  induction l; simpl; intros.
  - exists b. repeat split; auto; tauto.
  - inversion H; subst. rewrite bs_set_ok; auto. simpl.
    destruct (IHl (upd b a e) e) as [b' [E [HL HM]]].
    { rewrite upd_length. auto. }
    exists b'. rewrite E. rewrite upd_length in HL. repeat split; auto.
    + rewrite HM, member_upd; auto. intuition.
    + rewrite HM, member_upd; auto. intros. destruct (Nat.eq_dec t a); subst; intuition.
      destruct (in_dec Nat.eq_dec a l); intuition.
Qed.

Lemma fold_mark : forall e (f : bitset -> rule -> res bitset) (sel : rule -> list nat) n l b,
  (forall x b, In x l -> length b = n ->
     exists b', f b x = Ok b' /\ length b' = n /\
     forall t, member b' t <-> (In t (sel x) /\ e = true) \/ (~ In t (sel x) /\ member b t)) ->
  length b = n ->
  exists b', fold_res f l b = Ok b' /\ length b' = n /\
  forall t, member b' t <-> ((exists x, In x l /\ In t (sel x)) /\ e = true) \/
                            (~ (exists x, In x l /\ In t (sel x)) /\ member b t).
Proof.
  intros e f sel n. induction l; simpl; intros b HF HL.
  - exists b. repeat split; auto.
    + intros. right. split; auto. intros [x [[] _]].
    + intros [[[x [[] _]] _]|[_ ?]]; auto.
  - destruct (HF a b) as [b1 [E1 [L1 M1]]]; auto. rewrite E1. simpl.
    destruct (IHl b1) as [b2 [E2 [L2 M2]]]; auto.
    exists b2. repeat split; auto.
    + rewrite M2, M1. intros [[[x [Hx Ht]] ?]|[Hn [[? ?]|[? ?]]]].
      * left; split; auto. exists x; auto.
      * left; split; auto. exists a; auto.
      * right; split; auto. intros [x [[->|Hx] Ht]]; [contradiction|]. apply Hn. exists x; auto.
    + rewrite M2, M1. intros [[[x [[->|Hx] Ht]] ?]|[Hn ?]].
      * destruct (in_dec Nat.eq_dec t (flat_map sel l)) as [Hi|Hi].
        -- apply in_flat_map in Hi. left; split; auto.
        -- right; split; [|left; split; auto]. intros HX. apply Hi, in_flat_map; auto.
      * left; split; auto. exists x; auto.
      * right; split; [|right; split; auto].
        -- intros [x [Hx Ht]]. apply Hn. exists x; auto.
        -- intros Ht. apply Hn. exists a; auto.
Qed.

Definition rule_syms (r : rule) : list nat := lhs r :: rhs r.

Lemma mark_rule_spec : forall g e x b, closed_rules g -> In x (rules g) -> length b = num_syms g ->
  exists b', bs_mark_rule e b x = Ok b' /\ length b' = num_syms g /\
  forall t, member b' t <-> (In t (rule_syms x) /\ e = true) \/ (~ In t (rule_syms x) /\ member b t).
Proof.
  intros g e x b HC Hx HL. destruct (HC x Hx) as [H1 H2]. unfold bs_mark_rule.
  destruct (mark_all (rule_syms x) b e) as [b' [E [L M]]].
  { unfold rule_syms. rewrite HL. constructor; auto. }
  simpl in E. exists b'. repeat split; auto; try congruence; apply M.
Qed.

Lemma mark_lhs_spec : forall g e x b, closed_rules g -> In x (rules g) -> length b = num_syms g ->
  exists b', bs_set b (lhs x) e = Ok b' /\ length b' = num_syms g /\
  forall t, member b' t <-> (In t [lhs x] /\ e = true) \/ (~ In t [lhs x] /\ member b t).
Proof.
  intros g e x b HC Hx HL. destruct (HC x Hx) as [H1 H2].
  rewrite bs_set_ok by lia. eexists; split; eauto. rewrite upd_length. split; auto.
  intros. rewrite member_upd by lia. simpl. intuition.
Qed.

Lemma occurs_iff : forall g t, occurs (prods g) t <-> exists x, In x (rules g) /\ In t (rule_syms x).
Proof.
  unfold occurs, prods, rule_syms. intros g t. split.
  - intros [A [r [[x [Hx [<- <-]]] H]]]. exists x; simpl; split; auto. destruct H; auto.
  - intros [x [Hx [H|H]]]; exists (lhs x), (rhs x); split; eauto.
Qed.

Lemma nonterminal_iff : forall g t, nonterminal (prods g) t <-> exists x, In x (rules g) /\ In t [lhs x].
Proof.
  unfold nonterminal, prods. intros g t. split.
  - intros [r [x [Hx [<- _]]]]. exists x; simpl; auto.
  - intros [x [Hx [<-|[]]]]. eauto.
Qed.

Lemma terminal_not_nonterminal : forall P t, terminal P t <-> ~ nonterminal P t.
Proof. unfold terminal, nonterminal. intros; split; [intros H [r Hr]; eapply H; eauto|intros H r Hr; apply H; eauto]. Qed.

Lemma length_from_elem : forall g e, length (bs_from_elem g e) = num_syms g.
Proof. intros; apply repeat_length. Qed.

Lemma bs_used_spec : forall g, closed_rules g -> exists b, bs_used g = Ok b /\ length b = num_syms g /\
  forall s, member b s <-> occurs (prods g) s.
Proof.
  intros g HC. destruct (fold_mark true (bs_mark_rule true) rule_syms (num_syms g) (rules g) (bs_reset g))
    as [b [E [L M]]].
  - intros. apply mark_rule_spec; auto.
  - apply repeat_length.
  - exists b. split; auto. split; auto. intros. rewrite M, occurs_iff. unfold bs_reset.
    rewrite member_repeat. intuition discriminate.
Qed.

Lemma occurs_lt : forall g s, closed_rules g -> occurs (prods g) s -> s < num_syms g.
Proof.
  intros g s HC H. apply occurs_iff in H. destruct H as [x [Hx Hs]]. destruct (HC x Hx).
  destruct Hs as [<-|Hs]; auto. rewrite Forall_forall in H0; auto.
Qed.

Lemma bs_unused_spec : forall g, closed_rules g -> exists b, bs_unused g = Ok b /\ length b = num_syms g /\
  forall s, member b s <-> s < num_syms g /\ ~ occurs (prods g) s.
Proof.
  intros g HC. destruct (fold_mark false (bs_mark_rule false) rule_syms (num_syms g) (rules g) (bs_set_all g))
    as [b [E [L M]]].
  - intros. apply mark_rule_spec; auto.
  - apply repeat_length.
  - exists b. split; auto. split; auto. intros. rewrite M, occurs_iff. unfold bs_set_all.
    rewrite member_repeat. intuition discriminate.
Qed.

Lemma bs_terminal_spec : forall g, closed_rules g -> exists b, bs_terminal g = Ok b /\ length b = num_syms g /\
  forall s, member b s <-> s < num_syms g /\ terminal (prods g) s.
Proof.
  intros g HC. destruct (fold_mark false (fun b r => bs_set b (lhs r) false) (fun x => [lhs x])
                           (num_syms g) (rules g) (bs_set_all g)) as [b [E [L M]]].
  - intros. apply mark_lhs_spec; auto.
  - apply repeat_length.
  - exists b. split; auto. split; auto. intros.
    rewrite M, terminal_not_nonterminal, nonterminal_iff. unfold bs_set_all.
    rewrite member_repeat. intuition discriminate.
Qed.

Lemma bs_nulling_from_spec : forall g b0, closed_rules g -> length b0 = num_syms g ->
  exists b, bs_nulling g b0 = Ok b /\ length b = num_syms g /\
  forall s, member b s <-> member b0 s \/ prods g s [].
Proof.
  intros g b0 HC HL0. unfold bs_nulling.
  assert (HZ : (if length b0 =? 0 then bs_reset g else b0) = b0).
  { destruct (length b0 =? 0) eqn:Z; auto. apply Nat.eqb_eq in Z. unfold bs_reset.
    rewrite <- HL0, Z. destruct b0; [auto|discriminate]. }
  rewrite HZ.
  destruct (fold_mark true (fun b r => if is_nil (rhs r) then bs_set b (lhs r) true else Ok b)
              (fun x => if is_nil (rhs x) then [lhs x] else [])
              (num_syms g) (rules g) b0) as [b [E [L M]]]; auto.
  - intros x b Hx HL. destruct (is_nil (rhs x)).
    + apply mark_lhs_spec; auto.
    + exists b. repeat split; auto; simpl; tauto.
  - exists b. split; auto. split; auto. intros. rewrite M.
    assert (HX : prods g s [] <-> exists x, In x (rules g) /\ In s (if is_nil (rhs x) then [lhs x] else [])).
    { unfold prods. split.
      - intros [x [Hx [<- Hr]]]. exists x; split; auto. rewrite Hr. simpl; auto.
      - intros [x [Hx Hs]]. exists x. destruct (is_nil (rhs x)) eqn:Z; [|destruct Hs].
        apply is_nil_true in Z. destruct Hs as [<-|[]]. auto. }
    rewrite <- HX. split; [tauto|]. intros [H|H]; auto.
    destruct (in_dec Nat.eq_dec s (flat_map (fun x => if is_nil (rhs x) then [lhs x] else []) (rules g))) as [Hi|Hi];
      rewrite in_flat_map in Hi; rewrite HX; tauto.
Qed.

Lemma nulling_symbols_spec : forall g, closed_rules g ->
  exists b, nulling_symbols g = Ok b /\ length b = num_syms g /\ forall s, member b s <-> prods g s [].
Proof.
  intros g HC. destruct (bs_nulling_from_spec g (bs_reset g)) as [b [E [L M]]]; auto.
  - apply repeat_length.
  - exists b. repeat split; auto; intros.
    + apply M in H. destruct H; auto. apply member_repeat in H. destruct H; discriminate.
    + apply M. auto.
Qed.

Lemma lhs_fold_spec : forall g e b0, closed_rules g -> length b0 = num_syms g ->
  exists b, fold_res (fun b r => bs_set b (lhs r) e) (rules g) b0 = Ok b /\ length b = num_syms g /\
  forall s, member b s <-> (nonterminal (prods g) s /\ e = true) \/ (~ nonterminal (prods g) s /\ member b0 s).
Proof.
  intros g e b0 HC HL0.
  destruct (fold_mark e (fun b r => bs_set b (lhs r) e) (fun x => [lhs x])
                           (num_syms g) (rules g) b0) as [b [E [L M]]]; auto.
  - intros. apply mark_lhs_spec; auto.
  - exists b. split; auto. split; auto. intros. rewrite M, nonterminal_iff. tauto.
Qed.

Lemma nonterminal_dec : forall g s, nonterminal (prods g) s \/ ~ nonterminal (prods g) s.
Proof.
  intros. rewrite nonterminal_iff.
  destruct (in_dec Nat.eq_dec s (flat_map (fun x => [lhs x]) (rules g))) as [Hi|Hi];
    rewrite in_flat_map in Hi; tauto.
Qed.

(** [productive] on a set of the right size; on an empty one it starts from the empty set,
    [subtract_productive] from the full set. *)
Lemma bs_productive_spec : forall g b0, closed_rules g -> length b0 = num_syms g ->
  exists b, bs_productive g b0 = Ok b /\ length b = num_syms g /\
  forall s, member b s <-> member b0 s \/ nonterminal (prods g) s.
Proof.
  intros g b0 HC HL0. unfold bs_productive.
  assert (HZ : (if length b0 =? 0 then bs_reset g else b0) = b0).
  { destruct (length b0 =? 0) eqn:Z; auto. apply Nat.eqb_eq in Z. unfold bs_reset.
    rewrite <- HL0, Z. destruct b0; [auto|discriminate]. }
  rewrite HZ. destruct (lhs_fold_spec g true b0 HC HL0) as [b [E [L M]]].
  exists b. split; auto. split; auto. intros. rewrite M. destruct (nonterminal_dec g s); tauto.
Qed.

Lemma bs_productive_new_spec : forall g, closed_rules g ->
  exists b, bs_productive g bs_new = Ok b /\ length b = num_syms g /\
  forall s, member b s <-> nonterminal (prods g) s.
Proof.
  intros g HC. destruct (lhs_fold_spec g true (bs_reset g) HC) as [b [E [L M]]].
  { apply repeat_length. }
  exists b. split; auto. split; auto. intros. rewrite M. unfold bs_reset. rewrite member_repeat.
  intuition discriminate.
Qed.

Lemma bs_nulling_new_spec : forall g, closed_rules g ->
  exists b, bs_nulling g bs_new = Ok b /\ length b = num_syms g /\ forall s, member b s <-> prods g s [].
Proof.
  intros g HC. destruct (nulling_symbols_spec g HC) as [b [E H]]. exists b; split; auto.
  unfold nulling_symbols, bs_nulling, bs_new in *. simpl.
  destruct (length (bs_reset g) =? 0); auto.
Qed.

Lemma bs_subtract_spec : forall g b0, closed_rules g -> length b0 = num_syms g ->
  exists b, bs_subtract_productive g b0 = Ok b /\ length b = num_syms g /\
  forall s, member b s <-> member b0 s /\ ~ nonterminal (prods g) s.
Proof.
  intros g b0 HC HL0. unfold bs_subtract_productive.
  assert (HZ : (if length b0 =? 0 then bs_set_all g else b0) = b0).
  { destruct (length b0 =? 0) eqn:Z; auto. apply Nat.eqb_eq in Z. unfold bs_set_all.
    rewrite <- HL0, Z. destruct b0; [auto|discriminate]. }
  rewrite HZ. destruct (lhs_fold_spec g false b0 HC HL0) as [b [E [L M]]].
  exists b. split; auto. split; auto. intros. rewrite M. intuition discriminate.
Qed.

Lemma bs_reserve_spec : forall b n s, (member (bs_reserve b n) s <-> member b s) /\
  length (bs_reserve b n) = Nat.max n (length b).
Proof.
  intros. unfold bs_reserve. split.
  - unfold member. destruct (lt_dec s (length b)).
    + rewrite nth_error_app1; auto. tauto.
    + rewrite nth_error_app2 by lia. fold (member (repeat false (n - length b)) (s - length b)).
      rewrite member_repeat. split; intros; [destruct H; discriminate|].
      assert (s < length b) by (apply nth_error_Some; congruence). lia.
  - rewrite app_length, repeat_length. lia.
Qed.

(** * Occurrence map *)

Lemma occ_fold : forall l i m s, NoDup l ->
  fold_left (fun m s => occ_push m s i) l m s = if mem s l then m s ++ [i] else m s.
Proof.
  induction l; simpl; intros; auto. inversion H; subst. rewrite IHl; auto. unfold occ_push.
  destruct (Nat.eqb_spec s a); subst; simpl; auto.
  destruct (mem a l) eqn:E; auto. apply mem_In in E. contradiction.
Qed.

Fixpoint occ_list (i : nat) (l : list rule) (s : nat) : list nat :=
  match l with
  | [] => []
  | r :: l' => if mem s (rhs r) then i :: occ_list (S i) l' s else occ_list (S i) l' s
  end.

Lemma occ_from_list : forall l i m s, occ_from i l m s = m s ++ occ_list i l s.
Proof.
  induction l; simpl; intros.
  - rewrite app_nil_r; auto.
  - rewrite IHl. rewrite occ_fold.
    + assert (E : mem s (dedup (sort_nat (rhs a))) = mem s (rhs a)).
      { apply eq_true_iff_eq. rewrite !mem_In, dedup_In, sort_nat_In. tauto. }
      rewrite E. destruct (mem s (rhs a)); auto. rewrite <- app_assoc. auto.
    + apply sorted_lt_NoDup, dedup_sorted, sort_nat_sorted.
Qed.

Lemma occ_from_rules_list : forall l s, occ_from_rules l s = occ_list 0 l s.
Proof. intros. unfold occ_from_rules. rewrite occ_from_list. auto. Qed.

(** The occurrence map lists each rule with the symbol on its right-hand side once. *)
Lemma occ_list_In : forall l i s id, In id (occ_list i l s) <->
  exists k r, id = i + k /\ nth_error l k = Some r /\ In s (rhs r).
Proof.
  induction l; simpl; intros.
  - split; [tauto|]. intros [[|k] [r [_ [H _]]]]; discriminate.
  - assert (HX : In id (occ_list (S i) l s) <->
      exists k r, id = i + S k /\ nth_error l k = Some r /\ In s (rhs r)).
    { rewrite IHl. split; intros [k [r [-> ?]]]; exists k, r; split; auto; lia. }
    destruct (mem s (rhs a)) eqn:E; simpl; rewrite HX; split.
    + intros [<-|[k [r [-> ?]]]].
      * exists 0, a; simpl. repeat split; auto. apply mem_In; auto.
      * exists (S k), r; auto.
    + intros [[|k] [r [-> [H1 H2]]]]; simpl in *; [left; lia|right; exists k, r; auto].
    + intros [k [r [-> ?]]]. exists (S k), r; auto.
    + intros [[|k] [r [-> [H1 H2]]]]; simpl in *.
      * inversion H1; subst. apply mem_not_In in E. contradiction.
      * exists k, r; auto.
Qed.

Lemma occ_In : forall l s id, In id (occ_from_rules l s) <->
  exists r, nth_error l id = Some r /\ In s (rhs r).
Proof.
  intros. rewrite occ_from_rules_list, occ_list_In. simpl. split.
  - intros [k [r [-> ?]]]; eauto.
  - intros [r ?]; eauto.
Qed.

(** * Boolean closures *)

Lemma all_res_spec : forall b r, Forall (fun s => s < length b) r ->
  exists x, all_res (bs_get b) r = Ok x /\ (x = true <-> Forall (member b) r).
Proof.
  induction r; simpl; intros.
  - exists true; split; auto. split; auto.
  - inversion H; subst. destruct (bs_get_ok b a H2) as [x [E Hx]]. rewrite E. simpl.
    destruct x.
    + destruct (IHr H3) as [y [E' Hy]]. exists y; split; auto. rewrite Hy. split; intros.
      * constructor; auto. apply Hx; auto.
      * inversion H0; auto.
    + exists false; split; auto. split; intros; [discriminate|]. inversion H0; subst.
      apply Hx in H5. discriminate.
Qed.

Lemma any_res_spec : forall b r, Forall (fun s => s < length b) r ->
  exists x, any_res (bs_get b) r = Ok x /\ (x = true <-> Exists (member b) r).
Proof.
  induction r; simpl; intros.
  - exists false; split; auto. split; [discriminate|]. intros H0; inversion H0.
  - inversion H; subst. destruct (bs_get_ok b a H2) as [x [E Hx]]. rewrite E. simpl.
    destruct x.
    + exists true; split; auto. split; auto. intros _. left. apply Hx; auto.
    + destruct (IHr H3) as [y [E' Hy]]. exists y; split; auto. rewrite Hy. split; intros.
      * right; auto.
      * inversion H0; subst; auto. apply Hx in H4; discriminate.
Qed.

Fixpoint count_false (b : bitset) : nat :=
  match b with
  | [] => 0
  | true :: b' => count_false b'
  | false :: b' => S (count_false b')
  end.

Lemma count_false_upd : forall b s, s < length b -> ~ member b s ->
  S (count_false (upd b s true)) = count_false b.
Proof.
  unfold member. induction b; simpl; intros; [lia|].
  destruct s; simpl in *.
  - destruct a; auto. elim H0; auto.
  - destruct a; simpl; rewrite IHb; auto; lia.
Qed.

Lemma count_false_iter : forall b i, count_false b + length (bs_iter_from i b) = length b.
Proof. induction b; simpl; intros; auto. destruct a; simpl; rewrite <- (IHb (S i)); lia. Qed.

Section Closure.
  Context (g : cfg) (mode : property_mode) (n : nat) (b0 : bitset).
  Hypothesis (HN : num_syms g <= n) (HC : closed_rules g).

  Definition spec_closure (s : nat) : Prop :=
    match mode with
    | PAll => closure_all (prods g) (member b0) s
    | PAny => closure_any (prods g) (member b0) s
    end.

  (** A rule fires because of the symbol [w]. *)
  Definition fires (p : bitset) (r : rule) : Prop :=
    match mode with
    | PAll => rhs r <> [] /\ Forall (member p) (rhs r)
    | PAny => Exists (member p) (rhs r)
    end.

  (** Work that is left: the rule has a symbol on the stack. *)
  Definition waits (p : bitset) (stack : list nat) (r : rule) : Prop :=
    match mode with
    | PAll => exists s, In s (rhs r) /\ In s stack
    | PAny => True
    end.

  Definition done_or (p : bitset) (stack : list nat) (cur : nat) (pending : list nat) : Prop :=
    forall id r, nth_error (rules g) id = Some r ->
    match mode with
    | PAll => rhs r <> [] -> Forall (member p) (rhs r) ->
              member p (lhs r) \/ (exists s, In s (rhs r) /\ In s stack) \/
              (In cur (rhs r) /\ In id pending)
    | PAny => forall s, In s (rhs r) -> member p s ->
              member p (lhs r) \/ In s stack \/ (s = cur /\ In id pending)
    end.

  Record cinv (p : bitset) (stack : list nat) : Prop := {
    ci_len : length p = n;
    ci_sound : forall s, member p s -> spec_closure s;
    ci_init : forall s, member b0 s -> member p s;
    ci_stack : forall s, In s stack -> member p s
  }.

  Lemma closure_rule_spec : forall cur p stack id pending m,
    cinv p stack -> member p cur ->
    (exists r, nth_error (rules g) id = Some r /\ In cur (rhs r)) ->
    done_or p stack cur (id :: pending) ->
    count_false p + length stack = m ->
    exists p' stack', closure_rule mode (rules g) (p, stack) id = Ok (p', stack') /\
      cinv p' stack' /\ member p' cur /\ done_or p' stack' cur pending /\
      count_false p' + length stack' = m.
  Proof.
    intros cur p stack id pending m HI Hcur [r [Hr Hin]] HD Hm.
    unfold closure_rule. unfold get_ix at 1. rewrite Hr. simpl.
    assert (Hin' : In r (rules g)) by (eapply nth_error_In; eauto).
    destruct (HC r Hin') as [Hl Hrs]. destruct HI as [IL IS II IK].
    assert (Hrs' : Forall (fun s => s < length p) (rhs r)).
    { eapply Forall_impl; [|eauto]. simpl; intros; lia. }
    assert (HSAT : exists sat, match mode with
                     | PAll => all_res (bs_get p) (rhs r)
                     | PAny => any_res (bs_get p) (rhs r)
                     end = Ok sat /\ (sat = true <-> fires p r)).
    { unfold fires. destruct mode.
      - destruct (all_res_spec p (rhs r) Hrs') as [x [E Hx]]. exists x; split; auto.
        rewrite Hx. split; intros; [split; auto|tauto]. intros HE. rewrite HE in Hin. destruct Hin.
      - destruct (any_res_spec p (rhs r) Hrs') as [x [E Hx]]. exists x; split; auto. }
    destruct HSAT as [sat [E Hsat]]. rewrite E. simpl.
    destruct (bs_get_ok p (lhs r)) as [pl [E2 Hpl]]; [lia|]. rewrite E2. simpl.
    destruct (negb pl && sat) eqn:EB.
    - apply andb_true_iff in EB. destruct EB as [EB1 EB2]. apply negb_true_iff in EB1.
      rewrite EB2 in Hsat. rewrite EB1 in Hpl. destruct Hsat as [Hsat _]. specialize (Hsat eq_refl).
      assert (Hnl : ~ member p (lhs r)) by (intros HX; apply Hpl in HX; discriminate).
      rewrite bs_set_ok by lia. simpl. do 2 eexists; split; [reflexivity|].
      assert (HM : forall t, member (upd p (lhs r) true) t <-> t = lhs r \/ member p t).
      { intros. rewrite member_upd by lia. destruct (Nat.eq_dec t (lhs r)); tauto. }
      split; [constructor|split; [|split]].
      + rewrite upd_length; auto.
      + intros s Hs. apply HM in Hs. destruct Hs as [->|Hs]; auto.
        unfold spec_closure, fires in *. destruct mode.
        * eapply ca_rule with (r := rhs r); [exists r; auto|tauto|].
          eapply Forall_impl; [|apply Hsat]. auto.
        * apply Exists_exists in Hsat. destruct Hsat as [s [Hs1 Hs2]].
          eapply cy_rule with (r := rhs r); [exists r; auto|eauto|auto].
      + intros. apply HM; auto.
      + intros s [<-|Hs]; apply HM; auto.
      + apply HM; auto.
      + intros id' r' Hr'. specialize (HD id' r' Hr'). destruct mode.
        * intros Hne HF. destruct (in_dec Nat.eq_dec (lhs r) (rhs r')) as [Hi|Hi].
          -- right; left. exists (lhs r). simpl; auto.
          -- assert (HF' : Forall (member p) (rhs r')).
             { rewrite Forall_forall in *. intros x Hx. specialize (HF x Hx). apply HM in HF.
               destruct HF as [->|]; auto. contradiction. }
             destruct (HD Hne HF') as [H|[[s [Hs1 Hs2]]|[H1 [<-|H2]]]].
             ++ left. apply HM; auto.
             ++ right; left. exists s; simpl; auto.
             ++ left. apply HM. left. congruence.
             ++ right; right; auto.
        * intros s Hs Hms. apply HM in Hms. destruct Hms as [->|Hms].
          -- right; left; simpl; auto.
          -- destruct (HD s Hs Hms) as [H|[H|[H1 [<-|H2]]]].
             ++ left. apply HM; auto.
             ++ right; left; simpl; auto.
             ++ left. apply HM. left. congruence.
             ++ right; right; auto.
      + simpl. pose proof (count_false_upd p (lhs r)). rewrite <- Hm, <- H; auto; lia.
    - do 2 eexists; split; [reflexivity|]. split; [constructor; auto|]. split; auto. split; auto.
      assert (HL : fires p r -> member p (lhs r)).
      { intros HF. apply Hsat in HF. subst sat. rewrite andb_true_r in EB.
        apply negb_false_iff in EB. apply Hpl; auto. }
      intros id' r' Hr'. specialize (HD id' r' Hr'). unfold fires in HL. destruct mode.
      + intros Hne HF. destruct (HD Hne HF) as [H|[H|[H1 [<-|H2]]]]; auto.
        left. assert (r' = r) by congruence. subst. auto.
      + intros s Hs Hms. destruct (HD s Hs Hms) as [H|[H|[H1 [<-|H2]]]]; auto.
        left. assert (r' = r) by congruence. subst. apply HL. apply Exists_exists. eauto.
  Qed.

  Lemma closure_rules_spec : forall cur ids p stack m,
    cinv p stack -> member p cur ->
    (forall id, In id ids -> exists r, nth_error (rules g) id = Some r /\ In cur (rhs r)) ->
    done_or p stack cur ids ->
    count_false p + length stack = m ->
    exists p' stack', fold_res (closure_rule mode (rules g)) ids (p, stack) = Ok (p', stack') /\
      cinv p' stack' /\ done_or p' stack' cur [] /\ count_false p' + length stack' = m.
  Proof.
    induction ids as [|id ids IH]; intros p stack m HI Hc HO HD Hm; cbn [fold_res].
    - exists p, stack. auto.
    - destruct (closure_rule_spec cur p stack id ids m) as [p1 [st1 [E [I1 [C1 [D1 M1]]]]]]; auto.
      { apply HO; simpl; auto. }
      rewrite E. cbn [bind]. apply IH; auto. intros. apply HO; simpl; auto.
  Qed.

  Lemma closure_loop_spec : forall fuel p stack,
    cinv p stack -> done_or p stack 0 [] -> count_false p + length stack <= fuel ->
    exists p', closure_loop fuel mode (rules g) (occ_from_rules (rules g)) p stack = Ok p' /\
      cinv p' [] /\ done_or p' [] 0 [].
  Proof.
    induction fuel; intros p stack HI HD Hm.
    - destruct stack; [exists p; auto|]. simpl in Hm. lia.
    - destruct stack as [|cur stack]; [exists p; auto|].
      cbn [closure_loop].
      destruct (closure_rules_spec cur (occ_from_rules (rules g) cur) p stack (count_false p + length stack))
        as [p1 [st1 [E [I1 [D1 M1]]]]]; auto.
      + destruct HI; constructor; auto. intros; apply ci_stack0; simpl; auto.
      + apply (ci_stack _ _ HI). simpl; auto.
      + intros id Hid. apply occ_In in Hid. auto.
      + intros id r Hr. specialize (HD id r Hr). destruct mode.
        * intros Hne HF. destruct (HD Hne HF) as [H|[[s [Hs1 Hs2]]|[_ []]]]; auto.
          destruct Hs2 as [<-|Hs2].
          -- right; right; split; auto. apply occ_In. eauto.
          -- right; left; eauto.
        * intros s Hs Hms. destruct (HD s Hs Hms) as [H|[[<-|H]|[_ []]]]; auto.
          right; right; split; auto. apply occ_In. eauto.
      + rewrite E. cbn [bind]. apply IHfuel; auto.
        * intros id r Hr. specialize (D1 id r Hr). destruct mode; intros.
          -- destruct (D1 H H0) as [?|[?|[_ []]]]; auto.
          -- destruct (D1 s H H0) as [?|[?|[_ []]]]; auto.
        * simpl in Hm. lia.
  Qed.

  Hypothesis (HB : length b0 = n).

  Lemma rhs_closure_spec0 : exists p, rhs_closure g b0 mode = Ok p /\ length p = length b0 /\
    forall s, member p s <-> spec_closure s.
  Proof.
    unfold rhs_closure.
    destruct (closure_loop_spec (length b0) b0 (rev (bs_iter b0))) as [p [E [HI HD]]].
    - constructor; auto.
      + intros. unfold spec_closure. destruct mode; constructor; auto.
      + intros s Hs. apply in_rev in Hs. apply bs_iter_In; auto.
    - intros id r Hr. destruct mode.
      + intros Hne HF. right; left. destruct (rhs r) as [|a q]; [congruence|].
        inversion HF; subst. exists a; split; simpl; auto. rewrite <- in_rev, bs_iter_In. auto.
      + intros s Hs Hms. right; left. rewrite <- in_rev, bs_iter_In. auto.
    - rewrite rev_length. unfold bs_iter. rewrite (count_false_iter b0 0). lia.
    - exists p. split; auto. destruct HI as [IL IS II IK]. split; [congruence|].
      intros s; split; auto. unfold done_or in HD. unfold spec_closure.
      destruct mode.
      + clear IS IK. revert s.
        fix IH 2. intros s H. destruct H as [s H|A r [x [Hx [<- <-]]] Hne HF]; [apply II; exact H|].
        apply In_nth_error in Hx. destruct Hx as [id Hid].
        destruct (HD id x Hid Hne) as [?|[[? [_ []]]|[_ []]]]; auto.
        clear Hne HD Hid. induction HF; constructor; auto.
      + induction 1; auto. destruct H as [x [Hx [<- <-]]].
        apply In_nth_error in Hx. destruct Hx as [id Hid].
        destruct (HD id x Hid s H0 IHclosure_any) as [?|[[]|[_ []]]]; auto.
  Qed.
End Closure.

Theorem rhs_closure_all_spec : forall g b, closed_rules g -> num_syms g <= length b ->
  exists p, rhs_closure_for_all g b = Ok p /\ length p = length b /\
    forall s, member p s <-> closure_all (prods g) (member b) s.
Proof. intros. apply (rhs_closure_spec0 g PAll (length b) b); auto. Qed.

Theorem rhs_closure_any_spec : forall g b, closed_rules g -> num_syms g <= length b ->
  exists p, rhs_closure_for_any g b = Ok p /\ length p = length b /\
    forall s, member p s <-> closure_any (prods g) (member b) s.
Proof. intros. apply (rhs_closure_spec0 g PAny (length b) b); auto. Qed.
