(** Elimination of nulling rules: where the rules that are left come from. *)

From Coq Require Import List Arith NArith Bool Lia.
From Verif Require Import Base ListFacts Spec SpecTree SetView GrammarFacts SymbolModel HistoryModel CfgModel View
  BitSetModel ClosureModel ElimModel CfgProof CfgProof2 SetProof ElimProof TreeProof TreeLimit TreeLang ElimTree.
Import ListNotations.
Local Notation length := List.length.

(** * Symbols that were made by splitting have one rule *)

Definition made (n : nat) (l : list rule) : list nat := filter (fun A => n <=? A) (map lhs l).

Lemma made_app : forall n a b, made n (a ++ b) = made n a ++ made n b.
Proof. intros. unfold made. rewrite map_app, filter_app. reflexivity. Qed.

Lemma chain_made : forall n r l p s w c, chain r l p s w c -> lhs r < n -> n <= s -> made n c = seq s (length c - 1).
Proof.
  intros n r l p s w c H HR. induction H as [p s w Hw Hl|p s w c Hl Hc IH]; intros Hs; unfold made in *; cbn [map lhs filter length].
  - replace (n <=? lhs r) with false by (symmetry; apply Nat.leb_gt; auto). reflexivity.
  - replace (n <=? s) with true by (symmetry; apply Nat.leb_le; auto). rewrite IH by lia.
    assert (1 <= length c) by (inversion Hc; cbn; lia). replace (S (length c) - 1) with (S (length c - 1)) by lia. reflexivity.
Qed.

Lemma add_rule_made : forall n g r g', good_limit (limit g) -> add_rule g r = Ok g' -> lhs r < n -> n <= num_syms g ->
  NoDup (made n (rules g)) -> Forall (fun A => A < num_syms g) (made n (rules g)) ->
  NoDup (made n (rules g')) /\ Forall (fun A => A < num_syms g') (made n (rules g')) /\ num_syms g <= num_syms g' /\ limit g' = limit g.
Proof.
  intros n g r g' HL E HR Hn HD HF. destruct (add_rule_spec g r HL) as [k [c [E' [Hk Hc]]]]. rewrite E' in E. injection E as <-.
  assert (N : num_syms (added g k c) = num_syms g + k) by reflexivity. rewrite N.
  assert (R : rules (added g k c) = rules g ++ c) by reflexivity. rewrite R, made_app.
  assert (HM : exists m, made n c = seq (num_syms g) m /\ m <= k).
  { destruct Hc as [[-> _]|[l [_ [_ Hc]]]].
    - exists 0. split; [|lia]. unfold made. cbn. replace (n <=? lhs r) with false by (symmetry; apply Nat.leb_gt; auto). reflexivity.
    - exists (length c - 1). split; [eapply chain_made; eauto|lia]. }
  destruct HM as [m [EM Hm]]. rewrite EM. rewrite Forall_forall in HF. split; [|split; [|split; [lia|reflexivity]]].
  - apply NoDup_app. split; auto. split; [apply seq_NoDup|]. intros x Hx Hx'. apply HF in Hx. apply in_seq in Hx'. lia.
  - apply Forall_forall. intros x Hx. apply in_app_or in Hx. destruct Hx as [Hx|Hx]; [apply HF in Hx; lia|apply in_seq in Hx; lia].
Qed.

Lemma fold_made : forall n rs g g', good_limit (limit g) -> fold_res add_rule rs g = Ok g' -> Forall (fun r => lhs r < n) rs -> n <= num_syms g ->
  NoDup (made n (rules g)) -> Forall (fun A => A < num_syms g) (made n (rules g)) -> NoDup (made n (rules g')).
Proof.
  intros n. induction rs as [|r rs IH]; intros g g' HL E HR Hn HD HF; cbn [fold_res] in E.
  - injection E as <-. exact HD.
  - destruct (add_rule g r) as [g1| |] eqn:E1; try discriminate. cbn [bind] in E. inversion HR; subst.
    destruct (add_rule_made n g r g1) as [M1 [M2 [M3 M4]]]; auto. eapply (IH g1); eauto; solve [congruence | lia | rewrite M4; auto].
Qed.

Lemma nodup_filter_index : forall (f : nat -> bool) l i j a, NoDup (filter f l) -> nth_error l i = Some a -> nth_error l j = Some a -> f a = true -> i = j.
Proof.
  intros f. induction l as [|x l IH]; intros i j a HN Hi Hj Hf; [destruct i; discriminate|]. cbn [filter] in HN.
  assert (HX : forall k, nth_error l k = Some a -> In a (filter f l)) by (intros k Hk; apply filter_In; split; auto; eapply nth_error_In; eauto).
  destruct i as [|i], j as [|j]; cbn [nth_error] in *; auto.
  - injection Hi as ->. rewrite Hf in HN. inversion HN; subst. exfalso. eauto.
  - injection Hj as ->. rewrite Hf in HN. inversion HN; subst. exfalso. eauto.
  - f_equal. apply (IH i j a); auto. destruct (f x); auto. inversion HN; auto.
Qed.

Lemma limit_made : forall g lim g', closed_rules g -> good_limit lim -> limit_rhs_len g lim = Ok g' ->
  forall i j A r r', nth_error (map pr (rules g')) i = Some (A, r) -> nth_error (map pr (rules g')) j = Some (A, r') -> num_syms g <= A -> i = j.
Proof.
  intros g lim g' HC HL E i j A r r' Ei Ej HA.
  assert (HN : NoDup (made (num_syms g) (rules g'))).
  { unfold limit_rhs_len in E. eapply (fold_made (num_syms g) (rules g)); [| exact E| | | |]; auto.
    - apply Forall_forall. intros x Hx. apply HC in Hx. tauto.
    - constructor.
    - constructor. }
  unfold made in HN. eapply nodup_filter_index with (a := A); [exact HN| | |apply Nat.leb_le; auto].
  - rewrite nth_error_map in *. destruct (nth_error (rules g') i); [|discriminate]. cbn in Ei. injection Ei as <- _. reflexivity.
  - rewrite nth_error_map in *. destruct (nth_error (rules g') j); [|discriminate]. cbn in Ej. injection Ej as <- _. reflexivity.
Qed.

(** * The rules that are left, with their origin *)

Definition indexed {X} (l : list X) : list (nat * X) := combine (seq 0 (length l)) l.

Lemma indexed_In : forall (X : Type) (l : list X) j x, In (j, x) (indexed l) <-> nth_error l j = Some x.
Proof.
  intros X l j x. unfold indexed. assert (G : forall l k, In (j, x) (combine (seq k (length l)) l) <-> k <= j /\ nth_error l (j - k) = Some x).
  { clear. induction l as [|y l IH]; intros k; cbn [length seq combine].
    - split; [intros []|]. intros [_ H]. destruct (j - k); discriminate.
    - cbn [In]. rewrite IH. split.
      + intros [E|[H1 H2]].
        * injection E as -> ->. split; auto. rewrite Nat.sub_diag. reflexivity.
        * split; [lia|]. replace (j - k) with (S (j - S k)) by lia. exact H2.
      + intros [H1 H2]. destruct (Nat.eq_dec k j) as [->|HN].
        * rewrite Nat.sub_diag in H2. injection H2 as ->. auto.
        * right. split; [lia|]. replace (j - k) with (S (j - S k)) in H2 by lia. exact H2. }
  rewrite G, Nat.sub_0_r. split; [tauto|]. intros; split; auto; lia.
Qed.

Lemma indexed_snd : forall (X : Type) (l : list X), map snd (indexed l) = l.
Proof.
  intros X l. unfold indexed. generalize 0. induction l as [|x l IH]; intros k; cbn; [reflexivity|]. rewrite IH. reflexivity.
Qed.
Lemma indexed_fst : forall (X : Type) (l : list X), map fst (indexed l) = seq 0 (length l).
Proof.
  intros X l. unfold indexed. generalize 0. induction l as [|x l IH]; intros k; cbn; [reflexivity|]. rewrite IH. reflexivity.
Qed.

Definition wtag (p : bitset) (jr : nat * rule) : list ((nat * option bool) * rule) :=
  let r := snd jr in
  match rhs r with
  | [a; b] =>
      match bit p a, bit p b with
      | true, true => [((fst jr, Some true), mkRule (lhs r) [a] (all_history (hist r))); ((fst jr, Some false), mkRule (lhs r) [b] (all_history (hist r)))]
      | true, false => [((fst jr, Some false), mkRule (lhs r) [b] (drop_history (hist r) a false))]
      | false, true => [((fst jr, Some true), mkRule (lhs r) [a] (drop_history (hist r) b true))]
      | false, false => []
      end
  | _ => []
  end.

Definition tagged (p : bitset) (l : list rule) : list ((nat * option bool) * rule) :=
  map (fun jr => ((fst jr, None), snd jr)) (indexed l) ++ flat_map (wtag p) (indexed l).

Lemma wtag_snd : forall p jr, map snd (wtag p jr) = works p (snd jr).
Proof.
  intros p [j r]. unfold wtag, works. cbn [fst snd]. destruct (rhs r) as [|a [|b [|c w]]]; try reflexivity. destruct (bit p a), (bit p b); reflexivity.
Qed.

Lemma tagged_snd : forall p l, map snd (tagged p l) = l ++ flat_map (works p) l.
Proof.
  intros p l. unfold tagged. rewrite map_app, map_map. cbn [snd]. rewrite indexed_snd. f_equal.
  rewrite <- (indexed_snd _ l) at 2. induction (indexed l) as [|x t IH]; cbn [flat_map map]; [reflexivity|]. rewrite map_app, wtag_snd, IH. reflexivity.
Qed.

Lemma wtag_fst : forall p j r t, In t (map fst (wtag p (j, r))) -> fst t = j /\ snd t <> None.
Proof.
  intros p j r t H. unfold wtag in H. cbn [fst snd] in H. destruct (rhs r) as [|a [|b [|c w]]]; try destruct H.
  destruct (bit p a), (bit p b); cbn in H; repeat (destruct H as [<-|H]; [cbn; split; congruence|]); destruct H.
Qed.

Lemma tagged_nodup : forall p l, NoDup (map fst (tagged p l)).
Proof.
  intros p l. unfold tagged. rewrite map_app, map_map. cbn [fst].
  assert (HI : NoDup (map fst (indexed l))) by (rewrite indexed_fst; apply seq_NoDup).
  assert (HW : forall t, In t (map fst (flat_map (wtag p) (indexed l))) -> snd t <> None /\ In (fst t) (map fst (indexed l))).
  { intros t Ht. apply in_map_iff in Ht. destruct Ht as [x [<- Hx]]. apply in_flat_map in Hx. destruct Hx as [[j r] [Hj Hx]].
    destruct (wtag_fst p j r (fst x)) as [X1 X2]; [apply in_map; auto|]. split; auto. rewrite X1. apply (in_map fst) in Hj. exact Hj. }
  apply NoDup_app. split; [|split].
  - clear HW. induction (indexed l) as [|x t IH]; cbn [map]; [constructor|]. cbn [map] in HI. inversion HI; subst. constructor; auto.
    intros H. apply in_map_iff in H. destruct H as [y [E Hy]]. injection E as E. apply H1. rewrite <- E. apply in_map. auto.
  - clear HW. induction (indexed l) as [|[j r] t IH]; cbn [flat_map map]; [constructor|]. cbn [map fst] in HI. inversion HI as [|? ? HN HI']; subst.
    rewrite map_app. apply NoDup_app. split; [|split; auto].
    + unfold wtag. cbn [fst snd]. destruct (rhs r) as [|a [|b [|c w]]]; try constructor. destruct (bit p a), (bit p b); cbn; repeat constructor; cbn; intuition congruence.
    + intros x Hx Hx'. apply wtag_fst in Hx. destruct Hx as [<- _]. apply in_map_iff in Hx'. destruct Hx' as [y [<- Hy]]. apply in_flat_map in Hy.
      destruct Hy as [[j' r'] [Hj Hy]]. destruct (wtag_fst p j' r' (fst y)) as [E _]; [apply in_map; auto|]. apply HN. rewrite E. apply (in_map fst) in Hj. exact Hj.
  - intros t Ht Ht'. apply HW in Ht'. apply in_map_iff in Ht. destruct Ht as [x [<- _]]. destruct Ht' as [X _]. apply X. reflexivity.
Qed.

Lemma tagged_In : forall p l j m x, In ((j, m), x) (tagged p l) ->
  exists y, nth_error l j = Some y /\ lhs x = lhs y /\
  match m with
  | None => x = y
  | Some false => exists a b, rhs x = [b] /\ rhs y = [a; b] /\ bit p a = true
  | Some true => exists a b, rhs x = [a] /\ rhs y = [a; b] /\ bit p b = true
  end.
Proof.
  intros p l j m x H. unfold tagged in H. apply in_app_or in H. destruct H as [H|H].
  - apply in_map_iff in H. destruct H as [[j' y] [E H]]. cbn [fst snd] in E. injection E as <- <- <-. apply indexed_In in H. exists y. auto.
  - apply in_flat_map in H. destruct H as [[j' y] [Hj H]]. apply indexed_In in Hj. exists y. unfold wtag in H. cbn [fst snd] in H.
    destruct (rhs y) as [|a [|b [|c w]]] eqn:Er; try destruct H. destruct (bit p a) eqn:Ea, (bit p b) eqn:Eb; cbn in H.
    + destruct H as [E|[E|[]]]; injection E as <- <- <-; split; auto; split; auto; exists a, b; auto.
    + destruct H as [E|[]]; injection E as <- <- <-; split; auto; split; auto; exists a, b; auto.
    + destruct H as [E|[]]; injection E as <- <- <-; split; auto; split; auto; exists a, b; auto.
    + destruct H.
Qed.

Lemma tagged_full : forall p l j x, nth_error l j = Some x -> In ((j, None), x) (tagged p l).
Proof.
  intros p l j x H. unfold tagged. apply in_or_app. left. apply in_map_iff. exists (j, x). split; auto. apply indexed_In. exact H.
Qed.
Lemma tagged_left : forall p l j y a b, nth_error l j = Some y -> rhs y = [a; b] -> bit p a = true ->
  exists x, In ((j, Some false), x) (tagged p l) /\ lhs x = lhs y /\ rhs x = [b].
Proof.
  intros p l j y a b H Hr Ha. assert (HI : In (j, y) (indexed l)) by (apply indexed_In; auto).
  destruct (bit p b) eqn:Hb; eexists; (split; [unfold tagged; apply in_or_app; right; apply in_flat_map; exists (j, y); split; [exact HI|];
    unfold wtag; cbn [fst snd]; rewrite Hr, Ha, Hb; cbn; eauto|split; reflexivity]).
Qed.
Lemma tagged_right : forall p l j y a b, nth_error l j = Some y -> rhs y = [a; b] -> bit p b = true ->
  exists x, In ((j, Some true), x) (tagged p l) /\ lhs x = lhs y /\ rhs x = [a].
Proof.
  intros p l j y a b H Hr Hb. assert (HI : In (j, y) (indexed l)) by (apply indexed_In; auto).
  destruct (bit p a) eqn:Ha; eexists; (split; [unfold tagged; apply in_or_app; right; apply in_flat_map; exists (j, y); split; [exact HI|];
    unfold wtag; cbn [fst snd]; rewrite Hr, Ha, Hb; cbn; eauto|split; reflexivity]).
Qed.

Lemma filter_snd : forall (X Y : Type) (f : Y -> bool) (l : list (X * Y)), map snd (filter (fun t => f (snd t)) l) = filter f (map snd l).
Proof. intros X Y f l. induction l as [|[x y] l IH]; cbn [filter map snd]; [reflexivity|]. destruct (f y); cbn [map snd]; rewrite IH; reflexivity. Qed.
Lemma filter_filter : forall (X : Type) (f h : X -> bool) l, filter f (filter h l) = filter (fun x => h x && f x) l.
Proof.
  intros X f h l. induction l as [|x l IH]; cbn [filter]; [reflexivity|]. destruct (h x) eqn:E; cbn [filter andb]; rewrite ?E, IH; destruct (f x); reflexivity.
Qed.
Lemma NoDup_filter_fst : forall (X Y : Type) (f : X * Y -> bool) (l : list (X * Y)), NoDup (map fst l) -> NoDup (map fst (filter f l)).
Proof.
  intros X Y f l. induction l as [|x l IH]; cbn [filter map]; intros H; [constructor|]. inversion H; subst. destruct (f x); auto. cbn [map]. constructor; auto.
  intros HI. apply in_map_iff in HI. destruct HI as [y [E Hy]]. apply filter_In in Hy. apply H2. rewrite <- E. apply in_map. tauto.
Qed.

(** One tree of the empty string for each symbol that has one. *)
Lemma choose_eps : forall (p : bitset) (P : nat -> tree -> Prop) n, (forall a, a < n -> bit p a = true -> exists t, P a t) ->
  exists e, forall a, a < n -> bit p a = true -> P a (e a).
Proof.
  intros p P. induction n as [|n IH]; intros H.
  - exists (fun _ => Leaf 0). intros; lia.
  - destruct IH as [e He]; [intros; apply H; auto|]. destruct (bit p n) eqn:Eb.
    + destruct (H n) as [t Ht]; auto. exists (fun a => if a =? n then t else e a). intros a Ha Hb. destruct (a =? n) eqn:E.
      * apply Nat.eqb_eq in E. subst. exact Ht.
      * apply Nat.eqb_neq in E. apply He; auto; lia.
    + exists e. intros a Ha Hb. destruct (Nat.eq_dec a n) as [->|]; [congruence|]. apply He; auto; lia.
Qed.
