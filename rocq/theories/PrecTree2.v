(** The rules that the precedence builder adds, as a list. *)

From Coq Require Import List Arith NArith Bool Lia Permutation.
From Verif Require Import Base ListFacts Spec SpecPrec SpecTree GrammarFacts SymbolModel HistoryModel CfgModel View CfgProof
  PrecModel PrecView PrecProof SpecOps PrecTree TreeLimit.
Import ListNotations.

Definition non_group (alt : alternative) : bool := negb (is_group alt).

Lemma add_whole : forall g x, limit g = None -> add_rule g x = Ok (push_rule g x).
Proof. intros g x H. unfold add_rule, add_rule_parts, add_rule_fuel. rewrite H. reflexivity. Qed.

Lemma adds_whole : forall (f : rule -> rule) l g, limit g = None ->
  fold_res (fun g r => add_rule g (f r)) l g = Ok (set_rules g (rules g ++ map f l)).
Proof.
  induction l as [|r l IH]; intros g H; cbn [fold_res].
  - rewrite app_nil_r. destruct g; reflexivity.
  - rewrite add_whole by auto. cbn [bind]. rewrite IH by exact H. unfold push_rule, set_rules. cbn. rewrite <- app_assoc. reflexivity.
Qed.

Definition encl (n E j : nat) (l : list nat) : list nat := map (encp n) (left_places E j l).

Lemma enc_leftmost : forall n E j l, map (encp n) (left_places E j l) = replace_leftmost E (n + j) (n + (j - 1)) l.
Proof.
  induction l as [|x l IH]; cbn [left_places replace_leftmost]; auto. destruct (x =? E); cbn [map encp].
  - f_equal. rewrite map_map. apply map_ext. intros y. destruct (y =? E); reflexivity.
  - f_equal. auto.
Qed.
Lemma enc_rightmost : forall n E j l, map (encp n) (rev (left_places E j (rev l))) = replace_rightmost E (n + j) (n + (j - 1)) l.
Proof. intros. unfold replace_rightmost. rewrite map_rev, enc_leftmost. reflexivity. Qed.

Record ainv (g : cfg) (E : nat) (alts : list alternative) (b : prec_builder) : Prop := {
  ai_lhs : pb_lhs b = E;
  ai_limit : limit (pb_cfg b) = None;
  ai_syms : num_syms (pb_cfg b) = num_syms g + S (pb_loose b);
  ai_cur : pb_current b = num_syms g + pb_loose b;
  ai_tight : pb_tighter b = num_syms g + (pb_loose b - 1);
  ai_group : map (fun r => (lhs r, rhs r)) (pb_group b) = map (fun alt => (num_syms g + lev alt, snd alt)) (filter is_group alts);
  ai_rules : exists c, rules (pb_cfg b) = rules g ++ c /\
    Permutation (map pr c) (units (num_syms g) (pb_loose b) ++ map (enc_alt (num_syms g) E 0) (filter non_group alts))
}.

Lemma units_S : forall n k, units n (S k) = units n k ++ [(n + S k, [n + k])].
Proof. intros n k. unfold units. rewrite seq_S, map_app. reflexivity. Qed.

Lemma rhs_ainv : forall g E alts b l h, ainv g E alts b -> exists b', prec_rhs_with_history b l h = Ok b' /\
  ainv g E (alts ++ [(pb_loose b, pb_assoc b, l)]) b' /\ pb_loose b' = pb_loose b /\ pb_assoc b' = ALeft.
Proof.
  intros g E alts b l h [I1 I2 I3 I4 I5 I6 [c [I7 I8]]]. unfold prec_rhs_with_history. cbn [process_linked bind].
  destruct (pb_assoc b) eqn:EA; [| |].
  1,2: rewrite add_whole by auto; cbn [bind]; eexists; split; [reflexivity|]; split; [|split; reflexivity];
    constructor; cbn; auto;
    [rewrite filter_app; cbn [filter is_group]; rewrite app_nil_r; exact I6|
     eexists (c ++ [_]); rewrite I7, app_assoc; split; [reflexivity|]; rewrite filter_app; cbn [filter non_group is_group negb];
     rewrite !map_app; cbn [map]; rewrite app_assoc; apply Permutation_app; [exact I8|];
     unfold pr, enc_alt; cbn [lhs rhs lev fst places]; rewrite I4, I5, I1;
     first [rewrite enc_leftmost|rewrite enc_rightmost]; apply Permutation_refl].
  eexists. split; [reflexivity|]. split; [|split; reflexivity]. constructor; cbn; auto.
  - rewrite filter_app, !map_app, I6. cbn [filter is_group map lhs rhs lev fst snd]. rewrite I4. reflexivity.
  - exists c. split; auto. rewrite filter_app. cbn [filter non_group is_group negb]. rewrite app_nil_r. exact I8.
Qed.

Lemma lower_ainv : forall g E alts b, ainv g E alts b -> exists b', prec_step b PLower = Ok b' /\
  ainv g E alts b' /\ pb_loose b' = S (pb_loose b) /\ pb_assoc b' = pb_assoc b.
Proof.
  intros g E alts b [I1 I2 I3 I4 I5 I6 [c [I7 I8]]]. cbn [prec_step]. unfold next_sym, src_next. rewrite add_whole by exact I2. cbn [bind].
  eexists. split; [reflexivity|]. split; [|split; reflexivity].
  constructor; cbn [pb_lhs pb_cfg pb_tighter pb_current pb_loose pb_group].
  - exact I1.
  - exact I2.
  - unfold num_syms in *. cbn. lia.
  - unfold num_syms in *. lia.
  - rewrite I4. lia.
  - exact I6.
  - eexists (c ++ [_]). cbn [push_rule set_rules rules]. rewrite I7, app_assoc. split; [reflexivity|]. rewrite units_S, map_app. cbn [map]. unfold pr at 2. cbn [lhs rhs].
    replace (num (src (pb_cfg b))) with (num_syms g + S (pb_loose b)) by (unfold num_syms in *; lia). rewrite I4. rewrite <- app_assoc.
    eapply Permutation_trans; [apply Permutation_app_tail; exact I8|]. rewrite <- app_assoc. apply Permutation_app_head. apply Permutation_app_comm.
Qed.

Lemma set_ainv : forall g E alts b h a, ainv g E alts b ->
  ainv g E alts (mkPrec (pb_cfg b) (pb_lhs b) (pb_tighter b) (pb_current b) h a (pb_loose b) (pb_group b)).
Proof. intros g E alts b h a [I1 I2 I3 I4 I5 I6 I7]. constructor; cbn; auto. Qed.

Lemma steps_ainv : forall g E calls alts b, ainv g E alts b -> exists b', fold_res prec_step calls b = Ok b' /\
  ainv g E (alts ++ alternatives (pb_loose b) (pb_assoc b) calls) b' /\ pb_loose b' = pb_loose b + loosest calls.
Proof.
  induction calls as [|c calls IH]; intros alts b HI; cbn [fold_res alternatives loosest].
  - exists b. rewrite app_nil_r. split; auto. 
  - destruct c as [h|l|l h|a|]; cbn [alternatives loosest].
    + cbn [prec_step bind]. destruct (IH alts _ (set_ainv g E alts b (Some h) (pb_assoc b) HI)) as [b' [H1 [H2 H3]]]. exists b'. auto.
    + cbn [prec_step]. cbv zeta. edestruct (rhs_ainv g E alts b l) as [b1 [E1 [H1 [H2 H3]]]]; [exact HI|]. rewrite E1. cbn [bind].
      destruct (IH _ b1 H1) as [b' [G1 [G2 G3]]]. exists b'. rewrite H2, H3, <- app_assoc in G2. split; auto. split; [exact G2|lia].
    + cbn [prec_step]. edestruct (rhs_ainv g E alts b l h) as [b1 [E1 [H1 [H2 H3]]]]; [exact HI|]. rewrite E1. cbn [bind].
      destruct (IH _ b1 H1) as [b' [G1 [G2 G3]]]. exists b'. rewrite H2, H3, <- app_assoc in G2. split; auto. split; [exact G2|lia].
    + cbn [prec_step bind]. destruct (IH alts _ (set_ainv g E alts b (pb_hist b) a HI)) as [b' [H1 [H2 H3]]]. exists b'. auto.
    + destruct (lower_ainv g E alts b HI) as [b1 [E1 [H1 [H2 H3]]]]. rewrite E1. cbn [bind].
      destruct (IH alts b1 H1) as [b' [G1 [G2 G3]]]. exists b'. rewrite H2, H3 in G2. split; auto. split; [exact G2|lia].
Qed.

Lemma new_ainv : forall g E, limit g = None -> ainv g E [] (prec_new g E).
Proof.
  intros g E HL. unfold prec_new, next_sym, src_next. constructor; cbn [pb_lhs pb_cfg pb_tighter pb_current pb_loose pb_group]; auto; try (unfold num_syms; cbn; lia).
  exists []. rewrite app_nil_r. split; auto.
Qed.

Lemma split_filter : forall (A : Type) (f : A -> bool) l, Permutation (filter (fun x => negb (f x)) l ++ filter f l) l.
Proof.
  induction l as [|x l IH]; cbn [filter]; [apply Permutation_refl|]. destruct (f x); cbn [negb].
  - apply Permutation_sym, Permutation_cons_app, Permutation_sym. exact IH.
  - cbn [app]. constructor. exact IH.
Qed.

Lemma filter_non_group : forall alts, filter non_group alts = filter (fun x => negb (is_group x)) alts.
Proof. reflexivity. Qed.

Lemma enc_group : forall n E top alt, is_group alt = true ->
  enc_alt n E top alt = (n + lev alt, map (fun x => if x =? E then n + top else x) (snd alt)).
Proof.
  intros n E top [[j a] l] H. destruct a; try discriminate. unfold enc_alt. cbn [places snd]. rewrite map_map. f_equal. apply map_ext. intros x.
  destruct (x =? E); reflexivity.
Qed.

Lemma build_rules : forall g E calls, limit g = None -> exists g' c, prec_build g E calls = Ok g' /\ rules g' = rules g ++ c /\
  Permutation (map pr c) (op_rules (num_syms g) E (loosest calls) (alternatives 0 ALeft calls)).
Proof.
  intros g E calls HL. unfold prec_build. destruct (steps_ainv g E calls [] _ (new_ainv g E HL)) as [b [E1 [HI HT]]]. rewrite E1. cbn [bind].
  replace (pb_loose (prec_new g E)) with 0 in * by reflexivity. replace (pb_assoc (prec_new g E)) with ALeft in * by reflexivity. cbn [app Nat.add] in *.
  destruct HI as [I1 I2 I3 I4 I5 I6 [c [I7 I8]]]. unfold prec_finalize. rewrite adds_whole by exact I2. cbn [bind]. rewrite add_whole by exact I2.
  eexists. eexists (c ++ map _ (pb_group b) ++ [_]). split; [reflexivity|]. split; [cbn; rewrite I7, <- !app_assoc; reflexivity|].
  set (alts := alternatives 0 ALeft calls) in *. set (n := num_syms g) in *. rewrite !map_app. cbn [map]. unfold pr at 3. cbn [lhs rhs]. rewrite I4, HT, I1.
  assert (EG : map pr (map (fun r => mkRule (lhs r) (map (fun x => if x =? E then n + loosest calls else x) (rhs r)) (hist r)) (pb_group b)) =
               map (enc_alt n E (loosest calls)) (filter is_group alts)).
  { rewrite map_map. unfold pr. cbn [lhs rhs].
    transitivity (map (fun p => (fst p, map (fun x => if x =? E then n + loosest calls else x) (snd p))) (map (fun r => (lhs r, rhs r)) (pb_group b))); [rewrite map_map; reflexivity|].
    rewrite I6, map_map. apply map_ext_in. intros alt Hin. apply filter_In in Hin. destruct Hin as [_ Hg]. cbn [fst snd]. symmetry. apply enc_group. exact Hg. }
  rewrite EG. unfold op_rules. rewrite HT in I8.
  apply Permutation_trans with ((E, [n + loosest calls]) :: (map pr c ++ map (enc_alt n E (loosest calls)) (filter is_group alts))).
  - rewrite app_assoc. apply Permutation_sym, Permutation_cons_append.
  - constructor. eapply Permutation_trans; [apply Permutation_app_tail; exact I8|]. rewrite <- app_assoc. apply Permutation_app_head.
    replace (map (enc_alt n E 0) (filter non_group alts)) with (map (enc_alt n E (loosest calls)) (filter non_group alts)).
    + rewrite <- map_app. apply Permutation_map. apply split_filter.
    + apply map_ext_in. intros alt Hin. apply filter_In in Hin. destruct Hin as [_ Hg]. unfold enc_alt. f_equal. f_equal. apply places_nongroup.
      unfold non_group in Hg. destruct (is_group alt); [discriminate|reflexivity].
Qed.

Lemma alternatives_bound : forall n calls level a, Forall (fun c => Forall (fun s => s < n) (call_syms c)) calls ->
  forall alt, In alt (alternatives level a calls) -> lev alt <= level + loosest calls /\ Forall (fun s => s < n) (snd alt).
Proof.
  induction calls as [|c calls IH]; intros level a HF alt Hin; [destruct Hin|]. inversion HF as [|? ? H1 H2]; subst.
  destruct c as [h|l|l h|a'|]; cbn [alternatives loosest call_syms] in *.
  - eauto.
  - destruct Hin as [<-|Hin]; [cbn; split; [lia|auto]|eauto].
  - destruct Hin as [<-|Hin]; [cbn; split; [lia|auto]|eauto].
  - eauto.
  - destruct (IH (S level) a H2 alt Hin). split; [lia|auto].
Qed.
