(** Reordering and removing symbols rename the grammar. *)

From Coq Require Import List Arith Bool Lia Permutation Sorted String.
From Verif Require Import Base ListFacts Spec SetView GrammarFacts SymbolModel HistoryModel CfgModel View
  BitSetModel CfgProof SymbolProof SetProof RemapModel SpecRemap.
Import ListNotations.
Local Notation length := List.length.

(** * Renaming *)

Lemma map_inj_below : forall n f u v, inj_below n f -> Forall (fun s => s < n) u -> Forall (fun s => s < n) v ->
  map f u = map f v -> u = v.
Proof.
  intros n f u v HI HU. revert v. induction HU as [|a u Ha _ IH]; intros v HV E.
  - destruct v; [auto|discriminate].
  - destruct v as [|b v]; [discriminate|]. inversion HV; subst. simpl in E. inversion E. f_equal; auto.
Qed.

Lemma renamed_derives_fwd : forall f P u w, derives P u w -> derives (renamed f P) (map f u) (map f w).
Proof.
  intros f P u w H. induction H as [|u A v r w HP HD IH]; [constructor|].
  rewrite map_app. simpl. apply derives_step with (map f r).
  - exists A, r. auto.
  - rewrite !map_app in IH. auto.
Qed.

Lemma renamed_derives_bwd : forall n f (P : productions), inj_below n f ->
  (forall A r, P A r -> A < n /\ Forall (fun s => s < n) r) ->
  forall x y, derives (renamed f P) x y -> forall u, x = map f u -> Forall (fun s => s < n) u ->
  exists w, y = map f w /\ Forall (fun s => s < n) w /\ derives P u w.
Proof.
  intros n f P HI HC x y H. induction H as [x|x A y r w HP HD IH]; intros u E HU.
  - exists u. split; auto. split; auto. constructor.
  - symmetry in E. apply map_eq_app in E. destruct E as [u1 [u2 [-> [E1 E2]]]].
    apply map_eq_cons in E2. destruct E2 as [B [u3 [-> [E2 E3]]]].
    destruct HP as [B' [q [HP [EA ER]]]]. apply Forall_app in HU. destruct HU as [HU1 HU2].
    inversion HU2; subst. destruct (HC B' q HP) as [HB' Hq].
    assert (B = B') by (apply HI; auto). subst B'.
    destruct (IH (u1 ++ q ++ u3)) as [w' [Ew [HW HD']]].
    + rewrite !map_app. auto.
    + apply Forall_app. split; auto. apply Forall_app. auto.
    + exists w'. split; auto. split; auto. apply derives_step with q; auto.
Qed.

Lemma renamed_derives : forall n f (P : productions) u w, inj_below n f ->
  (forall A r, P A r -> A < n /\ Forall (fun s => s < n) r) ->
  Forall (fun s => s < n) u -> Forall (fun s => s < n) w ->
  (derives (renamed f P) (map f u) (map f w) <-> derives P u w).
Proof.
  intros n f P u w HI HC HU HW. split; [|apply renamed_derives_fwd].
  intros H. destruct (renamed_derives_bwd n f P HI HC _ _ H u eq_refl HU) as [w' [E [HW' HD]]].
  apply (map_inj_below n f w w' HI HW HW') in E. subst. auto.
Qed.

Lemma renamed_terminal : forall n f (P : productions) a, inj_below n f ->
  (forall A r, P A r -> A < n /\ Forall (fun s => s < n) r) -> a < n ->
  (terminal (renamed f P) (f a) <-> terminal P a).
Proof.
  intros n f P a HI HC Ha. split.
  - intros H r HP. apply (H (map f r)). exists a, r; auto.
  - intros H r [B [q [HP [E _]]]]. destruct (HC B q HP). apply HI in E; auto. subst. eapply H; eauto.
Qed.

Lemma renamed_language : forall n f (P : productions) A y, inj_below n f ->
  (forall A r, P A r -> A < n /\ Forall (fun s => s < n) r) -> A < n ->
  (language (renamed f P) (f A) y <-> exists w, y = map f w /\ language P A w).
Proof.
  intros n f P A y HI HC HA. unfold language. split.
  - intros [HD HT]. destruct (renamed_derives_bwd n f P HI HC _ _ HD [A] eq_refl) as [w [-> [HW HD']]]; auto.
    exists w. split; auto. split; auto. clear HD HD'. induction HW as [|a w Ha HW IH]; [constructor|].
    simpl in HT. inversion HT; subst. constructor; auto. apply (renamed_terminal n f P a HI HC Ha); auto.
  - intros [w [-> [HD HT]]]. split; [apply (renamed_derives_fwd f P [A] w HD)|].
    assert (HW : Forall (fun s => s < n) w).
    { eapply derives_Forall; [|exact HD|auto]. intros B r HP _. apply (HC B r HP). }
    clear HD. induction HW as [|a w Ha HW IH]; [constructor|]. inversion HT; subst. simpl. constructor; auto.
    apply (renamed_terminal n f P a HI HC Ha); auto.
Qed.

(** * The loops *)

Lemma eqb_list_eq : forall a b, eqb_list a b = true <-> a = b.
Proof.
  induction a as [|x a IH]; destruct b as [|y b]; simpl; try (split; [discriminate|discriminate]); [tauto|].
  rewrite andb_true_iff, Nat.eqb_eq, IH. split; [intros [-> ->]; auto|]. intros H. inversion H; auto.
Qed.

Lemma map_res_map : forall (f : nat -> res nat) (h : nat -> nat) l,
  (forall x, In x l -> f x = Ok (h x)) -> map_res f l = Ok (map h l).
Proof.
  intros f h l. induction l as [|a l IH]; intros H; auto. simpl. rewrite H by (left; auto). simpl.
  rewrite IH by (intros; apply H; right; auto). reflexivity.
Qed.

Lemma remap_rule_ok : forall f h r, f (lhs r) = Ok (h (lhs r)) -> (forall x, In x (rhs r) -> f x = Ok (h x)) ->
  remap_rule f r = Ok (rename_rule h r).
Proof.
  intros f h r HL HR. unfold remap_rule. rewrite HL. simpl. rewrite (map_res_map f h) by auto. reflexivity.
Qed.

Definition fits_rule (lim : option nat) (x : rule) : Prop :=
  match lim with None => True | Some l => 2 <= l /\ length (rhs x) <= l end.

Lemma add_rule_fits : forall g x, fits_rule (limit g) x -> add_rule g x = Ok (push_rule g x).
Proof.
  intros g x H. unfold add_rule, add_rule_parts, add_rule_fuel, fits_rule in *.
  destruct (limit g) as [l|]; [|reflexivity]. destruct H as [H2 HL].
  destruct (length (rhs x) <? l) eqn:E; [reflexivity|]. apply Nat.ltb_ge in E.
  assert (HE : length (rhs x) = l) by lia. rewrite HE. destruct l as [|l]; [lia|].
  cbn [split_loop]. destruct (is_nil (rev (rhs x))) eqn:EN.
  { destruct (rev (rhs x)) eqn:ER; [|discriminate]. rewrite <- rev_length, ER in HE. discriminate. }
  rewrite rev_length, HE, Nat.sub_diag. cbn [skipn firstn is_nil]. rewrite rev_involutive.
  replace ((0 =? 0) && true) with true by reflexivity. cbn [orb].
  assert (HX : forall fuel g', split_loop fuel x (S l) 1 [] g' = Ok (1, g')) by (intros [|fuel] g'; reflexivity).
  rewrite HX. cbn [bind]. destruct x; reflexivity.
Qed.

Lemma add_rules_fit : forall rs g, Forall (fits_rule (limit g)) rs ->
  fold_res add_rule rs g = Ok (set_rules g (rules g ++ rs)).
Proof.
  induction rs as [|x rs IH]; intros g H.
  - simpl. rewrite app_nil_r. destruct g; reflexivity.
  - inversion H; subst. cbn [fold_res]. rewrite add_rule_fits by auto. cbn [bind].
    rewrite IH by auto. unfold push_rule, set_rules. simpl. rewrite <- app_assoc. reflexivity.
Qed.

Lemma remap_rules_ok : forall f h l,
  (forall x, In x l -> remap_rule f x = Ok (rename_rule h x)) ->
  exists kept added, remap_rules f l = Ok (kept, added) /\
    Permutation (map (rename_rule h) l) (kept ++ added) /\
    (forall x, In x added -> exists y, In y l /\ x = rename_rule h y).
Proof.
  intros f h l. induction l as [|r l IH]; intros H.
  - exists [], []. split; auto. split; [constructor|]. intros x [].
  - destruct IH as [kept [added [E [P A]]]]; [intros; apply H; right; auto|].
    cbn [remap_rules]. rewrite H by (left; auto). cbn [bind]. rewrite E. cbn [bind].
    destruct (same_symbols (rename_rule h r) r) eqn:ES.
    + unfold same_symbols in ES. apply andb_true_iff in ES. destruct ES as [E1 E2].
      apply Nat.eqb_eq in E1. apply eqb_list_eq in E2. simpl in E1, E2.
      do 2 eexists. split; [reflexivity|]. split.
      * simpl. replace (rename_rule h r) with r; [constructor; auto|].
        unfold rename_rule. rewrite E1, E2. destruct r; reflexivity.
      * intros x Hx. destruct (A x Hx) as [y [Hy ->]]. exists y. split; [right; auto|auto].
    + do 2 eexists. split; [reflexivity|]. split.
      * simpl. apply Permutation_cons_app. auto.
      * intros x [<-|Hx]; [exists r; split; [left; auto|auto]|].
        destruct (A x Hx) as [y [Hy ->]]. exists y. split; [right; auto|auto].
Qed.

(** Names. *)
Lemma remap_names_loop_spec : forall h l i acc,
  inj_below (i + length l) h ->
  (forall j, j < i -> h j < length acc) ->
  length (remap_names_loop h i l acc) >= length acc /\
  (forall j, j < i -> nth_error (remap_names_loop h i l acc) (h j) = nth_error acc (h j)) /\
  (forall j v, nth_error l j = Some v -> nth_error (remap_names_loop h i l acc) (h (i + j)) = Some v) /\
  (forall b, length acc <= b -> (forall j, j < i + length l -> h j < b) -> length (remap_names_loop h i l acc) <= b).
Proof.
  intros h l. induction l as [|name l IH]; intros i acc HI HA.
  - simpl. split; [lia|]. split; auto. split; [intros [|j] v; discriminate|]. intros; auto.
  - cbn [remap_names_loop]. set (ext := (acc ++ repeat None (S (h i) - length acc))%list).
    assert (HLext : length ext = Nat.max (length acc) (S (h i))).
    { unfold ext. rewrite app_length, repeat_length. lia. }
    destruct (IH (S i) (upd ext (h i) name)) as [L [A [B C]]].
    { simpl in HI. replace (S i + length l) with (i + S (length l)) by lia. auto. }
    { intros j Hj. rewrite upd_length, HLext. destruct (Nat.eq_dec j i) as [->|]; [lia|].
      specialize (HA j ltac:(lia)). lia. }
    assert (Hext : forall k, k < length acc -> nth_error ext k = nth_error acc k).
    { intros k Hk. unfold ext. apply nth_error_app1; auto. }
    rewrite upd_length in *. split; [lia|]. split; [|split].
    + intros j Hj. rewrite A by lia. rewrite nth_error_upd.
      destruct (Nat.eqb_spec (h i) (h j)) as [E|E].
      * exfalso. apply HI in E; simpl; lia.
      * apply Hext. auto.
    + intros [|j] v Hv.
      * simpl in Hv. inversion Hv; subst. rewrite Nat.add_0_r. rewrite A by lia. rewrite nth_error_upd, Nat.eqb_refl.
        destruct (Nat.ltb_spec (h i) (length ext)); [auto|lia].
      * simpl in Hv. replace (i + S j) with (S i + j) by lia. apply B; auto.
    + intros b Hb HB. apply C.
      * rewrite HLext. specialize (HB i ltac:(simpl; lia)). lia.
      * intros j Hj. apply HB. simpl. lia.
Qed.

Lemma inj_onto : forall n h, inj_below n h -> (forall j, j < n -> h j < n) -> forall k, k < n -> exists j, j < n /\ h j = k.
Proof.
  intros n h HI HR k Hk.
  assert (HN : NoDup (map h (seq 0 n))).
  { assert (HX : forall l, NoDup l -> (forall x, In x l -> x < n) -> NoDup (map h l)).
    { induction 1 as [|a l Ha HN IH]; intros HL; simpl; constructor.
      - intros X. apply in_map_iff in X. destruct X as [b [E Hb]]. apply HI in E; [subst; auto| |];
          apply HL; [right|left]; auto.
      - apply IH. intros; apply HL; right; auto. }
    apply HX; [apply seq_NoDup|]. intros x Hx. apply in_seq in Hx. lia. }
  assert (HInc : incl (seq 0 n) (map h (seq 0 n))).
  { apply NoDup_length_incl; auto.
    - rewrite map_length. auto.
    - intros x Hx. apply in_map_iff in Hx. destruct Hx as [j [<- Hj]]. apply in_seq in Hj. apply in_seq.
      specialize (HR j). lia. }
  assert (In k (map h (seq 0 n))) by (apply HInc, in_seq; lia).
  apply in_map_iff in H. destruct H as [j [<- Hj]]. apply in_seq in Hj. exists j. split; [lia|auto].
Qed.

Lemma remap_names_perm : forall h l, inj_below (length l) h -> (forall j, j < length l -> h j < length l) ->
  length (remap_names h l) = length l /\
  forall j, j < length l -> nth_error (remap_names h l) (h j) = nth_error l j.
Proof.
  intros h l HI HR. unfold remap_names.
  destruct (remap_names_loop_spec h l 0 []) as [_ [_ [B C]]]; [auto|intros; lia|].
  assert (HN : forall j, j < length l -> nth_error (remap_names_loop h 0 l []) (h j) = nth_error l j).
  { intros j Hj. destruct (nth_error l j) as [v|] eqn:E.
    - apply (B j v E).
    - apply nth_error_None in E. lia. }
  split; auto. apply Nat.le_antisymm; [apply C; simpl; [lia|auto]|].
  destruct (length l) as [|n] eqn:EL; [lia|]. destruct (inj_onto (S n) h HI HR n ltac:(lia)) as [j [Hj E]].
  assert (HX : nth_error (remap_names_loop h 0 l []) n <> None).
  { rewrite <- E, HN by auto. apply nth_error_Some. lia. }
  apply nth_error_Some in HX. lia.
Qed.

Lemma remap_names_ext : forall h h' l, (forall j, j < length l -> h j = h' j) -> remap_names h l = remap_names h' l.
Proof.
  intros h h' l H. unfold remap_names. assert (HX : forall l i acc, (forall j, i <= j < i + length l -> h j = h' j) ->
    remap_names_loop h i l acc = remap_names_loop h' i l acc).
  { clear. induction l as [|a l IH]; intros i acc H; auto. cbn [remap_names_loop].
    rewrite (H i) by (simpl; lia). apply IH. intros j Hj. apply H. simpl; lia. }
  apply HX. intros j Hj. apply H. lia.
Qed.

(** * remap_symbols *)

(** The grammar [g'] is [g] with its symbols renamed by [h]. *)
Record renamed_by (h : nat -> nat) (g g' : cfg) : Prop := {
  rb_rules : Permutation (rules g') (map (rename_rule h) (rules g));
  rb_roots : roots g' = map h (roots g);
  rb_wroots : wroots g' = map (rename_wrapped h) (wroots g);
  rb_limit : limit g' = limit g;
  rb_num : num_syms g' = num_syms g;
  rb_names : names (src g') = remap_names h (names (src g))
}.

Lemma remap_wrapped_ok : forall f h w, (forall x, f x = Ok (h x) \/ f x = Panic) ->
  forall w', remap_wrapped f w = Ok w' -> w' = rename_wrapped h w.
Proof.
  intros f h w H w'. unfold remap_wrapped.
  destruct (H (wr_inner w)) as [->| ->]; [|discriminate]. cbn [bind].
  destruct (H (wr_root w)) as [->| ->]; [|discriminate]. cbn [bind].
  destruct (H (wr_start w)) as [->| ->]; [|discriminate]. cbn [bind].
  destruct (H (wr_end w)) as [->| ->]; [|discriminate]. cbn [bind].
  intros E. inversion E. reflexivity.
Qed.

Lemma map_res_inv : forall {A B} (f : A -> res B) (h : A -> B) l l',
  (forall a b, f a = Ok b -> b = h a) -> map_res f l = Ok l' -> l' = map h l.
Proof.
  intros A B f h l. induction l as [|a l IH]; intros l' H E.
  - simpl in E. inversion E; auto.
  - simpl in E. destruct (f a) as [b| |] eqn:EF; try discriminate. simpl in E.
    destruct (map_res f l) as [l2| |] eqn:EM; try discriminate. simpl in E. inversion E; subst. simpl.
    f_equal; auto.
Qed.

Lemma map_res_all : forall {A B} (f : A -> res B) l l' a, map_res f l = Ok l' -> In a l -> exists b, f a = Ok b.
Proof.
  intros A B f l. induction l as [|x l IH]; intros l' a E Ha; [destruct Ha|].
  simpl in E. destruct (f x) as [b| |] eqn:EF; try discriminate. simpl in E.
  destruct (map_res f l) as [l2| |] eqn:EM; try discriminate. destruct Ha as [<-|Ha]; eauto.
Qed.

Lemma remap_symbols_spec : forall g f h, closed_rules g -> fits g -> names_wf g ->
  (forall s, f s = if s <? num_syms g then Ok (h s) else Panic) ->
  (forall g', remap_symbols f g = Ok g' -> renamed_by h g g' /\
     Forall (fun s => s < num_syms g) (roots g) /\
     Forall (fun w => wr_start w < num_syms g /\ wr_inner w < num_syms g /\
                      wr_end w < num_syms g /\ wr_root w < num_syms g) (wroots g)) /\
  (closed g -> exists g', remap_symbols f g = Ok g').
Proof.
  intros g f h HC HF HN Hf.
  assert (HOk : forall s, s < num_syms g -> f s = Ok (h s)).
  { intros s Hs. rewrite Hf. apply Nat.ltb_lt in Hs. rewrite Hs. auto. }
  assert (HInv : forall s b, f s = Ok b -> b = h s /\ s < num_syms g).
  { intros s b. rewrite Hf. destruct (Nat.ltb_spec s (num_syms g)); [|discriminate]. intros X; inversion X; auto. }
  assert (HOr : forall s, f s = Ok (h s) \/ f s = Panic).
  { intros s. rewrite Hf. destruct (s <? num_syms g); auto. }
  destruct (remap_rules_ok f h (rules g)) as [kept [added [E [P A]]]].
  { intros x Hx. destruct (HC x Hx) as [Hl Hr]. apply remap_rule_ok; auto.
    intros y Hy. rewrite Forall_forall in Hr. auto. }
  assert (EA : fold_res add_rule added (set_rules g kept) = Ok (set_rules g (kept ++ added))).
  { rewrite add_rules_fit; [reflexivity|]. apply Forall_forall. intros x Hx. destruct (A x Hx) as [y [Hy ->]].
    unfold fits in HF. simpl. unfold fits_rule. destruct (limit g) as [l|]; auto. destruct HF as [H2 HL].
    split; auto. simpl. rewrite map_length. auto. }
  assert (ES : src_remap f (src g) = Ok (mkSrc (num_syms g) (remap_names h (names (src g))))).
  { unfold src_remap. rewrite (map_res_map f h).
    - cbn [bind]. do 2 f_equal. apply remap_names_ext. intros j Hj.
      rewrite (nth_indep _ 0 (h 0)) by (rewrite map_length, seq_length; auto).
      rewrite map_nth, seq_nth by auto. reflexivity.
    - intros x Hx. apply in_seq in Hx. apply HOk. unfold names_wf in HN. lia. }
  unfold remap_symbols. rewrite E. cbn [bind]. rewrite EA. cbn [bind].
  cbn [roots wroots src rules limit set_rules set_roots set_wrapped_roots].
  split.
  - intros g' H. destruct (map_res f (roots g)) as [rs| |] eqn:ER; try discriminate. cbn [bind] in H.
    destruct (map_res (remap_wrapped f) (wroots g)) as [ws| |] eqn:EW; try discriminate. cbn [bind] in H.
    rewrite ES in H. cbn [bind] in H. inversion H; subst g'; clear H. split; [|split].
    + constructor; simpl; auto.
      * symmetry; auto.
      * apply (map_res_inv f h _ _ (fun a b Hab => proj1 (HInv a b Hab)) ER).
      * apply (map_res_inv (remap_wrapped f) (rename_wrapped h) _ _ ) in EW; auto.
        intros a b. apply remap_wrapped_ok. auto.
    + apply Forall_forall. intros s Hs. destruct (map_res_all _ _ _ _ ER Hs) as [b Hb]. apply HInv in Hb. tauto.
    + apply Forall_forall. intros w Hw. destruct (map_res_all _ _ _ _ EW Hw) as [b Hb]. unfold remap_wrapped in Hb.
      destruct (f (wr_inner w)) eqn:E1; try discriminate. cbn [bind] in Hb.
      destruct (f (wr_root w)) eqn:E2; try discriminate. cbn [bind] in Hb.
      destruct (f (wr_start w)) eqn:E3; try discriminate. cbn [bind] in Hb.
      destruct (f (wr_end w)) eqn:E4; try discriminate.
      apply HInv in E1, E2, E3, E4. tauto.
  - intros [_ [HR HW]]. rewrite (map_res_map f h); [|intros x Hx; apply HOk; exact (proj1 (Forall_forall _ _) HR x Hx)].
    cbn [bind].
    assert (EW : exists ws, map_res (remap_wrapped f) (wroots g) = Ok ws).
    { clear -HW HOk. induction HW as [|w l [H1 [H2 [H3 H4]]] HW [ws IH]]; [exists []; auto|].
      simpl. unfold remap_wrapped at 1. rewrite !HOk by auto. cbn [bind]. rewrite IH. cbn [bind]. eauto. }
    destruct EW as [ws EW]. rewrite EW. cbn [bind]. rewrite ES. cbn [bind]. eauto.
Qed.

Lemma renamed_by_prods : forall h g g', renamed_by h g g' -> forall A r, prods g' A r <-> renamed h (prods g) A r.
Proof.
  intros h g g' RB A r. split.
  - intros [x [Hx [<- <-]]]. apply (Permutation_in _ (rb_rules _ _ _ RB)) in Hx. apply in_map_iff in Hx.
    destruct Hx as [y [<- Hy]]. exists (lhs y), (rhs y). split; [exists y; auto|]. auto.
  - intros [B [q [[y [Hy [<- <-]]] [-> ->]]]]. exists (rename_rule h y). split; auto.
    apply (Permutation_in _ (Permutation_sym (rb_rules _ _ _ RB))). apply in_map. auto.
Qed.

(** * The order *)

Lemma fill_spec : forall te n, NoDup te -> (forall x, In x te -> x < n) -> length te = n ->
  exists ti, fill_internal te n = Ok ti /\ length ti = n /\
  forall x i, nth_error ti x = Some (Some i) <-> nth_error te i = Some x.
Proof.
  intros te n HN HR HL. unfold fill_internal.
  assert (HX : forall l k ti, length ti = n -> NoDup l -> (forall x, In x l -> x < n) ->
    exists ti', fold_res (fun ti p => set_ix ti (fst p) (Some (snd p))) (combine l (seq k (length l))) ti = Ok ti' /\
      length ti' = n /\
      (forall x, ~ In x l -> nth_error ti' x = nth_error ti x) /\
      (forall i x, nth_error l i = Some x -> nth_error ti' x = Some (Some (k + i)))).
  { induction l as [|a l IH]; intros k ti HLt HNl HRl.
    - exists ti. split; auto. split; auto. split; auto. intros [|i] x; discriminate.
    - inversion HNl; subst. cbn [length seq combine fold_res]. unfold set_ix at 1. cbn [fst snd].
      assert (Ha : a < length ti) by (rewrite HLt; apply HRl; left; auto).
      destruct (Nat.ltb_spec a (length ti)); [|lia]. cbn [bind].
      destruct (IH (S k) (upd ti a (Some k))) as [ti' [E [L [O I]]]].
      { rewrite upd_length; auto. } { auto. } { intros; apply HRl; right; auto. }
      exists ti'. split; auto. split; auto. split.
      + intros x Hx. rewrite O by (intros X; apply Hx; right; auto). rewrite nth_error_upd.
        destruct (Nat.eqb_spec a x) as [->|]; auto. exfalso. apply Hx. left; auto.
      + intros [|i] x Hx; simpl in Hx.
        * inversion Hx; subst. rewrite O by auto. rewrite nth_error_upd, Nat.eqb_refl.
          destruct (Nat.ltb_spec x (length ti)); [|lia]. rewrite Nat.add_0_r. auto.
        * rewrite (I i x Hx). do 2 f_equal. lia. }
  destruct (HX te 0 (repeat None n)) as [ti [E [L [O I]]]]; auto.
  { apply repeat_length. }
  exists ti. split; auto. split; auto. intros x i. split.
  - intros H. assert (Hx : x < n) by (rewrite <- L; apply nth_error_Some; congruence).
    destruct (in_dec Nat.eq_dec x te) as [Hi|Hi].
    + apply In_nth_error in Hi. destruct Hi as [j Hj]. rewrite (I j x Hj) in H. inversion H; subst. auto.
    + rewrite O in H by auto. rewrite nth_error_repeat in H by auto. discriminate.
  - intros H. apply (I i x H).
Qed.

Lemma te_facts : forall cmp n, let te := sort_by cmp (seq 0 n) in
  NoDup te /\ (forall x, In x te <-> x < n) /\ length te = n.
Proof.
  intros cmp n te. split; [|split].
  - apply (Permutation_NoDup (sort_perm cmp (seq 0 n))). apply seq_NoDup.
  - intros x. unfold te. rewrite sort_In, in_seq. lia.
  - unfold te. rewrite <- (Permutation_length (sort_perm cmp (seq 0 n))). apply seq_length.
Qed.

(** [h] sends a symbol to its position in [te]. *)
Definition positions (te : list nat) (h : nat -> nat) : Prop :=
  forall s i, nth_error te i = Some s <-> s < length te /\ h s = i.

Lemma positions_facts : forall te h n, positions te h -> length te = n ->
  (forall s, s < n -> h s < n) /\ inj_below n h.
Proof.
  intros te h n HP HL. split.
  - intros s Hs. assert (H : nth_error te (h s) = Some s) by (apply HP; split; [lia|auto]).
    rewrite <- HL. apply nth_error_Some. congruence.
  - intros a b Ha Hb E. assert (H1 : nth_error te (h a) = Some a) by (apply HP; split; [lia|auto]).
    assert (H2 : nth_error te (h b) = Some b) by (apply HP; split; [lia|auto]). congruence.
Qed.

Lemma reorder_spec : forall cmp r, let g := rm_grammar r in
  closed_rules g -> fits g -> names_wf g ->
  num_syms g <= length (to_external (rm_mapping r)) ->
  exists h, positions (sort_by cmp (seq 0 (num_syms g))) h /\
  exists ti, length ti = num_syms g /\
    (forall x i, nth_error ti x = Some (Some i) <-> nth_error (sort_by cmp (seq 0 (num_syms g))) i = Some x) /\
  (forall r', reorder_symbols cmp r = Ok r' ->
     renamed_by h g (rm_grammar r') /\
     mapping_translate (rm_mapping r) (mkMapping ti (sort_by cmp (seq 0 (num_syms g)))) = Ok (rm_mapping r') /\
     Forall (fun s => s < num_syms g) (roots g) /\
     Forall (fun w => wr_start w < num_syms g /\ wr_inner w < num_syms g /\
                      wr_end w < num_syms g /\ wr_root w < num_syms g) (wroots g)) /\
  (closed g -> exists r', reorder_symbols cmp r = Ok r').
Proof.
  intros cmp r g HC HF HN HM. set (te := sort_by cmp (seq 0 (num_syms g))).
  destruct (te_facts cmp (num_syms g)) as [T1 [T2 T3]]. fold te in T1, T2, T3.
  destruct (fill_spec te (num_syms g)) as [ti [ET [LT MT]]]; auto.
  { intros x Hx. apply T2; auto. }
  set (h := fun s => match nth_error ti s with Some (Some i) => i | _ => 0 end).
  assert (HP : positions te h).
  { intros s i. rewrite T3. split.
    - intros H. split; [apply T2; eapply nth_error_In; eauto|]. apply MT in H. unfold h. rewrite H. auto.
    - intros [Hs <-]. apply T2 in Hs. apply In_nth_error in Hs. destruct Hs as [i Hi].
      unfold h. rewrite (proj2 (MT s i) Hi). auto. }
  exists h. split; auto. exists ti. split; auto. split; auto.
  set (f := fun s => do o <- get_ix ti s; match o with Some x => Ok x | None => Panic end).
  assert (Hf : forall s, f s = if s <? num_syms g then Ok (h s) else Panic).
  { intros s. unfold f, get_ix. destruct (Nat.ltb_spec s (num_syms g)) as [Hs|Hs].
    - pose proof (proj2 (HP s (h s))) as HX. rewrite T3 in HX. specialize (HX (conj Hs eq_refl)).
      apply MT in HX. rewrite HX. reflexivity.
    - rewrite <- LT in Hs. apply nth_error_None in Hs. rewrite Hs. reflexivity. }
  destruct (remap_symbols_spec g f h HC HF HN Hf) as [S1 S2].
  unfold reorder_symbols. fold g. fold te. rewrite ET. cbn [bind]. split.
  - intros r' H. destruct (mapping_translate (rm_mapping r) (mkMapping ti te)) as [m| |] eqn:EM; try discriminate.
    cbn [bind] in H. fold f in H. destruct (remap_symbols f g) as [g'| |] eqn:EG; try discriminate.
    cbn [bind] in H. inversion H; subst r'. cbn [rm_grammar rm_mapping]. destruct (S1 g' eq_refl) as [A [B C]]. auto.
  - intros HCl. destruct (translate_total (rm_mapping r) (mkMapping ti te)) as [m EM].
    { simpl. intros y Hy. apply T2 in Hy. lia. }
    rewrite EM. cbn [bind]. destruct (S2 HCl) as [g' EG]. fold f. rewrite EG. cbn [bind]. eauto.
Qed.

(** For a total order the new numbers follow the order, and equal symbols keep theirs. *)
Lemma sort_seq_ordered : forall cmp l, total_order cmp -> StronglySorted lt l ->
  StronglySorted (fun a b => cmp a b = Lt \/ (cmp a b = Eq /\ a < b)) (sort_by cmp l).
Proof.
  intros cmp l [HOpp HTr] HS. set (R := fun a b => cmp a b = Lt \/ (cmp a b = Eq /\ a < b)).
  assert (HLT : forall a b c, cmp a b <> Gt -> cmp b c <> Gt -> (cmp a b = Lt \/ cmp b c = Lt) -> cmp a c = Lt).
  { intros a b c H1 H2 H3. pose proof (HTr a b c H1 H2) as H4. destruct (cmp a c) eqn:E; auto; [|congruence].
    exfalso. assert (EC : cmp c a = Eq) by (rewrite HOpp, E; auto).
    destruct H3 as [H3|H3].
    - assert (HX : cmp b a <> Gt) by (apply (HTr b c a); congruence). rewrite HOpp, H3 in HX. apply HX; auto.
    - assert (HX : cmp c b <> Gt) by (apply (HTr c a b); congruence). rewrite HOpp, H3 in HX. apply HX; auto. }
  assert (HRT : forall a b c, R a b -> R b c -> R a c).
  { intros a b c [H1|[H1 L1]] [H2|[H2 L2]]; unfold R.
    - left. apply (HLT a b c); [congruence|congruence|auto].
    - left. apply (HLT a b c); [congruence|congruence|auto].
    - left. apply (HLT a b c); [congruence|congruence|auto].
    - pose proof (HTr a b c ltac:(congruence) ltac:(congruence)) as H3. destruct (cmp a c) eqn:E; auto; [|congruence].
      right. split; [auto|lia]. }
  assert (HIns : forall x l, Forall (fun y => x < y) l -> StronglySorted R l -> StronglySorted R (insert_sorted cmp x l)).
  { intros x l0. induction l0 as [|y l0 IH]; intros HX HS0; simpl; [constructor; constructor|].
    inversion HX as [|? ? Hxy HX']; subst. inversion HS0 as [|? ? HS0' HF]; subst.
    assert (Hd : forall c, cmp x y = c -> c <> Gt -> StronglySorted R (x :: y :: l0)).
    { intros c Hc Hg. assert (Rxy : R x y).
      { unfold R. destruct c; [right; split; [auto|lia]|left; auto|congruence]. }
      constructor; auto. constructor; auto. eapply Forall_impl; [|exact HF]. intros z Hz. eapply HRT; eauto. }
    destruct (cmp x y) eqn:E; [eapply Hd; [reflexivity|congruence]|eapply Hd; [reflexivity|congruence]|].
    constructor; auto. apply Forall_forall. intros z Hz.
    apply (Permutation_in z (Permutation_sym (insert_perm cmp x l0))) in Hz. destruct Hz as [<-|Hz].
    + left. rewrite HOpp, E. auto.
    + exact (proj1 (Forall_forall _ _) HF z Hz). }
  induction HS as [|x l HS IH HF]; simpl; [constructor|]. apply HIns; auto.
  apply Forall_forall. intros y Hy. apply sort_In in Hy. exact (proj1 (Forall_forall _ _) HF y Hy).
Qed.

Lemma seq_sorted : forall n k, StronglySorted lt (seq k n).
Proof.
  induction n as [|n IH]; intros k; simpl; constructor; auto. apply Forall_forall. intros x Hx. apply in_seq in Hx. lia.
Qed.

Lemma sorted_positions : forall (R : nat -> nat -> Prop) te h, (forall a, ~ R a a) ->
  (forall a b, R a b -> R b a -> False) ->
  StronglySorted R te -> positions te h ->
  forall a b, a < length te -> b < length te -> R a b -> h a < h b.
Proof.
  intros R te h HIrr HAs HS HP a b Ha Hb HR.
  assert (EA : nth_error te (h a) = Some a) by (apply HP; auto).
  assert (EB : nth_error te (h b) = Some b) by (apply HP; auto).
  assert (HX : forall l i j x y, StronglySorted R l -> i < j -> nth_error l i = Some x -> nth_error l j = Some y -> R x y).
  { clear. induction l as [|z l IH]; intros i j x y HS Hij Ei Ej; [destruct i; discriminate|].
    inversion HS as [|? ? HS' HF]; subst. destruct j as [|j]; [lia|]. simpl in Ej. destruct i as [|i].
    - simpl in Ei. inversion Ei; subst. apply nth_error_In in Ej. exact (proj1 (Forall_forall _ _) HF y Ej).
    - simpl in Ei. apply (IH i j); auto. lia. }
  destruct (lt_eq_lt_dec (h a) (h b)) as [[H|H]|H]; auto; exfalso.
  - rewrite H in EA. assert (a = b) by congruence. subst. eapply HIrr; eauto.
  - apply (HAs a b HR). eapply HX; [exact HS|exact H|exact EB|exact EA].
Qed.

(** * Removing unused symbols *)

Lemma sort_bool : forall (b : nat -> bool) l,
  sort_by (fun x y => bool_cmp (b x) (b y)) l = filter (fun x => negb (b x)) l ++ filter b l.
Proof.
  intros b. assert (HI1 : forall x l, b x = false -> insert_sorted (fun x y => bool_cmp (b x) (b y)) x l = x :: l).
  { intros x l Hx. destruct l as [|y l]; auto. simpl. rewrite Hx. destruct (b y); auto. }
  assert (HI2 : forall x l1 l2, b x = true -> Forall (fun y => b y = false) l1 -> Forall (fun y => b y = true) l2 ->
    insert_sorted (fun x y => bool_cmp (b x) (b y)) x (l1 ++ l2) = l1 ++ x :: l2).
  { intros x l1 l2 Hx H1 H2. induction H1 as [|y l1 Hy _ IH]; simpl.
    - destruct l2 as [|y l2]; auto. simpl. inversion H2; subst. rewrite Hx, H1. auto.
    - rewrite Hx, Hy. simpl. rewrite IH. auto. }
  induction l as [|x l IH]; auto. cbn [sort_by filter]. rewrite IH. destruct (b x) eqn:E; simpl.
  - apply HI2; auto; apply Forall_forall; intros y Hy; apply filter_In in Hy; destruct Hy as [_ Hy]; auto.
    apply negb_true_iff; auto.
  - apply HI1; auto.
Qed.

Lemma bs_iter_filter : forall b, bs_iter b = filter (fun x => nth x b false) (seq 0 (length b)).
Proof.
  intros b. unfold bs_iter.
  assert (HX : forall b i, bs_iter_from i b = filter (fun x => nth (x - i) b false) (seq i (length b))).
  { clear. induction b as [|v b IH]; intros i; auto. cbn [length seq filter].
    replace (nth (i - i) (v :: b) false) with v by (rewrite Nat.sub_diag; reflexivity).
    assert (HE : filter (fun x => nth (x - i) (v :: b) false) (seq (S i) (length b)) = bs_iter_from (S i) b).
    { rewrite IH. apply filter_ext_in. intros x Hx. apply in_seq in Hx. replace (x - i) with (S (x - S i)) by lia. auto. }
    rewrite HE. destruct v; auto. }
  rewrite HX. apply filter_ext. intros x. rewrite Nat.sub_0_r. auto.
Qed.

Lemma filter_sorted : forall (f : nat -> bool) l, StronglySorted lt l -> StronglySorted lt (filter f l).
Proof.
  intros f l H. induction H as [|x l H IH HF]; simpl; [constructor|]. destruct (f x); auto. constructor; auto.
  apply Forall_forall. intros y Hy. apply filter_In in Hy. exact (proj1 (Forall_forall _ _) HF y (proj1 Hy)).
Qed.

Lemma filter_split_length : forall {A} (f : A -> bool) l, length l = length (filter (fun x => negb (f x)) l) + length (filter f l).
Proof. intros A f l. induction l as [|x l IH]; auto. simpl. destruct (f x); simpl; lia. Qed.

Lemma remove_unused_spec : forall r, let g := rm_grammar r in
  closed_rules g -> fits g -> names_wf g ->
  num_syms g <= length (to_external (rm_mapping r)) ->
  exists U, StronglySorted lt U /\ (forall s, In s U <-> occurs (prods g) s) /\
  exists te h, positions te h /\ length te = num_syms g /\ (forall x, In x te <-> x < num_syms g) /\
    (forall i s, nth_error U i = Some s -> h s = i) /\
    (forall s, s < num_syms g -> h s < length U -> In s U) /\
  exists ti, length ti = num_syms g /\ (forall x i, nth_error ti x = Some (Some i) <-> nth_error te i = Some x) /\
  (forall r', remove_unused_symbols r = Ok r' -> U <> [] /\
     exists g1, renamed_by h g g1 /\
       rm_grammar r' = mkCfg (mkSrc (length U) (firstn (length U) (names (src g1)))) (rules g1) (roots g1) (wroots g1) (limit g1) /\
       mapping_translate (rm_mapping r) (mkMapping ti te) = Ok (rm_mapping r') /\
       Forall (fun s => s < num_syms g) (roots g) /\
       Forall (fun w => wr_start w < num_syms g /\ wr_inner w < num_syms g /\
                        wr_end w < num_syms g /\ wr_root w < num_syms g) (wroots g)) /\
  (closed g -> U <> [] -> exists r', remove_unused_symbols r = Ok r') /\
  (U = [] -> closed g -> remove_unused_symbols r = Panic).
Proof.
  intros r g HC HF HN HM. destruct (bs_unused_spec g HC) as [b [E [L M]]].
  set (U := filter (fun x => negb (nth x b false)) (seq 0 (num_syms g))).
  assert (HU : forall s, In s U <-> occurs (prods g) s).
  { intros s. unfold U. rewrite filter_In, in_seq, negb_true_iff.
    assert (HB : nth s b false = true <-> member b s).
    { unfold member. split; intros H.
      - destruct (nth_error b s) eqn:En.
        + rewrite (nth_error_nth _ _ _ En) in H. congruence.
        + apply nth_error_None in En. rewrite nth_overflow in H by auto. discriminate.
      - apply nth_error_nth. auto. }
    destruct (bs_used_spec g HC) as [b2 [_ [_ M2]]].
    assert (HD : occurs (prods g) s \/ ~ occurs (prods g) s).
    { rewrite <- M2. unfold member. destruct (nth_error b2 s) as [[|]|]; [left; auto|right; congruence|right; congruence]. }
    split.
    - intros [Hs Hb]. destruct HD as [?|HD]; auto. exfalso. assert (nth s b false = true); [|congruence].
      apply HB, M. split; [lia|auto].
    - intros HO. pose proof (occurs_lt g s HC HO). split; [lia|]. destruct (nth s b false) eqn:En; auto. exfalso.
      pose proof (proj1 HB eq_refl) as Hm. apply M in Hm. tauto. }
  exists U. split; [apply filter_sorted, seq_sorted|]. split; auto.
  set (cmp := fun a c => bool_cmp (nth a b false) (nth c b false)).
  set (te := sort_by cmp (seq 0 (num_syms g))).
  assert (HTE : te = U ++ filter (fun x => nth x b false) (seq 0 (num_syms g))).
  { unfold te, cmp, U. rewrite (sort_bool (fun x => nth x b false)). auto. }
  destruct (te_facts cmp (num_syms g)) as [T1 [T2 T3]]. fold te in T1, T2, T3.
  destruct (reorder_spec cmp r HC HF HN HM) as [h [HP [ti [LT [MT [S1 S2]]]]]]. fold g in HP, LT, MT, S1, S2.
  fold te in HP, MT, S1.
  exists te, h. split; auto. split; auto. split; auto. split; [|split].
  { intros i s Hi. assert (HX : nth_error te i = Some s).
    { rewrite HTE. rewrite nth_error_app1; auto. apply nth_error_Some. congruence. }
    apply HP in HX. tauto. }
  { intros s Hs Hh. assert (HX : nth_error te (h s) = Some s) by (apply HP; split; [rewrite T3; auto|auto]).
    rewrite HTE, nth_error_app1 in HX by auto. eapply nth_error_In; eauto. }
  exists ti. split; auto. split; auto.
  assert (HLen : num_syms g - length (bs_iter b) = length U).
  { rewrite bs_iter_filter, L. unfold U. pose proof (filter_split_length (fun x => nth x b false) (seq 0 (num_syms g))) as HX.
    rewrite seq_length in HX. lia. }
  assert (EU : unused_symbols (rm_grammar r) = Ok b) by exact E.
  unfold remove_unused_symbols. rewrite EU. cbn [bind]. fold cmp. split; [|split].
  - intros r' H. destruct (reorder_symbols cmp r) as [r1| |] eqn:ER; try discriminate. cbn [bind] in H.
    destruct (S1 r1 eq_refl) as [RB [HM1 [HR HW]]]. pose proof (rb_num _ _ _ RB) as HNum.
    rewrite HNum, HLen in H. unfold src_truncate in H. destruct (Nat.eqb_spec (length U) 0) as [Hz|Hz]; [discriminate|].
    cbn [bind] in H. inversion H; subst r'; clear H. cbn [rm_grammar rm_mapping]. split.
    + intros X. apply Hz. rewrite X. auto.
    + exists (rm_grammar r1). split; auto.
  - intros HCl HUn. destruct (S2 HCl) as [r1 ER]. rewrite ER. cbn [bind]. destruct (S1 r1 ER) as [RB _].
    pose proof (rb_num _ _ _ RB) as HNum. rewrite HNum, HLen. unfold src_truncate.
    destruct (Nat.eqb_spec (length U) 0) as [Hz|Hz]; [destruct U; [congruence|discriminate]|]. cbn [bind]. eauto.
  - intros HUn HCl. destruct (S2 HCl) as [r1 ER]. rewrite ER. cbn [bind]. destruct (S1 r1 ER) as [RB _].
    pose proof (rb_num _ _ _ RB) as HNum. rewrite HNum, HLen. rewrite HUn. reflexivity.
Qed.
