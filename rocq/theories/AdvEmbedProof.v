(** Adding the grammar of a regular expression to a grammar. *)

From Coq Require Import String List Arith NArith Bool Lia Permutation.
From Verif Require Import Base ListFacts Spec SpecSeq SpecRegex SpecRemap GrammarFacts SymbolModel LoopModel HistoryModel
  CfgModel View SeqModel RegexModel RegexProof RegexProof2 RemapModel RemapProof LoadModel LoadProof AdvModel AdvRegexProof.
Import ListNotations.
Local Notation length := List.length.

(** * Growing *)

(** Classes and symbols of a table correspond. *)
Record table_ok (g : cfg) (t : class_table) : Prop := {
  t_keys : NoDup (map fst t);
  t_syms : NoDup (map snd t);
  t_below : forall k s, In (k, s) t -> s < num_syms g
}.

(** New symbols without names, new classes and new rules. *)
Record grows (g : cfg) (t : class_table) (g' : cfg) (t' : class_table) (c : list rule) : Prop := {
  gr_rules : rules g' = rules g ++ c;
  gr_roots : roots g' = roots g;
  gr_limit : limit g' = limit g;
  gr_names : exists k, names (src g') = names (src g) ++ repeat None k /\ num_syms g' = num_syms g + k;
  gr_keep : incl t t';
  gr_new : forall k s, In (k, s) t' -> In (k, s) t \/ num_syms g <= s;
  gr_table : table_ok g' t'
}.

Lemma grows_le : forall g t g' t' c, grows g t g' t' c -> num_syms g <= num_syms g'.
Proof. intros g t g' t' c H. destruct (gr_names _ _ _ _ _ H) as [k [_ E]]. lia. Qed.

Lemma grows_trans : forall g t g1 t1 c1 g2 t2 c2, grows g t g1 t1 c1 -> grows g1 t1 g2 t2 c2 -> grows g t g2 t2 (c1 ++ c2).
Proof.
  intros g t g1 t1 c1 g2 t2 c2 A B. pose proof (grows_le _ _ _ _ _ A) as L.
  destruct (gr_names _ _ _ _ _ A) as [k1 [A1 A2]]. destruct (gr_names _ _ _ _ _ B) as [k2 [B1 B2]]. constructor.
  - rewrite (gr_rules _ _ _ _ _ B), (gr_rules _ _ _ _ _ A), app_assoc. reflexivity.
  - rewrite (gr_roots _ _ _ _ _ B). apply A.
  - rewrite (gr_limit _ _ _ _ _ B). apply A.
  - exists (k1 + k2). rewrite B1, A1, repeat_app, app_assoc. split; [reflexivity|lia].
  - intros p Hp. apply (gr_keep _ _ _ _ _ B). apply (gr_keep _ _ _ _ _ A). exact Hp.
  - intros k s H. destruct (gr_new _ _ _ _ _ B k s H) as [H1|H1]; [|right; lia]. apply (gr_new _ _ _ _ _ A k s H1).
  - apply B.
Qed.

Lemma grows_refl : forall g t, table_ok g t -> grows g t g t [].
Proof.
  intros g t H. constructor; auto.
  - rewrite app_nil_r. reflexivity.
  - exists 0. cbn. rewrite app_nil_r. split; [reflexivity|lia].
  - apply incl_refl.
Qed.

Lemma grows_next : forall g t s g', table_ok g t -> next_sym g None = (s, g') ->
  grows g t g' t [] /\ s = num_syms g /\ num_syms g' = S s.
Proof.
  intros g t s g' H E. unfold next_sym, src_next in E. injection E as <- <-. unfold num_syms in *. cbn.
  split; [|split; reflexivity]. constructor; cbn; auto.
  - rewrite app_nil_r. reflexivity.
  - exists 1. unfold num_syms. cbn. split; [reflexivity|lia].
  - apply incl_refl.
  - constructor; [apply H|apply H|]. intros k s Hs. apply (t_below _ _ H) in Hs. unfold num_syms in *. cbn. lia.
Qed.

Lemma grows_rule : forall g t x, table_ok g t -> grows g t (push_rule g x) t [x].
Proof.
  intros g t x H. constructor; auto.
  - exists 0. cbn. rewrite app_nil_r. split; [reflexivity|]. unfold num_syms. cbn. lia.
  - apply incl_refl.
  - constructor; apply H.
Qed.

(** An entry of the table. *)
Lemma class_entry_ok : forall g t k, table_ok g t -> exists s g' t', class_entry g t k = (s, g', t') /\
  grows g t g' t' [] /\ In (k, s) t'.
Proof.
  intros g t k H. unfold class_entry. destruct (table_get t k) as [s|] eqn:E.
  - exists s, g, t. split; [reflexivity|]. split; [apply grows_refl; exact H|]. apply table_get_some. exact E.
  - apply table_get_none in E. destruct (next_sym g None) as [s g'] eqn:En.
    destruct (grows_next g t s g' H En) as [G [Es En']]. exists s, g', (table_put t k s). split; [reflexivity|].
    split; [|apply table_put_in; auto]. constructor; try apply G.
    + intros [k' s'] Hin. apply table_put_in; auto.
    + intros k' s' Hin. apply table_put_in in Hin; auto. destruct Hin as [X|X]; [injection X as -> ->; right; lia|left; exact X].
    + constructor.
      * apply table_put_nodup_keys; [apply H|exact E].
      * apply table_put_nodup_syms; [apply H|exact E|]. intros X. apply in_map_iff in X. destruct X as [[k' s'] [X1 X2]].
        apply (t_below _ _ H) in X2. cbn in X1. lia.
      * intros k' s' Hin. apply table_put_in in Hin; auto. destruct Hin as [X|X]; [injection X as -> ->; lia|].
        apply (t_below _ _ H) in X. lia.
Qed.

Lemma table_key : forall g t k s s', table_ok g t -> In (k, s) t -> In (k, s') t -> s = s'.
Proof. intros g t k s s' H. apply keys_inj. apply H. Qed.

Lemma table_sym : forall (t : class_table) k k' s, NoDup (map snd t) -> In (k, s) t -> In (k', s) t -> k = k'.
Proof.
  induction t as [|[k0 s0] t IH]; intros k k' s HN H H'; [contradiction|]. cbn in HN. inversion HN as [|a b H1 H2 E1].
  destruct H as [H|H], H' as [H'|H'].
  - congruence.
  - injection H as <- <-. exfalso. apply H1. apply (in_map snd) in H'. exact H'.
  - injection H' as <- <-. exfalso. apply H1. apply (in_map snd) in H. exact H.
  - eapply IH; eauto.
Qed.

(** * Maps *)

(** A map is one-to-one. *)
Record map_ok (g : cfg) (m : list (nat * nat)) : Prop := {
  m_keys : NoDup (map fst m);
  m_vals : NoDup (map snd m);
  m_below : forall a b, In (a, b) m -> b < num_syms g
}.

Lemma lookup_in_map : forall m a b, NoDup (map fst m) -> In (a, b) m -> map_lookup m a = Some b.
Proof.
  intros m a b. induction m as [|[x y] m IH]; intros N0 H; [contradiction|]. cbn in *. inversion N0; subst. destruct H as [H|H].
  - injection H as -> ->. rewrite Nat.eqb_refl. reflexivity.
  - destruct (Nat.eqb_spec x a) as [->|Hx]; [|apply IH; assumption]. exfalso. apply H2. apply (in_map fst) in H. exact H.
Qed.

Lemma map_classes_ok : forall l m g t, table_ok g t -> map_ok g m ->
  NoDup (map fst l) -> NoDup (map snd l) -> (forall a, In a (map fst m) -> ~ In a (map snd l)) ->
  (forall a b, In (a, b) m -> exists k, In (k, b) t /\ ~ In k (map fst l)) ->
  exists m' g' t', fold_left map_classes l (m, g, t) = (m', g', t') /\ grows g t g' t' [] /\ map_ok g' m' /\
    (forall a b, In (a, b) m' <-> In (a, b) m \/ exists k, In (k, a) l /\ In (k, b) t').
Proof.
  intros l. induction l as [|[k s] l IH]; intros m g t HT HM NK NS HD HK.
  - exists m, g, t. split; [reflexivity|]. split; [apply grows_refl; exact HT|]. split; [exact HM|].
    intros a b. split; [auto|]. intros [H|[k [[] _]]]. exact H.
  - cbn [fold_left]. unfold map_classes at 2. cbn [fst snd].
    destruct (class_entry_ok g t k HT) as [x [g1 [t1 [-> [G1 Hx]]]]].
    inversion NK as [|? ? NK1 NK2]; subst. inversion NS as [|? ? NS1 NS2]; subst. cbn in HD.
    destruct (IH ((s, x) :: m) g1 t1) as [m' [g' [t' [E [G [M I]]]]]].
    + apply G1.
    + constructor.
      * cbn. constructor; [|apply HM]. intros X. apply (HD s X). left. reflexivity.
      * cbn. constructor; [|apply HM]. intros X. apply in_map_iff in X. destruct X as [[a b] [X1 X2]]. cbn in X1. subst b.
        destruct (HK a x X2) as [k' [K1 K2]]. apply K2. left. cbn. symmetry.
        apply (table_sym t1 k' k x); [apply G1|apply (gr_keep _ _ _ _ _ G1); exact K1|exact Hx].
      * intros a b [X|X]; [injection X as <- <-; apply (t_below _ _ (gr_table _ _ _ _ _ G1) k); exact Hx|].
        apply (m_below _ _ HM) in X. pose proof (grows_le _ _ _ _ _ G1). lia.
    + exact NK2.
    + exact NS2.
    + intros a [<-|X]; [exact NS1|]. intros Y. apply (HD a X). right. exact Y.
    + intros a b [X|X].
      * injection X as <- <-. exists k. split; [exact Hx|exact NK1].
      * destruct (HK a b X) as [k' [K1 K2]]. exists k'. split; [apply (gr_keep _ _ _ _ _ G1); exact K1|]. intros Y. apply K2. right. exact Y.
    + exists m', g', t'. split; [exact E|]. split; [apply (grows_trans _ _ _ _ [] _ _ [] G1 G)|]. split; [exact M|].
      intros a b. rewrite I. split.
      * intros [[X|X]|[k' [K1 K2]]].
        -- injection X as <- <-. right. exists k. split; [left; reflexivity|apply (gr_keep _ _ _ _ _ G); exact Hx].
        -- left. exact X.
        -- right. exists k'. split; [right; exact K1|exact K2].
      * intros [X|[k' [[X|X] K2]]].
        -- left. right. exact X.
        -- injection X as <- <-. left. left. f_equal. apply (table_key g' t' k); [apply G|apply (gr_keep _ _ _ _ _ G); exact Hx|exact K2].
        -- right. exists k'. split; assumption.
Qed.

Lemma visit_ok : forall l m g t, table_ok g t -> map_ok g m ->
  exists m' g', fold_left visit l (m, g) = (m', g') /\ grows g t g' t [] /\ map_ok g' m' /\
    (forall a, In a (map fst m') <-> In a (map fst m) \/ In a l) /\
    (forall a b, In (a, b) m' -> In (a, b) m \/ num_syms g <= b) /\ incl m m'.
Proof.
  intros l. induction l as [|s l IH]; intros m g t HT HM.
  - exists m, g. split; [reflexivity|]. split; [apply grows_refl; exact HT|]. split; [exact HM|].
    split; [intros a; cbn; tauto|]. split; [auto|apply incl_refl].
  - cbn [fold_left]. unfold visit at 2. cbn [fst snd]. destruct (map_lookup m s) as [x|] eqn:E.
    + destruct (IH m g t HT HM) as [m' [g' [E' [G [M [D [V K]]]]]]]. exists m', g'. split; [exact E'|]. split; [exact G|].
      split; [exact M|]. split; [|split; assumption]. intros a. rewrite D. cbn. split; [tauto|]. intros [X|[<-|X]]; auto.
      left. apply map_lookup_in in E. apply (in_map fst) in E. exact E.
    + apply map_lookup_none in E. destruct (next_sym g None) as [y g1] eqn:En.
      destruct (grows_next g t y g1 HT En) as [G1 [Ey En']].
      destruct (IH ((s, y) :: m) g1 t) as [m' [g' [E' [G [M [D [V K]]]]]]].
      * apply G1.
      * constructor.
        -- cbn. constructor; [exact E|apply HM].
        -- cbn. constructor; [|apply HM]. intros X. apply in_map_iff in X. destruct X as [[a b] [X1 X2]]. cbn in X1.
           apply (m_below _ _ HM) in X2. lia.
        -- intros a b [X|X]; [injection X as <- <-; lia|]. apply (m_below _ _ HM) in X. lia.
      * exists m', g'. split; [exact E'|]. split; [apply (grows_trans _ _ _ _ [] _ _ [] G1 G)|]. split; [exact M|].
        split; [|split].
        -- intros a. rewrite D. cbn. tauto.
        -- intros a b H. destruct (V a b H) as [[X|X]|X]; [injection X as <- <-; right; lia|left; exact X|right; lia].
        -- intros p Hp. apply K. right. exact Hp.
Qed.

(** * The step *)

(** The productions of a list of rules. *)
Definition rule_prods (c : list rule) : productions := fun A r => exists x, In x c /\ lhs x = A /\ rhs x = r.

Definition token_symbol (debug : bool) (t : class_table) (x : token) (s : nat) : Prop :=
  exists k, token_classes debug x = Ok k /\ In (k, s) t.

Lemma embed_ok : forall debug h g t, supported h -> table_ok g t -> exists r g' t' c,
  embed_regexp debug h g t = Ok (r, g', t') /\ grows g t g' t' c /\
  Forall (fun x => helper_hist (hist x) /\ num_syms g <= lhs x /\ ~ In (lhs x) (map snd t') /\ lhs x < num_syms g' /\
     Forall (fun s => (num_syms g <= s \/ In s (map snd t')) /\ s < num_syms g') (rhs x)) c /\
  (num_syms g <= r \/ In r (map snd t')) /\ r < num_syms g' /\
  (forall ts, matches h ts -> Forall (fun x => exists s, token_symbol debug t' x s) ts) /\
  (forall w, language (rule_prods c) r w <-> exists ts, matches h ts /\ Forall2 (token_symbol debug t') ts w).
Proof.
  intros debug h g t HS HT.
  destruct (from_hir_ok debug h HS) as [rg [lm [root [E [ER [HC [Hroot [NK [NS [HCl [HCov HL]]]]]]]]]]].
  pose proof (from_hir_kept debug h rg lm E) as HK.
  unfold embed_regexp. rewrite E. cbn [bind].
  destruct (map_classes_ok (lm_classes lm) [] g t HT) as [m1 [g1 [t1 [E1 [G1 [M1 I1]]]]]]; try assumption.
  { constructor; [constructor|constructor|intros a b []]. }
  { intros a []. }
  { intros a b []. }
  rewrite E1.
  destruct (visit_ok (visited_symbols rg) m1 g1 t1 (gr_table _ _ _ _ _ G1) M1) as [m2 [g2 [E2 [G2 [M2 [D2 [V2 K2]]]]]]].
  rewrite E2.
  set (f := fun s => match map_lookup m2 s with Some x => Ok x | None => Panic end).
  set (hm := fun s => match map_lookup m2 s with Some x => x | None => 0 end).
  assert (Dom : forall s, In s (map fst m2) <-> s < num_syms rg).
  { intros s. rewrite D2. split.
    - intros [X|X].
      + apply in_map_iff in X. destruct X as [[a b] [<- X]]. apply I1 in X. destruct X as [[]|[k [X _]]]. apply (HCl k). exact X.
      + unfold visited_symbols in X. apply in_app_or in X. destruct X as [X|X].
        * apply in_flat_map in X. destruct X as [r [X1 X2]]. destruct (HC r X1) as [Y1 Y2]. destruct X2 as [<-|X2]; [exact Y1|].
          rewrite Forall_forall in Y2. apply Y2. exact X2.
        * apply in_app_or in X. destruct X as [X|X].
          -- rewrite ER in X. destruct X as [<-|[]]. exact Hroot.
          -- apply in_seq in X. pose proof (k_names _ HK) as W. unfold names_wf in W. lia.
    - intros X. right. unfold visited_symbols. apply in_or_app. right. apply in_or_app. right. apply in_seq.
      pose proof (k_names _ HK) as W. unfold names_wf in W. lia. }
  assert (Lk : forall s, s < num_syms rg -> In (s, hm s) m2).
  { intros s Hs. apply Dom in Hs. unfold hm. destruct (map_lookup m2 s) as [x|] eqn:Ex; [apply map_lookup_in; exact Ex|].
    apply map_lookup_none in Ex. contradiction. }
  assert (Hf : forall s, f s = if s <? num_syms rg then Ok (hm s) else Panic).
  { intros s. unfold f, hm. destruct (Nat.ltb_spec s (num_syms rg)) as [X|X].
    - pose proof (Lk s X) as Y. rewrite (lookup_in_map m2 s _ (m_keys _ _ M2) Y). reflexivity.
    - destruct (map_lookup m2 s) eqn:Ex; [|reflexivity]. exfalso. apply map_lookup_in in Ex. apply (in_map fst) in Ex.
      apply Dom in Ex. cbn in Ex. lia. }
  assert (Inj : inj_below (num_syms rg) hm).
  { intros a b Ha Hb Eab. apply Lk in Ha, Hb. rewrite Eab in Ha. apply (nodup_pair m2 a b (hm b)); [apply M2|exact Ha|exact Hb]. }
  assert (HF : fits rg) by (unfold fits; rewrite (k_limit _ HK); exact I).
  destruct (remap_symbols_spec rg f hm HC HF (k_names _ HK) Hf) as [Spec Ex].
  destruct Ex as [rg' Eg'].
  { split; [exact HC|]. rewrite ER. split; [constructor; [exact Hroot|constructor]|]. rewrite (k_wroots _ HK). constructor. }
  destruct (Spec rg' Eg') as [RB _]. rewrite Eg'. cbn [bind]. rewrite (rb_roots _ _ _ RB), ER. cbn [map].
  set (c := rules rg').
  assert (G2' : grows g1 t1 (cfg_extend g2 rg') t1 c).
  { constructor; try apply G2.
    - cbn. rewrite (gr_rules _ _ _ _ _ G2), app_nil_r. reflexivity.
    - constructor; apply (gr_table _ _ _ _ _ G2). }
  pose proof (grows_trans _ _ _ _ [] _ _ c G1 G2') as G. cbn [app] in G.
  exists (hm root), (cfg_extend g2 rg'), t1, c. split; [reflexivity|]. split; [exact G|].
  (* values *)
  assert (Class : forall k s, In (k, s) (lm_classes lm) -> In (k, hm s) t1).
  { intros k s Hin. assert (Hs : s < num_syms rg) by (apply (HCl k); exact Hin). pose proof (Lk s Hs) as Y.
    assert (X : exists b, In (k, b) t1 /\ In (s, b) m1).
    { assert (Q : In s (map fst m1)).
      { destruct (V2 s (hm s) Y) as [Z|Z]; [apply (in_map fst) in Z; exact Z|].
        clear - E1 Hin. revert E1. generalize (@nil (nat * nat)) as m0.
        generalize g, t. induction (lm_classes lm) as [|[k0 s0] l IH]; intros g0 t0 m0 E1; [contradiction|].
        cbn [fold_left] in E1. unfold map_classes at 2 in E1. cbn [fst snd] in E1.
        destruct (class_entry g0 t0 k0) as [[x g9] t9].
        destruct Hin as [Hin|Hin].
        - injection Hin as -> ->. clear IH.
          assert (W : forall l m0 g0 t0, In s (map fst m0) -> fold_left map_classes l (m0, g0, t0) = (m1, g1, t1) -> In s (map fst m1)).
          { clear. induction l as [|[k0 s0] l IH]; intros m0 g0 t0 H E; [injection E as -> _ _; exact H|].
            cbn [fold_left] in E. unfold map_classes at 2 in E. cbn [fst snd] in E.
            destruct (class_entry g0 t0 k0) as [[x g9] t9]. apply (IH ((s0, x) :: m0) g9 t9); [right; exact H|exact E]. }
          apply (W l ((s, x) :: m0) g9 t9); [left; reflexivity|exact E1].
        - apply (IH Hin _ _ _ E1). }
      apply in_map_iff in Q. destruct Q as [[a b] [Ea Q]]. cbn in Ea. subst a. exists b. split; [|exact Q].
      apply I1 in Q. destruct Q as [[]|[k' [Q1 Q2]]].
      replace k with k'; [exact Q2|]. apply (table_sym (lm_classes lm) k' k s NS Q1 Hin). }
    destruct X as [b [X1 X2]]. replace (hm s) with b; [exact X1|].
    pose proof (lookup_in_map m2 s b (m_keys _ _ M2) (K2 _ X2)) as Z. unfold hm. rewrite Z. reflexivity. }
  assert (Val : forall s, s < num_syms rg -> (num_syms g <= hm s \/ In (hm s) (map snd t1)) /\ hm s < num_syms g2).
  { intros s Hs. pose proof (Lk s Hs) as Y. split; [|apply (m_below _ _ M2 s); exact Y].
    destruct (V2 s (hm s) Y) as [Z|Z].
    - apply I1 in Z. destruct Z as [[]|[k [_ Z]]]. right. apply (in_map snd) in Z. exact Z.
    - left. pose proof (grows_le _ _ _ _ _ G1). lia. }
  assert (NotClass : forall s, s < num_syms rg -> In (hm s) (map snd t1) -> exists k, In (k, s) (lm_classes lm)).
  { intros s Hs X. pose proof (Lk s Hs) as Y. destruct (V2 s (hm s) Y) as [Z|Z].
    - apply I1 in Z. destruct Z as [[]|[k [Z _]]]. exists k. exact Z.
    - exfalso. apply in_map_iff in X. destruct X as [[k b] [X1 X2]]. cbn in X1. apply (t_below _ _ (gr_table _ _ _ _ _ G1)) in X2. lia. }
  assert (Num : num_syms (cfg_extend g2 rg') = num_syms g2) by reflexivity.
  pose proof (renamed_by_prods _ _ _ RB) as RP.
  split; [|split; [|split; [|split]]].
  - apply Forall_forall. intros x Hx. unfold c in Hx.
    apply (Permutation_in _ (rb_rules _ _ _ RB)) in Hx. apply in_map_iff in Hx. destruct Hx as [y [<- Hy]].
    cbn [rename_rule lhs rhs hist]. destruct (HC y Hy) as [Y1 Y2].
    split; [pose proof (k_hist _ HK) as KH; rewrite Forall_forall in KH; apply KH; exact Hy|].
    assert (NC : ~ In (hm (lhs y)) (map snd t1)).
    { intros X. destruct (NotClass _ Y1 X) as [k Z]. destruct (HCl k _ Z) as [_ Z2]. apply (Z2 (rhs y)). exists y. auto. }
    destruct (Val _ Y1) as [[V|V] V']; [|contradiction]. split; [exact V|]. split; [exact NC|]. split; [rewrite Num; exact V'|].
    apply Forall_forall. intros s Hs. apply in_map_iff in Hs. destruct Hs as [s0 [<- Hs]]. rewrite Forall_forall in Y2.
    rewrite Num. apply Val. apply Y2. exact Hs.
  - apply Val. exact Hroot.
  - rewrite Num. apply Val. exact Hroot.
  - intros ts Hm. eapply Forall_impl; [|exact (HCov ts Hm)]. intros x [k [s [X1 X2]]]. exists (hm s), k. split; [exact X1|].
    apply Class. exact X2.
  - intros w.
    assert (LP : language (rule_prods c) (hm root) w <-> language (renamed hm (prods rg)) (hm root) w).
    { unfold language. split; intros [X1 X2].
      - split; [eapply derives_mono; [|exact X1]; intros A r X; apply RP; exact X|].
        eapply Forall_impl; [|exact X2]. intros s X r Y. apply (X r). apply RP. exact Y.
      - split; [eapply derives_mono; [|exact X1]; intros A r X; apply RP; exact X|].
        eapply Forall_impl; [|exact X2]. intros s X r Y. apply (X r). apply RP. exact Y. }
    rewrite LP. rewrite (renamed_language (num_syms rg) hm (prods rg) root w Inj); [|intros A r [x [X1 [<- <-]]]; apply HC; exact X1|exact Hroot].
    split.
    + intros [v [-> Hv]]. apply HL in Hv. destruct Hv as [ts [Hm Hts]]. exists ts. split; [exact Hm|].
      clear - Hts Class. induction Hts as [|x s ts v [k [X1 X2]] _ IH]; cbn; constructor; [|exact IH]. exists k. split; [exact X1|].
      apply Class. exact X2.
    + intros [ts [Hm Hts]]. pose proof (HCov ts Hm) as Cov.
      assert (X : exists v, w = map hm v /\ Forall2 (fun x s => exists k, token_classes debug x = Ok k /\ In (k, s) (lm_classes lm)) ts v).
      { clear - Hts Cov Class G1. induction Hts as [|x s ts w [k [X1 X2]] _ IH]; [exists []; split; [reflexivity|constructor]|].
        inversion Cov as [|? ? [k' [s' [Y1 Y2]]] Cov']; subst. destruct (IH Cov') as [v [-> Hv]].
        exists (s' :: v). split; [cbn; f_equal|constructor; [exists k'; split; assumption|exact Hv]].
        assert (k' = k) as -> by congruence. apply (table_key g1 t1 k); [apply G1|exact X2|apply Class; exact Y2]. }
      destruct X as [v [-> Hv]]. exists v. split; [reflexivity|]. apply HL. exists ts. split; [exact Hm|exact Hv].
Qed.
