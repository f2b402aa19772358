(** Sequences have one parse: the rules that rewriting adds, in order, and their parse trees. *)

From Coq Require Import List Arith NArith Bool Lia Permutation.
From Verif Require Import Base ListFacts LoopModel LoopFacts Spec SpecSeq GrammarFacts SymbolModel HistoryModel CfgModel View CfgProof
  SeqModel SeqProof SeqProof2 SeqProof3 SpecTree TreeProof TreeLang TreeLimit SeqTree.
Import ListNotations.
Local Notation length := List.length.

(** A limit under which no rule of a sequence is split. *)
Definition lim3 (l : option nat) : Prop := match l with None => True | Some n => 3 <= n end.

Lemma add_rule3 : forall g r, lim3 (limit g) -> length (rhs r) <= 3 -> exists g', add_rule g r = Ok g' /\
  rules g' = rules g ++ [r] /\ limit g' = limit g /\ num_syms g' = num_syms g.
Proof.
  intros g r HL Hr. unfold add_rule. unfold lim3 in HL. destruct (limit g) as [n|] eqn:E.
  - rewrite (add_rule_short g r n E) by lia. eexists. split; [reflexivity|]. cbn. auto.
  - rewrite (add_rule_none g r E). eexists. split; [reflexivity|]. cbn. auto.
Qed.

Section Rules.
  Context (g : cfg) (T : nat) (k0 : seq_key) (h0 : option history).
  Hypothesis HL : lim3 (limit g).
  Hypothesis HT : T < num_syms g.
  Hypothesis Hk0 : valid_key k0.
  Hypothesis Hsy : Forall (fun s => s < num_syms g) (key_syms k0).

  Definition seqp (p : seq_key * nat) : sequence := seq_of (snd p) h0 (fst p).
  Definition block (M : list (seq_key * nat)) (p : seq_key * nat) : list (nat * list nat) :=
    map (fun q => (snd p, map (enc_item M (snd p)) q)) (rules_of (fst p)).

  (** What holds of the map of symbols. *)
  Record minv (st : seq_state) : Prop := {
    m_lim : limit (ss_cfg st) = limit g;
    m_num : num_syms g <= num_syms (ss_cfg st);
    m_keys : NoDup (map fst (ss_map st));
    m_syms : NoDup (map snd (ss_map st));
    m_fresh : Forall (fun p => num_syms g <= snd p < num_syms (ss_cfg st)) (ss_map st)
  }.

  Definition ext (M M' : list (seq_key * nat)) : Prop := forall k s, key_lookup M k = Some s -> key_lookup M' k = Some s.

  Lemma enc_persist : forall M M' A q sy, ext M M' -> Forall (item_ok (map fst M) sy) q ->
    map (enc_item M' A) q = map (enc_item M A) q.
  Proof.
    intros M M' A q sy HE HF. apply map_ext_in. intros i Hi. pose proof (proj1 (Forall_forall _ _) HF _ Hi) as H.
    destruct i; cbn [enc_item item_ok] in *; auto. destruct (key_lookup M k) as [s|] eqn:E.
    - rewrite (HE _ _ E). reflexivity.
    - apply lookup_none in E. contradiction.
  Qed.

  Lemma ext_app : forall new M, NoDup (map fst (new ++ M)) -> ext M (new ++ M).
  Proof.
    intros new M H k s E. apply lookup_in; auto. apply in_or_app. right. apply lookup_some_in. auto.
  Qed.

  Lemma run_rules : forall h A sy cmds Kn st, minv st -> scoped sy Kn cmds -> incl Kn (map fst (ss_map st)) ->
    exists st' new, fold_res (run_cmd h A h0) cmds st = Ok st' /\ minv st' /\ ss_map st' = new ++ ss_map st /\
      ss_stack st' = map seqp new ++ ss_stack st /\
      (forall p, In p new -> In (fst p) (recs cmds) /\ valid_key (fst p) /\ incl (key_syms (fst p)) sy) /\
      (forall k, In k (recs cmds) -> In k (map fst (ss_map st'))) /\
      map pr (rules (ss_cfg st')) = map pr (rules (ss_cfg st)) ++ map (fun q => (A, map (enc_item (ss_map st') A) q)) (emits cmds).
  Proof.
    intros h A sy. induction cmds as [|c cmds IH]; intros Kn st HM Hsc HKn.
    - exists st, []. cbn [fold_res emits recs flat_map map app]. rewrite app_nil_r. split; [reflexivity|]. split; auto. split; [reflexivity|]. split; [reflexivity|]. split; [intros ? []|]. split; [intros ? []|reflexivity].
    - destruct c as [k|q]; cbn [scoped] in Hsc; destruct Hsc as [Hc Hsc].
      + destruct Hc as [Hv Hin]. cbn [fold_res run_cmd bind]. unfold seq_recurse.
        replace (key_of (seq_of A h0 k)) with k by (destruct k; auto).
        destruct (key_lookup (ss_map st) k) as [s|] eqn:E.
        * cbn [snd]. assert (Hk : In k (map fst (ss_map st))).
          { apply lookup_some_in in E. change k with (fst (k, s)). apply in_map. auto. }
          destruct (IH (k :: Kn) st HM Hsc) as [st' [new [E1 [E2 [E3 [E4 [E5 [E6 E7]]]]]]]].
          { intros y [<-|Hy]; auto. }
          exists st', new. split; auto. split; auto. split; auto. split; auto. split; [|split; auto].
          -- intros p Hp. destruct (E5 p Hp) as [X1 X2]. split; auto. cbn [recs flat_map app In]. auto.
          -- intros k' [<-|Hk']; [|auto]. rewrite E3, map_app. apply in_or_app. auto.
        * destruct (next_sym (ss_cfg st) None) as [s g1] eqn:EN. unfold next_sym, src_next in EN. injection EN as <- <-. cbn [snd].
          match goal with |- context [fold_res _ _ ?x] => set (st1 := x) end.
          destruct HM as [M1 M2 M3 M4 M5].
          assert (HM1 : minv st1).
          { constructor; unfold st1; cbn [ss_cfg ss_map limit].
            - exact M1.
            - unfold num_syms in *. cbn [src] in *. cbn. lia.
            - cbn [map fst]. constructor; auto. apply lookup_none. auto.
            - cbn [map snd]. constructor; auto. intros HX. apply in_map_iff in HX. destruct HX as [p [Ep Hp]].
              pose proof (proj1 (Forall_forall _ _) M5 _ Hp) as Hb. cbn beta in Hb. rewrite Ep in Hb. unfold num_syms in Hb. lia.
            - constructor; [cbn [snd]; unfold num_syms in *; cbn; lia|]. eapply Forall_impl; [|exact M5]. intros p [? ?]. unfold num_syms in *. cbn. lia. }
          destruct (IH (k :: Kn) st1 HM1 Hsc) as [st' [new [E1 [E2 [E3 [E4 [E5 [E6 E7]]]]]]]].
          { intros y [<-|Hy]; [unfold st1; cbn [ss_map map fst]; left; auto|]. unfold st1; cbn [ss_map map]. right. auto. }
          exists st', (new ++ [(k, num (src (ss_cfg st)))]). split; auto. split; auto.
          split; [rewrite E3; unfold st1; cbn [ss_map]; rewrite <- app_assoc; reflexivity|]. split; [|split; [|split]].
          -- rewrite E4. unfold st1. cbn [ss_stack]. rewrite map_app, <- app_assoc. reflexivity.
          -- intros p Hp. apply in_app_or in Hp. destruct Hp as [Hp|[<-|[]]].
             ++ destruct (E5 p Hp) as [X1 X2]. split; auto. cbn [recs flat_map app In]. auto.
             ++ cbn [fst]. split; auto. cbn [recs flat_map app In]. auto.
          -- intros k' [<-|Hk']; [|auto]. rewrite E3, map_app. apply in_or_app. right. unfold st1. cbn [ss_map map fst In]. auto.
          -- exact E7.
      + destruct Hc as [Hok Hlen]. cbn [fold_res run_cmd]. unfold seq_rhs. rewrite map_length. 
        apply Nat.leb_le in Hlen as Hlen'. rewrite Hlen'. cbn [negb process_linked bind]. unfold rule_history_rhs.
        match goal with |- context [add_rule ?a ?b] => destruct (add_rule3 a b) as [g1 [Eg [R1 [R2 R3]]]] end.
        { rewrite (m_lim _ HM). exact HL. }
        { cbn [rhs]. rewrite map_length. exact Hlen. }
        rewrite Eg. cbn [bind]. set (st1 := mkSS g1 (ss_stack st) (ss_map st)).
        assert (HM1 : minv st1) by (destruct HM as [M1 M2 M3 M4 M5]; constructor; unfold st1; cbn [ss_cfg ss_map]; [congruence|lia|auto|auto|rewrite R3; auto]).
        destruct (IH Kn st1 HM1 Hsc HKn) as [st' [new [E1 [E2 [E3 [E4 [E5 [E6 E7]]]]]]]].
        exists st', new. split; auto. split; auto. split; auto. split; auto. split; auto. split; auto.
        rewrite E7. unfold st1. cbn [ss_cfg]. rewrite R1, map_app, <- app_assoc. f_equal. cbn [map app emits flat_map]. f_equal.
        unfold pr. cbn [lhs rhs]. f_equal. symmetry. apply (enc_persist _ _ _ _ sy).
        * rewrite E3. apply ext_app. rewrite <- E3. apply (m_keys _ E2).
        * eapply Forall_impl; [|exact Hok]. intros i Hi. destruct i; cbn [item_ok] in *; auto.
  Qed.

  Lemma scoped_items : forall sy cmds Kn q, scoped sy Kn cmds -> In q (emits cmds) -> Forall (item_ok (recs cmds ++ Kn) sy) q.
  Proof.
    intros sy. induction cmds as [|[k|q'] cmds IH]; intros Kn q Hs Hq; [destruct Hq| |].
    - cbn [scoped] in Hs. destruct Hs as [_ Hs]. specialize (IH _ q Hs Hq). eapply Forall_impl; [|exact IH].
      intros i Hi. destruct i; cbn [item_ok] in *; auto. cbn [recs flat_map app]. apply in_app_or in Hi. destruct Hi as [Hi|[->|Hi]].
      + right. apply in_or_app. auto.
      + left. auto.
      + right. apply in_or_app. auto.
    - cbn [scoped] in Hs. destruct Hs as [[Hs1 _] Hs2]. destruct Hq as [<-|Hq].
      + eapply Forall_impl; [|exact Hs1]. intros i Hi. destruct i; cbn [item_ok] in *; auto. apply in_or_app. auto.
      + apply (IH Kn q Hs2 Hq).
  Qed.

  Lemma rules_items : forall k q, valid_key k -> In q (rules_of k) -> Forall (item_ok (recs_of k) (key_syms k)) q.
  Proof.
    intros k q HV Hq. pose proof (scoped_items (key_syms k) (prog k) [] q (prog_scoped k HV) Hq) as H. rewrite app_nil_r in H. exact H.
  Qed.

  Record linv (ds : list (seq_key * nat)) (st : seq_state) : Prop := {
    l_m : minv st;
    l_stack : exists sp, ss_stack st = map seqp sp /\ Permutation (ds ++ sp) (ss_map st);
    l_valid : forall p, In p (ss_map st) -> valid_key (fst p) /\ incl (key_syms (fst p)) (key_syms k0) /\ forall s, k_sep (fst p) <> Liberal s;
    l_subs : forall p, In p ((k0, T) :: ds) -> forall k, In k (recs_of (fst p)) -> In k (map fst (ss_map st));
    l_rules : map pr (rules (ss_cfg st)) = map pr (rules g) ++ flat_map (block (ss_map st)) ((k0, T) :: ds)
  }.

  Lemma block_persist : forall M M' p, valid_key (fst p) -> ext M M' -> (forall k, In k (recs_of (fst p)) -> In k (map fst M)) ->
    block M' p = block M p.
  Proof.
    intros M M' p HV HE HS. unfold block. apply map_ext_in. intros q Hq. f_equal. apply (enc_persist M M' (snd p) q (key_syms (fst p)) HE).
    eapply Forall_impl; [|exact (rules_items (fst p) q HV Hq)]. intros i Hi. destruct i; cbn [item_ok] in *; auto.
  Qed.

  Lemma blocks_persist : forall M M' ds, ext M M' ->
    (forall p, In p ds -> valid_key (fst p) /\ forall k, In k (recs_of (fst p)) -> In k (map fst M)) ->
    flat_map (block M') ds = flat_map (block M) ds.
  Proof.
    intros M M' ds HE. induction ds as [|p ds IH]; intros H; [reflexivity|]. cbn [flat_map]. rewrite IH by (intros; apply H; right; auto).
    f_equal. apply block_persist; auto; apply (H p); left; auto.
  Qed.

  (** Reducing the sequence [p]. *)
  Lemma reduce_rules : forall debug h p st, minv st -> valid_key (fst p) -> incl (key_syms (fst p)) (key_syms k0) ->
    exists st' new, seq_reduce debug h st (seqp p) = Ok st' /\ minv st' /\ ss_map st' = new ++ ss_map st /\
      ss_stack st' = map seqp new ++ ss_stack st /\
      (forall p', In p' new -> valid_key (fst p') /\ incl (key_syms (fst p')) (key_syms k0) /\ forall s, k_sep (fst p') <> Liberal s) /\
      (forall k, In k (recs_of (fst p)) -> In k (map fst (ss_map st'))) /\
      map pr (rules (ss_cfg st')) = map pr (rules (ss_cfg st)) ++ block (ss_map st') p.
  Proof.
    intros debug h [k A] st HM HV HI. cbn [fst snd] in *. unfold seqp. cbn [fst snd].
    rewrite reduce_prog by (unfold key_of; cbn; rewrite key_eta; auto).
    replace (key_of (seq_of A h0 k)) with k by (symmetry; apply key_eta). cbn [seq_of sq_lhs sq_hist].
    destruct (run_rules h A (key_syms k) (prog k) [] st HM (prog_scoped k HV)) as [st' [new [E1 [E2 [E3 [E4 [E5 [E6 E7]]]]]]]]; [intros y []|].
    exists st', new. split; auto. split; auto. split; auto. split; auto. split; [|split; auto].
    intros p' Hp. destruct (E5 p' Hp) as [X1 [X2 X3]]. split; auto. split; [eapply incl_tran; eauto|].
    eapply recs_not_liberal; [exact HV|exact X1].
  Qed.

  Opaque iter_pow.
  Theorem rewrite_rules : forall debug g', seq_rewrite debug g (seq_of T h0 k0) = Ok g' -> exists M ds,
    map pr (rules g') = map pr (rules g) ++ flat_map (block M) ((k0, T) :: ds) /\ Permutation ds M /\
    NoDup (map fst M) /\ NoDup (map snd M) /\ Forall (fun p => num_syms g <= snd p) M /\
    (forall p, In p M -> valid_key (fst p) /\ incl (key_syms (fst p)) (key_syms k0) /\ forall s, k_sep (fst p) <> Liberal s) /\
    (forall p, In p ((k0, T) :: ds) -> forall k, In k (recs_of (fst p)) -> In k (map fst M)).
  Proof.
    intros debug g' ER. unfold seq_rewrite in ER. cbn [process_linked bind] in ER.
    match type of ER with context [seq_reduce debug ?h _ _] => set (ht := h) in ER end.
    match type of ER with context [seq_step debug ?h] => set (hb := h) in ER end.
    assert (HM0 : minv (mkSS g [] [])).
    { constructor; cbn [ss_cfg ss_map map]; auto; constructor. }
    destruct (reduce_rules debug ht (k0, T) _ HM0 Hk0 (incl_refl _)) as [st [new [E1 [E2 [E3 [E4 [E5 [E6 E7]]]]]]]].
    unfold seqp in E1. cbn [fst snd] in E1. rewrite E1 in ER. cbn [bind] in ER. cbn [ss_cfg ss_map ss_stack] in *. rewrite app_nil_r in E3, E4.
    assert (HI0 : linv [] st).
    { constructor; auto.
      - exists new. split; auto. rewrite E3. apply Permutation_refl.
      - rewrite E3. exact E5.
      - intros p [<-|[]]. exact E6.
      - rewrite E7. cbn [flat_map]. rewrite app_nil_r. reflexivity. }
    unfold run_loop in ER. destruct (iter_pow (seq_step debug hb) 80 st) as [?|r] eqn:EI; [discriminate|].
    destruct (iter_pow_inv (seq_step debug hb) (fun st => exists ds, linv ds st)) with (p := 80) (s := st) (r := r) as [st' [[ds HI] HS]]; auto.
    { intros s s' [ds HI] Hstep. unfold seq_step in Hstep. destruct HI as [L1 [sp [L2 L2']] L3 L4 L5].
      destruct sp as [|p sp]; rewrite L2 in Hstep; [discriminate|]. cbn [map] in Hstep. destruct (_ <=? _)%N; [|discriminate].
      assert (Hp : In p (ss_map s)).
      { eapply Permutation_in; [exact L2'|]. apply in_or_app. right. left. auto. }
      destruct (L3 p Hp) as [V1 [V2 V3]].
      assert (HM1 : minv (mkSS (ss_cfg s) (map seqp sp) (ss_map s))) by (destruct L1; constructor; auto).
      destruct (reduce_rules debug hb p _ HM1 V1 V2) as [st1 [new1 [F1 [F2 [F3 [F4 [F5 [F6 F7]]]]]]]].
      cbn [ss_cfg ss_map ss_stack] in *. rewrite F1 in Hstep. injection Hstep as <-. exists (ds ++ [p]).
      assert (HE : ext (ss_map s) (ss_map st1)) by (rewrite F3; apply ext_app; rewrite <- F3; apply (m_keys _ F2)).
      constructor; auto.
      - exists (new1 ++ sp). split; [rewrite F4, map_app; reflexivity|]. rewrite F3.
        eapply perm_trans; [apply Permutation_app_swap_app|]. apply Permutation_app_head. rewrite <- app_assoc. exact L2'.
      - intros p' Hp'. rewrite F3 in Hp'. apply in_app_or in Hp'. destruct Hp'; auto.
      - intros p' Hp' k Hk. rewrite app_comm_cons in Hp'. apply in_app_or in Hp'. destruct Hp' as [Hp'|[<-|[]]]; [|auto].
        rewrite F3, map_app. apply in_or_app. right. eapply L4; eauto.
      - rewrite F7, L5. rewrite <- app_assoc. f_equal. rewrite app_comm_cons, flat_map_app. cbn [flat_map]. rewrite app_nil_r. f_equal.
        symmetry. apply (blocks_persist _ _ ((k0, T) :: ds) HE). intros p' Hp'. split; [|apply L4; auto].
        destruct Hp' as [<-|Hp']; [exact Hk0|]. apply L3. eapply Permutation_in; [exact L2'|]. apply in_or_app. auto. }
    { eauto. }
    destruct HI as [L1 [sp [L2 L2']] L3 L4 L5]. unfold seq_step in HS.
    destruct sp as [|p sp]; rewrite L2 in HS; cbn [map] in HS.
    - injection HS as <-. cbn [bind] in ER. injection ER as <-. rewrite app_nil_r in L2'. exists (ss_map st'), ds.
      split; auto. split; auto. destruct L1. split; auto. split; auto. split; [|split; auto].
      eapply Forall_impl; [|exact m_fresh0]. cbn; intros; lia.
    - assert (Hp : In p (ss_map st')).
      { eapply Permutation_in; [exact L2'|]. apply in_or_app. right. left. auto. }
      destruct (L3 p Hp) as [V1 [V2 V3]].
      assert (HM1 : minv (mkSS (ss_cfg st') (map seqp sp) (ss_map st'))) by (destruct L1; constructor; auto).
      destruct (reduce_rules debug hb p _ HM1 V1 V2) as [st1 [new1 [F1 _]]]. cbn [ss_cfg ss_map ss_stack] in F1. rewrite F1 in HS.
      destruct (_ <=? _)%N; [discriminate|]. injection HS as <-. discriminate.
  Qed.
End Rules.

Lemma rep_syms : forall (a b m y : nat), In y (concat (repeat [a; b] m)) -> y = a \/ y = b.
Proof. induction m as [|m IH]; intros y Hy; [destruct Hy|]. cbn [repeat concat app In] in Hy. intuition. Qed.

Lemma Sq_syms : forall k w y, Sq k w -> In y w -> In y (key_syms k).
Proof.
  intros [x a b sep] w y [m [_ H]] Hy. unfold key_syms. cbn [k_rhs k_sep] in *.
  assert (HB : forall s, In y (between x s m) -> In y [x; s]).
  { intros s Hs. destruct m; [destruct Hs|]. cbn [between] in Hs. destruct Hs as [<-|Hs]; [left; auto|]. apply rep_syms in Hs. cbn. intuition. }
  assert (HW : forall s, In y (followed x s m) -> In y [x; s]).
  { intros s Hs. unfold followed in Hs. apply rep_syms in Hs. cbn. intuition. }
  destruct sep as [s|s|s|]; cbn [repetition sep_syms] in *.
  - subst w. auto.
  - subst w. auto.
  - destruct H as [-> | ->]; auto.
  - subst w. apply repeat_spec in Hy. left. auto.
Qed.

Section Trees.
  Context (n T : nat) (k0 : seq_key) (M ds : list (seq_key * nat)).
  Hypothesis HT : T < n.
  Hypothesis Hk0 : valid_key k0.
  Hypothesis Hsy : Forall (fun s => s < n) (key_syms k0).
  Hypothesis HTs : ~ In T (key_syms k0).
  Hypothesis Hlib : ~ lib0 k0.
  Hypothesis HP : Permutation ds M.
  Hypothesis HNk : NoDup (map fst M).
  Hypothesis HNs : NoDup (map snd M).
  Hypothesis HF : Forall (fun p => n <= snd p) M.
  Hypothesis HV : forall p, In p M -> valid_key (fst p) /\ incl (key_syms (fst p)) (key_syms k0) /\ forall s, k_sep (fst p) <> Liberal s.
  Hypothesis HS : forall p, In p ((k0, T) :: ds) -> forall k, In k (recs_of (fst p)) -> In k (map fst M).

  Let sites := (k0, T) :: ds.
  Let L := flat_map (block M) sites.

  Lemma sites_in : forall p, In p sites <-> p = (k0, T) \/ In p M.
  Proof.
    intros p. unfold sites. cbn [In]. split; intros [H|H]; auto; right; [eapply Permutation_in; eauto|].
    eapply Permutation_in; [apply Permutation_sym; exact HP|auto].
  Qed.

  Lemma sites_ok : forall p, In p sites -> valid_key (fst p) /\ incl (key_syms (fst p)) (key_syms k0) /\ ~ lib0 (fst p).
  Proof.
    intros p Hp. apply sites_in in Hp. destruct Hp as [->|Hp]; cbn [fst].
    - split; auto. split; [apply incl_refl|auto].
    - destruct (HV p Hp) as [V1 [V2 V3]]. split; auto. split; auto. intros [[s E] _]. eapply V3; eauto.
  Qed.

  Lemma sites_syms : NoDup (map snd sites).
  Proof.
    unfold sites. cbn [map snd]. constructor.
    - intros H. apply in_map_iff in H. destruct H as [p [E Hp]]. apply (Permutation_in _ HP) in Hp.
      pose proof (proj1 (Forall_forall _ _) HF _ Hp) as X. cbn beta in X. lia.
    - eapply Permutation_NoDup; [apply Permutation_map; apply Permutation_sym; exact HP|exact HNs].
  Qed.

  Lemma site_key : forall k k' s, In (k, s) sites -> In (k', s) sites -> k = k'.
  Proof.
    intros k k' s. cut (forall l, NoDup (map snd l) -> In (k, s) l -> In (k', s) l -> k = k'); [intros H; exact (H sites sites_syms)|].
    clear. induction l as [|[c z] l IH]; [intros _ []|].
    intros HN Ha Hb. cbn [map snd] in HN. inversion HN as [|? ? N1 N2]; subst. destruct Ha as [Ha|Ha]; destruct Hb as [Hb|Hb].
    - congruence.
    - injection Ha as -> ->. exfalso. apply N1. change s with (snd (k', s)). apply in_map. auto.
    - injection Hb as -> ->. exfalso. apply N1. change s with (snd (k, s)). apply in_map. auto.
    - auto.
  Qed.

  Lemma L_in : forall A r, In (A, r) L <-> exists k q, In (k, A) sites /\ In q (rules_of k) /\ r = map (enc_item M A) q.
  Proof.
    intros A r. unfold L. rewrite in_flat_map. split.
    - intros [[k s] [Hp Hr]]. unfold block in Hr. cbn [fst snd] in Hr. apply in_map_iff in Hr. destruct Hr as [q [E Hq]]. injection E as <- <-. eauto.
    - intros [k [q [Hp [Hq ->]]]]. exists (k, A). split; auto. unfold block. cbn [fst snd]. apply in_map_iff. eauto.
  Qed.

  Lemma L_nodup : NoDup L.
  Proof.
    unfold L. assert (HX : forall l, NoDup (map snd l) -> incl l sites -> NoDup (flat_map (block M) l)).
    { induction l as [|p l IH]; intros HN HI; [constructor|]. cbn [map] in HN. inversion HN as [|? ? N1 N2]; subst. cbn [flat_map].
      assert (Hp : In p sites) by (apply HI; left; auto). destruct (sites_ok p Hp) as [V1 _].
      assert (HB : NoDup (block M p)).
      { pose proof (rules_nodup (fst p) M (snd p) V1 HNk HNs (HS p Hp)) as HD. unfold block.
        rewrite <- (map_map (fun q => map (enc_item M (snd p)) q) (fun r => (snd p, r))). apply FinFun.Injective_map_NoDup; [|exact HD].
        intros x y E. congruence. }
      apply NoDup_app. split; auto. split.
      - apply IH; auto. intros y Hy. apply HI. right. auto.
      - intros y Hy Hy'. apply N1. unfold block in Hy. apply in_map_iff in Hy. destruct Hy as [q [<- _]].
        apply in_flat_map in Hy'. destruct Hy' as [p' [Hp' Hq']]. unfold block in Hq'. apply in_map_iff in Hq'. destruct Hq' as [q' [E _]].
        injection E as E _. rewrite <- E. apply in_map. auto. }
    apply HX; [exact sites_syms|apply incl_refl].
  Qed.

  Lemma leaf_syms : forall y, In y (key_syms k0) -> forall r, ~ In (y, r) L.
  Proof.
    intros y Hy r Hr. apply L_in in Hr. destruct Hr as [k [q [Hp _]]]. apply sites_in in Hp. destruct Hp as [E|Hp].
    - injection E as _ ->. auto.
    - pose proof (proj1 (Forall_forall _ _) HF _ Hp) as X. cbn in X. pose proof (proj1 (Forall_forall _ _) Hsy _ Hy) as Y. cbn in Y. lia.
  Qed.

  Lemma sub_in : forall k s q k', In (k, s) sites -> In q (rules_of k) -> In (ISub k') q -> In (k', enc_item M s (ISub k')) sites.
  Proof.
    intros k s q k' Hp Hq Hk. destruct (sites_ok _ Hp) as [V1 _]. cbn [fst] in V1.
    pose proof (proj1 (Forall_forall _ _) (rules_items k q V1 Hq) _ Hk) as H. cbn [item_ok] in H. apply (HS _ Hp) in H.
    apply in_map_iff in H. destruct H as [[k2 s'] [E Hi]]. cbn [fst] in E. subst k2. cbn [enc_item]. rewrite (lookup_in _ _ _ HNk Hi).
    apply sites_in. auto.
  Qed.

  (** The trees of the symbol of a sequence are trees of its strings. *)
  Lemma trees_sound : forall A t, parses L A t -> forall k, In (k, A) sites -> Sq k (yield t).
  Proof.
    apply (parses_ind2 L (fun A t => forall k, In (k, A) sites -> Sq k (yield t))).
    - intros s H k Hk. exfalso. destruct (rules_nonempty k) as [q Hq]. apply (H (map (enc_item M s) q)). apply L_in. eauto.
    - intros A r i ts E HPt HFt k Hk. apply nth_error_In in E. apply L_in in E. destruct E as [k' [q [Hp [Hq ->]]]].
      assert (k' = k) by (eapply site_key; eauto). subst k'. destruct (sites_ok _ Hk) as [V1 [V2 _]]. cbn [fst] in *.
      apply rules_exact; auto. exists q. split; auto. cbn [yield]. rewrite flat_map_concat_map. apply ilang_fit.
      assert (HX : forall q', incl q' q -> forall ts', Forall2 (parses L) (map (enc_item M A) q') ts' ->
        Forall2 (fun x t => forall k, In (k, x) sites -> Sq k (yield t)) (map (enc_item M A) q') ts' -> Forall2 (ifit k) q' (map yield ts')).
      { induction q' as [|i' q' IH]; intros HI ts' F1 F2; inversion F1 as [|? t1 ? ts1 G1 G2]; subst; [constructor|]. inversion F2 as [|? ? ? ? G3 G4]; subst. cbn [map] in *.
        constructor; [|apply IH; auto; intros z Hz; apply HI; right; auto].
        assert (Hi : In i' q) by (apply HI; left; auto). destruct i' as [y| |k']; cbn [ifit].
        - cbn [enc_item] in *. pose proof (proj1 (Forall_forall _ _) (rules_items k q V1 Hq) _ Hi) as Hok. cbn [item_ok] in Hok.
          destruct t1 as [z|j us]; [apply parses_leaf_inv in G1; destruct G1 as [<- _]; reflexivity|].
          apply parses_node_inv in G1. destruct G1 as [r [Er _]]. apply nth_error_In in Er. exfalso. eapply leaf_syms; [|exact Er]. apply V2. exact Hok.
        - cbn [enc_item] in *. auto.
        - apply G3. eapply sub_in; eauto. }
      eapply HX; eauto. apply incl_refl.
  Qed.

  (** ... and there is one for each. *)
  Lemma trees_unique : forall A t, parses L A t -> forall t', parses L A t' -> yield t = yield t' -> t = t'.
  Proof.
    apply (parses_ind2 L (fun A t => forall t', parses L A t' -> yield t = yield t' -> t = t')).
    - intros s H [s'|i ts] HPt _; [apply parses_leaf_inv in HPt; destruct HPt as [-> _]; reflexivity|].
      apply parses_node_inv in HPt. destruct HPt as [r [E _]]. apply nth_error_In in E. exfalso. eapply H; eauto.
    - intros A r i ts E HPt HFt [s'|i' ts'] HPt' EY.
      { apply parses_leaf_inv in HPt'. destruct HPt' as [<- H]. apply nth_error_In in E. exfalso. eapply H; eauto. }
      apply parses_node_inv in HPt'. destruct HPt' as [r' [E' HPt']].
      pose proof (nth_error_In _ _ E) as HI. apply L_in in HI. destruct HI as [k [q [Hp [Hq ->]]]].
      pose proof (nth_error_In _ _ E') as HI. apply L_in in HI. destruct HI as [k' [q' [Hp' [Hq' ->]]]].
      assert (k' = k) by (eapply site_key; eauto). subst k'. destruct (sites_ok _ Hp) as [V1 [V2 V3]]. cbn [fst] in *.
      assert (HX : forall q0, In q0 (rules_of k) -> forall ts0, Forall2 (parses L) (map (enc_item M A) q0) ts0 -> Forall2 (ifit k) q0 (map yield ts0)).
      { intros q0 Hq0. cut (forall q1, incl q1 q0 -> forall ts0, Forall2 (parses L) (map (enc_item M A) q1) ts0 -> Forall2 (ifit k) q1 (map yield ts0)).
        { intros H ts0. apply H. apply incl_refl. }
        induction q1 as [|i1 q1 IH]; intros HI ts0 F1; inversion F1 as [|? t1 ? ts1 G1 G2]; subst; [constructor|]. cbn [map] in *.
        constructor; [|apply IH; auto; intros z Hz; apply HI; right; auto].
        assert (Hi : In i1 q0) by (apply HI; left; auto). destruct i1 as [y| |k']; cbn [ifit].
        - cbn [enc_item] in *. pose proof (proj1 (Forall_forall _ _) (rules_items k q0 V1 Hq0) _ Hi) as Hok. cbn [item_ok] in Hok.
          destruct t1 as [z|j us]; [apply parses_leaf_inv in G1; destruct G1 as [<- _]; reflexivity|].
          apply parses_node_inv in G1. destruct G1 as [r [Er _]]. apply nth_error_In in Er. exfalso. eapply leaf_syms; [|exact Er]. apply V2. exact Hok.
        - cbn [enc_item] in *. eapply trees_sound; eauto.
        - eapply trees_sound; [exact G1|]. eapply sub_in; eauto. }
      pose proof (HX q Hq ts HPt) as F1. pose proof (HX q' Hq' ts' HPt') as F2. cbn [yield] in EY. rewrite !flat_map_concat_map in EY.
      assert (q = q').
      { eapply (alt_unique k q q' (concat (map yield ts))); auto; [apply ilang_fit; auto|rewrite EY; apply ilang_fit; auto]. }
      subst q'. assert (i = i').
      { eapply (NoDup_nth_error L); [exact L_nodup|apply nth_error_Some; congruence|congruence]. }
      subst i'. f_equal. assert (EM : map yield ts = map yield ts') by (eapply split_unique; eauto).
      clear - HFt HPt' EM. revert ts' HPt' EM. induction HFt as [|x t r ts Hx HF IH]; intros ts' HP' EM; inversion HP'; subst; auto; try discriminate.
      cbn [map] in EM. injection EM as E1 E2. f_equal; auto.
  Qed.

  Lemma trees_exist : forall w, Sq k0 w -> exists t, parses L T t /\ yield t = w.
  Proof.
    intros w Hw. apply parses_language. split.
    - set (D := flat_map (fun p => map (fun q => (snd p, q)) (rules_of (fst p))) sites).
      assert (HD : forall A q, In (A, q) D <-> exists k, In (k, A) sites /\ In q (rules_of k)).
      { intros A q. unfold D. rewrite in_flat_map. split.
        - intros [[k s] [Hp Hq]]. cbn [fst snd] in Hq. apply in_map_iff in Hq. destruct Hq as [q' [E Hq]]. injection E as <- <-. eauto.
        - intros [k [Hp Hq]]. exists (k, A). split; auto. cbn [fst snd]. apply in_map_iff. eauto. }
      assert (HC : derives (fun A r => False \/ exists q, In (A, q) D /\ r = map (enc_item M A) q) [T] w).
      { apply (complete (fun _ _ => False) n T k0 M D) with (m := (weight k0 + 1)%N) (k := k0); auto.
        - intros k s Hk. destruct (HV _ Hk) as [X1 [X2 _]]. auto.
        - intros q Hq. apply HD. exists k0. split; auto. apply sites_in. auto.
        - intros k s Hk q Hq. apply HD. exists k. split; auto. apply sites_in. auto.
        - intros A q Hq. apply HD in Hq. destruct Hq as [k [Hk Hq]]. destruct (sites_ok _ Hk) as [V1 [V2 _]]. cbn [fst] in *.
          eapply Forall_impl; [|exact (rules_items k q V1 Hq)]. intros i Hi. destruct i; cbn [item_ok] in *; auto. apply (HS _ Hk). exact Hi.
        - lia.
        - right. auto. }
      eapply derives_ext; [|exact HC]. intros A r. unfold of_list. rewrite L_in. split.
      + intros [k [q [Hp [Hq ->]]]]. right. exists q. split; auto. apply HD. eauto.
      + intros [[]|[q [Hq ->]]]. apply HD in Hq. destruct Hq as [k [Hk Hq]]. eauto.
    - apply Forall_forall. intros y Hy r Hr. eapply (leaf_syms y); [|exact Hr].
      eapply Sq_syms; [exact Hw|exact Hy].
  Qed.
End Trees.
