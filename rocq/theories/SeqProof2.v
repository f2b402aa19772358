(** Rewriting a sequence: the added rules derive exactly the sequences. *)

From Coq Require Import List Arith NArith ZArith Bool Lia.
From Verif Require Import Base ListFacts Spec SpecSeq GrammarFacts SymbolModel LoopModel LoopFacts
  HistoryModel CfgModel ClosureModel View CfgProof PrecProof SeqModel SeqProof.
Import ListNotations.

Lemma lookup_some_in : forall m k s, key_lookup m k = Some s -> In (k, s) m.
Proof.
  induction m as [|[k' s'] m IH]; simpl; intros; [discriminate|].
  destruct (key_eqb k' k) eqn:E; [apply key_eqb_eq in E; left; congruence | auto].
Qed.

Lemma lookup_in : forall m k s, NoDup (map fst m) -> In (k, s) m -> key_lookup m k = Some s.
Proof.
  induction m as [|[k' s'] m IH]; simpl; intros; [contradiction|]. inversion H; subst.
  destruct H0 as [E|E].
  - injection E as -> ->. rewrite (proj2 (key_eqb_eq _ _) eq_refl). auto.
  - destruct (key_eqb k' k) eqn:EK; auto. apply key_eqb_eq in EK. subst.
    exfalso. apply H3. change k with (fst (k, s)). apply in_map; auto.
Qed.

Lemma lookup_none : forall m k, key_lookup m k = None <-> ~ In k (map fst m).
Proof.
  induction m as [|[k' s'] m IH]; simpl; intros; [tauto|].
  destruct (key_eqb k' k) eqn:EK.
  - apply key_eqb_eq in EK. split; [discriminate|]. intros H; exfalso; auto.
  - rewrite IH. split; intros H; [intros [->|]; auto | auto].
    rewrite (proj2 (key_eqb_eq _ _) eq_refl) in EK. discriminate.
Qed.

Lemma key_eta : forall k, mkKey (k_rhs k) (k_start k) (k_end k) (k_sep k) = k.
Proof. destruct k; auto. Qed.

Lemma chain_lhs : forall r l p s w c, chain r l p s w c -> Forall (fun x => lhs x = lhs r \/ s <= lhs x) c.
Proof.
  induction 1; constructor; simpl; auto. eapply Forall_impl; [|exact IHchain]. simpl. intros; lia.
Qed.

Lemma firstn_In_l : forall (A : Type) n (l : list A) x, In x (firstn n l) -> In x l.
Proof. intros A n l x H. rewrite <- (firstn_skipn n l). apply in_or_app; auto. Qed.
Lemma skipn_In_l : forall (A : Type) n (l : list A) x, In x (skipn n l) -> In x l.
Proof. intros A n l x H. rewrite <- (firstn_skipn n l). apply in_or_app; auto. Qed.

Lemma chain_rhs : forall (B : nat -> Prop) r l p s w c, chain r l p s w c ->
  (forall x, s <= x -> B x) -> Forall B w -> Forall (fun x => Forall B (rhs x)) c.
Proof.
  intros B r l. induction 1; intros HB Hw; constructor; simpl; auto.
  - apply Forall_forall. intros x Hx. exact (proj1 (Forall_forall _ _) Hw _ (firstn_In_l _ _ _ _ Hx)).
  - apply IHchain; [intros; apply HB; lia|]. constructor; [apply HB; lia|].
    apply Forall_forall. intros x Hx. exact (proj1 (Forall_forall _ _) Hw _ (skipn_In_l _ _ _ _ Hx)).
Qed.

(** The rules that [add_rule] adds. *)
Lemma add_rule_lhs : forall g r g', good_limit (limit g) -> add_rule g r = Ok g' ->
  exists c, rules g' = rules g ++ c /\ Forall (fun x => lhs x = lhs r \/ num_syms g <= lhs x) c /\
    Forall (fun x => Forall (fun s => num_syms g <= s \/ In s (rhs r)) (rhs x)) c.
Proof.
  intros g r g' HL E. destruct (add_rule_spec g r HL) as [k [c [E' [_ Hc]]]].
  rewrite E' in E. injection E as <-. exists c. split; auto. destruct Hc as [[-> _]|[l [_ [_ Hc]]]].
  - split; constructor; auto. apply Forall_forall. auto.
  - split; [eapply chain_lhs; eauto|]. eapply chain_rhs; eauto. apply Forall_forall. auto.
Qed.

Section Rewrite.
  Context (g : cfg) (T : nat) (k0 : seq_key) (h0 : option history).
  Hypothesis HL : good_limit (limit g).
  Hypothesis HT : T < num_syms g.
  Hypothesis Hk0 : valid_key k0.
  Hypothesis Hsy : Forall (fun s => s < num_syms g) (key_syms k0).
  Hypothesis Hcl : closed_rules g.

  Definition Vof (M : list (seq_key * nat)) (D : list (nat * list item)) : productions :=
    fun A r => prods g A r \/ exists q, In (A, q) D /\ r = map (enc_item M A) q.

  Definition done (k : seq_key) (s : nat) (D : list (nat * list item)) : Prop :=
    forall q, In q (rules_of k) -> In (s, q) D.

  Definition from (M : list (seq_key * nat)) (A : nat) (q : list item) : Prop :=
    (A = T /\ In q (rules_of k0)) \/ exists k, In (k, A) M /\ In q (rules_of k).

  (** The rules that rewriting adds. *)
  Definition new_rule (x : rule) : Prop :=
    (lhs x = T \/ num_syms g <= lhs x) /\
    Forall (fun s => num_syms g <= s \/ s = T \/ In s (key_syms k0)) (rhs x).

  Record sinv (D : list (nat * list item)) (cur : seq_key * nat) (st : seq_state) : Prop := {
    v_grows : grows g (ss_cfg st);
    v_repr : exists C : nat -> Prop, ((forall s, C s -> num_syms g <= s) /\
        forall s, num_syms g <= s < num_syms (ss_cfg st) -> C s \/ In s (map snd (ss_map st))) /\
      Forall (fun p => num_syms g <= snd p < num_syms (ss_cfg st) /\ ~ C (snd p)) (ss_map st) /\
      Repr (ss_cfg st) (Vof (ss_map st) D) C;
    v_keys : NoDup (map fst (ss_map st));
    v_syms : NoDup (map snd (ss_map st));
    v_valid : forall k s, In (k, s) (ss_map st) -> valid_key k /\ incl (key_syms k) (key_syms k0);
    v_stack : forall q, In q (ss_stack st) -> exists k s, q = seq_of s h0 k /\ In (k, s) (ss_map st);
    v_todo : forall k s, In (k, s) (ss_map st) ->
      In (seq_of s h0 k) (ss_stack st) \/ done k s D \/ (k, s) = cur;
    v_items : forall A q, In (A, q) D -> Forall (item_ok (map fst (ss_map st)) (key_syms k0)) q;
    v_from : forall A q, In (A, q) D -> from (ss_map st) A q;
    v_new : exists c, rules (ss_cfg st) = rules g ++ c /\ Forall new_rule c
  }.

  Definition stack_weight (st : seq_state) : N := weights (map key_of (ss_stack st)).

  Lemma enc_ext : forall M k s A q sy, key_lookup M k = None ->
    Forall (item_ok (map fst M) sy) q -> map (enc_item ((k, s) :: M) A) q = map (enc_item M A) q.
  Proof.
    intros. apply map_ext_in. intros i Hi. pose proof (proj1 (Forall_forall _ _) H0 _ Hi) as Hok.
    destruct i; simpl in *; auto. destruct (key_eqb k k1) eqn:E; auto.
    apply key_eqb_eq in E. subst. apply lookup_none in H. contradiction.
  Qed.

  Lemma inv_rec : forall D cur st k, sinv D cur st -> valid_key k -> incl (key_syms k) (key_syms k0) ->
    forall l, let st' := snd (seq_recurse st (seq_of l h0 k)) in
    sinv D cur st' /\ In k (map fst (ss_map st')) /\ incl (ss_map st) (ss_map st') /\
    (stack_weight st' <= stack_weight st + weight k)%N.
  Proof.
    intros D cur st k HI Hk Hin l st'. subst st'. unfold seq_recurse.
    replace (key_of (seq_of l h0 k)) with k by (destruct k; auto).
    destruct (key_lookup (ss_map st) k) eqn:E.
    - simpl. split; auto. split; [|split; [apply incl_refl | lia]].
      apply lookup_some_in in E. change k with (fst (k, n)). apply in_map; auto.
    - destruct (next_sym (ss_cfg st) None) as [s g1] eqn:EN.
      destruct HI as [I1 [C [[IC1 IC0] [IC2 IC3]]] I3 I4 I5 I6 I7 I8 I9 I10].
      destruct (next_sym_Repr _ _ _ _ _ _ EN IC3) as [Es [En HR]].
      pose proof (grows_num _ _ I1) as Hn.
      cbn [snd ss_map ss_stack ss_cfg].
      split; [|split; [simpl; auto | split; [apply incl_tl; apply incl_refl|]]].
      + constructor; cbn [ss_map ss_stack ss_cfg].
        * eapply grows_trans; eauto. eapply grows_next; eauto.
        * exists C. split; [split; auto|split].
          { intros y Hy. cbn [map]. assert (HY : y < num_syms (ss_cfg st) \/ y = s) by lia.
            destruct HY as [HY| ->]; [|right; left; reflexivity].
            destruct (IC0 y ltac:(lia)) as [Hc|Hm]; [left; exact Hc | right; right; exact Hm]. }
          -- constructor.
             ++ simpl. subst s. split; [lia|]. intros HC. apply (rp_C _ _ _ IC3) in HC. lia.
             ++ eapply Forall_impl; [|exact IC2]. intros [? ?] [? ?]; simpl in *. split; auto. lia.
          -- eapply Repr_ext; [exact HR | | tauto].
             intros A r. unfold Vof. split; intros [|[q [Hq ->]]]; auto; right; exists q; split; auto;
               [symmetry|]; eapply enc_ext; eauto.
        * simpl. constructor; auto. apply lookup_none; auto.
        * simpl. constructor; auto. intros HX. apply in_map_iff in HX. destruct HX as [[k' s'] [Es' Hi]].
          simpl in Es'. subst s'. pose proof (proj1 (Forall_forall _ _) IC2 _ Hi) as [? ?]. simpl in *. lia.
        * intros k' s' [EE|Hi]; [injection EE as <- <-; auto | eauto].
        * intros q [<-|Hq].
          -- exists k, s. split; [reflexivity | simpl; auto].
          -- destruct (I6 _ Hq) as [k' [s' [? ?]]]. exists k', s'; simpl; auto.
        * intros k' s' [EE|Hi].
          -- injection EE as <- <-. left. left. reflexivity.
          -- destruct (I7 _ _ Hi) as [|[|]]; simpl; auto.
        * intros A q Hq. eapply Forall_impl; [|eapply I8; eauto]. intros [] ?; simpl in *; auto.
        * intros A q Hq. destruct (I9 _ _ Hq) as [|[k' [? ?]]]; [left; auto | right; exists k'; simpl; auto].
        * unfold next_sym, src_next in EN. injection EN as <- <-. exact I10.
      + unfold stack_weight, weights. cbn [ss_stack map fold_right]. 
        change (key_of {| sq_lhs := s; sq_rhs := sq_rhs (seq_of l h0 k); sq_start := sq_start (seq_of l h0 k);
          sq_end := sq_end (seq_of l h0 k); sq_sep := sq_sep (seq_of l h0 k); sq_hist := sq_hist (seq_of l h0 k) |})
          with (mkKey (k_rhs k) (k_start k) (k_end k) (k_sep k)). rewrite key_eta. lia.
  Qed.

  Lemma inv_emit : forall D cur st h A q, sinv D cur st -> from (ss_map st) A q ->
    Forall (item_ok (map fst (ss_map st)) (key_syms k0)) q -> length q <= 3 ->
    exists st', seq_rhs h A st (map (enc_item (ss_map st) A) q) = Ok st' /\
      sinv ((A, q) :: D) cur st' /\ ss_map st' = ss_map st /\ ss_stack st' = ss_stack st.
  Proof.
    intros D cur st h A q HI Hfrom Hok Hlen. unfold seq_rhs. rewrite map_length.
    apply Nat.leb_le in Hlen. rewrite Hlen. cbn [negb process_linked bind]. unfold rule_history_rhs.
    destruct HI as [I1 [C [[IC1 IC0] [IC2 IC3]]] I3 I4 I5 I6 I7 I8 I9 I10].
    pose proof (grows_num _ _ I1) as Hn.
    assert (HA : A < num_syms (ss_cfg st) /\ ~ C A).
    { destruct Hfrom as [[-> _]|[k [Hk _]]].
      - split; [lia|]. intros HC. apply IC1 in HC. lia.
      - pose proof (proj1 (Forall_forall _ _) IC2 _ Hk) as [? ?]. simpl in *. split; auto; lia. }
    assert (HQ : Forall (fun s => s < num_syms (ss_cfg st) /\ ~ C s) (map (enc_item (ss_map st) A) q)).
    { apply Forall_forall. intros y Hy. apply in_map_iff in Hy. destruct Hy as [i [<- Hi]].
      pose proof (proj1 (Forall_forall _ _) Hok _ Hi) as Hoki. destruct i as [s| |k]; simpl in *; auto.
      - pose proof (proj1 (Forall_forall _ _) Hsy _ Hoki). simpl in *. split; [lia|]. intros HC; apply IC1 in HC; lia.
      - apply in_map_iff in Hoki. destruct Hoki as [[k' s] [<- Hs]]. simpl.
        rewrite (lookup_in _ _ _ I3 Hs). pose proof (proj1 (Forall_forall _ _) IC2 _ Hs) as [? ?]. simpl in *. split; auto; lia. }
    destruct HA as [HA1 HA2].
    destruct (add_rule_Repr (ss_cfg st) (Vof (ss_map st) D) C A (map (enc_item (ss_map st) A) q) h) as [g' [E [Hg HR]]]; auto.
    { destruct I1. rewrite gr_limit. auto. }
    { eapply Forall_impl; [|exact HQ]. simpl; tauto. }
    { eapply Forall_impl; [|exact HQ]. simpl; tauto. }
    rewrite E. cbn [bind]. eexists; split; [reflexivity|]. split; [|split; reflexivity].
    pose proof (grows_num _ _ Hg) as Hn2.
    constructor; cbn [ss_map ss_stack ss_cfg]; auto.
    - eapply grows_trans; eauto.
    - eexists. split; [|split; [|eapply Repr_ext; [exact HR| |]]].
      2: { eapply Forall_impl; [|exact IC2]. intros [k s] [? ?]. simpl in *. split; [lia|].
           instantiate (1 := fun s => C s \/ num_syms (ss_cfg st) <= s < num_syms g'). simpl. intros [?|?]; [auto|lia]. }
      + simpl. split; [intros s [?|?]; [auto|lia]|]. intros s Hs.
        assert (HS : s < num_syms (ss_cfg st) \/ num_syms (ss_cfg st) <= s) by lia.
        destruct HS as [HS|HS]; [destruct (IC0 s ltac:(lia)); auto | left; right; lia].
      + intros B r. unfold plus_rule, Vof. split.
        * intros [[?|[q' [? ->]]]|[-> ->]]; [left; auto | right; exists q'; simpl; auto | right; exists q; simpl; auto].
        * intros [?|[q' [[EE|?] ->]]]; [auto | injection EE as <- <-; auto | left; right; exists q'; auto].
      + tauto.
    - intros k s Hk. destruct (I7 _ _ Hk) as [|[Hd|]]; auto. right; left. intros q' Hq'. right. apply Hd; auto.
    - intros B q' [EE|?]; [injection EE as <- <-; auto | eauto].
    - intros B q' [EE|?]; [injection EE as <- <-; auto | auto].
    - destruct I10 as [c [Ec Hc]]. apply add_rule_lhs in E; [|rewrite (gr_limit _ _ I1); auto].
      destruct E as [c' [Ec' [Hc' Hr']]]. exists (c ++ c'). rewrite Ec', Ec, app_assoc. split; auto.
      apply Forall_app; split; auto. apply Forall_forall. intros x Hx.
      pose proof (proj1 (Forall_forall _ _) Hc' x Hx) as Hxl. pose proof (proj1 (Forall_forall _ _) Hr' x Hx) as Hxr.
      cbn [lhs rhs] in Hxl, Hxr. clear Hc' Hr'.
      assert (HAT : A = T \/ num_syms g <= A).
      { destruct Hfrom as [[-> _]|[k [Hk _]]]; auto. right.
        pose proof (proj1 (Forall_forall _ _) IC2 _ Hk) as [? _]. simpl in *. lia. }
      split.
      + destruct Hxl as [->|Hxl]; [exact HAT | lia].
      + eapply Forall_impl; [|exact Hxr]. simpl. intros y [Hy|Hy]; [lia|].
        apply in_map_iff in Hy. destruct Hy as [i [<- Hi]].
        pose proof (proj1 (Forall_forall _ _) Hok _ Hi) as Hoki. destruct i as [s| |k]; simpl in *; auto.
        * destruct HAT; auto.
        * apply in_map_iff in Hoki. destruct Hoki as [[k' s] [<- Hs]]. simpl.
          rewrite (lookup_in _ _ _ I3 Hs). pose proof (proj1 (Forall_forall _ _) IC2 _ Hs) as [? ?]. simpl in *. lia.
  Qed.

  Definition emits (l : list cmd) := flat_map (fun c => match c with CEmit q => [q] | CRec _ => [] end) l.
  Definition recs (l : list cmd) := flat_map (fun c => match c with CRec k' => [k'] | CEmit _ => [] end) l.

  Lemma inv_run : forall h A sy cur cmds Kn st D, sinv D cur st ->
    incl sy (key_syms k0) -> scoped sy Kn cmds -> incl Kn (map fst (ss_map st)) ->
    (forall q, In q (emits cmds) -> from (ss_map st) A q) ->
    exists st' D', fold_res (run_cmd h A h0) cmds st = Ok st' /\ sinv D' cur st' /\ incl D D' /\
      (forall q, In q (emits cmds) -> In (A, q) D') /\ incl (ss_map st) (ss_map st') /\
      (stack_weight st' <= stack_weight st + weights (recs cmds))%N.
  Proof.
    intros h A sy cur. induction cmds as [|c cmds IH]; intros Kn st D HI Hs Hsc HKn Hfrom.
    - exists st, D. cbn [fold_res recs flat_map weights fold_right]. split; [reflexivity|]. split; auto.
      split; [apply incl_refl|]. split; [intros q []|]. split; [apply incl_refl|]. lia.
    - destruct c as [k|q]; cbn [scoped] in Hsc; destruct Hsc as [Hc Hsc].
      + destruct Hc as [Hv Hin].
        destruct (inv_rec D cur st k HI Hv ltac:(eapply incl_tran; eauto) A) as [HI' [Hk [Hm Hw]]].
        cbn [fold_res run_cmd bind].
        destruct (IH (k :: Kn) (snd (seq_recurse st (seq_of A h0 k))) D) as [st' [D' [E [H1 [H2 [H3 [H4 H5]]]]]]]; auto.
        { intros y [<-|Hy]; auto. apply HKn in Hy. apply in_map_iff in Hy. destruct Hy as [p [<- Hp]]. apply in_map. auto. }
        { intros q Hq. destruct (Hfrom q Hq) as [|[k' [? ?]]]; [left; auto | right; exists k'; auto]. }
        exists st', D'. split; auto. split; auto. split; auto. split; [exact H3|]. split; [eapply incl_tran; eauto|].
        cbn [recs flat_map app weights fold_right]. fold (recs cmds). fold (weights (recs cmds)). lia.
      + destruct Hc as [Hok Hlen].
        destruct (inv_emit D cur st h A q HI) as [st1 [E1 [HI' [Em Es]]]]; auto.
        { apply Hfrom. simpl; auto. }
        { eapply Forall_impl; [|exact Hok]. intros i Hok1. destruct i; cbn [item_ok] in *; [apply Hs; exact Hok1 | exact I | apply HKn; exact Hok1]. }
        cbn [fold_res run_cmd]. rewrite E1. cbn [bind].
        destruct (IH Kn st1 ((A, q) :: D)) as [st' [D' [E [H1 [H2 [H3 [H4 H5]]]]]]]; auto.
        { rewrite Em; auto. }
        { rewrite Em. intros q' Hq'. apply Hfrom. simpl; auto. }
        exists st', D'. split; auto. split; auto. split; [intros y Hy; apply H2; simpl; auto|].
        split; [intros q' [<-|Hq']; [apply H2; simpl; auto | auto]|].
        rewrite Em in H4. split; auto.
        unfold stack_weight in *. rewrite Es in H5. exact H5.
  Qed.

  Lemma inv_reduce : forall debug h k A st D, sinv D (k, A) st -> valid_key k -> incl (key_syms k) (key_syms k0) ->
    (forall q, In q (rules_of k) -> from (ss_map st) A q) ->
    exists st' D', seq_reduce debug h st (seq_of A h0 k) = Ok st' /\ sinv D' (k0, T) st' /\ incl D D' /\
      done k A D' /\ incl (ss_map st) (ss_map st') /\ (stack_weight st' < stack_weight st + weight k)%N.
  Proof.
    intros debug h k A st D HI Hk Hin Hfrom. rewrite reduce_prog by (unfold key_of; simpl; rewrite key_eta; auto).
    replace (key_of (seq_of A h0 k)) with k by (symmetry; apply key_eta). cbn [seq_of sq_lhs sq_hist].
    destruct (inv_run h A (key_syms k) (k, A) (prog k) [] st D HI Hin (prog_scoped k Hk)) as [st' [D' [E [H1 [H2 [H3 [H4 H5]]]]]]]; auto.
    { intros y []. }
    exists st', D'. split; auto. split; [|split; auto; split; auto; split; auto].
    - destruct H1. constructor; auto. intros k' s Hi. destruct (v_todo0 _ _ Hi) as [|[|EE]]; auto.
      injection EE as -> ->. right; left. exact H3.
    - pose proof (prog_weight k Hk). unfold recs_of in H. fold (recs (prog k)) in H. lia.
  Qed.

  Opaque iter_pow.
  (** What rewriting does, up to the fresh symbols of split rules. *)
  Theorem rewrite_repr : forall debug, exists g' M D C,
    seq_rewrite debug g (seq_of T h0 k0) = Ok g' /\ grows g g' /\
    Repr g' (Vof M D) C /\ ((forall s, C s -> num_syms g <= s) /\
      forall s, num_syms g <= s < num_syms g' -> C s \/ In s (map snd M)) /\
    Forall (fun p => num_syms g <= snd p < num_syms g') M /\ NoDup (map fst M) /\ NoDup (map snd M) /\
    (forall k s, In (k, s) M -> valid_key k /\ incl (key_syms k) (key_syms k0)) /\
    done k0 T D /\ (forall k s, In (k, s) M -> done k s D) /\
    (forall A q, In (A, q) D -> from M A q) /\
    (forall A q, In (A, q) D -> Forall (item_ok (map fst M) (key_syms k0)) q) /\
    (exists c, rules g' = rules g ++ c /\ Forall new_rule c).
  Proof.
    intros debug. unfold seq_rewrite. cbn [process_linked bind].
    match goal with |- context [seq_reduce debug ?h _ _] => set (ht := h) end.
    match goal with |- context [seq_step debug ?h] => set (hb := h) end.
    assert (HI0 : sinv [] (k0, T) (mkSS g [] [])).
    { constructor; cbn [ss_cfg ss_map ss_stack map In].
      - apply grows_refl.
      - exists (fun _ => False). split; [split; [intros s [] | intros s Hs; lia]|]. split; [constructor|].
        eapply Repr_ext; [apply closed_Repr; auto | | tauto].
        intros A r. unfold Vof. split; [auto|]. intros [H|[q [[] _]]]; auto.
      - constructor.
      - constructor.
      - intros k s [].
      - intros q [].
      - intros k s [].
      - intros A q [].
      - intros A q [].
      - exists []. rewrite app_nil_r. split; [reflexivity | constructor]. }
    destruct (inv_reduce debug ht k0 T _ _ HI0 Hk0 ltac:(apply incl_refl)) as [st [D [E [HI [_ [Hd [_ Hw]]]]]]].
    { intros q Hq. left; auto. }
    rewrite E. cbn [bind].
    set (I := fun st => exists D, sinv D (k0, T) st /\ done k0 T D).
    assert (HX : exists st' r, I st' /\ seq_step debug hb st' = inr r /\ iter_pow (seq_step debug hb) 80 st = inr r).
    { apply iter_pow_ends with (m := stack_weight).
      - intros s s' [Ds [Hs Hds]] Hstep. unfold seq_step in Hstep.
        destruct (ss_stack s) as [|sq stk] eqn:Est; [discriminate|].
        destruct (v_stack _ _ _ Hs sq) as [k [A [-> Hin]]]; [rewrite Est; simpl; auto|].
        destruct (v_valid _ _ _ Hs _ _ Hin) as [Hv Hi].
        destruct (_ <=? _)%N; [|discriminate].
        assert (Hs' : sinv Ds (k, A) (mkSS (ss_cfg s) stk (ss_map s))).
        { destruct Hs. constructor; auto; cbn [ss_map ss_stack ss_cfg].
          - intros q Hq. apply v_stack0. rewrite Est. simpl; auto.
          - intros k' s1 Hk'. destruct (v_todo0 _ _ Hk') as [H|[H|H]]; auto.
            + rewrite Est in H. destruct H as [H|H]; auto. right; right.
              unfold seq_of in H. injection H as -> H1 H2 H3 H4. f_equal. destruct k, k'; simpl in *; congruence.
            + injection H as -> ->. destruct v_repr0 as [C [_ [HF _]]].
              pose proof (proj1 (Forall_forall _ _) HF _ Hk') as [? _]. simpl in *. lia. }
        destruct (inv_reduce debug hb k A _ Ds Hs' Hv Hi) as [st1 [D1 [E1 [HI1 [Hincl [Hd1 [_ Hw1]]]]]]].
        { intros q Hq. right. exists k. auto. }
        rewrite E1 in Hstep. injection Hstep as <-. split.
        + exists D1. split; auto. intros q Hq. apply Hincl. apply Hds; auto.
        + unfold stack_weight in *. rewrite Est. cbn [ss_stack map weights fold_right] in *.
          replace (key_of (seq_of A h0 k)) with k by (symmetry; apply key_eta). fold (weights (map key_of stk)) in *. lia.
      - exists D; auto.
      - unfold stack_weight in Hw. cbn [ss_stack map weights fold_right] in Hw.
        pose proof (weight_bound k0 Hk0). change (N.of_nat 80) with 80%N. unfold stack_weight. lia. }
    destruct HX as [st' [r [[D' [HI' Hd']] [Hstep Hit]]]]. unfold run_loop. rewrite Hit.
    unfold seq_step in Hstep. destruct (ss_stack st') as [|sq stk] eqn:Est.
    - injection Hstep as <-. cbn [bind].
      destruct HI' as [I1 [C [[IC1 IC0] [IC2 IC3]]] I3 I4 I5 I6 I7 I8 I9 I10].
      exists (ss_cfg st'), (ss_map st'), D', C.
      split; auto. split; auto. split; auto. split; auto. split.
      { eapply Forall_impl; [|exact IC2]. intros ? [? ?]; auto. }
      split; auto. split; auto. split; auto. split; auto. split; [|split; auto].
      intros k s Hk. destruct (I7 _ _ Hk) as [H|[H|H]]; auto.
      + rewrite Est in H. destruct H.
      + injection H as -> ->. pose proof (proj1 (Forall_forall _ _) IC2 _ Hk) as [? _]. simpl in *. lia.
    - exfalso. destruct (v_stack _ _ _ HI' sq) as [k [A [-> Hin]]]; [rewrite Est; simpl; auto|].
      destruct (v_valid _ _ _ HI' _ _ Hin) as [Hv Hi].
      assert (Hle : (sq_start (seq_of A h0 k) <=? match sq_end (seq_of A h0 k) with Some e => e | None => u32_max end)%N = true).
      { apply N.leb_le. cbn [seq_of sq_start sq_end]. destruct Hv as [Hv1 Hv2]. destruct (k_end k) eqn:EE.
        - destruct (Hv2 _ eq_refl); auto.
        - unfold u32_max. lia. }
      rewrite Hle in Hstep.
      assert (Hs' : sinv D' (k, A) (mkSS (ss_cfg st') stk (ss_map st'))).
      { destruct HI'. constructor; auto; cbn [ss_map ss_stack ss_cfg].
        - intros q Hq. apply v_stack0. rewrite Est. simpl; auto.
        - intros k' s1 Hk'. destruct (v_todo0 _ _ Hk') as [H|[H|H]]; auto.
          + rewrite Est in H. destruct H as [H|H]; auto. right; right.
            unfold seq_of in H. injection H as -> H1 H2 H3 H4. f_equal. destruct k, k'; simpl in *; congruence.
          + injection H as -> ->. destruct v_repr0 as [C [_ [HF _]]].
            pose proof (proj1 (Forall_forall _ _) HF _ Hk') as [? _]. simpl in *. lia. }
      destruct (inv_reduce debug hb k A _ D' Hs' Hv Hi) as [st1 [D1 [E1 _]]].
      { intros q Hq. right. exists k. auto. }
      rewrite E1 in Hstep. discriminate.
  Qed.
End Rewrite.
