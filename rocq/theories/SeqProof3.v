(** The language of rewritten sequences. *)

From Coq Require Import List Arith NArith ZArith Bool Lia.
From Verif Require Import Base ListFacts Spec SpecSeq GrammarFacts SymbolModel LoopModel LoopFacts
  HistoryModel CfgModel ClosureModel View CfgProof PrecProof SeqModel SeqProof SeqProof2.
Import ListNotations.

(** A range without upper bound that starts at 1 and needs no further symbol: the left-hand
    side is made left-recursive. *)
Definition open_key (k : seq_key) : Prop := plain (k_sep k) /\ k_start k = 1%N /\ k_end k = None.

Lemma no_self : forall k, valid_key k -> ~ open_key k -> forall q, In q (rules_of k) -> ~ In ISelf q.
Proof.
  intros k HV HO q Hq HS. unfold rules_of in Hq.
  destruct (prog_view k HV) as [s ?|? ? ?|? ? ?|s ? ?|HP H1 H2|? ? ?|? ? ?|e ? ? ? ?|HP ? ?|? ? ?|n ? ? ?];
    cbn [flat_map app In] in Hq.
  all: try (destruct HO; split; auto; fail).
  all: repeat (destruct Hq as [<-|Hq]; [|]); try contradiction;
    repeat (destruct HS as [HS|HS]; [discriminate|]); try contradiction.
  apply in_app_or in HS. destruct HS as [HS|[HS|[]]]; [|discriminate].
  destruct (k_sep k); simpl in HS; try contradiction. destruct HS as [HS|[]]. discriminate.
Qed.

Lemma scoped_sub : forall sy cmds Kn q k, scoped sy Kn cmds -> In q (emits cmds) -> In (ISub k) q ->
  In k (recs cmds) \/ In k Kn.
Proof.
  induction cmds as [|[k'|q'] cmds IH]; intros Kn q k Hsc Hq Hk; [destruct Hq| |]; cbn [scoped] in Hsc; destruct Hsc as [Hc Hsc].
  - destruct (IH _ _ _ Hsc Hq Hk) as [|[|]]; [left; simpl; auto | left; simpl; auto | auto].
  - destruct Hq as [<-|Hq].
    + destruct Hc as [Hc _]. right. exact (proj1 (Forall_forall _ _) Hc _ Hk).
    + exact (IH _ _ _ Hsc Hq Hk).
Qed.

Lemma weights_in : forall l k, In k l -> (weight k <= weights l)%N.
Proof.
  induction l; simpl; intros; [contradiction|]. destruct H as [->|H]; [lia|]. apply IHl in H. lia.
Qed.

Lemma sub_weight : forall k, valid_key k -> forall q k', In q (rules_of k) -> In (ISub k') q -> (weight k' < weight k)%N.
Proof.
  intros k HV q k' Hq Hk. destruct (scoped_sub _ _ _ _ _ (prog_scoped k HV) Hq Hk) as [H|[]].
  apply weights_in in H. pose proof (prog_weight k HV). unfold recs_of in *. unfold recs in H. lia.
Qed.

Lemma rules_nonempty : forall k, exists q, In q (rules_of k).
Proof.
  intros k. unfold rules_of, prog.
  destruct (k_sep k); repeat match goal with
    | |- context [if ?c then _ else _] => destruct c
    | |- context [match ?x with _ => _ end] => destruct x
    end; simpl; eauto.
Qed.

(** The productions of a grammar together with a sequence rule. *)
Definition with_sequence (P : productions) (T : nat) (k : seq_key) : productions :=
  fun A r => P A r \/ (A = T /\ Sq k r).

Section Lang.
  Context (P : productions) (n T : nat) (k0 : seq_key) (M : list (seq_key * nat)) (D : list (nat * list item)).
  Hypothesis HT : T < n.
  Hypothesis HP : forall A r, P A r -> A < n /\ Forall (fun s => s < n) r.
  Hypothesis Hk0 : valid_key k0.
  Hypothesis Hsy : Forall (fun s => s < n) (key_syms k0).
  Hypothesis HM : Forall (fun p : seq_key * nat => n <= snd p) M.
  Hypothesis HNk : NoDup (map fst M).
  Hypothesis HNs : NoDup (map snd M).
  Hypothesis Hval : forall k s, In (k, s) M -> valid_key k /\ incl (key_syms k) (key_syms k0).
  Hypothesis Hd0 : done k0 T D.
  Hypothesis HdM : forall k s, In (k, s) M -> done k s D.
  Hypothesis Hfrom : forall A q, In (A, q) D -> from T k0 M A q.
  Hypothesis Hitems : forall A q, In (A, q) D -> Forall (item_ok (map fst M) (key_syms k0)) q.

  Let V : productions := fun A r => P A r \/ exists q, In (A, q) D /\ r = map (enc_item M A) q.
  Let Q := with_sequence P T k0.

  (** ** Completeness *)

  Definition site (k : seq_key) (s : nat) : Prop := In (k, s) M \/ (k = k0 /\ s = T).

  Lemma site_valid : forall k s, site k s -> valid_key k.
  Proof. intros k s [H|[-> ->]]; auto. apply Hval in H. tauto. Qed.

  Lemma site_done : forall k s, site k s -> done k s D.
  Proof. intros k s [H|[-> ->]]; auto. Qed.

  Lemma site_rule : forall k s q, site k s -> In q (rules_of k) -> V s (map (enc_item M s) q).
  Proof. intros. right. exists q. split; auto. apply (site_done _ _ H); auto. Qed.

  Lemma sub_site : forall k s q k', site k s -> In q (rules_of k) -> In (ISub k') q ->
    exists s', In (k', s') M /\ forall A, enc_item M A (ISub k') = s'.
  Proof.
    intros k s q k' Hs Hq Hk. pose proof (site_done _ _ Hs _ Hq) as HD. apply Hitems in HD.
    pose proof (proj1 (Forall_forall _ _) HD _ Hk) as HX. simpl in HX. apply in_map_iff in HX.
    destruct HX as [[k2 s'] [E Hi]]. simpl in E. subst k2. exists s'. split; auto. intros. simpl.
    rewrite (lookup_in _ _ _ HNk Hi). auto.
  Qed.

  Lemma items_derive : forall k s q w,
    (forall k', In (ISub k') q -> exists s', (forall A, enc_item M A (ISub k') = s') /\
       forall v, Sq k' v -> derives V [s'] v) ->
    ~ In ISelf q -> ilang k q w -> derives V (map (enc_item M s) q) w.
  Proof.
    intros k s q w Hsub Hself HI. induction HI.
    - constructor.
    - simpl. apply derives_cons_same. apply IHHI; [intros; apply Hsub; simpl; auto | intro; apply Hself; simpl; auto].
    - exfalso. apply Hself; simpl; auto.
    - destruct (Hsub k') as [s' [E HD]]; [simpl; auto|].
      cbn [map]. rewrite (E s). apply derives_cons; [apply HD; auto|].
      apply IHHI; [intros; apply Hsub; simpl; auto | intro; apply Hself; simpl; auto].
  Qed.

  Lemma open_rules : forall k, valid_key k -> open_key k ->
    rules_of k = [[IS (k_rhs k)]; ISelf :: sep_items (k_sep k) ++ [IS (k_rhs k)]].
  Proof.
    intros k HV [H1 [H2 H3]]. unfold rules_of, prog. rewrite H2, H3.
    destruct (k_sep k); simpl in H1; try contradiction; reflexivity.
  Qed.

  Lemma enc_syms : forall s l, map (enc_item M s) (map IS l) = l.
  Proof. intros. rewrite map_map. simpl. apply map_id. Qed.

  Lemma complete_open : forall k s, site k s -> open_key k -> forall w, Sq k w -> derives V [s] w.
  Proof.
    intros k s Hs HO w Hw. pose proof (site_valid _ _ Hs) as HV. pose proof (open_rules k HV HO) as HR.
    destruct HO as [O1 [O2 O3]]. pose proof (plain_nl _ O1) as HL.
    apply (Sq_str k HL) in Hw. rewrite O2, O3 in Hw. destruct Hw as [m [[Hm _] ->]].
    assert (HX : forall m, derives V [s] (rep_str (k_rhs k) (k_sep k) (S m))).
    { clear m Hm. induction m.
      - assert (E : rep_str (k_rhs k) (k_sep k) 1 = [k_rhs k]) by (destruct (k_sep k); simpl in O1; try contradiction; auto).
        rewrite E. apply derives_rule. apply (site_rule k s [IS (k_rhs k)]); auto. rewrite HR. simpl; auto.
      - rewrite <- rep_snoc by (auto; lia).
        eapply derives_trans.
        + apply derives_rule. apply (site_rule k s (ISelf :: sep_items (k_sep k) ++ [IS (k_rhs k)])); auto. rewrite HR. simpl; auto.
        + rewrite sep_items_map. change [IS (k_rhs k)] with (map IS [k_rhs k]). rewrite <- map_app.
          cbn [map enc_item]. rewrite enc_syms. 
          match goal with |- derives V (s :: ?r) (?a ++ ?r) => apply (derives_app V [s] r a r) end; auto. constructor. }
    destruct m as [|m]; [simpl in Hm; lia|]. apply HX.
  Qed.

  Lemma open_dec : forall k, open_key k \/ ~ open_key k.
  Proof.
    intros k. unfold open_key. destruct (N.eq_dec (k_start k) 1); [|right; tauto].
    destruct (k_end k); [right; intros [_ [_ ?]]; discriminate|].
    destruct (k_sep k); simpl; tauto.
  Qed.

  Lemma complete : forall m k s, (weight k < m)%N -> site k s -> forall w, Sq k w -> derives V [s] w.
  Proof.
    intros m. induction m using N.peano_ind; [lia|]. intros k s Hm Hs w Hw.
    destruct (open_dec k) as [HO|HO]; [eapply complete_open; eauto|].
    pose proof (site_valid _ _ Hs) as HV.
    apply (rules_exact k HV) in Hw. destruct Hw as [q [Hq HI]].
    eapply derives_trans; [apply derives_rule; eapply site_rule; eauto|].
    eapply items_derive; eauto.
    - intros k' Hk'. destruct (sub_site _ _ _ _ Hs Hq Hk') as [s' [Hin E]]. exists s'. split; auto.
      intros v Hv. pose proof (sub_weight k HV _ _ Hq Hk'). apply (IHm k'); [lia | left; auto | auto].
    - eapply no_self; eauto.
  Qed.

  Lemma derives_Q_V : forall u w, derives Q u w -> derives V u w.
  Proof.
    apply derives_sim. intros A r [H|[-> H]].
    - apply derives_rule. left; auto.
    - apply (complete (N.succ (weight k0)) k0); auto; [lia | right; auto].
  Qed.

  (** ** Soundness *)

  Definition F (s : nat) (v : list nat) : Prop :=
    (s < n /\ (s = T -> ~ open_key k0) /\ v = [s]) \/
    (exists k y, site k s /\ Sq k y /\ derives Q y v).

  Lemma M_new : forall k s, In (k, s) M -> n <= s.
  Proof. intros. exact (proj1 (Forall_forall _ _) HM _ H). Qed.

  Lemma M_inj : forall k k' s, In (k, s) M -> In (k', s) M -> k = k'.
  Proof.
    clear - HNs. induction M as [|[k2 s2] M' IH]; simpl; intros; [contradiction|]. inversion HNs; subst.
    destruct H as [E|H], H0 as [E'|H0].
    - congruence.
    - injection E as -> ->. exfalso. apply H3. change s with (snd (k', s)). apply in_map; auto.
    - injection E' as -> ->. exfalso. apply H3. change s with (snd (k, s)). apply in_map; auto.
    - eauto.
  Qed.

  Lemma site_inj : forall k k' s, site k s -> site k' s -> k = k'.
  Proof.
    intros k k' s [H|[-> ->]] [H'|[-> E]]; auto.
    - eapply M_inj; eauto.
    - subst. apply M_new in H. lia.
    - apply M_new in H'. lia.
  Qed.

  Lemma F_old : forall s v, s < n -> F s v -> derives Q [s] v.
  Proof.
    intros s v Hs [[_ [_ ->]]|[k [y [Hsite [Hy HD]]]]]; [constructor|].
    destruct Hsite as [H|[-> ->]]; [apply M_new in H; lia|].
    eapply derives_rule_then; eauto. right; auto.
  Qed.

  Lemma lift_old : forall u v, Forall (fun s => s < n) u -> lift F u v -> derives Q u v.
  Proof.
    intros u v Hu HLi. induction HLi; [constructor|]. inversion Hu; subst.
    apply derives_cons; auto. apply F_old; auto.
  Qed.

  Lemma lift_items : forall k s q, site k s -> (In ISelf q -> open_key k) -> Forall (item_ok (map fst M) (key_syms k0)) q ->
    forall v, lift F (map (enc_item M s) q) v -> exists y, ilang k q y /\ derives Q y v.
  Proof.
    intros k s q Hs. induction q as [|i q IH]; intros Hself Hok v HLi.
    - inversion HLi; subst. exists []. split; constructor.
    - cbn [map] in HLi. inversion HLi as [|? ? x y Hx Hy]; subst. inversion Hok as [|? ? Hi Hq]; subst.
      destruct (IH ltac:(intros; apply Hself; simpl; auto) Hq _ Hy) as [y' [Hy1 Hy2]].
      destruct i as [a| |k'].
      + simpl in Hx, Hi. pose proof (proj1 (Forall_forall _ _) Hsy _ Hi) as Ha. simpl in Ha.
        exists (a :: y'). split; [constructor; auto|]. apply derives_cons; auto. apply F_old; auto.
      + assert (HO : open_key k) by (apply Hself; simpl; auto). simpl in Hx. destruct Hx as [[Hx1 [Hx2 ->]]|[k2 [z [Hz1 [Hz2 Hz3]]]]].
        * exfalso. destruct Hs as [Hs|[-> ->]]; [apply M_new in Hs; lia|]. apply Hx2; auto.
        * pose proof (site_inj _ _ _ Hs Hz1). subst k2. exists (z ++ y'). split; [constructor; auto|]. apply derives_app; auto.
      + simpl in Hi. apply in_map_iff in Hi. destruct Hi as [[k2 s'] [E Hin]]. simpl in E. subst k2.
        simpl in Hx. rewrite (lookup_in _ _ _ HNk Hin) in Hx. destruct Hx as [[Hx1 _]|[k2 [z [Hz1 [Hz2 Hz3]]]]].
        * apply M_new in Hin. lia.
        * assert (k' = k2) by (eapply site_inj; [left; exact Hin | exact Hz1]). subst k2.
          exists (z ++ y'). split; [constructor; auto|]. apply derives_app; auto.
  Qed.

  Hypothesis Hterm : open_key k0 -> terminal P T.

  Lemma V_sound : forall A r v, V A r -> lift F r v -> exists u, F A u /\ derives Q u v.
  Proof.
    intros A r v [H|[q [Hq ->]]] HLi.
    - destruct (HP _ _ H) as [HA Hr]. exists [A]. split.
      + left. split; auto. split; auto. intros -> HO. exact (Hterm HO r H).
      + eapply derives_rule_then; [left; exact H|]. apply lift_old; auto.
    - pose proof (Hitems _ _ Hq) as Hok.
      assert (HS : exists k, site k A /\ In q (rules_of k)).
      { destruct (Hfrom _ _ Hq) as [[-> Hr]|[k [Hk Hr]]]; [exists k0; split; auto; right; auto | exists k; split; auto; left; auto]. }
      destruct HS as [k [Hs Hr]]. pose proof (site_valid _ _ Hs) as HV.
      destruct (lift_items k A q Hs) with (v := v) as [y [Hy1 Hy2]]; auto.
      { intros Hin. destruct (open_dec k); auto. exfalso. eapply no_self; eauto. }
      exists y. split; auto. right. exists k, y. split; auto. split; [|constructor]. apply (rules_exact k HV). eauto.
  Qed.

  Lemma derives_V_Q : forall u w, Forall (fun s => s < n) u -> Forall (fun s => s < n) w ->
    (open_key k0 -> ~ In T w) -> derives V u w -> derives Q u w.
  Proof.
    intros u w Hu Hw HO HD.
    destruct (derives_subst V Q F V_sound u w HD w) as [u' [H1 H2]].
    { apply lift_id. intros s Hs. left. split; [exact (proj1 (Forall_forall _ _) Hw _ Hs)|]. split; auto.
      intros -> Hop. exact (HO Hop Hs). }
    eapply derives_trans; [apply lift_old; eauto | auto].
  Qed.

  Lemma V_T_nonterminal : nonterminal V T.
  Proof. destruct (rules_nonempty k0) as [q Hq]. eexists. eapply (site_rule k0 T); eauto. right; auto. Qed.

  Lemma Sq_nonempty : exists w, Sq k0 w.
  Proof.
    destruct Hk0 as [HV1 HV2].
    assert (Hr : in_range (k_start k0) (k_end k0) (N.to_nat (k_start k0))).
    { split; rewrite N2Nat.id; [lia|]. intros e He. apply HV2 in He. lia. }
    destruct (k_sep k0) eqn:E.
    - exists (followed (k_rhs k0) s (N.to_nat (k_start k0))). exists (N.to_nat (k_start k0)). rewrite E. split; auto. reflexivity.
    - exists (between (k_rhs k0) s (N.to_nat (k_start k0))). exists (N.to_nat (k_start k0)). rewrite E. split; auto. reflexivity.
    - exists (between (k_rhs k0) s (N.to_nat (k_start k0))). exists (N.to_nat (k_start k0)). rewrite E. split; auto. left. reflexivity.
    - exists (repeat (k_rhs k0) (N.to_nat (k_start k0))). exists (N.to_nat (k_start k0)). rewrite E. split; auto. reflexivity.
  Qed.

  Lemma terminal_VQ : forall s, s < n -> (terminal V s <-> terminal Q s).
  Proof.
    intros s Hs. split; intros H r Hr.
    - destruct Hr as [Hr|[-> _]]; [apply (H r); left; auto|].
      destruct V_T_nonterminal as [q Hq]. eapply H; eauto.
    - destruct Hr as [Hr|[q [Hq _]]]; [apply (H r); left; auto|].
      destruct (Hfrom _ _ Hq) as [[-> _]|[k [Hk _]]]; [|apply M_new in Hk; lia].
      destruct Sq_nonempty as [w Hw]. apply (H w). right; auto.
  Qed.

  Lemma terminal_V_old : forall s, (s < n \/ In s (map snd M)) -> terminal V s -> s < n /\ s <> T.
  Proof.
    intros s [Hs|Hs] HTm.
    - split; auto. intros ->. destruct V_T_nonterminal as [q Hq]. eapply HTm; eauto.
    - exfalso. apply in_map_iff in Hs. destruct Hs as [[k s'] [E Hi]]. simpl in E. subst.
      destruct (rules_nonempty k) as [q Hq]. eapply HTm. eapply (site_rule k s); eauto. left; auto.
  Qed.

  Lemma V_vocabulary : forall u w, derives V u w -> Forall (fun s => s < n \/ In s (map snd M)) u ->
    Forall (fun s => s < n \/ In s (map snd M)) w.
  Proof.
    intros u w HD Hu. eapply (derives_Forall V); [| exact HD | auto].
    intros A r [Hr|[q [Hq ->]]] _.
    - apply HP in Hr. destruct Hr as [? Hr]. eapply Forall_impl; [|exact Hr]. simpl; auto.
    - apply Forall_forall. intros y Hy. apply in_map_iff in Hy. destruct Hy as [i [<- Hi]].
      pose proof (proj1 (Forall_forall _ _) (Hitems _ _ Hq) _ Hi) as Hok. destruct i as [s| |k]; simpl in *.
      + left. exact (proj1 (Forall_forall _ _) Hsy _ Hok).
      + destruct (Hfrom _ _ Hq) as [[-> _]|[k [Hk _]]]; auto. right. change A with (snd (k, A)). apply in_map; auto.
      + apply in_map_iff in Hok. destruct Hok as [[k2 s'] [E Hin]]. simpl in E. subst k2.
        rewrite (lookup_in _ _ _ HNk Hin). right. change s' with (snd (k, s')). apply in_map; auto.
  Qed.

  Lemma language_VQ : forall s, s < n -> forall w, language V s w <-> language Q s w.
  Proof.
    intros s Hs w. split; intros [HD HF].
    - assert (HW : Forall (fun x => x < n /\ x <> T) w).
      { pose proof (V_vocabulary _ _ HD ltac:(repeat constructor; auto)) as Hv.
        apply Forall_forall. intros x Hx. apply terminal_V_old.
        - exact (proj1 (Forall_forall _ _) Hv _ Hx).
        - exact (proj1 (Forall_forall _ _) HF _ Hx). }
      split.
      + apply derives_V_Q; auto.
        * eapply Forall_impl; [|exact HW]. simpl; tauto.
        * intros _ Hin. pose proof (proj1 (Forall_forall _ _) HW _ Hin). simpl in *. tauto.
      + apply Forall_forall. intros x Hx. apply terminal_VQ; [apply (proj1 (Forall_forall _ _) HW _ Hx)|].
        exact (proj1 (Forall_forall _ _) HF _ Hx).
    - split; [apply derives_Q_V; auto|].
      assert (HW : Forall (fun x => x < n) w).
      { eapply (derives_Forall Q); [| exact HD | repeat constructor; auto].
        intros A r [Hr|[-> Hr]] _; [apply HP in Hr; tauto|].
        pose proof (rules_exact k0 Hk0 r). 
        assert (HX : forall x, In x r -> In x (key_syms k0)).
        { clear - Hr. destruct Hr as [m [_ Hr]]. unfold key_syms. intros x Hx.
          assert (HB : forall a b c, In x (concat (repeat [a; b] c)) -> x = a \/ x = b).
          { intros a b c Hi. apply in_concat in Hi. destruct Hi as [l [Hl Hi]]. apply repeat_spec in Hl. subst.
            destruct Hi as [|[|[]]]; auto. }
          assert (HBt : forall s, In x (between (k_rhs k0) s m) -> x = k_rhs k0 \/ x = s).
          { intros s. destruct m; simpl; [tauto|]. intros [|Hi]; auto. apply HB in Hi. tauto. }
          destruct (k_sep k0) as [s|s|s|]; simpl in *.
          - subst. apply HB in Hx. simpl. intuition congruence.
          - subst. apply HBt in Hx. intuition congruence.
          - destruct Hr; subst; [apply HBt in Hx | apply HB in Hx]; intuition congruence.
          - subst. apply repeat_spec in Hx. auto. }
        apply Forall_forall. intros x Hx. apply HX in Hx. exact (proj1 (Forall_forall _ _) Hsy _ Hx). }
      apply Forall_forall. intros x Hx. apply terminal_VQ; [exact (proj1 (Forall_forall _ _) HW _ Hx)|].
      exact (proj1 (Forall_forall _ _) HF _ Hx).
  Qed.

  (** Symbols that do not reach the left-hand side. *)
  Lemma derives_away : forall u w, derives V u w -> (forall s, In s u -> s < n /\ ~ reaches P s T) -> derives P u w.
  Proof.
    intros u w HD. induction HD; intros Hu; [constructor|].
    assert (HA : A < n /\ ~ reaches P A T) by (apply Hu; apply in_or_app; simpl; auto).
    destruct H as [H|[q [Hq ->]]].
    - econstructor; [exact H|]. apply IHHD. intros s Hs. apply in_app_or in Hs.
      destruct Hs as [Hs|Hs]; [apply Hu; apply in_or_app; auto|]. apply in_app_or in Hs.
      destruct Hs as [Hs|Hs]; [|apply Hu; apply in_or_app; simpl; auto].
      split.
      + destruct (HP _ _ H) as [_ Hr]. exact (proj1 (Forall_forall _ _) Hr _ Hs).
      + intros [x [y Hxy]]. apply (proj2 HA). apply in_split in Hs. destruct Hs as [r1 [r2 ->]].
        exists (r1 ++ x), (y ++ r2). eapply derives_rule_then; [exact H|].
        replace ((r1 ++ x) ++ T :: y ++ r2) with (r1 ++ (x ++ T :: y) ++ r2) by (rewrite <- !app_assoc; auto).
        change (r1 ++ s :: r2) with (r1 ++ [s] ++ r2). apply derives_ctx. auto.
    - exfalso. destruct (Hfrom _ _ Hq) as [[-> _]|[k [Hk _]]].
      + apply (proj2 HA). exists [], []. constructor.
      + apply M_new in Hk. lia.
  Qed.
End Lang.

(** * The results *)

Section Results.
  Context (debug : bool) (g : cfg) (T : nat) (k0 : seq_key) (h0 : option history).
  Hypothesis HL : good_limit (limit g).
  Hypothesis HT : T < num_syms g.
  Hypothesis Hk0 : valid_key k0.
  Hypothesis Hsy : Forall (fun s => s < num_syms g) (key_syms k0).
  Hypothesis Hcl : closed_rules g.

  Lemma prods_old : forall A r, prods g A r -> A < num_syms g /\ Forall (fun s => s < num_syms g) r.
  Proof. intros A r [x [Hx [<- <-]]]. auto. Qed.

  Theorem rewrite_ok : exists g', seq_rewrite debug g (seq_of T h0 k0) = Ok g' /\ grows g g' /\ closed_rules g' /\
    (forall u w, Forall (fun s => s < num_syms g) u -> Forall (fun s => s < num_syms g) w ->
       derives (with_sequence (prods g) T k0) u w -> derives (prods g') u w) /\
    ((open_key k0 -> terminal (prods g) T) ->
     (forall u w, Forall (fun s => s < num_syms g) u -> Forall (fun s => s < num_syms g) w ->
        (open_key k0 -> ~ In T w) -> derives (prods g') u w -> derives (with_sequence (prods g) T k0) u w) /\
     (forall s w, s < num_syms g -> (language (prods g') s w <-> language (with_sequence (prods g) T k0) s w))) /\
    (forall s, s < num_syms g -> ~ reaches (prods g) s T ->
       forall w, Forall (fun s => s < num_syms g) w -> (derives (prods g') [s] w <-> derives (prods g) [s] w)) /\
    (forall s, s < num_syms g -> (terminal (prods g') s <-> terminal (with_sequence (prods g) T k0) s)) /\
    (exists c, rules g' = rules g ++ c /\ Forall (new_rule g T k0) c) /\
    (forall s, num_syms g <= s < num_syms g' -> nonterminal (prods g') s).
  Proof.
    destruct (rewrite_repr g T k0 h0 HL HT Hk0 Hsy Hcl debug) as
      [g' [M [D [C [E [Hg [HR [[HC HC0] [HM [HNk [HNs [Hval [Hd0 [HdM [Hfrom [Hitems Hnew]]]]]]]]]]]]]]]].
    assert (HM' : Forall (fun p : seq_key * nat => num_syms g <= snd p) M).
    { eapply Forall_impl; [|exact HM]. simpl; intros; lia. }
    pose proof prods_old as HP.
    assert (HnC : forall l, Forall (fun s => s < num_syms g) l -> Forall (fun s => ~ C s) l).
    { intros l Hl. eapply Forall_impl; [|exact Hl]. simpl. intros a Ha Hca. apply HC in Hca. lia. }
    exists g'. split; auto. split; auto. split; [apply (rp_closed _ _ _ HR)|].
    split; [|split; [|split; [|split; [|split; [exact Hnew|]]]]].
    - intros u w Hu Hw HD. apply (represents_derives _ _ _ (rp_rep _ _ _ HR)); auto.
      eapply derives_Q_V; eauto.
    - intros Hop. split.
      + intros u w Hu Hw HO HD. apply (represents_derives _ _ _ (rp_rep _ _ _ HR)) in HD; auto.
        eapply derives_V_Q; eauto.
      + intros s w Hs. rewrite (represents_language _ _ _ (rp_rep _ _ _ HR)) by (intros HCs; apply HC in HCs; lia).
        eapply (language_VQ (prods g) (num_syms g) T k0 M D); eauto.
    - intros s Hs Hre w Hw. split; intros HD.
      + apply (represents_derives _ _ _ (rp_rep _ _ _ HR)) in HD; auto.
        eapply (derives_away (prods g) (num_syms g) T k0 M D); eauto. intros s' [<-|[]]; auto.
      + eapply derives_mono; [|exact HD]. intros A r [x [Hx HH]]. destruct (gr_rules _ _ Hg) as [c Ec].
        exists x. split; auto. rewrite Ec. apply in_or_app; auto.
    - intros s Hs. rewrite (represents_terminal _ _ _ (rp_rep _ _ _ HR)).
      assert (HX : terminal (Vof g M D) s <-> terminal (with_sequence (prods g) T k0) s) by (eapply terminal_VQ; eauto).
      split; [intros [_ H]; apply HX; auto | intros H; split; [intros HCs; apply HC in HCs; lia | apply HX; auto]].
    - intros s Hs. assert (HD : C s \/ (~ C s /\ In s (map snd M)) \/ False).
      { destruct (HC0 s Hs) as [H|H]; [left; auto|]. right; left. split; auto. intros HCs.
        apply in_map_iff in H. destruct H as [[k s'] [E0 Hi]]. simpl in E0. subst s'.
        destruct (rules_nonempty k) as [q Hq]. destruct (rep_voc _ _ _ (rp_rep _ _ _ HR) s (map (enc_item M s) q)) as [X _]; auto.
        right. exists q. split; auto. apply (HdM k s Hi q Hq). }
      destruct HD as [HD|[[H1 H2]|[]]]; [apply (rep_fresh_nt _ _ _ (rp_rep _ _ _ HR)); auto|].
      apply (rep_nt _ _ _ (rp_rep _ _ _ HR)); auto. apply in_map_iff in H2. destruct H2 as [[k s'] [E0 Hi]].
      simpl in E0. subst s'. destruct (rules_nonempty k) as [q Hq]. exists (map (enc_item M s) q). right. exists q.
      split; auto. apply (HdM k s Hi q Hq).
  Qed.
End Results.
