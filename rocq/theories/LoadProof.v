(** Proofs about the BNF loader: the loaded grammar derives what the written one does. *)

From Coq Require Import List Arith NArith Ascii Bool String Lia.
From Verif Require Import Base ListFacts Spec GrammarFacts SymbolModel HistoryModel CfgModel View CfgProof SpecSeq SeqModel
  SeqProof SeqProof2 SeqProof3 PropsSeq SpecLoad LoadModel LoadParseProof.
Import ListNotations.
Local Open Scope list_scope.

(** * Similar sets of productions *)

(** The same derivations from strings over [U] to strings over [V]. *)
Definition similar (P E : productions) (U V : nat -> Prop) : Prop :=
  forall u w, Forall U u -> Forall V w -> (derives P u w <-> derives E u w).

Lemma similar_sym : forall P E U V, similar P E U V -> similar E P U V.
Proof. intros P E U V H u w Hu Hw. symmetry. auto. Qed.
Lemma similar_trans : forall P E Q U V, similar P E U V -> similar E Q U V -> similar P Q U V.
Proof. intros P E Q U V H1 H2 u w Hu Hw. rewrite (H1 u w Hu Hw). auto. Qed.
Lemma similar_weaken : forall P E (U V U' V' : nat -> Prop), similar P E U V -> (forall s, U' s -> U s) -> (forall s, V' s -> V s) ->
  similar P E U' V'.
Proof. intros P E U V U' V' H HU HV u w Hu Hw. apply H; eapply Forall_impl; eauto. Qed.
Lemma similar_ext : forall P E P' E' U V, similar P E U V -> (forall A r, P A r <-> P' A r) -> (forall A r, E A r <-> E' A r) ->
  similar P' E' U V.
Proof.
  intros P E P' E' U V H HP HE u w Hu Hw. rewrite <- (derives_ext P P' HP), <- (derives_ext E E' HE). auto.
Qed.

Lemma union_half : forall (P E R : productions) (U V : nat -> Prop), (forall u w, Forall U u -> Forall V w -> derives P u w -> derives E u w) ->
  (forall s, V s -> U s) -> (forall A r, R A r -> V A /\ Forall U r) ->
  forall u w, derives (union P R) u w -> Forall V w -> exists v, Forall V v /\ derives P u v /\ derives (union E R) v w.
Proof.
  intros P E R U V HPE HVU HR u w H. induction H as [u|x A y r w HA HD IH]; intros Hw.
  - exists u. split; auto. split; constructor.
  - destruct (IH Hw) as [v [Hv [D1 D2]]]. destruct HA as [HA|HA].
    + exists v. split; auto. split; auto. econstructor; eauto.
    + destruct (HR _ _ HA) as [HA1 HA2]. apply derives_app_inv in D1. destruct D1 as [va [v' [-> [Da D1]]]].
      apply derives_app_inv in D1. destruct D1 as [vr [vb [-> [Dr Db]]]].
      apply Forall_app in Hv. destruct Hv as [Hva Hv]. apply Forall_app in Hv. destruct Hv as [Hvr Hvb].
      exists (va ++ A :: vb). split; [apply Forall_app; split; auto|]. split.
      * apply derives_app; auto. apply (derives_cons P A y [A] vb); [constructor | auto].
      * apply derives_step with (r := r); [right; auto|]. eapply derives_trans; [|exact D2].
        apply derives_ctx. eapply derives_mono; [|apply HPE; eauto]. intros; left; auto.
Qed.

Lemma similar_union : forall (P E R : productions) (U V : nat -> Prop), similar P E U V -> (forall s, V s -> U s) ->
  (forall A r, R A r -> V A /\ Forall U r) -> similar (union P R) (union E R) U V.
Proof.
  intros P E R U V H HVU HR u w Hu Hw. split; intros HD.
  - destruct (union_half P E R U V (fun u w Hu Hw => proj1 (H u w Hu Hw)) HVU HR u w HD Hw) as [v [Hv [D1 D2]]].
    apply (H u v Hu Hv) in D1. eapply derives_trans; [|exact D2]. eapply derives_mono; [|exact D1]. intros; left; auto.
  - destruct (union_half E P R U V (fun u w Hu Hw => proj2 (H u w Hu Hw)) HVU HR u w HD Hw) as [v [Hv [D1 D2]]].
    apply (H u v Hu Hv) in D1. eapply derives_trans; [|exact D2]. eapply derives_mono; [|exact D1]. intros; left; auto.
Qed.

(** A symbol that no production mentions. *)
Lemma fresh_half : forall (P E : productions) (U V : nat -> Prop) s, (forall u w, Forall U u -> Forall V w -> derives P u w -> derives E u w) ->
  ~ occurs P s -> forall u w, Forall (fun x => U x \/ x = s) u -> Forall (fun x => V x \/ x = s) w -> derives P u w -> derives E u w.
Proof.
  intros P E U V s H HO. induction u as [|x u IH]; intros w Hu Hw HD.
  - apply derives_nil_inv in HD. subst. constructor.
  - apply derives_cons_inv in HD. destruct HD as [w1 [w2 [-> [D1 D2]]]]. apply Forall_app in Hw. destruct Hw as [Hw1 Hw2].
    apply (derives_cons E x u w1 w2); [|apply IH; auto; inversion Hu; auto].
    destruct (Nat.eq_dec x s) as [->|Hx].
    + assert (HT : terminal P s) by (intros r Hr; apply HO; exists s, r; auto).
      apply derives_terminal_inv in D1; auto. subst. constructor.
    + assert (HU : U x) by (inversion Hu as [|? ? [?|?] ?]; auto; congruence).
      apply H; auto. assert (HS : Forall (fun y => y <> s) w1).
      { apply (derives_Forall P (fun y => y <> s)) with (u := [x]); auto. intros A r HA _. apply Forall_forall.
        intros y Hy ->. apply HO. exists A, r. auto. }
      apply Forall_forall. intros y Hy. rewrite Forall_forall in HS, Hw1. specialize (HS y Hy). destruct (Hw1 y Hy); auto. congruence.
Qed.

Lemma similar_fresh : forall (P E : productions) (U V : nat -> Prop) s, similar P E U V -> ~ occurs P s -> ~ occurs E s ->
  similar P E (fun x => U x \/ x = s) (fun x => V x \/ x = s).
Proof.
  intros P E U V s H HP HE u w Hu Hw. split; intros HD.
  - apply (fresh_half P E U V s); auto. intros. apply H; auto.
  - apply (fresh_half E P U V s); auto. intros. apply H; auto.
Qed.

(** * The interner and the map *)

Definition lookup (ld : loader) (x : string) : option nat :=
  match string_index (ld_intern ld) x with
  | Some i => map_lookup (ld_map ld) i
  | None => None
  end.

Definition agrees (ld : loader) (sym : string -> nat) : Prop := forall x s, lookup ld x = Some s -> sym x = s.
Definition seen (ld : loader) (s : nat) : Prop := In s (map snd (ld_map ld)).

Record good (ld : loader) : Prop := {
  g_keys : map fst (ld_map ld) = rev (seq 0 (List.length (ld_intern ld)));
  g_strings : NoDup (ld_intern ld);
  g_values : NoDup (map snd (ld_map ld));
  g_below : forall s, seen ld s -> s < num_syms (ld_cfg ld);
  g_names : forall x s, lookup ld x = Some s -> nth_error (names (src (ld_cfg ld))) s = Some (Some x);
  g_source : List.length (names (src (ld_cfg ld))) = num_syms (ld_cfg ld);
  g_closed : closed_rules (ld_cfg ld);
  g_limit : limit (ld_cfg ld) = None
}.

Lemma map_lookup_in : forall m k s, map_lookup m k = Some s -> In (k, s) m.
Proof.
  induction m as [|[k' v] m IH]; intros k s H; [discriminate|]. simpl in *. destruct (Nat.eqb k' k) eqn:E.
  - apply Nat.eqb_eq in E. injection H as <-. subst. auto.
  - right. auto.
Qed.
Lemma map_lookup_none : forall m k, map_lookup m k = None -> ~ In k (map fst m).
Proof.
  induction m as [|[k' v] m IH]; intros k H; [auto|]. simpl in *. destruct (Nat.eqb k' k) eqn:E; [discriminate|].
  apply Nat.eqb_neq in E. intros [HE|HI]; [congruence | exact (IH k H HI)].
Qed.

Lemma lookup_seen : forall ld x s, lookup ld x = Some s -> seen ld s.
Proof.
  intros ld x s H. unfold lookup in H. destruct (string_index _ _); [|discriminate]. apply map_lookup_in in H.
  apply (in_map snd) in H. exact H.
Qed.

Lemma nodup_pair : forall (m : list (nat * nat)) k k' s, NoDup (map snd m) -> In (k, s) m -> In (k', s) m -> k = k'.
Proof.
  induction m as [|[k0 s0] m IH]; intros k k' s HN H H'; [contradiction|]. simpl in HN. inversion HN as [|a b H1 H2 E1].
  destruct H as [H|H], H' as [H'|H'].
  - congruence.
  - injection H as <- <-. exfalso. apply H1. apply (in_map snd) in H'. exact H'.
  - injection H' as <- <-. exfalso. apply H1. apply (in_map snd) in H. exact H.
  - eauto.
Qed.

Lemma lookup_inj : forall ld x y s, good ld -> lookup ld x = Some s -> lookup ld y = Some s -> x = y.
Proof.
  intros ld x y s HG H1 H2. unfold lookup in *. destruct (string_index (ld_intern ld) x) as [i|] eqn:E1; [|discriminate].
  destruct (string_index (ld_intern ld) y) as [j|] eqn:E2; [|discriminate].
  apply map_lookup_in in H1, H2. assert (i = j) by (eapply nodup_pair; eauto; apply HG). subst.
  apply string_index_some in E1, E2. congruence.
Qed.

Lemma string_index_app : forall l c s i, string_index l s = Some i -> string_index (l ++ c) s = Some i.
Proof.
  induction l as [|x l IH]; intros c s i H; [discriminate|]. simpl in *. destruct (String.eqb x s); auto.
  destruct (string_index l s) as [j|] eqn:E; [|discriminate]. rewrite (IH c s j E). auto.
Qed.
Lemma string_index_last : forall l s, string_index l s = None -> string_index (l ++ [s]) s = Some (List.length l).
Proof.
  induction l as [|x l IH]; intros s H; simpl in *.
  - rewrite String.eqb_refl. auto.
  - destruct (String.eqb x s); [discriminate|]. destruct (string_index l s) eqn:E; [discriminate|]. rewrite IH; auto.
Qed.
Lemma string_index_lt : forall l s i, string_index l s = Some i -> i < List.length l.
Proof. intros l s i H. apply string_index_some in H. apply nth_error_Some. congruence. Qed.
Lemma string_index_other : forall l x s, x <> s -> string_index (l ++ [x]) s = string_index l s.
Proof.
  induction l as [|y l IH]; intros x s H; simpl.
  - apply String.eqb_neq in H. rewrite H. auto.
  - destruct (String.eqb y s); auto. rewrite IH; auto.
Qed.

(** What a call for the symbol of a name does. *)
Lemma symbol_named_ok : forall ld x, good ld -> exists s ld', symbol_named ld x = (s, ld') /\ good ld' /\ lookup ld' x = Some s /\
  (forall y s', lookup ld y = Some s' -> lookup ld' y = Some s') /\
  rules (ld_cfg ld') = rules (ld_cfg ld) /\ roots (ld_cfg ld') = roots (ld_cfg ld) /\
  ((num_syms (ld_cfg ld') = num_syms (ld_cfg ld) /\ (forall y, seen ld' y <-> seen ld y)) \/
   (s = num_syms (ld_cfg ld) /\ num_syms (ld_cfg ld') = S s /\ (forall y, seen ld' y <-> (seen ld y \/ y = s)))).
Proof.
  intros ld x HG. unfold symbol_named, get_or_intern.
  destruct (string_index (ld_intern ld) x) as [i|] eqn:E.
  - destruct (map_lookup (ld_map ld) i) as [s|] eqn:EM.
    + exists s, (mkLoader (ld_cfg ld) (ld_intern ld) (ld_map ld)). destruct ld as [g it m]. simpl in *.
      split; auto. split; auto. split; [unfold lookup; simpl; rewrite E; auto|]. split; auto. split; auto. split; auto.
      left. split; auto. tauto.
    + exfalso. apply map_lookup_none in EM. rewrite (g_keys _ HG) in EM. apply EM. rewrite <- in_rev. apply in_seq.
      apply string_index_lt in E. lia.
  - assert (EM : map_lookup (ld_map ld) (List.length (ld_intern ld)) = None).
    { destruct (map_lookup _ _) as [s|] eqn:EM; auto. exfalso. apply map_lookup_in in EM. apply (in_map fst) in EM.
      rewrite (g_keys _ HG) in EM. rewrite <- in_rev in EM. apply in_seq in EM. simpl in EM. lia. }
    rewrite EM. unfold next_sym, src_next. cbn [fst snd].
    set (g' := mkCfg _ _ _ _ _). set (ld' := mkLoader g' _ _). exists (num (src (ld_cfg ld))), ld'.
    assert (HL : forall y s', lookup ld y = Some s' -> lookup ld' y = Some s').
    { intros y s' H. unfold lookup in *. destruct (string_index (ld_intern ld) y) as [j|] eqn:EJ; [|discriminate].
      simpl. rewrite (string_index_app _ [x] y j EJ). simpl. replace (Nat.eqb _ j) with false; auto.
      symmetry. apply Nat.eqb_neq. apply string_index_lt in EJ. lia. }
    assert (HX : lookup ld' x = Some (num (src (ld_cfg ld)))).
    { unfold lookup. simpl. rewrite string_index_last by auto. simpl. rewrite Nat.eqb_refl. auto. }
    split; auto. split; [|split; [exact HX|split; [exact HL|split; [reflexivity|split; [reflexivity|]]]]].
    + assert (Hg' : num_syms g' = S (num_syms (ld_cfg ld))) by reflexivity. constructor; simpl.
      * rewrite app_length, (g_keys _ HG), Nat.add_1_r, seq_S, rev_app_distr. reflexivity.
      * pose proof (g_strings _ HG) as HN. apply string_index_none in E. apply NoDup_rev in HN.
        rewrite <- (rev_involutive (ld_intern ld ++ [x])). apply NoDup_rev. rewrite rev_app_distr. simpl.
        constructor; auto. rewrite <- in_rev. auto.
      * constructor; [|apply HG]. intros HI. apply (g_below _ HG) in HI. unfold num_syms in HI. lia.
      * intros s [<-|HI]; rewrite Hg'; [simpl; unfold num_syms; lia|]. apply (g_below _ HG) in HI. lia.
      * intros y s H. destruct (string_dec y x) as [->|Hy].
        -- rewrite HX in H. injection H as <-. pose proof (g_source _ HG) as HSrc. unfold num_syms in HSrc.
           rewrite nth_error_app2 by lia. rewrite HSrc, Nat.sub_diag. reflexivity.
        -- assert (HLy : lookup ld y = Some s).
           { unfold lookup in *. simpl in H. rewrite string_index_other in H by auto.
             destruct (string_index (ld_intern ld) y) as [j|] eqn:EJ; [|discriminate]. simpl in H.
             replace (Nat.eqb _ j) with false in H; auto. symmetry. apply Nat.eqb_neq. apply string_index_lt in EJ. lia. }
           rewrite nth_error_app1; [apply HG; auto|]. rewrite (g_source _ HG). apply (g_below _ HG). eapply lookup_seen; eauto.
      * rewrite app_length, (g_source _ HG), Hg'. simpl. lia.
      * intros r Hr. destruct (g_closed _ HG r Hr) as [H1 H2]. rewrite Hg'. split; [lia|].
        eapply Forall_impl; [|exact H2]. simpl. intros; lia.
      * apply HG.
    + right. split; auto. split; auto. intros y. unfold seen. simpl. split; [intros [<-|H]; auto | intros [H| ->]; auto].
Qed.

(** * The semantic invariant *)

(** The productions of the symbols that stand for repetitions. *)
Definition kind_prods (zs : list (nat * (nat * repetition))) : productions :=
  fun A r => exists x k n, In (A, (x, k)) zs /\ r = repeat x n /\ (k = OneOrMore -> 1 <= n).

Definition hidden (zs : list (nat * (nat * repetition))) (s : nat) : Prop := In s (map fst zs).

Record loaded (sym : string -> nat) (ld : loader) (done : list bnf_rule) (zs : list (nat * (nat * repetition))) : Prop := {
  l_sim : similar (prods (ld_cfg ld)) (union (written_prods sym done) (kind_prods zs)) (fun s => seen ld s \/ hidden zs s) (seen ld);
  l_nodup : NoDup (map fst zs);
  l_zs : forall z x k, In (z, (x, k)) zs -> ~ seen ld z /\ seen ld x /\ z < num_syms (ld_cfg ld);
  l_done : forall x, named done x -> lookup ld x <> None;
  l_nt : forall s, s < num_syms (ld_cfg ld) -> seen ld s \/ nonterminal (prods (ld_cfg ld)) s;
  l_left : forall s, seen ld s -> (nonterminal (prods (ld_cfg ld)) s <-> exists l fs, In (l, fs) done /\ s = sym l)
}.

Lemma sym_seen : forall sym ld x, agrees ld sym -> lookup ld x <> None -> seen ld (sym x).
Proof.
  intros sym ld x HA H. destruct (lookup ld x) as [s|] eqn:E; [|congruence]. rewrite (HA x s E). eapply lookup_seen; eauto.
Qed.

Lemma expands_named : forall fs w x, expands fs w -> In x w -> In x (map fst fs).
Proof.
  intros fs w x H. induction H; simpl; intros HI; auto.
  - destruct HI; auto.
  - apply in_app_or in HI. destruct HI as [HI|HI]; auto. apply repeat_spec in HI. auto.
  - apply in_app_or in HI. destruct HI as [HI|HI]; auto. apply repeat_spec in HI. auto.
Qed.

Lemma written_seen : forall sym ld done zs A r, agrees ld sym -> loaded sym ld done zs -> written_prods sym done A r ->
  seen ld A /\ Forall (seen ld) r.
Proof.
  intros sym ld done zs A r HA HL [l [fs [w [H1 [-> [H3 ->]]]]]]. split.
  - apply sym_seen; auto. apply (l_done _ _ _ _ HL). exists l, fs. auto.
  - apply Forall_forall. intros s Hs. apply in_map_iff in Hs. destruct Hs as [x [<- Hx]]. apply sym_seen; auto.
    apply (l_done _ _ _ _ HL). exists l, fs. split; auto. right. eapply expands_named; eauto.
Qed.

Lemma kind_seen : forall sym ld done zs A r, loaded sym ld done zs -> kind_prods zs A r ->
  hidden zs A /\ Forall (seen ld) r.
Proof.
  intros sym ld done zs A r HL [x [k [n [H1 [-> _]]]]]. split; [apply (in_map fst) in H1; exact H1|].
  apply Forall_forall. intros s Hs. apply repeat_spec in Hs. subst. apply (l_zs _ _ _ _ HL) in H1. tauto.
Qed.

Lemma fresh_spec : forall sym ld done zs s, good ld -> agrees ld sym -> loaded sym ld done zs -> num_syms (ld_cfg ld) <= s ->
  ~ occurs (prods (ld_cfg ld)) s /\ ~ occurs (union (written_prods sym done) (kind_prods zs)) s.
Proof.
  intros sym ld done zs s HG HA HL Hs. split.
  - intros [A [r [[q [Hq [<- <-]]] HI]]]. destruct (g_closed _ HG q Hq) as [H1 H2]. destruct HI as [->|HI]; [lia|].
    rewrite Forall_forall in H2. apply H2 in HI. lia.
  - intros [A [r [HP HI]]].
    assert (HS : forall y, seen ld y -> y <> s) by (intros y Hy ->; apply (g_below _ HG) in Hy; lia).
    destruct HP as [HP|HP].
    + destruct (written_seen _ _ _ _ _ _ HA HL HP) as [H1 H2]. destruct HI as [->|HI]; [exact (HS A H1 eq_refl)|].
      rewrite Forall_forall in H2. exact (HS s (H2 s HI) eq_refl).
    + destruct (kind_seen _ _ _ _ _ _ HL HP) as [H1 H2]. destruct HI as [->|HI].
      * apply in_map_iff in H1. destruct H1 as [[z [x k]] [Ez Hz]]. simpl in Ez. subst z. apply (l_zs _ _ _ _ HL) in Hz. lia.
      * rewrite Forall_forall in H2. exact (HS s (H2 s HI) eq_refl).
Qed.

Lemma prods_rules : forall g g', rules g' = rules g -> forall A r, prods g' A r <-> prods g A r.
Proof. intros g g' H A r. unfold prods. rewrite H. tauto. Qed.

Lemma nonterminal_ext : forall (P Q : productions) s, (forall A r, P A r <-> Q A r) -> nonterminal P s <-> nonterminal Q s.
Proof. intros P Q s H. split; intros [r Hr]; exists r; apply H; auto. Qed.

(** The symbol of a name. *)
Lemma named_step : forall ld x, good ld -> exists s ld', symbol_named ld x = (s, ld') /\ good ld' /\ lookup ld' x = Some s /\
  (forall y s', lookup ld y = Some s' -> lookup ld' y = Some s') /\
  rules (ld_cfg ld') = rules (ld_cfg ld) /\ roots (ld_cfg ld') = roots (ld_cfg ld) /\
  forall sym done zs, agrees ld sym -> loaded sym ld done zs -> loaded sym ld' done zs.
Proof.
  intros ld x HG. destruct (symbol_named_ok ld x HG) as [s [ld' [H1 [H2 [H3 [H4 [H5 [H6 H7]]]]]]]].
  exists s, ld'. split; auto. split; auto. split; auto. split; auto. split; auto. split; auto.
  intros sym done zs HA HL. pose proof (prods_rules _ _ H5) as HP.
  assert (HD : forall y, named done y -> lookup ld' y <> None).
  { intros y Hy. apply (l_done _ _ _ _ HL) in Hy. destruct (lookup ld y) as [s'|] eqn:E; [|congruence]. rewrite (H4 y s' E). discriminate. }
  destruct H7 as [[N1 N2]|[N1 [N2 N3]]].
  - constructor; auto.
    + eapply similar_ext; [|intros; symmetry; apply HP|intros; reflexivity].
      eapply similar_weaken; [apply (l_sim _ _ _ _ HL)|..]; simpl; intros y Hy; rewrite N2 in Hy; auto.
    + apply HL.
    + intros z y k Hz. rewrite !N2, N1. exact (l_zs _ _ _ _ HL z y k Hz).
    + rewrite N1. intros y Hy. rewrite N2. rewrite (nonterminal_ext _ _ y HP). exact (l_nt _ _ _ _ HL y Hy).
    + intros y Hy. rewrite N2 in Hy. rewrite (nonterminal_ext _ _ y HP). exact (l_left _ _ _ _ HL y Hy).
  - destruct (fresh_spec sym ld done zs s HG HA HL (Nat.eq_le_incl _ _ (eq_sym N1))) as [F1 F2].
    constructor; auto.
    + eapply similar_ext; [|intros; symmetry; apply HP|intros; reflexivity].
      eapply similar_weaken; [apply (similar_fresh _ _ _ _ s (l_sim _ _ _ _ HL) F1 F2)|..]; simpl; intros y Hy.
      * destruct Hy as [Hy|Hy]; auto. apply N3 in Hy. tauto.
      * apply N3 in Hy. tauto.
    + apply HL.
    + intros z y k Hz. destruct (l_zs _ _ _ _ HL z y k Hz) as [Z1 [Z2 Z3]]. split; [|split; [apply N3; auto | lia]].
      intros HS. apply N3 in HS. destruct HS; [auto | lia].
    + intros y Hy. rewrite (nonterminal_ext _ _ y HP). destruct (Nat.eq_dec y s) as [->|Hn]; [left; apply N3; auto|].
      destruct (l_nt _ _ _ _ HL y) as [H|H]; [lia|left; apply N3; auto|auto].
    + intros y Hy. rewrite (nonterminal_ext _ _ y HP). apply N3 in Hy. destruct Hy as [Hy| ->]; [exact (l_left _ _ _ _ HL y Hy)|].
      split.
      * intros [r Hr]. exfalso. apply F1. exists s, r. auto.
      * intros [l [fs [Hl E]]]. exfalso. assert (HS : seen ld s).
        { rewrite E. apply sym_seen; auto. apply (l_done _ _ _ _ HL). exists l, fs. auto. }
        apply (g_below _ HG) in HS. lia.
Qed.

(** * Repetitions *)

Definition kind_start (k : repetition) : N := match k with OneOrMore => 1%N | _ => 0%N end.
Definition kind_call (k : repetition) : seq_call :=
  match k with OneOrMore => SRange (Included 1) Unbounded | _ => SInclusive 0 None end.

Lemma add_sequence_eq : forall debug g z k x,
  add_sequence debug g z (kind_call k) x = seq_rewrite debug g (mkSeq z x (kind_start k) None Null None).
Proof.
  intros debug g z k x. unfold add_sequence. destruct k; cbn [kind_call kind_start seq_builder_call bind seq_builder_new sb_lhs sb_range sb_sep sb_hist sb_dest sb_rhs_with_history add_to_cfg range_start range_end];
  unfold add_to_cfg; destruct (seq_rewrite _ _ _); reflexivity.
Qed.

Lemma nonterminal_grows : forall g g' s, grows g g' -> nonterminal (prods g) s -> nonterminal (prods g') s.
Proof.
  intros g g' s HG [r [q [Hq HE]]]. destruct (gr_rules _ _ HG) as [c E]. exists r, q. rewrite E. split; auto. apply in_or_app. auto.
Qed.

Lemma repetition_step : forall debug ld s k z g1, good ld -> seen ld s -> next_sym (ld_cfg ld) None = (z, g1) ->
  exists g', add_sequence debug g1 z (kind_call k) s = Ok g' /\
    (let ld' := mkLoader g' (ld_intern ld) (ld_map ld) in
     good ld' /\ roots g' = roots (ld_cfg ld) /\ 
     forall sym done zs, agrees ld sym -> loaded sym ld done zs -> loaded sym ld' done (zs ++ [(z, (s, k))])).
Proof.
  intros debug ld s k z g1 HG HS HN.
  assert (Ez : z = num_syms (ld_cfg ld) /\ num_syms g1 = S z /\ rules g1 = rules (ld_cfg ld) /\ roots g1 = roots (ld_cfg ld) /\
    limit g1 = None /\ names (src g1) = names (src (ld_cfg ld)) ++ [None]).
  { unfold next_sym, src_next in HN. injection HN as <- <-. unfold num_syms. simpl. repeat split; auto. apply HG. }
  destruct Ez as [Ez [En [Er [Eo [El Ename]]]]]. clear HN.
  assert (HC : closed_rules g1).
  { intros r Hr. rewrite Er in Hr. destruct (g_closed _ HG r Hr) as [H1 H2]. split; [lia|]. eapply Forall_impl; [|exact H2]. simpl. intros; lia. }
  assert (Hs : s < num_syms (ld_cfg ld)) by (apply HG; auto).
  set (q := mkSeq z s (kind_start k) None Null None).
  assert (HI : seq_in g1 q) by (unfold seq_in, q; simpl; repeat split; lia).
  assert (HV : valid_range q) by (split; [unfold q; destruct k; simpl; lia | unfold q; simpl; discriminate]).
  assert (HLim : good_limit (limit g1)) by (rewrite El; exact I).
  destruct (rewrite_ok' debug g1 q HC HLim HI HV) as [g' [H1 [H2 [H3 [H4 [H5 [H6 [H7 [H8 H9]]]]]]]]].
  exists g'. rewrite add_sequence_eq. split; auto. cbn zeta.
  pose proof (grows_num _ _ H2) as Hnum. destruct (gr_num _ _ H2) as [nk Hsrc].
  split; [|split; [rewrite (gr_roots _ _ H2); auto|]].
  { constructor; try apply HG; simpl; auto.
    - intros y Hy. apply (g_below _ HG) in Hy. simpl in *. lia.
    - intros y t Hy. pose proof (g_names _ HG y t Hy) as HNM. rewrite Hsrc. simpl.
      assert (Ht : t < List.length (names (src (ld_cfg ld)))) by (apply nth_error_Some; congruence).
      rewrite nth_error_app1 by (rewrite Ename, app_length; lia). rewrite Ename, nth_error_app1 by auto. exact HNM.
    - unfold num_syms. rewrite Hsrc. simpl. rewrite app_length, repeat_length, Ename, app_length, (g_source _ HG). simpl.
      unfold num_syms in *. lia.
    - rewrite (gr_limit _ _ H2). auto. }
  intros sym done zs HA HL.
  assert (HT : terminal (prods g1) z).
  { intros r [x [Hx [E _]]]. rewrite Er in Hx. destruct (g_closed _ HG x Hx) as [HX _]. lia. }
  destruct (H5 (fun _ => HT)) as [H5' _]. clear H5.
  destruct (fresh_spec sym ld done zs z HG HA HL (Nat.eq_le_incl _ _ (eq_sym Ez))) as [F1 F2].
  pose proof (prods_rules _ _ Er) as HP.
  set (R := fun (A : nat) (r : list nat) => A = z /\ exists n, r = repeat s n /\ (k = OneOrMore -> 1 <= n)).
  assert (HR : forall A r, and_sequences (prods g1) q A r <-> union (prods g1) R A r).
  { intros A r. unfold and_sequences, union, R, q, sequences, in_range, SpecSeq.repetition. simpl. split; intros [H|[-> [n Hn]]]; auto; right; split; auto; exists n.
    - destruct Hn as [[N1 N2] ->]. split; auto. intros ->. simpl in N1. lia.
    - destruct Hn as [-> N1]. split; auto. split; [destruct k; simpl; try lia; specialize (N1 eq_refl); lia | discriminate]. }
  assert (HW : forall A r, union (union (written_prods sym done) (kind_prods zs)) R A r <->
    union (written_prods sym done) (kind_prods (zs ++ [(z, (s, k))])) A r).
  { intros A r. unfold union, kind_prods, R. split.
    - intros [[H|[x [k' [n [N1 N2]]]]]|[-> [n N1]]]; auto; right.
      + exists x, k', n. split; auto. apply in_or_app. auto.
      + exists s, k, n. split; auto. apply in_or_app. simpl. auto.
    - intros [H|[x [k' [n [N1 N2]]]]]; auto. apply in_app_or in N1. destruct N1 as [N1|[N1|[]]].
      + left. right. exists x, k', n. auto.
      + injection N1 as <- <- <-. right. split; auto. exists n. auto. }
  assert (HSs : forall y, seen ld y -> y <> z) by (intros y Hy ->; apply (g_below _ HG) in Hy; lia).
  assert (HZ : forall y, hidden zs y -> y < z).
  { intros y Hy. apply in_map_iff in Hy. destruct Hy as [[z' [x k']] [<- Hy]]. simpl. apply (l_zs _ _ _ _ HL) in Hy. lia. }
  constructor.
  - simpl. unfold seen at 1 2. simpl. fold (seen ld).
    apply similar_trans with (E := union (prods g1) R).
    + intros u w Hu Hw.
      assert (Hu' : Forall (fun y => y < num_syms g1) u).
      { eapply Forall_impl; [|exact Hu]. simpl. intros y [Hy|Hy]; [apply (g_below _ HG) in Hy; lia|].
        unfold hidden in Hy. rewrite map_app in Hy. apply in_app_or in Hy. destruct Hy as [Hy|[<-|[]]]; [apply HZ in Hy; lia | simpl; lia]. }
      assert (Hw' : Forall (fun y => y < num_syms g1) w).
      { eapply Forall_impl; [|exact Hw]. simpl. intros y Hy. apply (g_below _ HG) in Hy. lia. }
      rewrite <- (derives_ext _ _ HR). split; intros HD.
      * apply H5'; auto. intros _ HIn. rewrite Forall_forall in Hw. exact (HSs z (Hw z HIn) eq_refl).
      * apply H4; auto.
    + apply similar_ext with (P := union (prods (ld_cfg ld)) R) (E := union (union (written_prods sym done) (kind_prods zs)) R);
        [|intros A r; unfold union; rewrite (HP A r); tauto|exact HW].
      eapply similar_weaken; [apply (similar_union _ _ R _ _ (similar_fresh _ _ _ _ z (l_sim _ _ _ _ HL) F1 F2))|..].
      * simpl. tauto.
      * intros A r [-> [n [-> _]]]. split; auto. apply Forall_forall. intros y Hy. apply repeat_spec in Hy. subst. auto.
      * simpl. intros y [Hy|Hy]; auto. unfold hidden in *. rewrite map_app in Hy. apply in_app_or in Hy.
        destruct Hy as [Hy|[<-|[]]]; auto.
      * simpl. auto.
  - rewrite map_app. simpl. rewrite <- (rev_involutive (map fst zs ++ [z])). apply NoDup_rev. rewrite rev_app_distr. simpl.
    constructor; [|apply NoDup_rev; apply HL]. rewrite <- in_rev. intros HI'. apply HZ in HI'. lia.
  - intros z' x k' Hz. unfold seen. simpl. apply in_app_or in Hz. destruct Hz as [Hz|[Hz|[]]].
    + destruct (l_zs _ _ _ _ HL z' x k' Hz) as [Z1 [Z2 Z3]]. split; auto. split; auto. lia.
    + injection Hz as <- <- <-. split; [intros HX; exact (HSs z HX eq_refl)|]. split; auto. lia.
  - exact (l_done _ _ _ _ HL).
  - simpl. intros y Hy. unfold seen. simpl. fold (seen ld y).
    destruct (Nat.lt_ge_cases y (num_syms g1)) as [HY|HY]; [|right; apply H9; lia].
    destruct (Nat.eq_dec y z) as [->|Hyz].
    + right. destruct (gr_rules _ _ H2) as [c Ec].
      assert (HNT : ~ terminal (prods g') z).
      { intros HT'. apply (H7 z) in HT'; [|lia]. apply (HT' (repeat s 1)). apply HR. right. split; auto. exists 1. auto. }
      destruct (in_dec Nat.eq_dec z (map lhs (rules g'))) as [HI'|HI'].
      * apply in_map_iff in HI'. destruct HI' as [x [Ex Hx]]. exists (rhs x), x. auto.
      * exfalso. apply HNT. intros r [x [Hx [E _]]]. apply HI'. apply in_map_iff. exists x. auto.
    + destruct (l_nt _ _ _ _ HL y) as [HX|HX]; auto; [lia|]. right. apply (nonterminal_grows g1 g' y H2).
      apply (nonterminal_ext _ _ y HP). auto.
  - simpl. unfold seen. simpl. fold (seen ld). intros y Hy. rewrite <- (l_left _ _ _ _ HL y Hy).
    split; intros HX.
    + destruct HX as [r [x [Hx [E1 E2]]]]. destruct H8 as [c [Ec Fc]]. rewrite Ec in Hx. apply in_app_or in Hx. destruct Hx as [Hx|Hx].
      * exists r, x. rewrite <- Er. auto.
      * rewrite Forall_forall in Fc. destruct (Fc x Hx) as [[HL1|HL1] _].
        -- exfalso. apply (HSs y Hy). subst y. exact HL1.
        -- exfalso. apply (g_below _ HG) in Hy. lia.
    + apply (nonterminal_grows g1 g' y H2). apply (nonterminal_ext _ _ y HP). auto.
Qed.
