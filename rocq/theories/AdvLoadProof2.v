(** The advanced loader: what the symbol of a fragment derives, now and later. *)

From Coq Require Import String Ascii List Arith NArith Bool Lia Permutation DecimalString DecimalNat.
From Verif Require Import Base ListFacts Spec SpecSeq SpecRegex SpecRemap GrammarFacts SymbolModel LoopModel LoopFacts HistoryModel
  CfgModel View SeqModel RegexModel RegexProof RegexProof2 RemapModel PropsSeq SpecLoad SpecAdv LoadModel LoadParseProof LoadProof
  AdvModel AdvRegexProof AdvEmbedProof AdvLoadProof.
Import ListNotations.
Local Open Scope list_scope.
Local Notation length := List.length.

(** * Names *)

Lemma lex_name_inj : forall i j, lex_name i = lex_name j -> i = j.
Proof.
  intros i j H. unfold lex_name in H. cbn [append] in H. injection H as H. unfold string_of_nat in H.
  apply (f_equal NilEmpty.uint_of_string) in H. rewrite !NilEmpty.usu in H. injection H as H. apply Unsigned.to_uint_inj. exact H.
Qed.

(** Not the name of a string. *)
Definition ordinary (x : string) : Prop := forall i, x <> lex_name i.

Lemma text_eqb_eq : forall a b, text_eqb a b = true <-> a = b.
Proof.
  induction a as [|x a IH]; intros [|y b]; cbn; try (split; congruence).
  rewrite andb_true_iff, N.eqb_eq, IH. split; [intros [-> ->]; reflexivity|intros H; injection H as -> ->; auto].
Qed.

Lemma text_index_some : forall l s i, text_index l s = Some i -> nth_error l i = Some s.
Proof.
  induction l as [|x l IH]; intros s i H; [discriminate|]. cbn in H. destruct (text_eqb x s) eqn:E.
  - apply text_eqb_eq in E. injection H as <-. subst. reflexivity.
  - destruct (text_index l s) as [j|] eqn:Ej; [|discriminate]. injection H as <-. cbn. apply IH. exact Ej.
Qed.
Lemma text_index_none : forall l s, text_index l s = None -> ~ In s l.
Proof.
  induction l as [|x l IH]; intros s H; [auto|]. cbn in H. destruct (text_eqb x s) eqn:E; [discriminate|].
  destruct (text_index l s) eqn:Ej; [discriminate|]. intros [->|Hin].
  - assert (text_eqb s s = true) by (apply text_eqb_eq; reflexivity). congruence.
  - exact (IH s Ej Hin).
Qed.

(** * Parts of the grammar *)

(** A symbol of a name that is written, or of a class. *)
Definition visible (a : adv_loader) (s : nat) : Prop :=
  (exists x, ordinary x /\ lookup (al_names a) x = Some s) \/ In s (map snd (al_classes a)).

(** All the productions of hidden symbols that some of them lead to. *)
Record part (a : adv_loader) (U : productions) : Prop := {
  p_in : forall A r, U A r -> prods (al_cfg a) A r;
  p_hidden : forall A r, U A r -> ~ visible a A;
  p_all : forall A r r', U A r -> prods (al_cfg a) A r' -> U A r';
  p_rhs : forall A r s r', U A r -> In s r -> ~ visible a s -> prods (al_cfg a) s r' -> U s r'
}.

Definition means (debug : bool) (rx : text -> option hir) (a : adv_loader) (U : productions) (f : adv_fragment) (s : nat) : Prop :=
  forall sym T, agrees (al_names a) sym -> incl (al_classes a) T -> NoDup (map fst T) ->
  forall w, language U s w <-> stands_for sym (char_symbol T) (token_symbol debug T) rx f w.

(** The symbol [s] stands for a fragment. *)
Definition placed (debug : bool) (rx : text -> option hir) (a : adv_loader) (f : adv_fragment) (s : nat) : Prop :=
  s < num_syms (al_cfg a) /\
  match f with
  | FName x Once => lookup (al_names a) x = Some s
  | _ => exists U, part a U /\ (visible a s \/ ~ visible a s /\ forall r, prods (al_cfg a) s r -> U s r) /\ means debug rx a U f s /\ (exists w, language U s w) /\
      (forall x k, f = FName x k -> lookup (al_names a) x <> None)
  end.

(** More names, classes and rules; a new rule has a new or a visible left-hand side, or is an old one again. *)
Record later (a a' : adv_loader) (c : list rule) : Prop := {
  la_rules : rules (al_cfg a') = rules (al_cfg a) ++ c;
  la_le : num_syms (al_cfg a) <= num_syms (al_cfg a');
  la_look : forall x s, lookup (al_names a) x = Some s -> lookup (al_names a') x = Some s;
  la_back : forall x s, lookup (al_names a') x = Some s -> lookup (al_names a) x = Some s \/ num_syms (al_cfg a) <= s;
  la_keep : incl (al_classes a) (al_classes a');
  la_new : forall k s, In (k, s) (al_classes a') -> In (k, s) (al_classes a) \/ num_syms (al_cfg a) <= s;
  la_lhs : Forall (fun x => num_syms (al_cfg a) <= lhs x \/ visible a' (lhs x) \/ prods (al_cfg a) (lhs x) (rhs x)) c
}.

Lemma later_of : forall a a' c, extends a a' c ->
  Forall (fun x => num_syms (al_cfg a) <= lhs x \/ visible a' (lhs x) \/ prods (al_cfg a) (lhs x) (rhs x)) c -> later a a' c.
Proof. intros a a' c H HL. constructor; try apply H. exact HL. Qed.

Lemma visible_later : forall a a' c s, later a a' c -> visible a s -> visible a' s.
Proof.
  intros a a' c s H [[x [Hx E]]|Hin].
  - left. exists x. split; [exact Hx|]. apply (la_look _ _ _ H). exact E.
  - right. apply in_map_iff in Hin. destruct Hin as [[k s'] [<- Hin]]. apply in_map_iff. exists (k, s'). split; [reflexivity|].
    apply (la_keep _ _ _ H). exact Hin.
Qed.
Lemma visible_back : forall a a' c s, later a a' c -> visible a' s -> s < num_syms (al_cfg a) -> visible a s.
Proof.
  intros a a' c s H [[x [Hx E]]|Hin] Hs.
  - left. exists x. split; [exact Hx|]. destruct (la_back _ _ _ H x s E) as [E1|E1]; [exact E1|lia].
  - right. apply in_map_iff in Hin. destruct Hin as [[k s'] [<- Hin]]. cbn in Hs. destruct (la_new _ _ _ H k s' Hin) as [E1|E1]; [|lia].
    apply in_map_iff. exists (k, s'). auto.
Qed.

Lemma prods_later : forall a a' c A r, later a a' c -> (prods (al_cfg a') A r <-> prods (al_cfg a) A r \/ rule_prods c A r).
Proof.
  intros a a' c A r H. unfold prods, rule_prods. rewrite (la_rules _ _ _ H). split.
  - intros [x [Hx [E1 E2]]]. apply in_app_or in Hx. destruct Hx as [Hx|Hx]; [left|right]; exists x; auto.
  - intros [[x [Hx [E1 E2]]]|[x [Hx [E1 E2]]]]; exists x; (split; [apply in_or_app; auto|auto]).
Qed.

Lemma prods_below : forall a A r, sound a -> prods (al_cfg a) A r -> A < num_syms (al_cfg a) /\ Forall (fun s => s < num_syms (al_cfg a)) r.
Proof.
  intros a A r HS [x [Hx [<- <-]]]. exact (g_closed _ (so_good _ HS) x Hx).
Qed.

Lemma prods_old : forall a a' c A r, sound a -> later a a' c -> A < num_syms (al_cfg a) -> ~ visible a A ->
  prods (al_cfg a') A r -> prods (al_cfg a) A r.
Proof.
  intros a a' c A r HS H HA HV HP. apply (prods_later _ _ _ _ _ H) in HP. destruct HP as [HP|[x [Hx [<- <-]]]]; [exact HP|].
  pose proof (la_lhs _ _ _ H) as HL. rewrite Forall_forall in HL. destruct (HL x Hx) as [H1|[H1|H1]]; [lia| |exact H1].
  exfalso. apply HV. exact (visible_back _ _ _ _ H H1 HA).
Qed.

Lemma part_later : forall a a' c U, sound a -> later a a' c -> part a U -> part a' U.
Proof.
  intros a a' c U HS H HP. constructor.
  - intros A r HU. apply (prods_later _ _ _ _ _ H). left. apply (p_in _ _ HP). exact HU.
  - intros A r HU HV. apply (p_hidden _ _ HP A r HU). eapply visible_back; eauto. apply (p_in _ _ HP) in HU. apply (prods_below _ _ _ HS HU).
  - intros A r r' HU HR. apply (p_all _ _ HP A r r' HU). eapply prods_old; eauto.
    + apply (p_in _ _ HP) in HU. apply (prods_below _ _ _ HS HU).
    + exact (p_hidden _ _ HP A r HU).
  - intros A r s r' HU Hs HV HR. assert (HVa : ~ visible a s) by (intros X; apply HV; eapply visible_later; eauto).
    apply (p_rhs _ _ HP A r s r' HU Hs HVa). eapply prods_old; eauto. apply (p_in _ _ HP) in HU.
    apply (prods_below _ _ _ HS) in HU. destruct HU as [_ HU]. rewrite Forall_forall in HU. apply HU. exact Hs.
Qed.

Lemma agrees_later : forall a a' c sym, later a a' c -> agrees (al_names a') sym -> agrees (al_names a) sym.
Proof. intros a a' c sym H HA x s E. apply HA. apply (la_look _ _ _ H). exact E. Qed.

Lemma placed_later : forall debug rx a a' c f s, sound a -> later a a' c -> placed debug rx a f s -> placed debug rx a' f s.
Proof.
  intros debug rx a a' c f s HS H [Hs HP]. pose proof (la_le _ _ _ H) as LE. split; [lia|].
  assert (G : (exists U, part a U /\ (visible a s \/ ~ visible a s /\ forall r, prods (al_cfg a) s r -> U s r) /\ means debug rx a U f s /\ (exists w, language U s w) /\
      (forall x k, f = FName x k -> lookup (al_names a) x <> None)) ->
    exists U, part a' U /\ (visible a' s \/ ~ visible a' s /\ forall r, prods (al_cfg a') s r -> U s r) /\ means debug rx a' U f s /\ (exists w, language U s w) /\
      (forall x k, f = FName x k -> lookup (al_names a') x <> None)).
  { intros [U [HU [HV [HM [HW HN]]]]]. exists U. split; [eapply part_later; eauto|]. split; [|split; [|split; [exact HW|]]].
    - destruct HV as [HV|[HV1 HV2]]; [left; eapply visible_later; eauto|]. right. split.
      + intros X. apply HV1. eapply visible_back; eauto.
      + intros r Hr. apply HV2. eapply prods_old; eauto.
    - intros sym T HA HI HN' w. apply HM; auto; [eapply agrees_later; eauto|].
      eapply incl_tran; [apply (la_keep _ _ _ H)|exact HI].
    - intros x k E. specialize (HN x k E). destruct (lookup (al_names a) x) as [y|] eqn:Ey; [|congruence].
      rewrite (la_look _ _ _ H x y Ey). discriminate. }
  destruct f as [x [| |]|t|func t]; try (apply G; exact HP). apply (la_look _ _ _ H). exact HP.
Qed.

Lemma later_refl : forall a, later a a [].
Proof. intros a. apply later_of; [apply extends_refl|constructor]. Qed.

Lemma later_trans : forall a b d c1 c2, later a b c1 -> later b d c2 -> later a d (c1 ++ c2).
Proof.
  intros a b d c1 c2 A B. pose proof (la_le _ _ _ A) as L1. pose proof (la_le _ _ _ B) as L2. constructor.
  - rewrite (la_rules _ _ _ B), (la_rules _ _ _ A), app_assoc. reflexivity.
  - lia.
  - intros x s H. apply (la_look _ _ _ B). apply (la_look _ _ _ A). exact H.
  - intros x s H. destruct (la_back _ _ _ B x s H) as [H1|H1]; [apply (la_back _ _ _ A); exact H1|right; lia].
  - intros p H. apply (la_keep _ _ _ B). apply (la_keep _ _ _ A). exact H.
  - intros k s H. destruct (la_new _ _ _ B k s H) as [H1|H1]; [apply (la_new _ _ _ A); exact H1|right; lia].
  - pose proof (la_lhs _ _ _ A) as LA. pose proof (la_lhs _ _ _ B) as LB. rewrite Forall_forall in LA, LB.
    assert (G : forall x, In x c1 -> num_syms (al_cfg a) <= lhs x \/ visible d (lhs x) \/ prods (al_cfg a) (lhs x) (rhs x)).
    { intros x Hx. destruct (LA x Hx) as [H|[H|H]]; auto. right. left. eapply visible_later; eauto. }
    apply Forall_forall. intros x Hx. apply in_app_or in Hx. destruct Hx as [Hx|Hx]; [exact (G x Hx)|].
    destruct (LB x Hx) as [H|[H|H]]; [left; lia|right; left; exact H|]. apply (prods_later _ _ _ _ _ A) in H.
    destruct H as [H|[y [Hy [E1 E2]]]]; [right; right; exact H|]. rewrite <- E1, <- E2. exact (G y Hy).
Qed.

(** * What a symbol derives *)

Definition nothing : productions := fun _ _ => False.
Lemma derives_nothing : forall u w, derives nothing u w -> u = w.
Proof. intros u w H. induction H as [|x A y r w HA]; [reflexivity|destruct HA]. Qed.

(** An interpretation of symbols that the productions keep to. *)
Lemma interpret : forall (P : productions) (F : nat -> list nat -> Prop), (forall A r v, P A r -> lift F r v -> F A v) ->
  (forall s, terminal P s -> F s [s]) -> forall A w, language P A w -> F A w.
Proof.
  intros P F HP HT A w [HD HW]. destruct (derives_subst P nothing F) with (a := [A]) (b := w) (v := w) as [u [U1 U2]]; auto.
  - intros B r v HB Hv. exists v. split; [eauto|constructor].
  - apply lift_id. intros s Hs. rewrite Forall_forall in HW. apply HT. apply HW. exact Hs.
  - apply derives_nothing in U2. subst u. apply lift_single in U1. exact U1.
Qed.

Lemma lift_two : forall F a b v, lift F [a; b] v -> exists x y, v = x ++ y /\ F a x /\ F b y.
Proof.
  intros F a b v H. apply (lift_app_inv F [a] [b]) in H. destruct H as [x [y [-> [H1 H2]]]]. apply lift_single in H1, H2. eauto.
Qed.

Lemma repeat_snoc : forall (x : nat) n, repeat x n ++ [x] = repeat x (S n).
Proof. intros x n. induction n as [|n IH]; [reflexivity|]. cbn in *. rewrite IH. reflexivity. Qed.

Section Repeat.
Context (U : productions) (z p : nat).

Lemma plus_language : z <> p -> (forall A r, U A r <-> (A = z /\ (r = [p] \/ r = [z; p]))) ->
  forall w, language U z w <-> exists n, 1 <= n /\ w = repeat p n.
Proof.
  intros Hzp HU w. split.
  - intros H. cut ((z = z /\ exists n, 1 <= n /\ w = repeat p n) \/ (z <> z /\ w = [z])).
    { intros [[_ X]|[X _]]; [exact X|congruence]. }
    apply (interpret U (fun A v => (A = z /\ exists n, 1 <= n /\ v = repeat p n) \/ (A <> z /\ v = [A]))); [| |exact H].
    + intros A r v HA Hv. apply HU in HA. destruct HA as [-> [->| ->]]; left; (split; [reflexivity|]).
      * apply lift_single in Hv. destruct Hv as [[X _]|[_ ->]]; [congruence|]. exists 1. auto.
      * apply lift_two in Hv. destruct Hv as [x [y [-> [[[_ [n [Hn ->]]]|[X _]] [[X2 _]|[_ ->]]]]]]; try congruence.
        exists (S n). split; [lia|]. apply repeat_snoc.
    + intros s Hs. right. split; [|reflexivity]. intros ->. apply (Hs [p]). apply HU. auto.
  - intros [n [Hn ->]]. split.
    + destruct n as [|n]; [lia|]. clear Hn. induction n as [|n IH].
      * apply derives_rule. apply HU. auto.
      * eapply derives_rule_then; [apply HU; split; [reflexivity|right; reflexivity]|]. rewrite <- repeat_snoc.
        apply (derives_app U [z] [p]); [exact IH|constructor].
    + apply Forall_forall. intros s Hs. apply repeat_spec in Hs. subst s. intros r Hr. apply HU in Hr. destruct Hr as [Hr _]. congruence.
Qed.

Lemma star_language : forall y, z <> p -> y <> p -> z <> y ->
  (forall A r, U A r <-> (A = z /\ (r = [] \/ r = [y]) \/ A = y /\ (r = [p] \/ r = [y; p]))) ->
  forall w, language U z w <-> exists n, w = repeat p n.
Proof.
  intros y Hzp Hyp Hzy HU w.
  set (F := fun (A : nat) (v : list nat) => (A = z /\ exists n, v = repeat p n) \/ (A = y /\ exists n, 1 <= n /\ v = repeat p n) \/
    (A <> z /\ A <> y /\ v = [A])). split.
  - intros H. cut (F z w).
    { intros [[_ X]|[[X _]|[X _]]]; [exact X|congruence|congruence]. }
    apply (interpret U F); [| |exact H].
    + intros A r v HA Hv. apply HU in HA. destruct HA as [[-> [->| ->]]|[-> [->| ->]]].
      * inversion Hv; subst. left. split; [reflexivity|]. exists 0. reflexivity.
      * apply lift_single in Hv. left. split; [reflexivity|].
        destruct Hv as [[X _]|[[_ [n [_ ->]]]|[_ [X _]]]]; [congruence|exists n; reflexivity|congruence].
      * apply lift_single in Hv. right. left. split; [reflexivity|].
        destruct Hv as [[X _]|[[X _]|[_ [_ ->]]]]; [congruence|congruence|]. exists 1. auto.
      * apply lift_two in Hv. right. left. split; [reflexivity|]. destruct Hv as [x [x' [-> [H1 H2]]]].
        destruct H2 as [[X _]|[[X _]|[_ [_ ->]]]]; [congruence|congruence|].
        destruct H1 as [[X _]|[[_ [n [_ ->]]]|[_ [X _]]]]; [congruence| |congruence]. exists (S n). split; [lia|apply repeat_snoc].
    + intros s Hs. right. right. split; [|split; [|reflexivity]]; intros ->.
      * apply (Hs []). apply HU. auto.
      * apply (Hs [p]). apply HU. auto.
  - intros [n ->]. split.
    + destruct n as [|n]; [apply derives_rule; apply HU; auto|].
      eapply derives_rule_then; [apply HU; left; split; [reflexivity|right; reflexivity]|]. induction n as [|n IH].
      * apply derives_rule. apply HU. auto.
      * eapply derives_rule_then; [apply HU; right; split; [reflexivity|right; reflexivity]|]. rewrite <- repeat_snoc.
        apply (derives_app U [y] [p]); [exact IH|constructor].
    + apply Forall_forall. intros s Hs. apply repeat_spec in Hs. subst s. intros r Hr. apply HU in Hr.
      destruct Hr as [[Hr _]|[Hr _]]; congruence.
Qed.

(** A single production. *)
Lemma single_language : forall child, ~ In z child -> (forall A r, U A r <-> (A = z /\ r = child)) ->
  forall w, language U z w <-> w = child.
Proof.
  intros child Hz HU w. split.
  - intros [HD HW]. apply derives_single_inv in HD. destruct HD as [->|[r [Hr HD]]].
    + inversion HW as [|? ? X _]; subst. exfalso. apply (X child). apply HU. auto.
    + apply HU in Hr. destruct Hr as [_ ->]. symmetry. apply derives_terminal_inv in HD; [congruence|].
      apply Forall_forall. intros s Hs r Hr. apply HU in Hr. destruct Hr as [-> _]. contradiction.
  - intros ->. split; [apply derives_rule; apply HU; auto|]. apply Forall_forall. intros s Hs r Hr. apply HU in Hr.
    destruct Hr as [-> _]. contradiction.
Qed.
End Repeat.

(** * The invariant *)

Definition single (z : nat) (child : list nat) : productions := fun A r => A = z /\ r = child.

(** [L]: the symbols that were declared to be lexical. *)
Record inv (a : adv_loader) (L : list nat) : Prop := {
  i_sound : sound a;
  i_names : forall x s, lookup (al_names a) x = Some s -> ordinary x \/ exists i, i < length (al_strings a) /\ x = lex_name i;
  i_strings : forall i t, nth_error (al_strings a) i = Some t -> exists z child, lookup (al_names a) (lex_name i) = Some z /\
    part a (single z child) /\ Forall2 (char_symbol (al_classes a)) t child;
  i_distinct : NoDup (al_strings a);
  i_lexical : forall s, In s (al_lexical a) <-> In s L \/ exists i, i < length (al_strings a) /\ lookup (al_names a) (lex_name i) = Some s
}.

Lemma chars_incl : forall (t t' : class_table) s w, incl t t' -> Forall2 (char_symbol t) s w -> Forall2 (char_symbol t') s w.
Proof. intros t t' s w HI H. induction H as [|c x l l' H1 H2 IH]; constructor; auto. apply HI. exact H1. Qed.

Lemma chars_unique : forall (t : class_table) s w, NoDup (map fst t) -> Forall2 (char_symbol t) s w ->
  forall w', Forall2 (char_symbol t) s w' -> w' = w.
Proof.
  intros t s w HN H. induction H as [|c x l l' H1 H2 IH]; intros w' H'; inversion H'; subst; [reflexivity|].
  f_equal; [|apply IH; assumption]. eapply keys_inj; eauto.
Qed.

(** The symbols of characters have classes. *)
Lemma chars_classes : forall (t : class_table) s w x, Forall2 (char_symbol t) s w -> In x w -> In x (map snd t).
Proof.
  intros t s w x H. induction H as [|c y l l' H1 H2 IH]; intros Hx; [contradiction|]. destruct Hx as [->|Hx]; [|auto].
  apply (in_map snd) in H1. exact H1.
Qed.

Lemma inv_later : forall a a' c L, inv a L -> sound a' -> later a a' c -> al_strings a' = al_strings a -> al_lexical a' = al_lexical a ->
  (forall x s, lookup (al_names a') x = Some s -> lookup (al_names a) x = Some s \/ ordinary x) -> inv a' L.
Proof.
  intros a a' c L HI HS HL E1 E2 HB. constructor.
  - exact HS.
  - rewrite E1. intros x s H. destruct (HB x s H) as [H1|H1]; [|left; exact H1]. exact (i_names _ _ HI x s H1).
  - rewrite E1. intros i t H. destruct (i_strings _ _ HI i t H) as [z [child [H1 [H2 H3]]]]. exists z, child.
    split; [apply (la_look _ _ _ HL); exact H1|]. split; [exact (part_later _ _ _ _ (i_sound _ _ HI) HL H2)|].
    exact (chars_incl _ _ _ _ (la_keep _ _ _ HL) H3).
  - rewrite E1. apply HI.
  - rewrite E1, E2. intros s. rewrite (i_lexical _ _ HI s). split; (intros [H|[i [H1 H2]]]; [left; exact H|right; exists i; split; [exact H1|]]).
    + apply (la_look _ _ _ HL). exact H2.
    + destruct (HB _ _ H2) as [H3|H3]; [exact H3|]. exfalso. exact (H3 i eq_refl).
Qed.

Lemma visible_named : forall a x s, sound a -> lookup (al_names a) x = Some s -> visible a s -> ordinary x.
Proof.
  intros a x s HS E [[y [Hy E2]]|Hin].
  - rewrite (lookup_inj _ _ _ _ (so_good _ HS) E E2). exact Hy.
  - exfalso. exact (so_apart _ HS s (lookup_seen _ _ _ E) Hin).
Qed.

Lemma fresh_hidden : forall a a' s, fresh a a' s -> ~ visible a' s.
Proof.
  intros a a' s [_ [H1 H2]] [[x [_ E]]|Hin]; [|contradiction]. apply H1. exact (lookup_seen _ _ _ E).
Qed.

(** The productions of new rules, when all of their left-hand sides are new. *)
Lemma part_new : forall a a' c, sound a -> later a a' c -> Forall (fun x => fresh a a' (lhs x)) c ->
  Forall (fun x => Forall (fun y => visible a' y \/ num_syms (al_cfg a) <= y) (rhs x)) c -> part a' (rule_prods c).
Proof.
  intros a a' c HS HL HF HR. rewrite Forall_forall in HF, HR.
  assert (N : forall A r, num_syms (al_cfg a) <= A -> prods (al_cfg a') A r -> rule_prods c A r).
  { intros A r HA HP. apply (prods_later _ _ _ _ _ HL) in HP. destruct HP as [HP|HP]; [|exact HP].
    apply (prods_below _ _ _ HS) in HP. lia. }
  constructor.
  - intros A r H. apply (prods_later _ _ _ _ _ HL). right. exact H.
  - intros A r [x [Hx [<- _]]]. eapply fresh_hidden. exact (HF x Hx).
  - intros A r r' [x [Hx [<- _]]] HP. apply N; [|exact HP]. destruct (HF x Hx) as [H _]. exact H.
  - intros A r s r' [x [Hx [<- <-]]] Hs HV HP. specialize (HR x Hx). rewrite Forall_forall in HR. destruct (HR s Hs) as [H|H]; [contradiction|].
    apply N; assumption.
Qed.

Lemma pairs_prods : forall c l, map pair_of c = l -> forall A r, rule_prods c A r <-> In (A, r) l.
Proof.
  intros c l E A r. subst l. unfold rule_prods. rewrite in_map_iff. split.
  - intros [x [Hx [<- <-]]]. exists x. auto.
  - intros [x [E Hx]]. injection E as <- <-. exists x. auto.
Qed.
Lemma pairs_forall : forall (Q : nat -> list nat -> Prop) c l, map pair_of c = l -> Forall (fun p => Q (fst p) (snd p)) l -> Forall (fun x => Q (lhs x) (rhs x)) c.
Proof.
  intros Q c l E H. subst l. rewrite Forall_map in H. exact H.
Qed.

Lemma tokens_incl : forall debug (t t' : class_table) s w, incl t t' -> Forall2 (token_symbol debug t) s w -> Forall2 (token_symbol debug t') s w.
Proof.
  intros debug t t' s w HI H. induction H as [|c x l l' [k [H1 H1']] H2 IH]; constructor; auto. exists k. split; [exact H1|]. apply HI. exact H1'.
Qed.
Lemma tokens_back : forall debug (t t' : class_table) s w, incl t t' -> NoDup (map fst t') ->
  Forall (fun x => exists y, token_symbol debug t x y) s -> Forall2 (token_symbol debug t') s w -> Forall2 (token_symbol debug t) s w.
Proof.
  intros debug t t' s w HI HN HC H. induction H as [|c x l l' [k [H1 H1']] H2 IH]; [constructor|].
  inversion HC as [|? ? [y [k2 [C1 C2]]] C3]; subst. constructor; [|apply IH; exact C3].
  assert (k2 = k) by congruence. subst k2. rewrite (keys_inj _ _ _ _ HN H1' (HI _ C2)). exists k. auto.
Qed.

Lemma covered_word : forall debug t ts, Forall (fun x => exists y, token_symbol debug t x y) ts -> exists w, Forall2 (token_symbol debug t) ts w.
Proof.
  intros debug t ts H. induction H as [|x ts [y Hy] _ [w Hw]]; [exists []; constructor|]. exists (y :: w). constructor; assumption.
Qed.

(** A supported expression matches something. *)
Lemma supported_matches : forall h, supported h -> exists ts, matches h ts.
Proof.
  intros h. induction h using hir_ind'; intros HS; inversion HS; subst.
  - exists []. constructor.
  - eexists. constructor.
  - eexists. constructor.
  - match goal with A : counts_fit ?a ?b, B : supported ?c |- _ => destruct A as [_ HM]; destruct (IHh B) as [ts Hts] end. exists (concat (repeat ts (N.to_nat mi))). constructor.
    + rewrite repeat_length, N2Nat.id. lia.
    + intros m E. rewrite repeat_length, N2Nat.id. specialize (HM m E). lia.
    + apply Forall_forall. intros x Hx. apply repeat_spec in Hx. subst. exact Hts.
  - destruct (IHh H0) as [ts Hts]. exists ts. constructor. exact Hts.
  - assert (HP : exists parts, Forall2 matches l parts).
    { clear HS. induction l as [|h l IHl]; [exists []; constructor|]. inversion H; subst. inversion H1; subst.
      destruct IHl as [parts Hp]; auto. destruct (H3 H5) as [ts Hts]. exists (ts :: parts). constructor; assumption. }
    destruct HP as [parts Hp]. exists (concat parts). constructor. exact Hp.
  - destruct l as [|h l]; [congruence|]. inversion H; subst. inversion H2; subst. destruct (H4 H6) as [ts Hts]. exists ts.
    apply (m_alternation _ h); [left; reflexivity|exact Hts].
Qed.

Definition plain_fragment (f : adv_fragment) : Prop := match f with FName x _ => ordinary x | _ => True end.

Lemma fragment_step : forall debug rx a L xf, inv a L -> frag_ok rx (xf_frag xf) -> plain_fragment (xf_frag xf) -> exists s a' c,
  adv_load_fragment debug rx a xf = Ok (inl (s, a')) /\ inv a' L /\ later a a' c /\ roots (al_cfg a') = roots (al_cfg a) /\
  placed debug rx a' (xf_frag xf) s /\ Forall (fun x => helper_hist (hist x) /\ ~ visible a' (lhs x)) c /\
  (forall t, In t (al_strings a') <-> In t (al_strings a) \/ xf_frag xf = FString t).
Proof.
  intros debug rx a L xf HI HF HP. pose proof (i_sound _ _ HI) as HS.
  destruct (fragment_ok debug rx a xf HS HF) as [s [a' [c [E [HS' [HX [Hs [HH [HA HB]]]]]]]]].
  exists s, a', c. split; [exact E|]. clear E. destruct (xf_frag xf) as [x k|t|func t]; cbn [added plain_fragment new_name] in *.
  - destruct HA as [A1 [A2 [p [A3 A4]]]].
    assert (HB' : forall y u, lookup (al_names a') y = Some u -> lookup (al_names a) y = Some u \/ ordinary y).
    { intros y u H. destruct (HB y u H) as [H1|H1]; [left; exact H1|right]. injection H1 as <-. exact HP. }
    assert (ST : forall t, In t (al_strings a') <-> In t (al_strings a) \/ FName x k = FString t).
    { intros t. rewrite A1. split; [auto|]. intros [H|H]; [exact H|discriminate]. }
    assert (VP : visible a' p) by (left; exists x; auto).
    assert (SP : seen (al_names a') p) by exact (lookup_seen _ _ _ A3).
    destruct k.
    + destruct A4 as [-> ->]. assert (HL : later a a' []) by (apply later_of; [exact HX|constructor]).
      split; [apply (inv_later _ _ _ _ HI HS' HL A1 A2 HB')|]. split; [exact HL|]. split; [apply HX|].
      split; [split; [exact Hs|exact A3]|]. split; [constructor|exact ST].
    + destruct A4 as [y [F1 [F2 [Hne [Hy EC]]]]].
      assert (HC : Forall (fun x => fresh a a' (lhs x)) c).
      { apply (pairs_forall (fun l r => fresh a a' l) _ _ EC). repeat (constructor; [cbn; assumption|]). constructor. }
      assert (HL : later a a' c).
      { apply later_of; [exact HX|]. eapply Forall_impl; [|exact HC]. cbn. intros z [Hz _]. left. exact Hz. }
      assert (HNp : forall z, fresh a a' z -> z <> p) by (intros z [_ [Hz _]] ->; contradiction).
      split; [apply (inv_later _ _ _ _ HI HS' HL A1 A2 HB')|]. split; [exact HL|]. split; [apply HX|].
      split; [|split; [|exact ST]].
      * assert (LG : forall w, language (rule_prods c) s w <-> exists n, w = repeat p n).
        { apply (star_language (rule_prods c) s p y (HNp s F1) (HNp y F2) Hne). intros A r. rewrite (pairs_prods c _ EC A r). cbn. split.
          - intros [H|[H|[H|[H|[]]]]]; injection H as <- <-; auto.
          - intros [[-> [->| ->]]|[-> [->| ->]]]; auto. }
        split; [exact Hs|]. exists (rule_prods c). split; [|split; [|split; [|split; [exists []; apply LG; exists 0; reflexivity|]]]].
        -- apply (part_new a a' c HS HL HC). apply (pairs_forall (fun l r => Forall _ r) _ _ EC).
           assert (N1 : num_syms (al_cfg a) <= y) by apply F2.
           repeat (constructor; [cbn [snd]; repeat (constructor; [auto|]); constructor|]). constructor.
        -- right. split; [exact (fresh_hidden _ _ _ F1)|]. intros r Hr. apply (prods_later _ _ _ _ _ HL) in Hr.
           destruct Hr as [Hr|Hr]; [|exact Hr]. apply (prods_below _ _ _ HS) in Hr. destruct F1 as [F1 _]. lia.
        -- intros sym T HG HT HN w. rewrite LG.
           split; [intros [n ->]; rewrite <- (HG x p A3); constructor|]. intros H. inversion H; subst. rewrite (HG x p A3). eauto.
        -- intros x0 k0 Ex. injection Ex as <- <-. congruence.
      * rewrite Forall_forall in *. intros z Hz. split; [exact (HH z Hz)|]. exact (fresh_hidden _ _ _ (HC z Hz)).
    + destruct A4 as [F1 EC].
      assert (HC : Forall (fun x => fresh a a' (lhs x)) c).
      { apply (pairs_forall (fun l r => fresh a a' l) _ _ EC). repeat (constructor; [cbn; assumption|]). constructor. }
      assert (HL : later a a' c).
      { apply later_of; [exact HX|]. eapply Forall_impl; [|exact HC]. cbn. intros z [Hz _]. left. exact Hz. }
      assert (HNp : forall z, fresh a a' z -> z <> p) by (intros z [_ [Hz _]] ->; contradiction).
      split; [apply (inv_later _ _ _ _ HI HS' HL A1 A2 HB')|]. split; [exact HL|]. split; [apply HX|].
      split; [|split; [|exact ST]].
      * assert (LG : forall w, language (rule_prods c) s w <-> exists n, 1 <= n /\ w = repeat p n).
        { apply (plus_language (rule_prods c) s p (HNp s F1)). intros A r. rewrite (pairs_prods c _ EC A r). cbn. split.
          - intros [H|[H|[]]]; injection H as <- <-; auto.
          - intros [-> [->| ->]]; auto. }
        split; [exact Hs|]. exists (rule_prods c). split; [|split; [|split; [|split; [exists [p]; apply LG; exists 1; auto|]]]].
        -- apply (part_new a a' c HS HL HC). apply (pairs_forall (fun l r => Forall _ r) _ _ EC).
           assert (N1 : num_syms (al_cfg a) <= s) by apply F1.
           repeat (constructor; [cbn [snd]; repeat (constructor; [auto|]); constructor|]). constructor.
        -- right. split; [exact (fresh_hidden _ _ _ F1)|]. intros r Hr. apply (prods_later _ _ _ _ _ HL) in Hr.
           destruct Hr as [Hr|Hr]; [|exact Hr]. apply (prods_below _ _ _ HS) in Hr. destruct F1 as [F1 _]. lia.
        -- intros sym T HG HT HN w. rewrite LG.
           split; [intros [n [Hn ->]]; rewrite <- (HG x p A3); constructor; exact Hn|]. intros H. inversion H; subst. rewrite (HG x p A3). eauto.
        -- intros x0 k0 Ex. injection Ex as <- <-. congruence.
      * rewrite Forall_forall in *. intros z Hz. split; [exact (HH z Hz)|]. exact (fresh_hidden _ _ _ (HC z Hz)).
  - destruct HA as [A1 [A2 [A3 [child [A4 EC]]]]]. unfold string_id, intern_text in A1, A3, HB.
    assert (NV : ~ visible a' s).
    { intros X. apply (visible_named _ _ _ HS' A3) in X. exact (X _ eq_refl). }
    assert (NC : ~ In s child).
    { intros X. apply (chars_classes _ _ _ _ A4) in X. apply NV. right. exact X. }
    assert (HH2 : Forall (fun x => helper_hist (hist x) /\ ~ visible a' (lhs x)) c).
    { pose proof (pairs_forall (fun l r => l = s) c _ EC ltac:(constructor; [reflexivity|constructor])) as HC.
      rewrite Forall_forall in *. intros z Hz. split; [exact (HH z Hz)|]. rewrite (HC z Hz). exact NV. }
    assert (HW : exists w, language (single s child) s w).
    { exists child. apply (single_language (single s child) s child NC); [intros; reflexivity|reflexivity]. }
    assert (HM : means debug rx a' (single s child) (FString t) s).
    { intros sym T HG HT HN w. rewrite (single_language (single s child) s child NC) by (intros; reflexivity). split.
      - intros ->. constructor. exact (chars_incl _ _ _ _ HT A4).
      - intros H. inversion H as [| | |s' w' H2|]; subst. apply (chars_unique T t child HN); [exact (chars_incl _ _ _ _ HT A4)|exact H2]. }
    destruct (text_index (al_strings a) t) as [i|] eqn:Ei; cbn [fst snd] in A1, A3, HB.
    + pose proof (text_index_some _ _ _ Ei) as Hi. destruct (i_strings _ _ HI i t Hi) as [z [child0 [B1 [B2 B3]]]].
      assert (z = s) by (apply (ex_look _ _ _ HX) in B1; congruence). subst z.
      assert (child0 = child).
      { apply (chars_unique (al_classes a') t child); [apply (t_keys _ _ (so_table _ HS'))|exact A4|].
        exact (chars_incl _ _ _ _ (ex_keep _ _ _ HX) B3). }
      subst child0.
      assert (HL : later a a' c).
      { apply later_of; [exact HX|]. apply (pairs_forall (fun l r => _ <= l \/ visible a' l \/ prods _ l r) c _ EC).
        constructor; [|constructor]. right. right. apply (p_in _ _ B2). split; reflexivity. }
      assert (HB' : forall y u, lookup (al_names a') y = Some u -> lookup (al_names a) y = Some u).
      { intros y u H. destruct (HB y u H) as [H1|H1]; [exact H1|]. injection H1 as <-. congruence. }
      assert (HI' : inv a' L).
      { constructor.
        - exact HS'.
        - rewrite A1. intros x u H. exact (i_names _ _ HI x u (HB' x u H)).
        - rewrite A1. intros j u H. destruct (i_strings _ _ HI j u H) as [z [ch [H1 [H2 H3]]]]. exists z, ch.
          split; [apply (la_look _ _ _ HL); exact H1|]. split; [exact (part_later _ _ _ _ HS HL H2)|].
          exact (chars_incl _ _ _ _ (la_keep _ _ _ HL) H3).
        - rewrite A1. apply HI.
        - rewrite A1, A2. intros u. cbn [In]. rewrite (i_lexical _ _ HI u). split.
          + intros [<-|[H|[j [H1 H2]]]]; [right; exists i|left; exact H|right; exists j].
            * split; [apply nth_error_Some; congruence|exact A3].
            * split; [exact H1|]. apply (la_look _ _ _ HL). exact H2.
          + intros [H|[j [H1 H2]]]; [right; left; exact H|]. right. right. exists j. split; [exact H1|]. apply HB'. exact H2. }
      split; [exact HI'|]. split; [exact HL|]. split; [apply HX|]. split; [|split; [exact HH2|]].
      * split; [exact Hs|]. exists (single s child). pose proof (part_later _ _ _ _ HS HL B2) as PL. split; [exact PL|].
        split; [|split; [exact HM|split; [exact HW|intros; discriminate]]]. right. split; [exact NV|]. intros r Hr. exact (p_all _ _ PL s child r (conj eq_refl eq_refl) Hr).
      * intros u. rewrite A1. split; [auto|]. intros [H|H]; [exact H|]. injection H as <-. eapply nth_error_In; eauto.
    + assert (Fs : num_syms (al_cfg a) <= s).
      { destruct (ex_back _ _ _ HX _ _ A3) as [H|H]; [|exact H]. exfalso. destruct (i_names _ _ HI _ _ H) as [H1|[j [H1 H2]]].
        - exact (H1 _ eq_refl).
        - apply lex_name_inj in H2. lia. }
      assert (HL : later a a' c).
      { apply later_of; [exact HX|]. apply (pairs_forall (fun l r => _ <= l \/ visible a' l \/ prods _ l r) c _ EC).
        constructor; [|constructor]. left. exact Fs. }
      assert (PS : part a' (single s child)).
      { assert (N : forall r, prods (al_cfg a') s r -> r = child).
        { intros r Hr. apply (prods_later _ _ _ _ _ HL) in Hr. destruct Hr as [Hr|Hr]; [apply (prods_below _ _ _ HS) in Hr; lia|].
          apply (pairs_prods c _ EC) in Hr. destruct Hr as [Hr|[]]. congruence. }
        constructor.
        - intros A r [-> ->]. apply (prods_later _ _ _ _ _ HL). right. apply (pairs_prods c _ EC). left. reflexivity.
        - intros A r [-> _]. exact NV.
        - intros A r r' [-> ->] Hr. split; [reflexivity|exact (N r' Hr)].
        - intros A r u r' [-> ->] Hu HV Hr. exfalso. apply HV. right. exact (chars_classes _ _ _ _ A4 Hu). }
      assert (HI' : inv a' L).
      { constructor.
        - exact HS'.
        - rewrite A1, app_length. intros x u H. cbn [length]. destruct (HB x u H) as [H1|H1].
          + destruct (i_names _ _ HI x u H1) as [H2|[j [H2 H3]]]; [left; exact H2|right; exists j; split; [lia|exact H3]].
          + injection H1 as <-. right. exists (length (al_strings a)). split; [lia|reflexivity].
        - rewrite A1. intros j u H. destruct (Nat.lt_ge_cases j (length (al_strings a))) as [Hj|Hj].
          + rewrite nth_error_app1 in H by exact Hj. destruct (i_strings _ _ HI j u H) as [z [ch [H1 [H2 H3]]]]. exists z, ch.
            split; [apply (la_look _ _ _ HL); exact H1|]. split; [exact (part_later _ _ _ _ HS HL H2)|].
            exact (chars_incl _ _ _ _ (la_keep _ _ _ HL) H3).
          + rewrite nth_error_app2 in H by exact Hj. destruct (j - length (al_strings a)) as [|d] eqn:Ed; [|destruct d; discriminate].
            cbn in H. injection H as <-. assert (j = length (al_strings a)) by lia. subst j. exists s, child. auto.
        - rewrite A1. rewrite <- (rev_involutive (al_strings a ++ [t])). apply NoDup_rev. rewrite rev_app_distr. cbn. constructor.
          + rewrite <- in_rev. exact (text_index_none _ _ Ei).
          + apply NoDup_rev. apply HI.
        - rewrite A1, A2, app_length. intros u. cbn [In length]. rewrite (i_lexical _ _ HI u). split.
          + intros [<-|[H|[j [H1 H2]]]]; [right; exists (length (al_strings a))|left; exact H|right; exists j].
            * split; [lia|exact A3].
            * split; [lia|]. apply (la_look _ _ _ HL). exact H2.
          + intros [H|[j [H1 H2]]]; [right; left; exact H|]. destruct (HB _ _ H2) as [H3|H3].
            * right. right. destruct (i_names _ _ HI _ _ H3) as [H4|[j' [H4 H5]]]; [exfalso; exact (H4 _ eq_refl)|].
              apply lex_name_inj in H5. subst j'. exists j. auto.
            * assert (H4 : lex_name (length (al_strings a)) = lex_name j) by congruence. apply lex_name_inj in H4. subst j. left. congruence. }
      split; [exact HI'|]. split; [exact HL|]. split; [apply HX|]. split; [|split; [exact HH2|]].
      * split; [exact Hs|]. exists (single s child). split; [exact PS|].
        split; [|split; [exact HM|split; [exact HW|intros; discriminate]]]. right. split; [exact NV|]. intros r Hr. exact (p_all _ _ PS s child r (conj eq_refl eq_refl) Hr).
      * intros u. rewrite A1, in_app_iff. cbn. split; (intros [H|H]; [left; exact H|right]); [destruct H as [->|[]]; reflexivity|injection H as ->; auto].
  - destruct HA as [A1 [A2 [h [Eh [Hh [HC [Hs2 [Cov HLang]]]]]]]].
    assert (HB' : forall y u, lookup (al_names a') y = Some u -> lookup (al_names a) y = Some u \/ ordinary y).
    { intros y u H. destruct (HB y u H) as [H1|H1]; [left; exact H1|discriminate]. }
    assert (HL : later a a' c).
    { apply later_of; [exact HX|]. eapply Forall_impl; [|exact HC]. cbn. intros z [[Hz _] _]. left. exact Hz. }
    assert (HW : exists w, language (rule_prods c) s w).
    { destruct (supported_matches h Hh) as [ts Hts]. destruct (covered_word _ _ ts (Cov ts Hts)) as [w Hw]. exists w. apply HLang. eauto. }
    split; [apply (inv_later _ _ _ _ HI HS' HL A1 A2 HB')|]. split; [exact HL|]. split; [apply HX|]. split; [|split].
    + split; [exact Hs|]. exists (rule_prods c). split; [|split; [|split; [|split; [exact HW|intros; discriminate]]]].
      * apply (part_new a a' c HS HL).
        -- eapply Forall_impl; [|exact HC]. cbn. tauto.
        -- eapply Forall_impl; [|exact HC]. cbn beta. intros z [_ Hz]. eapply Forall_impl; [|exact Hz]. cbn beta. intros y [Hy|Hy]; [right; exact Hy|].
           left. right. exact Hy.
      * destruct Hs2 as [F|F]; [right|left; right; exact F]. split; [exact (fresh_hidden _ _ _ F)|].
        intros r Hr. apply (prods_later _ _ _ _ _ HL) in Hr.
        destruct Hr as [Hr|Hr]; [|exact Hr]. apply (prods_below _ _ _ HS) in Hr. destruct F as [F _]. lia.
      * intros sym T HG HT HN w. rewrite HLang. split.
        -- intros [ts [M1 M2]]. apply (sf_call _ _ _ _ func t h ts w Eh M1). exact (tokens_incl _ _ _ _ _ HT M2).
        -- intros H. inversion H as [| | | |f' s' h' ts w' H1 H2 H3]; subst. assert (h' = h) by congruence. subst h'. exists ts.
           split; [exact H2|]. exact (tokens_back _ _ _ _ _ HT HN (Cov ts H2) H3).
    + rewrite Forall_forall in *. intros z Hz. split; [exact (HH z Hz)|]. apply (fresh_hidden a). apply (HC z Hz).
    + intros u. rewrite A1. split; [auto|]. intros [H|H]; [exact H|discriminate].
Qed.
