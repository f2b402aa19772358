(** Properties C50, C51 and C67-C69: regular expressions. *)

From Coq Require Import List Arith NArith Bool Lia Sorted.
From Verif Require Import Base ListFacts Spec SpecSeq SpecRegex GrammarFacts SymbolModel LoopModel HistoryModel
  CfgModel View CfgProof SeqModel RegexModel LexProof RegexProof RegexProof2.
Import ListNotations.
Local Notation length := List.length.

(** A table of classes and their symbols, as [LexerClasses::from(Class)] stores the classes. *)
Definition table_of (t : list (list (N * N) * nat)) : class_table :=
  map (fun p => (classes_of_class (fst p), snd p)) t.

(** A range that starts outside of ASCII or ends before 256, and whose end is followed by a
    character. *)
Definition usual_range (r : N * N) : Prop :=
  (fst r < 128 -> snd r < 256)%N /\ is_char (snd r + 1).

Lemma table_of_canonical : forall t, Forall (fun p => canonical (fst p)) t -> table_of t = t.
Proof.
  induction t as [|[rs s] t]; intros H; [reflexivity|]. inversion H; subst. simpl. rewrite IHt by auto.
  rewrite canonical_id by auto. reflexivity.
Qed.

(** * C50 *)

(** After [compute], [get(ch)] lists each symbol whose class contains [ch], once, and no other,
    if no two classes have the same symbol and [compute] does not panic. *)
Theorem C50_get_partial : forall t lm lm' ch,
  Forall (fun p => canonical (fst p)) t -> NoDup (map snd t) ->
  lm_classes lm = table_of t -> compute lm = Ok lm' ->
  exists l, lexer_get lm' ch = Ok l /\ NoDup l /\
    forall s, In s l <-> exists ranges, In (ranges, s) t /\ in_ranges ranges ch.
Proof.
  intros t lm lm' ch HC HN HL HK. rewrite table_of_canonical in HL by auto.
  pose proof (compute_handled _ _ HK) as HH.
  rewrite <- HL in HC, HN. destruct (get_spec lm lm' ch HH HC HN HK) as [l [E1 [E2 E3]]].
  exists l. rewrite <- HL. auto.
Qed.
Print Assumptions C50_get_partial.

(** The stored class has the ranges of the given one, and does not depend on their order or repetition. *)
Definition range_lt (a b : N * N) : Prop := (fst a < fst b \/ fst a = fst b /\ snd a < snd b)%N.

Lemma range_lt_iff : forall a b, range_compare a b = Lt <-> range_lt a b.
Proof.
  intros [a1 a2] [b1 b2]. unfold range_lt, range_compare. cbn [fst snd]. destruct (N.compare_spec a1 b1); try (split; intros; [congruence|lia]);
    try (split; intros; [lia|reflexivity]). subst. destruct (N.compare_spec a2 b2); split; intros; try lia; try congruence.
Qed.
Lemma range_gt : forall a b, range_compare a b = Gt -> range_lt b a.
Proof.
  intros [a1 a2] [b1 b2] H. unfold range_lt. unfold range_compare in H. cbn [fst snd] in *. destruct (N.compare_spec a1 b1); try discriminate; [|lia].
  subst. destruct (N.compare_spec a2 b2); try discriminate. lia.
Qed.
Lemma range_insert_in : forall r l x, In x (range_insert r l) <-> x = r \/ In x l.
Proof.
  intros r. induction l as [|y l IH]; intros x; cbn [range_insert]; [cbn; intuition|].
  destruct (range_compare r y) eqn:E.
  - apply range_compare_eq in E. subst y. cbn. intuition.
  - cbn. intuition.
  - cbn [In]. rewrite IH. intuition.
Qed.
Lemma range_insert_sorted : forall r l, StronglySorted range_lt l -> StronglySorted range_lt (range_insert r l).
Proof.
  intros r l H. induction H as [|y l H IH HF]; cbn [range_insert]; [repeat constructor|].
  destruct (range_compare r y) eqn:E.
  - constructor; auto.
  - constructor; [constructor; auto|]. apply range_lt_iff in E. constructor; [exact E|]. eapply Forall_impl; [|exact HF]. intros x Hx.
    unfold range_lt in *. lia.
  - constructor; auto. apply Forall_forall. intros x Hx. apply range_insert_in in Hx. destruct Hx as [->|Hx]; [apply range_gt; auto|].
    rewrite Forall_forall in HF. auto.
Qed.
Lemma classes_in_sorted : forall l, (forall r, In r (classes_of_class l) <-> In r l) /\ StronglySorted range_lt (classes_of_class l).
Proof.
  assert (G : forall l acc, StronglySorted range_lt acc -> (forall r, In r (fold_left (fun s r => range_insert r s) l acc) <-> In r acc \/ In r l) /\
    StronglySorted range_lt (fold_left (fun s r => range_insert r s) l acc)).
  { induction l as [|x l IH]; intros acc HS; cbn [fold_left]; [split; auto; intros r; cbn; intuition|].
    destruct (IH (range_insert x acc) (range_insert_sorted _ _ HS)) as [I1 I2]. split; auto. intros r. rewrite I1, range_insert_in. cbn. intuition. }
  intros l. destruct (G l []) as [H1 H2]; [constructor|]. split; auto. intros r. rewrite (H1 r). cbn. intuition.
Qed.
Lemma sorted_same : forall l l', StronglySorted range_lt l -> StronglySorted range_lt l' -> (forall r, In r l <-> In r l') -> l = l'.
Proof.
  assert (IR : forall a b, range_lt a b -> range_lt b a -> False) by (intros a b; unfold range_lt; lia).
  assert (IR1 : forall a, ~ range_lt a a) by (intros a; unfold range_lt; lia).
  intros l l' H. revert l'. induction H as [|x l H IH HF]; intros l' H' HI.
  - destruct l' as [|y l']; auto. exfalso. apply (HI y). cbn. auto.
  - destruct H' as [|y l' H' HF']; [exfalso; apply (HI x); cbn; auto|]. rewrite Forall_forall in HF, HF'.
    assert (x = y).
    { destruct (proj1 (HI x) (or_introl eq_refl)) as [E|Hx]; auto. destruct (proj2 (HI y) (or_introl eq_refl)) as [E|Hy]; auto.
      exfalso. eapply IR; eauto. }
    subst y. f_equal. apply IH; auto. intros r. split; intros Hr.
    + destruct (proj1 (HI r) (or_intror Hr)) as [<-|]; auto. exfalso. eapply IR1; eauto.
    + destruct (proj2 (HI r) (or_intror Hr)) as [<-|]; auto. exfalso. eapply IR1; eauto.
Qed.
Theorem C50_class_ranges : forall l, (forall ch, in_ranges (classes_of_class l) ch <-> in_ranges l ch) /\
  forall l', (forall r, In r l <-> In r l') <-> classes_of_class l = classes_of_class l'.
Proof.
  intros l. destruct (classes_in_sorted l) as [H1 H2]. split.
  - intros ch. unfold in_ranges. split; intros [lo [hi [H HR]]]; exists lo, hi; split; auto; apply H1; auto.
  - intros l'. destruct (classes_in_sorted l') as [H1' H2']. split.
    + intros HI. apply sorted_same; auto. intros r. rewrite H1, H1'. apply HI.
    + intros E r. rewrite <- H1, <- H1', E. reflexivity.
Qed.
Print Assumptions C50_class_ranges.

Example C50_ranges_sample : classes_of_class [(97, 98); (48, 57); (97, 98); (48, 50)]%N = [(48, 50); (48, 57); (97, 98)]%N.
Proof. reflexivity. Qed.

(** Digits, a class of two letters and a class outside of ASCII. *)
Definition sample_classes : list (list (N * N) * nat) :=
  [([(48, 57); (1632, 1641)]%N, 4); ([(52, 52); (97, 98)]%N, 7); ([(1640, 1700)]%N, 5)].
Example C50_sample :
  Forall (fun p => canonical (fst p)) sample_classes /\ NoDup (map snd sample_classes) /\
  exists lm', compute (mkLexer (table_of sample_classes) [] []) = Ok lm' /\
    map (lexer_get lm') [52; 53; 97; 99; 1633; 1641; 1642; 1701]%N =
    [Ok [4; 7]; Ok [4]; Ok [7]; Ok []; Ok [4]; Ok [4; 5]; Ok [5]; Ok []].
Proof.
  split; [|split].
  - unfold canonical, is_char. repeat (constructor; [cbn; unfold is_char; lia|]). constructor.
  - cbn. repeat (constructor; [cbn; intuition lia|]). constructor.
  - eexists. split; vm_compute; reflexivity.
Qed.

(** The class stored for a literal byte contains the next character, too. *)
Theorem C50_byte_refuted : forall debug b s, (b < 255)%N ->
  exists k lm', classes_of_byte debug b = Ok k /\ compute (mkLexer [(k, s)] [] []) = Ok lm' /\
    lexer_get lm' b = Ok [s] /\ lexer_get lm' (b + 1) = Ok [s] /\
    forall ch, ch <> b -> ch <> (b + 1)%N -> lexer_get lm' ch = Ok [].
Proof.
  intros debug b s Hb. exists [(b, b + 1)%N]. set (lm := mkLexer [([(b, b + 1)%N], s)] [] []).
  assert (HH : Forall (fun p : lexer_classes * nat => Forall handled (fst p)) (lm_classes lm)).
  { constructor; [|constructor]. constructor; [|constructor]. unfold handled, narrow, followed_by_char, is_char.
    cbn. lia. }
  destruct (compute_ok lm HH) as [lm' [E _]]. exists lm'. split; [|split; [exact E|]].
  { unfold classes_of_byte. destruct (b =? 255)%N eqn:EB; auto. apply N.eqb_eq in EB. lia. }
  assert (HG : forall ch, exists l, lexer_get lm' ch = Ok l /\ NoDup l /\ forall x, In x l <-> x = s /\ (ch = b \/ ch = b + 1)%N).
  { intros ch. destruct (get_spec lm lm' ch HH) as [l [E1 [E2 E3]]]; auto.
    - constructor; [|constructor]. unfold canonical. cbn. unfold is_char. lia.
    - cbn. constructor; [tauto|constructor].
    - exists l. split; auto. split; auto. intros x. rewrite E3. split.
      + intros [rs [[EI|[]] [lo [hi [HI HR]]]]]. injection EI as <- <-. destruct HI as [EI|[]]. injection EI as <- <-.
        split; auto. lia.
      + intros [-> HR]. exists [(b, b + 1)%N]. split; [left; auto|]. exists b, (b + 1)%N. split; [left; auto|]. lia. }
  assert (HO : forall l, NoDup l -> (forall x, In x l <-> x = s) -> l = [s]).
  { intros l N0 HI. destruct l as [|x [|y l]].
    - destruct (proj2 (HI s) eq_refl).
    - f_equal. apply HI. left. auto.
    - assert (x = s) by (apply HI; simpl; auto). assert (y = s) by (apply HI; simpl; auto). subst.
      inversion N0; subst. exfalso. apply H1. left. auto. }
  split; [|split].
  - destruct (HG b) as [l [E1 [E2 E3]]]. rewrite E1. f_equal. apply HO; auto. intros x. rewrite E3. intuition.
  - destruct (HG (b + 1)%N) as [l [E1 [E2 E3]]]. rewrite E1. f_equal. apply HO; auto. intros x. rewrite E3. intuition.
  - intros ch H1 H2. destruct (HG ch) as [l [E1 [E2 E3]]]. rewrite E1. f_equal. destruct l as [|x l]; auto.
    destruct (proj1 (E3 x) (or_introl eq_refl)) as [_ [?|?]]; contradiction.
Qed.
Print Assumptions C50_byte_refuted.

(** The literal byte 255: the sum overflows.  A debug build panics.  A release build stores a class that is met by
    every character from 255 on. *)
Theorem C50_last_byte_refuted : classes_of_byte true 255 = Panic /\ forall s,
  exists k lm', classes_of_byte false 255 = Ok k /\ compute (mkLexer [(k, s)] [] []) = Ok lm' /\
    (forall ch, (255 <= ch)%N -> lexer_get lm' ch = Ok [s]) /\ (forall ch, (ch < 255)%N -> lexer_get lm' ch = Ok []).
Proof.
  split; [reflexivity|]. intros s. eexists _, (mkLexer [([(255, 0)]%N, s)] (repeat [] 256) [(1%N, []); (255%N, [s])]).
  split; [reflexivity|]. split; [reflexivity|]. unfold lexer_get, is_ascii. cbn [lm_ascii lm_ranges]. split; intros ch Hch.
  - assert (E1 : (ch <? 128)%N = false) by (apply N.ltb_ge; lia). rewrite E1. cbn [filter fst].
    assert (E2 : (1 <=? ch)%N = true) by (apply N.leb_le; lia). assert (E3 : (255 <=? ch)%N = true) by (apply N.leb_le; lia).
    rewrite E2, E3. reflexivity.
  - destruct (ch <? 128)%N eqn:E1.
    + apply N.ltb_lt in E1. unfold get_ix. rewrite nth_error_repeat; [reflexivity|lia].
    + cbn [filter fst]. assert (E3 : (255 <=? ch)%N = false) by (apply N.leb_gt; lia). rewrite E3. destruct (1 <=? ch)%N; reflexivity.
Qed.
Print Assumptions C50_last_byte_refuted.

(** Two classes with one symbol: at the end of one of them the symbol is dropped, although the
    other still contains the character. *)
Theorem C50_same_symbol_refuted : exists t lm', Forall (fun p => canonical (fst p)) t /\
  compute (mkLexer (table_of t) [] []) = Ok lm' /\
  In ([(224, 255)]%N, 3) t /\ lexer_get lm' 253%N = Ok [].
Proof.
  exists [([(224, 255)]%N, 3); ([(233, 252)]%N, 3)]. eexists. split; [|split; [vm_compute; reflexivity|split]].
  - unfold canonical, is_char. repeat (constructor; [cbn; unfold is_char; lia|]). constructor.
  - left. reflexivity.
  - vm_compute. reflexivity.
Qed.
Print Assumptions C50_same_symbol_refuted.

(** Before [compute], [get] panics for every ASCII character and lists nothing for others. *)
Theorem C50_uncomputed_refuted : forall h debug g lm ch, cfg_from_hir debug h = Ok (g, lm) ->
  lexer_get lm ch = if (ch <? 128)%N then Panic else Ok [].
Proof.
  intros h debug g lm ch H. unfold cfg_from_hir in H. apply bind_ok in H. destruct H as [[x tr] [_ H]].
  apply bind_ok in H. destruct H as [[l tr'] [_ H]]. injection H as _ <-. unfold lexer_get, is_ascii. cbn.
  destruct (ch <? 128)%N; auto. unfold get_ix. destruct (N.to_nat ch); reflexivity.
Qed.
Print Assumptions C50_uncomputed_refuted.

(** * C67 *)

(** [compute] returns exactly if all ranges are usual, and panics otherwise; after it [get]
    returns for every character. *)
Theorem C67_condition_partial : forall lm,
  ((forall ranges s, In (ranges, s) (lm_classes lm) -> Forall usual_range ranges) ->
   exists lm', compute lm = Ok lm' /\ forall ch, exists l, lexer_get lm' ch = Ok l) /\
  ((exists ranges s, In (ranges, s) (lm_classes lm) /\ ~ Forall usual_range ranges) -> compute lm = Panic).
Proof.
  intros lm. split.
  - intros H. assert (HH : Forall (fun p : lexer_classes * nat => Forall handled (fst p)) (lm_classes lm)).
    { apply Forall_forall. intros [rs s] HI. exact (H rs s HI). }
    destruct (compute_ok lm HH) as [lm' [E [_ [HL _]]]]. exists lm'. split; auto.
    intros ch. unfold lexer_get, is_ascii. destruct (ch <? 128)%N eqn:EA; [|eauto]. apply N.ltb_lt in EA.
    unfold get_ix. rewrite (nth_error_nth' _ []) by (rewrite HL; lia). eauto.
  - intros [rs [s [HI HN]]]. apply compute_panics. intros HF. apply HN.
    exact (proj1 (Forall_forall _ _) HF (rs, s) HI).
Qed.
Print Assumptions C67_condition_partial.

Example C67_sample : Forall (fun p => Forall usual_range (fst p)) sample_classes.
Proof. unfold usual_range. repeat (constructor; [repeat (constructor; [cbn; unfold is_char; lia|]); constructor|]). constructor. Qed.

(** [compute] panics for the expression [[^a]], for a range from ASCII up to 256, for a range up to
    the last character before the surrogates and for one up to the last character. *)
Theorem C67_expression_refuted :
  Forall (fun h => exists g lm, supported h /\ cfg_from_hir true h = Ok (g, lm) /\ compute lm = Panic)
    [HClass [(0, 96); (98, 1114111)]; HClass [(97, 256)]; HClass [(55000, 55295)]; HClass [(57344, 1114111)]]%N.
Proof.
  repeat constructor; eexists _, _; (split; [constructor|]); (split; [vm_compute; reflexivity | vm_compute; reflexivity]).
Qed.
Print Assumptions C67_expression_refuted.

(** * C51 *)

(** The entry of a byte or of a class in the lexer map. *)
Definition symbol_of (debug : bool) (lm : lexer_map) (t : token) : option nat :=
  match t with
  | TByte b => match classes_of_byte debug b with Ok k => table_get (lm_classes lm) k | _ => None end
  | TClass ranges => table_get (lm_classes lm) (classes_of_class ranges)
  end.

Lemma symbol_of_token : forall debug lm t s, NoDup (map fst (lm_classes lm)) ->
  (symbol_of debug lm t = Some s <-> exists k, token_classes debug t = Ok k /\ In (k, s) (lm_classes lm)).
Proof.
  intros debug lm t s HN. unfold symbol_of, token_classes. split.
  - destruct t as [b|rs].
    + destruct (classes_of_byte debug b) as [k| |]; try discriminate. intros H. apply table_get_some in H. eauto.
    + intros H. apply table_get_some in H. eauto.
  - intros [k [E1 E2]]. destruct t as [b|rs].
    + rewrite E1. apply table_get_in; auto.
    + injection E1 as <-. apply table_get_in; auto.
Qed.

(** The translation succeeds, each byte and class of a matched string has a symbol in the lexer
    map, which is a terminal, and the root derives exactly the matched strings. *)
Theorem C51_language_partial : forall debug h, supported h -> exists g lm root,
  cfg_from_hir debug h = Ok (g, lm) /\ roots g = [root] /\
  (forall ts t, matches h ts -> In t ts -> exists s, symbol_of debug lm t = Some s /\ terminal (prods g) s) /\
  forall w, language (prods g) root w <->
    exists ts, matches h ts /\ map Some w = map (symbol_of debug lm) ts.
Proof.
  intros debug h HS. destruct (from_hir_ok debug h HS) as [g [lm [root [E1 [E2 [_ [_ [E3 [_ [E4 [E5 E6]]]]]]]]]]].
  exists g, lm, root. split; auto. split; auto. split.
  - intros ts t H1 H2. specialize (E5 ts H1). rewrite Forall_forall in E5. destruct (E5 t H2) as [k [s [K1 K2]]].
    exists s. split; [apply symbol_of_token; eauto | apply (E4 k s K2)].
  - intros w. rewrite E6. split; intros [ts [H1 H2]]; exists ts; split; auto.
    + clear -H2 E3. induction H2 as [|t s ts w [k [K1 K2]]]; simpl; auto. f_equal; auto.
      symmetry. apply symbol_of_token; eauto.
    + clear H1. revert w H2. induction ts as [|t ts]; destruct w as [|s w]; simpl; intros H2; try discriminate; constructor.
      * injection H2 as H2 _. apply symbol_of_token; auto.
      * injection H2 as _ H2. auto.
Qed.
Print Assumptions C51_language_partial.

(** The unit test of the crate: [(?i)(foo|bar)\d+], here with two ranges of digits only. *)
Definition sample_regexp : hir :=
  HConcat [HCapture (HAlternation
      [HConcat [HClass [(70, 70); (102, 102)]; HClass [(79, 79); (111, 111)]; HClass [(79, 79); (111, 111)]];
       HConcat [HClass [(66, 66); (98, 98)]; HClass [(65, 65); (97, 97)]; HClass [(82, 82); (114, 114)]]]);
    HRepetition 1 None (HClass [(48, 57); (130032, 130041)])]%N.
Example C51_sample : supported sample_regexp /\
  exists g lm lm', cfg_from_hir true sample_regexp = Ok (g, lm) /\ compute lm = Ok lm' /\
  length (rules g) = 5 /\
  map (fun c => match lexer_get lm' c with Ok l => length l | _ => 99 end) [98; 99; 66; 68; 111; 130032; 130041]%N =
  [1; 0; 1; 0; 1; 1; 1].
Proof.
  split.
  - repeat (constructor; try lia; try discriminate).
  - eexists _, _, _. split; [vm_compute; reflexivity|]. split; [vm_compute; reflexivity|].
    split; vm_compute; reflexivity.
Qed.

(** A number of repetitions above 2^31 makes the translation panic in debug builds. *)
Theorem C51_count_refuted : cfg_from_hir true (HRepetition 2147483650 (Some 2147483650%N) (HClass [(97, 98)]%N)) = Panic.
Proof. vm_compute. reflexivity. Qed.
Print Assumptions C51_count_refuted.

(** In release builds the translation succeeds and the grammar derives nothing at all. *)
Lemma derives_stuck : forall (P : productions) (U : nat -> Prop), (forall A r, U A -> P A r -> Exists U r) -> forall u w, derives P u w -> Exists U u -> Exists U w.
Proof.
  intros P U H u w D. induction D as [u|u A v r w HP D IH]; intros HE; auto. apply IH. apply Exists_app in HE. destruct HE as [HE|HE]; [apply Exists_app; left; exact HE|].
  inversion HE as [? ? X|? ? X]; subst; apply Exists_app; right; apply Exists_app; [left; apply (H A r X HP)|right; exact X].
Qed.
Theorem C51_count_release_refuted : exists g lm root,
  cfg_from_hir false (HRepetition 2147483649 (Some 2147483649%N) (HClass [(97, 98)]%N)) = Ok (g, lm) /\ roots g = [root] /\
  forall w, ~ language (prods g) root w.
Proof.
  eexists _, _, _. split; [vm_compute; reflexivity|]. split; [reflexivity|]. intros w [D F].
  assert (X : Exists (fun a => a = 0 \/ a = 3) w).
  { eapply derives_stuck; [|exact D|constructor; auto]. intros A r HA [x [Hx [HL HR]]]. cbn in Hx.
    repeat (destruct Hx as [<-|Hx]; [cbn in HL, HR; subst; destruct HA as [HA|HA]; try discriminate; right; left; auto|]). destruct Hx. }
  apply Exists_exists in X. destruct X as [a [HI HA]]. rewrite Forall_forall in F. apply (F a HI [2; 3]).
  destruct HA as [-> | ->]; eexists; (split; [|split; [|]]); [left; reflexivity|reflexivity|reflexivity|right; left; reflexivity|reflexivity|reflexivity].
Qed.
Print Assumptions C51_count_release_refuted.

(** * C68 *)

(** Two literal bytes have the same symbol only if they are the same byte, and two classes only if
    they contain the same characters. *)
Theorem C68_kinds_partial : forall debug h g lm s, supported h -> cfg_from_hir debug h = Ok (g, lm) ->
  (forall b b', (b < 255)%N -> (b' < 255)%N ->
     symbol_of debug lm (TByte b) = Some s -> symbol_of debug lm (TByte b') = Some s -> b = b') /\
  (forall rs rs', canonical rs -> canonical rs' ->
     symbol_of debug lm (TClass rs) = Some s -> symbol_of debug lm (TClass rs') = Some s -> rs = rs').
Proof.
  intros debug h g lm s HS E. destruct (from_hir_ok debug h HS) as [g0 [lm0 [root [E1 [_ [_ [_ [E3 [E4 _]]]]]]]]].
  rewrite E in E1. injection E1 as <- <-.
  assert (HU : forall k k', In (k, s) (lm_classes lm) -> In (k', s) (lm_classes lm) -> k = k').
  { clear -E4. induction (lm_classes lm) as [|[a b] t]; intros k k' HI HI'; [destruct HI|]. inversion E4 as [|? ? N1 N2]; subst.
    destruct HI as [X|HI], HI' as [Y|HI'].
    - congruence.
    - injection X as -> ->. exfalso. apply N1. apply in_map_iff. exists (k', s). auto.
    - injection Y as -> ->. exfalso. apply N1. apply in_map_iff. exists (k, s). auto.
    - eauto. }
  split.
  - intros b b' Hb Hb' H1 H2. apply symbol_of_token in H1, H2; auto.
    destruct H1 as [k [K1 K2]], H2 as [k' [K1' K2']]. specialize (HU k k' K2 K2'). subst k'.
    cbn in K1, K1'. unfold classes_of_byte in *.
    destruct (b =? 255)%N eqn:Q1; [apply N.eqb_eq in Q1; lia|]. destruct (b' =? 255)%N eqn:Q2; [apply N.eqb_eq in Q2; lia|].
    congruence.
  - intros rs rs' HC HC' H1 H2. apply symbol_of_token in H1, H2; auto.
    destruct H1 as [k [K1 K2]], H2 as [k' [K1' K2']]. specialize (HU k k' K2 K2'). subst k'.
    cbn in K1, K1'. rewrite canonical_id in K1, K1' by auto. congruence.
Qed.
Print Assumptions C68_kinds_partial.

(** The byte [a] and the class [[ab]] of the expression [a[ab]] have the same symbol. *)
Theorem C68_shared_refuted : exists g lm s,
  cfg_from_hir true (HConcat [HLiteral [97]; HClass [(97, 98)]])%N = Ok (g, lm) /\
  symbol_of true lm (TByte 97) = Some s /\ symbol_of true lm (TClass [(97, 98)]%N) = Some s.
Proof. eexists _, _, _. split; [vm_compute; reflexivity|]. split; vm_compute; reflexivity. Qed.
Print Assumptions C68_shared_refuted.

(** * C69 *)

(** Some string of symbols that the lexer map lists for the characters of the text is in the
    language of the root. *)
Definition accepts (g : cfg) (lm : lexer_map) (root : nat) (text : list N) : Prop :=
  exists w, language (prods g) root w /\
    Forall2 (fun s c => exists l, lexer_get lm c = Ok l /\ In s l) w text.

(** For an expression made of usual classes and without literals, the grammar and the computed
    lexer map accept exactly the texts that the expression matches. *)
Theorem C69_text_partial : forall debug h, supported h ->
  (forall t, written t h -> exists ranges, t = TClass ranges /\ canonical ranges /\ Forall usual_range ranges) ->
  exists g lm lm' root, cfg_from_hir debug h = Ok (g, lm) /\ compute lm = Ok lm' /\ roots g = [root] /\
  forall text, accepts g lm' root text <-> matches_text h text.
Proof.
  intros debug h HS HW.
  destruct (from_hir_ok debug h HS) as [g [lm [root [E1 [E2 [_ [_ [E3 [E4 [E5 [E6 E7]]]]]]]]]]].
  assert (HK : forall k s, In (k, s) (lm_classes lm) -> canonical k /\ Forall handled k).
  { apply (from_hir_keys debug (fun k => canonical k /\ Forall handled k) h g lm); auto.
    intros t k Ht Ek. destruct (HW t Ht) as [rs [-> [H1 H2]]]. cbn in Ek. injection Ek as <-.
    rewrite canonical_id by auto. split; auto. }
  assert (HH : Forall (fun p : lexer_classes * nat => Forall handled (fst p)) (lm_classes lm)).
  { apply Forall_forall. intros [k s] HI. apply (HK k s HI). }
  assert (HC : Forall (fun p : lexer_classes * nat => canonical (fst p)) (lm_classes lm)).
  { apply Forall_forall. intros [k s] HI. apply (HK k s HI). }
  destruct (compute_ok lm HH) as [lm' [E8 _]]. exists g, lm, lm', root. split; auto. split; auto. split; auto.
  assert (HG : forall c s, (exists l, lexer_get lm' c = Ok l /\ In s l) <-> exists k, In (k, s) (lm_classes lm) /\ in_ranges k c).
  { intros c s. destruct (get_spec lm lm' c HH HC E4 E8) as [l [G1 [G2 G3]]]. rewrite <- G3. split; eauto.
    intros [l' [L1 L2]]. congruence. }
  assert (HU : forall k k' s, In (k, s) (lm_classes lm) -> In (k', s) (lm_classes lm) -> k = k').
  { clear -E4. induction (lm_classes lm) as [|[a b] t]; intros k k' s HI HI'; [destruct HI|]. inversion E4 as [|? ? N1 N2]; subst.
    destruct HI as [X|HI], HI' as [Y|HI'].
    - congruence.
    - injection X as -> ->. exfalso. apply N1. apply in_map_iff. exists (k', s). auto.
    - injection Y as -> ->. exfalso. apply N1. apply in_map_iff. exists (k, s). auto.
    - eauto. }
  intros text. unfold accepts, matches_text. split.
  - intros [w [HL HF]]. apply E7 in HL. destruct HL as [ts [HM HT]]. exists ts. split; auto.
    pose proof (matches_written h ts HM) as HWr. clear HM.
    revert text HF. induction HT as [|t s ts w [k [K1 K2]] HT IH]; intros text HF; inversion HF as [|? c ? text' HG0 HF']; subst; constructor.
    + destruct (HW t (Forall_inv HWr)) as [rs [-> [H1 H2]]]. cbn in K1. rewrite canonical_id in K1 by auto. injection K1 as <-.
      apply HG in HG0. destruct HG0 as [k' [K3 K4]]. rewrite <- (HU _ _ _ K2 K3) in K4. exact K4.
    + apply IH; auto. exact (Forall_inv_tail HWr).
  - intros [ts [HM HF]]. specialize (E6 ts HM). pose proof (matches_written h ts HM) as HWr.
    assert (HX : exists w, Forall2 (fun t s => exists k, token_classes debug t = Ok k /\ In (k, s) (lm_classes lm)) ts w /\
      Forall2 (fun s c => exists l, lexer_get lm' c = Ok l /\ In s l) w text).
    { clear HM. induction HF as [|t c ts text HC0 HF IH]; [exists []; auto|].
      destruct (IH (Forall_inv_tail E6) (Forall_inv_tail HWr)) as [w [W1 W2]].
      destruct (Forall_inv E6) as [k [s [K1 K2]]]. exists (s :: w). split; constructor; eauto.
      apply HG. exists k. split; auto. destruct (HW t (Forall_inv HWr)) as [rs [-> [H1 H2]]]. cbn in K1.
      rewrite canonical_id in K1 by auto. injection K1 as <-. exact HC0. }
    destruct HX as [w [W1 W2]]. exists w. split; auto. apply E7. eauto.
Qed.
Print Assumptions C69_text_partial.

Example C69_sample : supported sample_regexp /\
  (forall t, written t sample_regexp -> exists ranges, t = TClass ranges /\ canonical ranges /\ Forall usual_range ranges) /\
  matches_text sample_regexp [66; 97; 114; 53; 130033]%N.
Proof.
  split; [apply C51_sample|]. split.
  - intros t H. unfold sample_regexp in H.
    repeat match goal with
    | H : In _ [] |- _ => destruct H
    | H : In _ (_ :: _) |- _ => destruct H; [subst|]
    | H : written _ (_ _) |- _ => inversion H; clear H; subst
    | H : written _ (HRepetition _ _ _) |- _ => inversion H; clear H; subst
    end; eexists; (split; [reflexivity|]); unfold canonical, usual_range; cbn; unfold is_char;
    (split; [lia | repeat (constructor; [cbn; unfold is_char; lia|]); constructor]).
  - exists (map TClass [[(66, 66); (98, 98)]; [(65, 65); (97, 97)]; [(82, 82); (114, 114)];
      [(48, 57); (130032, 130041)]; [(48, 57); (130032, 130041)]]%N). split.
    + change (matches sample_regexp (concat [map TClass [[(66, 66); (98, 98)]; [(65, 65); (97, 97)]; [(82, 82); (114, 114)]];
        map TClass [[(48, 57); (130032, 130041)]; [(48, 57); (130032, 130041)]]]%N)).
      constructor. constructor; [|constructor; [|constructor]].
      * constructor. eapply m_alternation; [right; left; reflexivity|].
        change (map TClass [[(66, 66); (98, 98)]; [(65, 65); (97, 97)]; [(82, 82); (114, 114)]]%N) with
          (concat [[TClass [(66, 66); (98, 98)]]; [TClass [(65, 65); (97, 97)]]; [TClass [(82, 82); (114, 114)]]]%N).
        repeat constructor.
      * change (map TClass [[(48, 57); (130032, 130041)]; [(48, 57); (130032, 130041)]]%N) with
          (concat [[TClass [(48, 57); (130032, 130041)]]; [TClass [(48, 57); (130032, 130041)]]]%N).
        constructor; [cbn; lia | discriminate | repeat constructor].
    + repeat (apply Forall2_cons; [cbn; unfold in_ranges;
        first [eexists _, _; split; [left; reflexivity | lia] | eexists _, _; split; [right; left; reflexivity | lia]]|]).
      apply Forall2_nil.
Qed.

(** The expression [a] accepts [b], and the expression of one literal character outside of ASCII
    does not accept that character. *)
Theorem C69_literal_refuted :
  (exists g lm lm' root, cfg_from_hir true (HLiteral [97])%N = Ok (g, lm) /\ compute lm = Ok lm' /\ roots g = [root] /\
     accepts g lm' root [98]%N /\ ~ matches_text (HLiteral [97])%N [98]%N) /\
  (exists g lm lm' root, cfg_from_hir true (HLiteral [195; 169])%N = Ok (g, lm) /\ compute lm = Ok lm' /\ roots g = [root] /\
     ~ accepts g lm' root [233]%N).
Proof.
  split.
  - eexists _, _, _, _. split; [vm_compute; reflexivity|]. split; [vm_compute; reflexivity|]. split; [reflexivity|]. split.
    + exists [0]. split.
      * split; [constructor|]. constructor; [|constructor]. intros r [q [HI _]]. destruct HI.
      * constructor; [|constructor]. exists [0]. split; [vm_compute; reflexivity | left; reflexivity].
    + intros [ts [HM HF]]. inversion HM; subst. inversion HF; subst. cbn in *. discriminate.
  - eexists _, _, _, _. split; [vm_compute; reflexivity|]. split; [vm_compute; reflexivity|]. split; [reflexivity|].
    intros [w [_ HF]]. inversion HF as [|s c w' t' [l [E HI]] HF']; subst. vm_compute in E. injection E as <-. destruct HI.
Qed.
Print Assumptions C69_literal_refuted.
