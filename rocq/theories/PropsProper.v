(** Without useless rules, the prediction sets speak of sentences (C122). *)

From Coq Require Import List Arith Bool Lia Sorted.
From Verif Require Import Base ListFacts Spec GrammarFacts HistoryModel SymbolModel CfgModel View
  BitSetModel SetView SetProof CfgProof2 SetsModel SpecPredict SpecClassify SetsProof FollowProof ClassifyModel UsefulProof
  PropsGrammar PropsClassify PropsPredict.
Import ListNotations.
Local Notation length := List.length.

Lemma all_productive : forall g l, (forall x, In x (rules g) -> useful (prods g) l (lhs x) (rhs x)) -> forall s, productive (prods g) s.
Proof.
  intros g l H s. destruct (in_dec Nat.eq_dec s (map lhs (rules g))) as [Hs|Hs].
  - apply in_map_iff in Hs. destruct Hs as [x [<- Hx]]. destruct (H x Hx) as [_ HP]. apply productive_list in HP.
    eapply productive_rule; [|exact HP]. exists x. auto.
  - apply productive_terminal. intros r [x [Hx [<- _]]]. apply Hs. apply in_map. auto.
Qed.

Lemma to_terminals : forall P u, (forall s, productive P s) -> exists w, derives P u w /\ Forall (terminal P) w.
Proof. intros P u H. apply productive_list. apply Forall_forall. auto. Qed.

(** A terminal that follows a symbol does so in a sentence of a root. *)
Lemma follows_sentence : forall g l, (forall x, In x (rules g) -> useful (prods g) l (lhs x) (rhs x)) ->
  forall A t, follows (prods g) A t <->
    exists R u w v, In R l /\ derives (prods g) [R] (u ++ A :: t :: v) /\ language (prods g) A w /\
                    language (prods g) R (u ++ w ++ t :: v) /\ Forall (terminal (prods g)) (t :: v).
Proof.
  intros g l HU A t. pose proof (all_productive g l HU) as HP. split.
  - intros [HT [C [u [v HD]]]].
    assert (HC : exists R x y, In R l /\ derives (prods g) [R] (x ++ C :: y)).
    { apply derives_single_inv in HD. destruct HD as [E|[r [[z [Hz [<- _]]] _]]].
      - exfalso. destruct u as [|? [|? u]]; discriminate.
      - destruct (HU z Hz) as [[R [HR [x [y HX]]]] _]. exists R, x, y. auto. }
    destruct HC as [R [x [y [HR HX]]]].
    destruct (to_terminals (prods g) (x ++ u) HP) as [u' [U1 U2]]. destruct (to_terminals (prods g) (v ++ y) HP) as [v' [V1 V2]].
    destruct (HP A) as [w [W1 W2]].
    assert (D : derives (prods g) [R] (u' ++ A :: t :: v')).
    { eapply derives_trans; [exact HX|]. eapply derives_trans; [apply (derives_ctx _ x y [C] _ HD)|].
      replace (x ++ (u ++ A :: t :: v) ++ y) with ((x ++ u) ++ [A; t] ++ (v ++ y)) by (rewrite <- !app_assoc; reflexivity).
      change (u' ++ A :: t :: v') with (u' ++ [A; t] ++ v'). apply derives_app; auto. apply derives_app; [constructor|auto]. }
    exists R, u', w, v'. split; auto. split; auto. split; [split; auto|]. split; [|constructor; auto]. split.
    + eapply derives_trans; [exact D|]. apply derives_app; [constructor|]. change (A :: t :: v') with ([A] ++ t :: v').
      apply derives_app; [auto|constructor].
    + apply Forall_app. split; auto. apply Forall_app. split; auto.
  - intros [R [u [w [v [_ [HD [_ [_ HF]]]]]]]]. inversion HF; subst. split; auto. exists R, u, v. auto.
Qed.

(** If [make_proper] has nothing to remove: FIRST and LAST are the first and last symbols of sentences, an empty mark means the
    empty sentence, and FOLLOW has the symbols that come after a part derived from the symbol, in sentences of roots. *)
Theorem C122_sentences : forall g, closed_rules g -> Forall (fun s => s < num_syms g) (roots g) -> make_proper g = Ok (true, g) ->
  exists f l fo, first_sets_new g = Ok f /\ last_sets_new g = Ok l /\ follow_sets g = Ok fo /\
  (forall A v, map_get (fs_map f) A = Some v ->
     (forall t, In t (set_list v) <-> exists w, language (prods g) A (t :: w)) /\
     (has_none v = true <-> language (prods g) A [])) /\
  (forall A v, map_get l A = Some v ->
     (forall t, In t (set_list v) <-> exists w, language (prods g) A (w ++ [t])) /\
     (has_none v = true <-> language (prods g) A [])) /\
  (forall A v, map_get fo A = Some v -> forall t, In t (set_list v) <->
     exists R u w x, In R (roots g) /\ derives (prods g) [R] (u ++ A :: t :: x) /\ language (prods g) A w /\
                     language (prods g) R (u ++ w ++ t :: x) /\ Forall (terminal (prods g)) (t :: x)).
Proof.
  intros g HC HR HM. destruct (C32_make_proper g HC HR) as [b [g' [E [_ [_ [HB _]]]]]]. rewrite HM in E. injection E as <- <-.
  pose proof (proj1 HB eq_refl) as HU. pose proof (all_productive g _ HU) as HP.
  destruct (C40_first_exact g HC) as [f [F1 [_ F2]]]. destruct (C41_last_exact g HC) as [l [L1 [_ L2]]].
  destruct (C42_follow_partial g HC) as [fo [O1 [_ O2]]]. exists f, l, fo. split; auto. split; auto. split; auto.
  assert (HN : forall A, nullable (prods g) A <-> language (prods g) A []).
  { intros A. unfold nullable, language. split; [intros H; split; auto|tauto]. }
  split; [|split].
  - intros A v EV. destruct (F2 A v EV) as [_ [V1 V2]]. split; [|rewrite V2; apply HN]. intros t. rewrite V1. split.
    + intros [HT [x HD]]. destruct (to_terminals (prods g) x HP) as [w [W1 W2]]. exists w. split; [|constructor; auto].
      eapply derives_trans; [exact HD|]. apply derives_cons_same. auto.
    + intros [w [W1 W2]]. inversion W2; subst. split; eauto.
  - intros A v EV. destruct (L2 A v EV) as [_ [V1 V2]]. split; [|rewrite V2; apply HN]. intros t. rewrite V1. split.
    + intros [HT [x HD]]. destruct (to_terminals (prods g) x HP) as [w [W1 W2]]. exists w. split; [|apply Forall_app; auto].
      eapply derives_trans; [exact HD|]. apply derives_app; [auto|constructor].
    + intros [w [W1 W2]]. apply Forall_app in W2. destruct W2 as [_ W2]. inversion W2; subst. split; eauto.
  - intros A v EV t. destruct (O2 A v EV) as [_ [V1 _]]. rewrite V1. apply follows_sentence. auto.
Qed.
Print Assumptions C122_sentences.

(** Two calls of [make_proper] make any grammar ready for this, so that FIRST of a productive root tells how the sentences of the
    original grammar begin. *)
Theorem C122_prepared : forall g, closed_rules g -> Forall (fun s => s < num_syms g) (roots g) ->
  exists b1 g1 b2 g2, make_proper g = Ok (b1, g1) /\ make_proper g1 = Ok (b2, g2) /\ make_proper g2 = Ok (true, g2) /\
  exists f l, first_sets_new g2 = Ok f /\ last_sets_new g2 = Ok l /\
  forall R, In R (roots g) -> productive (prods g) R ->
    (nonterminal (prods g) R -> map_get (fs_map f) R <> None /\ map_get l R <> None) /\
    (forall v, map_get (fs_map f) R = Some v ->
       (forall t, In t (set_list v) <-> exists w, language (prods g) R (t :: w)) /\
       (has_none v = true <-> language (prods g) R [])) /\
    (forall v, map_get l R = Some v -> forall t, In t (set_list v) <-> exists w, language (prods g) R (w ++ [t])).
Proof.
  intros g HC HR. destruct (C33_two_passes_partial g HC HR) as [b1 [g1 [b2 [g2 [E1 [E2 [_ E3]]]]]]].
  exists b1, g1, b2, g2. split; auto. split; auto. split; auto.
  destruct (C32_make_proper g HC HR) as [b [g' [E [R1 [N1 [_ [_ L1]]]]]]]. rewrite E1 in E. injection E as <- <-.
  destruct (C32_rules_kept g HC HR) as [b [g' [E [K1 _]]]]. rewrite E1 in E. injection E as <- <-.
  assert (HC1 : closed_rules g1) by (intros x Hx; rewrite N1; apply HC; apply K1; auto).
  assert (HR1 : Forall (fun s => s < num_syms g1) (roots g1)) by (rewrite R1, N1; auto).
  destruct (C32_make_proper g1 HC1 HR1) as [b [g' [E [R2 [N2 [_ [_ L2]]]]]]]. rewrite E2 in E. injection E as <- <-.
  destruct (C32_rules_kept g1 HC1 HR1) as [b [g' [E [K2 _]]]]. rewrite E2 in E. injection E as <- <-.
  assert (HC2 : closed_rules g2) by (intros x Hx; rewrite N2; apply HC1; apply K2; auto).
  assert (HR2 : Forall (fun s => s < num_syms g2) (roots g2)) by (rewrite R2, N2; auto).
  destruct (C122_sentences g2 HC2 HR2 E3) as [f [l [fo [F1 [L1' [_ [FF [FL _]]]]]]]]. exists f, l. split; auto. split; auto.
  intros R HI HP.
  assert (LG : forall w, language (prods g2) R w <-> language (prods g) R w).
  { intros w. rewrite <- (proj2 (L1 R HI) HP w). apply L2; [rewrite R1; auto|].
    destruct HP as [z Hz]. exists z. apply (proj2 (L1 R HI)); [exists z; auto|auto]. }
  split; [|split].
  - intros [r HN].
    assert (NT : nonterminal (prods g2) R).
    { destruct HP as [w Hw]. pose proof Hw as Hw2. apply LG in Hw2. destruct Hw2 as [D _]. apply derives_single_inv in D.
      destruct D as [->|[r' [H _]]]; [|exists r'; auto]. destruct Hw as [_ T]. inversion T as [|? ? T1]; subst. exfalso. apply (T1 r). auto. }
    destruct (C40_first_exact g2 HC2) as [f' [F1' [M1 _]]]. rewrite F1 in F1'. injection F1' as <-.
    destruct (C41_last_exact g2 HC2) as [l' [L1'' [M2 _]]]. rewrite L1' in L1''. injection L1'' as <-.
    split; [apply M1|apply M2]; auto.
  - intros v EV. destruct (FF R v EV) as [V1 V2]. split.
    + intros t. rewrite V1. split; intros [w Hw]; exists w; apply LG; auto.
    + rewrite V2. apply LG.
  - intros v EV t. destruct (FL R v EV) as [V1 V2]. rewrite V1. split; intros [w Hw]; exists w; apply LG; auto.
Qed.
Print Assumptions C122_prepared.

(** S ::= x U | y ; U ::= U   with S U x y = 0..3: FIRST of S has x at first, although no sentence begins with it, and only y after the rules
    of U are removed. *)
Example C122_example :
  let g := mkCfg (mkSrc 4 []) [mkRule 0 [2; 1] hd0; mkRule 0 [3] hd0; mkRule 1 [1] hd0] [0] [] None in
  closed_rules g /\ (exists f, first_sets_new g = Ok f /\ map_get (fs_map f) 0 = Some (mkSet false [2; 3])) /\
  exists g1, make_proper g = Ok (false, g1) /\ make_proper g1 = Ok (true, g1) /\
  (exists f, first_sets_new g1 = Ok f /\ map_get (fs_map f) 0 = Some (mkSet false [3])) /\ productive (prods g) 0.
Proof.
  intros g. split; [closed_tac|]. split; [eexists; split; vm_compute; reflexivity|].
  eexists. split; [vm_compute; reflexivity|]. split; [vm_compute; reflexivity|]. split; [eexists; split; vm_compute; reflexivity|].
  exists [3]. split; [apply derives_rule; exists (mkRule 0 [3] hd0); simpl; auto|].
  constructor; [|constructor]. intros r [x [Hx [H _]]]. simpl in Hx. destruct Hx as [<-|[<-|[<-|[]]]]; discriminate.
Qed.
