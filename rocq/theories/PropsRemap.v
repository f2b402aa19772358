(** Properties C37 - C39: reordering and removing symbols. *)

From Coq Require Import List Arith Bool Lia Permutation Sorted String.
From Verif Require Import Base ListFacts Spec GrammarFacts SymbolModel HistoryModel CfgModel View
  SetView SetProof CfgProof RemapModel SpecRemap RemapProof RemapProof2 UsefulProof PropsGrammar PropsClassify.
Import ListNotations.
Local Notation length := List.length.

Lemma prods_bounds : forall g, closed_rules g -> forall A r, prods g A r ->
  A < num_syms g /\ Forall (fun s => s < num_syms g) r.
Proof. intros g HC A r H. eapply closed_prods; eauto. Qed.

(** ** C37.  [m] is any mapping that covers the symbols, as a Remap always has (C39). *)
Theorem C37_reorder : forall cmp g m,
  closed g -> fits g -> names_wf g -> num_syms g <= length (to_external m) -> total_order cmp ->
  exists r h, reorder_symbols cmp (mkRemap g m) = Ok r /\
  let g' := rm_grammar r in let n := num_syms g in
  (* a permutation of the symbols *)
  num_syms g' = n /\ (forall s, s < n -> h s < n) /\ inj_below n h /\
  (* in the given order; symbols that compare equal keep their order *)
  (forall a b, a < n -> b < n -> cmp a b = Lt -> h a < h b) /\
  (forall a b, a < n -> b < n -> cmp a b = Eq -> a < b -> h a < h b) /\
  (* applied to everything *)
  Permutation (rules g') (map (rename_rule h) (rules g)) /\
  roots g' = map h (roots g) /\ wroots g' = map (rename_wrapped h) (wroots g) /\ limit g' = limit g /\
  (forall s, s < n -> nth_error (names (src g')) (h s) = nth_error (names (src g)) s) /\
  length (names (src g')) = n.
Proof.
  intros cmp g m HC HF HN HM HT. destruct HC as [HC HRW].
  destruct (reorder_spec cmp (mkRemap g m) HC HF HN HM) as [h [HP [ti [LI [MT [S1 S2]]]]]].
  cbn [rm_grammar] in *. destruct (S2 (conj HC HRW)) as [r E]. destruct (S1 r E) as [RB _].
  destruct (te_facts cmp (num_syms g)) as [_ [T2 T3]]. destruct (positions_facts _ _ _ HP T3) as [Hlt Hinj].
  exists r, h. split; auto. cbn zeta. split; [apply (rb_num _ _ _ RB)|]. split; auto. split; auto.
  assert (HS := sort_seq_ordered cmp (seq 0 (num_syms g)) HT (seq_sorted _ _)).
  assert (HOr : forall a b, a < num_syms g -> b < num_syms g ->
            (cmp a b = Lt \/ (cmp a b = Eq /\ a < b)) -> h a < h b).
  { intros a b Ha Hb HR. destruct HT as [HO _].
    apply (sorted_positions _ _ h) with (3 := HS) (4 := HP); rewrite ?T3; auto.
    - intros x [H|[_ H]]; [|lia]. specialize (HO x x). rewrite H in HO. discriminate.
    - intros x y H1 H2. specialize (HO x y).
      destruct H1 as [H1|[H1 L1]], H2 as [H2|[H2 L2]]; rewrite H1, H2 in HO; simpl in HO; try discriminate. lia. }
  split; [intros; apply HOr; auto|]. split; [intros; apply HOr; auto|].
  split; [apply (rb_rules _ _ _ RB)|]. split; [apply (rb_roots _ _ _ RB)|]. split; [apply (rb_wroots _ _ _ RB)|].
  split; [apply (rb_limit _ _ _ RB)|]. rewrite (rb_names _ _ _ RB).
  destruct (remap_names_perm h (names (src g))) as [NL NN]; [rewrite HN; auto|rewrite HN; auto|].
  split; [intros s Hs; apply NN; rewrite HN; auto|rewrite NL; auto].
Qed.
Print Assumptions C37_reorder.

(** Each symbol derives exactly the renamed strings. *)
Theorem C37_language : forall cmp g m,
  closed g -> fits g -> names_wf g -> num_syms g <= length (to_external m) -> total_order cmp ->
  exists r h, reorder_symbols cmp (mkRemap g m) = Ok r /\ roots (rm_grammar r) = map h (roots g) /\
  inj_below (num_syms g) h /\
  (forall A y, A < num_syms g ->
     (language (prods (rm_grammar r)) (h A) y <-> exists w, y = map h w /\ language (prods g) A w)) /\
  (forall u w, Forall (fun s => s < num_syms g) u -> Forall (fun s => s < num_syms g) w ->
     (derives (prods (rm_grammar r)) (map h u) (map h w) <-> derives (prods g) u w)).
Proof.
  intros cmp g m HC HF HN HM HT. destruct HC as [HC HRW].
  destruct (reorder_spec cmp (mkRemap g m) HC HF HN HM) as [h [HP [ti [LI [MT [S1 S2]]]]]].
  cbn [rm_grammar] in *. destruct (S2 (conj HC HRW)) as [r E]. destruct (S1 r E) as [RB _].
  destruct (te_facts cmp (num_syms g)) as [_ [T2 T3]]. destruct (positions_facts _ _ _ HP T3) as [Hlt Hinj].
  pose proof (renamed_by_prods h g (rm_grammar r) RB) as HPR.
  exists r, h. split; auto. split; [apply (rb_roots _ _ _ RB)|]. split; auto. split.
  - intros A y HA. rewrite (language_ext _ _ HPR). apply (renamed_language (num_syms g)); auto. apply prods_bounds; auto.
  - intros u w Hu Hw. rewrite (derives_ext _ _ HPR). apply (renamed_derives (num_syms g)); auto. apply prods_bounds; auto.
Qed.
Print Assumptions C37_language.

Lemma rev_order : total_order (fun a b => Nat.compare b a).
Proof.
  split.
  - intros a b. apply Nat.compare_antisym.
  - intros a b c H1 H2. apply Nat.compare_le_iff in H1, H2. apply Nat.compare_le_iff. lia.
Qed.

(** Two names in a grammar with an unused symbol:  S ::= A x ; A ::= x | ;   S A u x = 0 1 2 3 *)
Definition ex_remap : cfg :=
  mkCfg (mkSrc 4 [Some "S"%string; Some "A"%string; Some "u"%string; None])
        [mkRule 0 [1; 3] hd0; mkRule 1 [3] hd0; mkRule 1 [] hd0] [0] [] (Some 2).

Lemma ex_remap_ok : closed ex_remap /\ fits ex_remap /\ names_wf ex_remap /\
  num_syms ex_remap <= length (to_external (rm_mapping (remap_new ex_remap))).
Proof.
  split; [|split; [|split]].
  - split; [closed_tac|]. split; repeat constructor.
  - split; auto. intros x [<-|[<-|[<-|[]]]]; simpl; lia.
  - reflexivity.
  - vm_compute. repeat constructor.
Qed.

Example C37_example : total_order (fun a b => Nat.compare b a) /\
  exists r, reorder_symbols (fun a b => Nat.compare b a) (remap_new ex_remap) = Ok r /\
  rules (rm_grammar r) = [mkRule 3 [2; 0] hd0; mkRule 2 [0] hd0; mkRule 2 [] hd0] /\ roots (rm_grammar r) = [3] /\
  names (src (rm_grammar r)) = [None; Some "u"%string; Some "A"%string; Some "S"%string].
Proof.
  split; [exact rev_order|]. eexists. split; [vm_compute; reflexivity|]. split; [reflexivity|]. split; reflexivity.
Qed.

(** ** C38.  Missing: grammars without rules, and roots that occur in no rule. *)
Theorem C38_remove_unused_partial : forall g m,
  closed g -> fits g -> names_wf g -> num_syms g <= length (to_external m) -> rules g <> [] ->
  exists r U h, remove_unused_symbols (mkRemap g m) = Ok r /\
  let g' := rm_grammar r in
  (* U: the symbols that occur in rules, in order *)
  StronglySorted lt U /\ (forall s, In s U <-> occurs (prods g) s) /\
  num_syms g' = length U /\ (forall i s, nth_error U i = Some s -> h s = i) /\
  Permutation (rules g') (map (rename_rule h) (rules g)) /\
  roots g' = map h (roots g) /\ wroots g' = map (rename_wrapped h) (wroots g) /\
  (forall s, In s U -> nth_error (names (src g')) (h s) = nth_error (names (src g)) s) /\
  length (names (src g')) = length U /\
  closed_rules g' /\
  (forall s, s < num_syms g' -> occurs (prods g') s) /\
  (forall A y, occurs (prods g) A ->
     (language (prods g') (h A) y <-> exists w, y = map h w /\ language (prods g) A w)).
Proof.
  intros g m HC HF HN HM HNE. destruct HC as [HC HRW].
  destruct (remove_unused_spec (mkRemap g m) HC HF HN HM)
    as [U [HS [HU [te [h [HP [LT [HT [HI [HI2 [ti [LI [MT [S1 [S2 _]]]]]]]]]]]]]]].
  cbn [rm_grammar] in *.
  assert (HUn : U <> []).
  { intros ->. destruct (rules g) as [|x l] eqn:ER; [congruence|].
    apply (proj2 (HU (lhs x))). exists (lhs x), (rhs x). split; auto. exists x. rewrite ER. simpl; auto. }
  destruct (S2 (conj HC HRW) HUn) as [r E]. destruct (S1 r E) as [_ [g1 [RB [EG [HMp _]]]]].
  destruct (positions_facts _ _ _ HP LT) as [Hlt Hinj].
  exists r, U, h. split; auto. rewrite EG. cbn [rules roots wroots src names].
  assert (Hh : forall s, In s U -> h s < length U).
  { intros s Hs. apply In_nth_error in Hs. destruct Hs as [i Hi]. rewrite (HI i s Hi). apply nth_error_Some. congruence. }
  assert (HPR : forall A q, prods (mkCfg (mkSrc (length U) (firstn (length U) (names (src g1)))) (rules g1) (roots g1) (wroots g1) (limit g1)) A q
            <-> renamed h (prods g) A q) by exact (renamed_by_prods h g g1 RB).
  destruct (remap_names_perm h (names (src g))) as [NL NN]; [rewrite HN; auto|rewrite HN; auto|].
  assert (HUlt : forall s, In s U -> s < num_syms g) by (intros s Hs; apply HU in Hs; eapply occurs_lt; eauto).
  assert (HUle : length U <= num_syms g).
  { assert (HND : NoDup U).
    { clear -HS. induction HS as [|a l H IH HF]; constructor; auto. intros X.
      pose proof (proj1 (Forall_forall _ _) HF a X). lia. }
    replace (num_syms g) with (length (seq 0 (num_syms g))) by apply seq_length.
    apply NoDup_incl_length; auto. intros x Hx. apply in_seq. specialize (HUlt x Hx). lia. }
  split; auto. split; auto. split; [reflexivity|]. split; auto. split; [apply (rb_rules _ _ _ RB)|].
  split; [apply (rb_roots _ _ _ RB)|]. split; [apply (rb_wroots _ _ _ RB)|]. split.
  { intros s Hs. rewrite nth_error_firstn_lt by auto. rewrite (rb_names _ _ _ RB). apply NN. rewrite HN. auto. }
  split.
  { rewrite firstn_length, (rb_names _ _ _ RB), NL, HN. lia. }
  split.
  { intros x Hx. cbn [rules] in Hx. apply (Permutation_in _ (rb_rules _ _ _ RB)) in Hx. apply in_map_iff in Hx.
    destruct Hx as [y [<- Hy]]. unfold num_syms. cbn [src num lhs rhs rename_rule]. split.
    - apply Hh, HU. eapply prods_occurs_rule; eauto.
    - apply Forall_forall. intros s Hs. apply in_map_iff in Hs. destruct Hs as [t [<- Ht]].
      apply Hh, HU. eapply prods_occurs_rule; eauto. }
  split.
  { intros s Hs. unfold num_syms in Hs. cbn [src num] in Hs.
    destruct (nth_error U s) as [t|] eqn:Et; [|apply nth_error_None in Et; lia]. pose proof (HI s t Et) as Hs'.
    apply nth_error_In in Et. apply HU in Et. destruct Et as [A [q [HA Hi]]].
    exists (h A), (map h q). split.
    - apply HPR. exists A, q. auto.
    - rewrite <- Hs'. destruct Hi as [->|Hi]; auto. right. apply in_map. auto. }
  intros A y HA. rewrite (language_ext _ _ HPR). apply (renamed_language (num_syms g)); auto.
  - apply prods_bounds; auto.
  - eapply occurs_lt; eauto.
Qed.
Print Assumptions C38_remove_unused_partial.

(** A grammar without rules has no used symbol, and truncating to no symbols panics. *)
Theorem C38_no_rules_refuted : forall g m, closed g -> names_wf g -> good_limit (limit g) ->
  num_syms g <= length (to_external m) -> rules g = [] ->
  remove_unused_symbols (mkRemap g m) = Panic.
Proof.
  intros g m HC HN HG HM HE. assert (HF : fits g).
  { unfold fits. unfold good_limit in HG. destruct (limit g); auto. split; auto. rewrite HE. intros x []. }
  destruct (remove_unused_spec (mkRemap g m) (proj1 HC) HF HN HM)
    as [U [HS [HU [te [h [HP [LT [HT [HI [HI2 [ti [LI [MT [S1 [S2 S3]]]]]]]]]]]]]]].
  apply S3; auto. destruct U as [|s U]; auto. exfalso.
  assert (HO : occurs (prods (rm_grammar (mkRemap g m))) s) by (apply HU; left; auto).
  destruct HO as [A [q [[x [Hx _]] _]]]. cbn [rm_grammar] in Hx. rewrite HE in Hx. destruct Hx.
Qed.
Print Assumptions C38_no_rules_refuted.

(** A root that occurs in no rule is left pointing outside of the grammar, and the next operation
    panics. *)
Theorem C38_unused_root_refuted : exists g r R, closed g /\ fits g /\ names_wf g /\
  remove_unused_symbols (remap_new g) = Ok r /\ In R (roots (rm_grammar r)) /\ num_syms (rm_grammar r) <= R /\
  remove_unused_symbols r = Panic.
Proof.
  exists (mkCfg (mkSrc 3 [None; None; None]) [mkRule 0 [1] hd0] [2] [] None). do 2 eexists.
  split; [split; [closed_tac|split; repeat constructor]|]. split; [exact I|]. split; [reflexivity|].
  split; [vm_compute; reflexivity|]. split; [left; reflexivity|]. split; [vm_compute; lia|vm_compute; reflexivity].
Qed.
Print Assumptions C38_unused_root_refuted.

Example C38_example : exists r, remove_unused_symbols (remap_new ex_remap) = Ok r /\
  rules (rm_grammar r) = [mkRule 1 [] hd0; mkRule 0 [1; 2] hd0; mkRule 1 [2] hd0] /\
  num_syms (rm_grammar r) = 3 /\ names (src (rm_grammar r)) = [Some "S"%string; Some "A"%string; None].
Proof. eexists. split; [vm_compute; reflexivity|]. split; [reflexivity|]. split; reflexivity. Qed.

(** ** C39.  After any sequence of calls that returns. *)
Theorem C39_mapping : forall g ops r, closed g -> fits g -> names_wf g -> remap_run ops g = Ok r ->
  let g' := rm_grammar r in let m := rm_mapping r in
  inverse_pair m /\
  (* current symbols to original ones and back *)
  (forall s, s < num_syms g' -> exists o, o < num_syms g /\ external_of m s = Some o /\ internal_of m o = Some s /\
                                          nth_error (names (src g')) s = nth_error (names (src g)) o) /\
  (* original symbols in rules to current ones; rules to rules *)
  (exists f, (forall o, occurs (prods g) o -> internal_of m o = Some (f o) /\ f o < num_syms g') /\
             Permutation (rules g') (map (rename_rule f) (rules g))) /\
  Forall2 (fun o s => internal_of m o = Some s) (roots g) (roots g') /\
  Forall2 (wrapped_related m) (wroots g) (wroots g').
Proof.
  intros g ops r HC HF HN E. pose proof (run_inv g ops _ r (new_inv g HC HF HN) E) as I. cbn zeta.
  split; [exact (ri_inverse _ _ I)|]. split.
  - intros s Hs. destruct (ri_ext _ _ I s Hs) as [o [H1 [H2 H3]]]. exists o. split; auto. split; auto. split; auto.
    apply (ri_inverse _ _ I). auto.
  - split; [exact (ri_map _ _ I)|]. split; [exact (ri_roots _ _ I)|exact (ri_wroots _ _ I)].
Qed.
Print Assumptions C39_mapping.

(** All sequences return when there is a rule and the roots occur in rules. *)
Theorem C39_returns : forall g ops, closed g -> fits g -> names_wf g -> used_roots g -> rules g <> [] ->
  exists r, remap_run ops g = Ok r.
Proof. intros g ops HC HF HN HU HNE. apply (run_total g ops _ (new_inv g HC HF HN) HU HNE). Qed.
Print Assumptions C39_returns.

(** The language of every original symbol that occurs in a rule is found, renamed, at its current
    symbol. *)
Theorem C39_language : forall g ops r, closed g -> fits g -> names_wf g -> remap_run ops g = Ok r ->
  forall o, occurs (prods g) o -> exists s, internal_of (rm_mapping r) o = Some s /\
  forall y, language (prods (rm_grammar r)) s y <->
    exists w, language (prods g) o w /\ Forall2 (fun a b => internal_of (rm_mapping r) a = Some b) w y.
Proof.
  intros g ops r HC HF HN E o Ho.
  pose proof (run_inv g ops _ r (new_inv g HC HF HN) E) as I. destruct (ri_map _ _ I) as [f [F1 F2]].
  exists (f o). split; [apply F1; auto|].
  assert (HPR : forall A q, prods (rm_grammar r) A q <-> renamed f (prods g) A q).
  { intros A q. split.
    - intros [x [Hx [<- <-]]]. apply (Permutation_in _ F2) in Hx. apply in_map_iff in Hx.
      destruct Hx as [y [<- Hy]]. exists (lhs y), (rhs y). split; [exists y; auto|]. auto.
    - intros [B [t [[y [Hy [<- <-]]] [-> ->]]]]. exists (rename_rule f y). split; auto.
      apply (Permutation_in _ (Permutation_sym F2)). apply in_map. auto. }
  assert (HInj : forall a b, occurs (prods g) a -> occurs (prods g) b -> f a = f b -> a = b).
  { intros a b Ha Hb Hab. destruct (F1 a Ha) as [A1 _], (F1 b Hb) as [B1 _].
    apply (ri_inverse _ _ I) in A1. apply (ri_inverse _ _ I) in B1. congruence. }
  assert (HOr : forall A q, prods g A q -> occurs (prods g) A /\ Forall (occurs (prods g)) q).
  { intros A q HA. split; [exists A, q; auto|]. apply Forall_forall. intros s Hs. exists A, q. auto. }
  assert (HBwd : forall x y, derives (renamed f (prods g)) x y -> forall u, x = map f u -> Forall (occurs (prods g)) u ->
    exists w, y = map f w /\ Forall (occurs (prods g)) w /\ derives (prods g) u w).
  { intros x y H. induction H as [x|x A y q w HP HD IH]; intros u Eu HU.
    - exists u. split; auto. split; auto. constructor.
    - symmetry in Eu. apply map_eq_app in Eu. destruct Eu as [u1 [u2 [-> [E1 E2]]]].
      apply map_eq_cons in E2. destruct E2 as [B [u3 [-> [E2 E3]]]].
      destruct HP as [B' [t [HP [EA ER]]]]. apply Forall_app in HU. destruct HU as [HU1 HU2].
      inversion HU2; subst. destruct (HOr B' t HP) as [HB' Hq].
      assert (B = B') by (apply HInj; auto). subst B'.
      destruct (IH (u1 ++ t ++ u3)) as [w' [Ew [HW HD']]].
      + rewrite !map_app. auto.
      + apply Forall_app. split; auto. apply Forall_app. auto.
      + exists w'. split; auto. split; auto. apply derives_step with t; auto. }
  assert (HTerm : forall a, occurs (prods g) a -> (terminal (renamed f (prods g)) (f a) <-> terminal (prods g) a)).
  { intros a Ha. split.
    - intros H q HP. apply (H (map f q)). exists a, q; auto.
    - intros H q [B [t [HP [Ea _]]]]. destruct (HOr B t HP). apply HInj in Ea; auto. subst. eapply H; eauto. }
  intros y. rewrite (language_ext _ _ HPR). unfold language. split.
  - intros [HD HT]. destruct (HBwd _ _ HD [o] eq_refl) as [w [-> [HW HD']]]; auto.
    exists w. split.
    + split; auto. clear HD HD'. induction HW as [|a w Ha HW IH]; [constructor|].
      simpl in HT. inversion HT; subst. constructor; auto. apply HTerm; auto.
    + clear -HW F1. induction HW; simpl; constructor; auto. apply F1; auto.
  - intros [w [[HD HT] HF2]].
    assert (HW : Forall (occurs (prods g)) w).
    { eapply derives_Forall; [|exact HD|auto]. intros B q HP _. apply (HOr B q HP). }
    assert (y = map f w).
    { clear -HF2 HW F1. induction HF2 as [|a b w y Hab _ IH]; auto. inversion HW; subst. simpl. f_equal; auto.
      destruct (F1 a H1). congruence. }
    subst y. split; [apply (renamed_derives_fwd f (prods g) [o] w HD)|].
    clear -HW HT HTerm. induction HW as [|a w Ha HW IH]; simpl; [constructor|]. inversion HT; subst.
    constructor; auto. apply HTerm; auto.
Qed.
Print Assumptions C39_language.

Example C39_example : closed ex_remap /\ fits ex_remap /\ names_wf ex_remap /\ used_roots ex_remap /\
  rules ex_remap <> [] /\
  exists r, remap_run [RemoveUnused; Reorder (fun a b => Nat.compare b a); RemoveUnused] ex_remap = Ok r /\
  to_external (rm_mapping r) = [3; 1; 0] /\
  to_internal (rm_mapping r) = [Some 2; Some 1; None; Some 0].
Proof.
  destruct ex_remap_ok as [A [B [C _]]]. split; auto. split; auto. split; auto. split; [|split].
  - split; [|constructor]. constructor; auto. exists 0, [1; 3]. split; auto. exists (mkRule 0 [1; 3] hd0). simpl; auto.
  - discriminate.
  - eexists. split; [vm_compute; reflexivity|]. split; reflexivity.
Qed.
