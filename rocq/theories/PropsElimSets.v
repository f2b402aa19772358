(** Property C113: what elimination of nulling rules does to sentential forms and to the sets and
    matrices of the analyses. *)

From Coq Require Import List Arith NArith Bool Lia Sorted Relations.
From Verif Require Import Base ListFacts Spec SpecClassify SpecPredict SetView GrammarFacts LoopModel SymbolModel HistoryModel CfgModel View
  CfgProof BitSetModel ClosureModel SetProof MatrixModel MatrixProof ClassifyModel SetsModel SetsProof FollowProof
  ElimModel ElimProof PropsGrammar PropsElim PropsPredict SplitProof PropsSplit.
Import ListNotations.
Local Notation length := List.length.

(** The symbol derives a string of terminals that is not empty. *)
Definition visible (g : cfg) (s : nat) : Prop := s < num_syms g /\ exists x, x <> [] /\ language (prods g) s x.

Section Elim.
  Context (g g1 g' result : cfg) (p q : bitset).
  Hypothesis (HC : closed_rules g) (EL : eliminated g g1 g' result p q).

  Notation P1 := (prods g1).
  Notation PP := (pre_prods p (rules g1)).

  Lemma es_limit : limit_rhs_len g (Some 2) = Ok g1.
  Proof. apply (el_limit _ _ _ _ _ _ EL). Qed.

  Lemma es_kept : kept (num_syms g) (prods g) P1.
  Proof. destruct (limited g (Some 2) g1 HC) as [_ [_ [_ K]]]; [simpl; lia|apply es_limit|exact K]. Qed.

  Lemma es_num : num_syms g <= num_syms g1.
  Proof. apply (g1_num g g1 g' result p q HC EL). Qed.

  Lemma es_bound : forall s w, s < num_syms g -> derives (prods g) [s] w -> Forall (fun a => a < num_syms g) w.
  Proof.
    intros s w Hs D. apply (derives_Forall (prods g) (fun a => a < num_syms g)) with (u := [s]); auto.
    intros A r [x [Hx [<- <-]]] _. apply (HC x Hx).
  Qed.

  Lemma es_derives : forall s w, s < num_syms g -> Forall (fun a => a < num_syms g) w ->
    (derives P1 [s] w <-> derives (prods g) [s] w).
  Proof.
    intros s w Hs Hw. apply (represents_derives _ _ _ (rp_rep _ _ _ (g1_Repr g g1 g' result p q HC EL))).
    - constructor; auto. lia.
    - eapply Forall_impl; [|exact Hw]. cbn. intros a Ha. lia.
  Qed.

  Lemma es_visible1 : forall s, visible g s -> exists x, x <> [] /\ derives P1 [s] x /\ Forall (old_terminal g) x.
  Proof.
    intros s [Hs [x [Hx [D T]]]]. exists x. split; auto. pose proof (es_bound s x Hs D) as B. split; [apply es_derives; auto|].
    rewrite Forall_forall in *. intros a Ha. split; auto.
  Qed.

  Lemma es_pre : forall A r w, P1 A r -> derives P1 r w -> w <> [] -> exists r', PP A r' /\ yields PP r' w.
  Proof.
    intros A r w HP D Hw. assert (HB : length r <= 2).
    { destruct HP as [x [Hx [_ <-]]]. pose proof (g1_len g g1 g' result p q EL) as HL. rewrite Forall_forall in HL. auto. }
    apply derives_yields in D. apply (yields_splits g g1 g' result p q EL) in D.
    destruct r as [|a [|b [|? ?]]]; simpl in HB; try lia.
    - inversion D. subst. congruence.
    - apply lift_single in D. destruct D as [[-> _]|[_ D]]; [congruence|]. exists [a]. split; auto.
      apply PP_rule; auto. discriminate.
    - change [a; b] with ([a] ++ [b]) in D. apply lift_app_inv in D. destruct D as [x1 [x2 [-> [L1 L2]]]].
      apply lift_single in L1. apply lift_single in L2. destruct L1 as [[-> Ha]|[N1 Y1]], L2 as [[-> Hb]|[N2 Y2]].
      + contradiction Hw. reflexivity.
      + exists [b]. split; auto. eapply PP_left; eauto.
      + rewrite app_nil_r. exists [a]. split; auto. eapply PP_right; eauto.
      + exists ([a] ++ [b]). split; [apply PP_rule; [exact HP|discriminate]|]. apply yields_app; auto.
  Qed.

  Notation live := (closure_all PP
                (fun x => x < num_syms g1 /\ terminal PP x /\
                          ~ (exists r, In r (rules result) /\ lhs r = x))).

  Lemma es_live : forall s, visible g s -> (forall s, member q s <-> live s) ->
    rules g' = filter (fun r => bit q (lhs r)) (pre_rules p (rules g1)) -> live s.
  Proof.
    intros s HV HQ HR. destruct (es_visible1 s HV) as [x [Hx [D T]]].
    apply derives_yields in D. apply (yields_splits g g1 g' result p q EL) in D. apply lift_single in D.
    destruct D as [[-> _]|[_ D]]; [congruence|].
    destruct (live_derives g1 g' result p q [s] x D) as [F _]; auto.
    - eapply Forall_impl; [|exact T]. apply (old_terminal_live g g1 g' result p q HC EL).
    - inversion F; auto.
  Qed.

  Lemma es_complete1 : forall s w, derives1 P1 [s] w -> w <> [] -> Forall (visible g) w -> derives1 (prods g') [s] w.
  Proof.
    intros s w HD Hw HV. destruct (el_cases _ _ _ _ _ _ EL) as [[_ ->]|[HR HQ]]; auto.
    apply derives1_single in HD. destruct HD as [r [HP D]]. destruct (es_pre s r w HP D Hw) as [r' [HP' Y]].
    assert (HL : Forall live w) by (eapply Forall_impl; [|exact HV]; intros a Ha; apply es_live; auto).
    destruct (live_derives g1 g' result p q r' w Y HL HQ HR) as [F Y'].
    exists [], s, [], r'. split; auto. split; [|rewrite app_nil_r; apply yields_derives; exact Y'].
    assert (HA : live s). { eapply ca_rule; [exact HP'| |exact F]. destruct HP' as [x [Hx [_ <-]]]. apply pre_In in Hx. tauto. }
    destruct HP' as [x [Hx [<- <-]]]. exists x. split; auto. rewrite HR. apply filter_In. split; auto. apply bit_member, HQ. exact HA.
  Qed.

  Lemma es_complete : forall s w, derives P1 [s] w -> w <> [] -> Forall (visible g) w -> derives (prods g') [s] w.
  Proof.
    intros s w HD Hw HV. apply derives_inv1 in HD. destruct HD as [<-|HD]; [constructor|].
    apply es_complete1 in HD; auto. apply derives1_single in HD. destruct HD as [r [HP D]]. eapply derives_rule_then; eauto.
  Qed.

  Lemma es_rule_sound : forall A r, prods g' A r -> derives1 P1 [A] r.
  Proof.
    intros A r HP. assert (HD : derives P1 [A] r) by (apply (elim_sound g g1 g' result p q EL); apply derives_rule; exact HP).
    apply derives_inv1 in HD. destruct HD as [<-|HD]; auto.
    destruct (el_cases _ _ _ _ _ _ EL) as [[_ E]|[HR HQ]].
    - rewrite E in HP. exists [], A, [], [A]. split; auto. split; auto. constructor.
    - destruct HP as [x [Hx [<- ER]]]. rewrite HR in Hx. apply filter_In in Hx. destruct Hx as [Hx _]. apply pre_In in Hx.
      destruct Hx as [_ [Hx|[y [Hy Hx]]]].
      + exists [], (lhs x), [], (rhs x). split; auto. split; [exists x; auto|]. rewrite ER. constructor.
      + apply works_In in Hx. destruct Hx as [E1 [a [b [EB H]]]]. exists [], (lhs x), [], [a; b]. split; auto. split; [exists y; auto|].
        simpl. rewrite <- ER.
        assert (NU : forall c, bit p c = true -> derives P1 [c] []) by (intros c Hc; apply (el_nullable _ _ _ _ _ _ EL), bit_member; auto).
        assert (DL : bit p a = true -> derives P1 [a; b] [b]) by (intros Ha; apply (derives_app P1 [a] [b] [] [b]); [auto|constructor]).
        assert (DR : bit p b = true -> derives P1 [a; b] [a]) by (intros Hb; apply (derives_app P1 [a] [b] [a] []); [constructor|auto]).
        destruct H as [[Ha [Hb [_ [-> | ->]]]]|[[Ha [Hb [-> _]]]|[Ha [Hb [-> _]]]]]; auto.
  Qed.

  Lemma es_sound1 : forall s w, derives1 (prods g') [s] w -> derives1 P1 [s] w.
  Proof.
    intros s w HD. apply derives1_single in HD. destruct HD as [r [HP D]]. apply es_rule_sound in HP.
    apply derives1_single in HP. destruct HP as [r0 [HP D0]]. exists [], s, [], r0. split; auto. split; auto.
    rewrite app_nil_r. eapply derives_trans; [exact D0|]. apply (elim_sound g g1 g' result p q EL). exact D.
  Qed.

  Lemma es_terminal : forall t, old_terminal g t -> terminal (prods g') t.
  Proof.
    intros t HT r HP. apply es_rule_sound in HP. apply derives1_single in HP. destruct HP as [r0 [HP _]].
    apply (old_terminal_P1 g g1 g' result p q HC EL t HT r0 HP).
  Qed.

  (** In a grammar where every symbol is productive, the symbols that only derive the empty string
      can be dropped from a form. *)
  Lemma es_drop : (forall s, s < num_syms g -> productive (prods g) s) -> forall v, Forall (fun a => a < num_syms g) v ->
    exists v', derives (prods g) v v' /\ Forall (visible g) v'.
  Proof.
    intros HP v HV. induction HV as [|a v Ha _ [v' [D V]]]; [exists []; split; constructor|].
    destruct (HP a Ha) as [[|c w] [DW TW]].
    - exists v'. split; auto. apply (derives_app (prods g) [a] v [] v'); auto.
    - exists (a :: v'). split; [apply (derives_app (prods g) [a] v [a] v'); auto; constructor|].
      constructor; auto. split; auto. exists (c :: w). split; [discriminate|]. split; auto.
  Qed.

  Lemma old_visible : forall t, old_terminal g t -> visible g t.
  Proof. intros t [H T]. split; auto. exists [t]. split; [discriminate|]. split; [constructor|]. constructor; auto. Qed.

  (** A form with one distinguished part. *)
  Lemma es_drop_around : (forall s, s < num_syms g -> productive (prods g) s) ->
    forall C u m v, C < num_syms g -> m <> [] -> Forall (visible g) m -> derives (prods g) [C] (u ++ m ++ v) ->
    exists u' v', derives (prods g) (u ++ m ++ v) (u' ++ m ++ v') /\ (u = [] -> u' = []) /\ (v = [] -> v' = []) /\
      Forall (visible g) (u' ++ m ++ v') /\ derives P1 [C] (u' ++ m ++ v').
  Proof.
    intros HP C u m v HCn Hm HV D. pose proof (es_bound _ _ HCn D) as B. apply Forall_app in B. destruct B as [B1 B2]. apply Forall_app in B2. destruct B2 as [_ B3].
    assert (DR : forall x, Forall (fun a => a < num_syms g) x -> exists x', derives (prods g) x x' /\ Forall (visible g) x' /\ (x = [] -> x' = [])).
    { intros x Hx. destruct x as [|a x]; [exists []; repeat split; constructor|]. destruct (es_drop HP (a :: x) Hx) as [x' [X1 X2]]. exists x'. repeat split; auto. discriminate. }
    destruct (DR u B1) as [u' [U1 [U2 U3]]]. destruct (DR v B3) as [v' [V1 [V2 V3]]].
    exists u', v'. assert (X : derives (prods g) (u ++ m ++ v) (u' ++ m ++ v')) by (apply derives_app; auto; apply derives_app; auto; constructor).
    split; auto. split; auto. split; auto.
    assert (F : Forall (visible g) (u' ++ m ++ v')) by (apply Forall_app; split; auto; apply Forall_app; split; auto).
    split; auto. apply es_derives; auto; [eapply Forall_impl; [|exact F]; intros a [Ha _]; exact Ha|]. eapply derives_trans; eauto.
  Qed.

  Lemma es_live_string : forall s, live s -> exists x, x <> [] /\ derives P1 [s] x /\ Forall (terminal P1) x.
  Proof.
    fix IH 2. intros s H. destruct H as [s [Hs [HT HN]]|A r HP Hne HF].
    - exists [s]. split; [discriminate|]. split; [constructor|]. constructor; auto. intros r HP.
      destruct r as [|a r].
      + apply HN. destruct HP as [x [Hx [<- ER]]]. exists (mkRule (lhs x) (rhs x) (all_history (hist x))). split; auto.
        rewrite (el_result _ _ _ _ _ _ EL). apply in_flat_map. exists x. split; auto. apply results_In. split; auto. rewrite ER. constructor.
      + apply (HT (a :: r)). apply PP_rule; auto. discriminate.
    - assert (X : exists x, (r <> [] -> x <> []) /\ derives P1 r x /\ Forall (terminal P1) x).
      { clear HP Hne. induction HF as [|a l Ha _ [x [N [D T]]]]; [exists []; repeat split; auto; constructor|].
        destruct (IH a Ha) as [y [Ny [Dy Ty]]]. exists (y ++ x). split; [|split].
        - intros _ E. apply app_eq_nil in E. tauto.
        - apply (derives_app P1 [a] l y x); auto.
        - apply Forall_app; auto. }
      destruct X as [x [N [D T]]]. exists x. split; auto. split; auto.
      eapply derives_trans; [|exact D]. apply (PP_sound g g1 g' result p q EL). exact HP.
  Qed.

  Lemma es_visible_iff : (forall s, s < num_syms g -> productive (prods g) s) -> forall A, A < num_syms g ->
    (nonterminal (prods g') A <-> nonterminal (prods g) A /\ visible g A).
  Proof.
    intros HP A HA. split.
    - intros [r HR]. pose proof HR as HR0. apply es_rule_sound in HR. apply derives1_single in HR. destruct HR as [r0 [HR _]]. split.
      + apply (k_nonterminal _ _ _ es_kept A HA). exists r0. exact HR.
      + split; auto. destruct (el_cases _ _ _ _ _ _ EL) as [[HN _]|[HX HQ]].
        * destruct (HP A HA) as [x [D T]]. exists x. split; [|split; auto]. intros ->. apply (HN A), (el_nullable _ _ _ _ _ _ EL).
          apply (k_nullable _ _ _ es_kept A HA). exact D.
        * destruct HR0 as [x [Hx [<- _]]]. rewrite HX in Hx. apply filter_In in Hx. destruct Hx as [_ Hx]. apply bit_member, HQ in Hx.
          destruct (es_live_string _ Hx) as [y [Ny [Dy Ty]]]. exists y. split; auto. apply (k_language _ _ _ es_kept (lhs x) y HA). split; auto.
    - intros [[r0 HR] HV]. destruct (es_visible1 A HV) as [x [Nx [Dx Tx]]]. apply derives_inv1 in Dx. destruct Dx as [<-|Dx].
      + inversion Tx as [|? ? [_ T] _]; subst. exfalso. exact (T r0 HR).
      + apply es_complete1 in Dx; auto; [|eapply Forall_impl; [|exact Tx]; apply old_visible].
        apply derives1_single in Dx. destruct Dx as [r [H _]]. exists r. exact H.
  Qed.

  Lemma es_closed : closed_rules g'.
  Proof.
    pose proof (g1_closed g g1 g' result p q HC EL) as H1. destruct (el_cases _ _ _ _ _ _ EL) as [[_ ->]|[HR _]]; auto.
    intros x Hx. unfold num_syms. rewrite (el_src _ _ _ _ _ _ EL). rewrite HR in Hx. apply filter_In in Hx. destruct Hx as [Hx _]. apply pre_In in Hx.
    destruct Hx as [_ [Hx|[y [Hy Hx]]]]; [exact (H1 x Hx)|]. exact (works_closed g1 p y H1 Hy x Hx).
  Qed.

  Lemma es_num' : num_syms g' = num_syms g1.
  Proof. unfold num_syms. rewrite (el_src _ _ _ _ _ _ EL). reflexivity. Qed.

  Lemma es_begins : forall A t, A < num_syms g -> old_terminal g t -> begins (prods g') [A] t -> begins (prods g) [A] t.
  Proof.
    intros A t HA HT [_ [v D]]. apply (k_begins _ _ _ es_kept A t HA). split; [apply (old_terminal_P1 g g1 g' result p q HC EL t HT)|].
    exists v. apply (elim_sound g g1 g' result p q EL). exact D.
  Qed.
  Lemma es_ends : forall A t, A < num_syms g -> old_terminal g t -> ends (prods g') [A] t -> ends (prods g) [A] t.
  Proof.
    intros A t HA HT [_ [v D]]. apply (k_ends _ _ _ es_kept A t HA). split; [apply (old_terminal_P1 g g1 g' result p q HC EL t HT)|].
    exists v. apply (elim_sound g g1 g' result p q EL). exact D.
  Qed.
  Lemma es_follows : forall A t, A < num_syms g -> old_terminal g t -> follows (prods g') A t -> follows (prods g) A t.
  Proof.
    intros A t HA HT [_ [C [u [v D]]]]. apply (k_follows _ _ _ es_kept A t HA). split; [apply (old_terminal_P1 g g1 g' result p q HC EL t HT)|].
    exists C, u, v. apply (elim_sound g g1 g' result p q EL). exact D.
  Qed.

  Lemma es_begins_kept : (forall s, s < num_syms g -> productive (prods g) s) -> forall A t, A < num_syms g -> old_terminal g t ->
    begins (prods g) [A] t -> begins (prods g') [A] t.
  Proof.
    intros HP A t HA HT [_ [v D]]. destruct (es_drop_around HP A [] [t] v HA) as [u' [v' [_ [U [_ [F D']]]]]]; auto; [discriminate|constructor; auto; apply old_visible; auto|].
    rewrite (U eq_refl) in *. split; [apply es_terminal; auto|]. exists v'. apply es_complete; auto. discriminate.
  Qed.
  Lemma es_ends_kept : (forall s, s < num_syms g -> productive (prods g) s) -> forall A t, A < num_syms g -> old_terminal g t ->
    ends (prods g) [A] t -> ends (prods g') [A] t.
  Proof.
    intros HP A t HA HT [_ [v D]]. destruct (es_drop_around HP A v [t] [] HA) as [u' [v' [_ [_ [V [F D']]]]]]; auto; [discriminate|constructor; auto; apply old_visible; auto|].
    rewrite (V eq_refl) in *. rewrite app_nil_r in *. split; [apply es_terminal; auto|]. exists u'. apply es_complete; auto. destruct u'; discriminate.
  Qed.
  Lemma es_follows_kept : (forall s, s < num_syms g -> productive (prods g) s) -> forall A t, visible g A -> old_terminal g t ->
    follows (prods g) A t -> follows (prods g') A t.
  Proof.
    intros HP A t HA HT [_ [C [u [v D]]]].
    destruct (le_lt_dec (num_syms g) C) as [HC1|HC1].
    - (* a symbol that is not in the grammar derives only itself *)
      apply derives_inv1 in D. destruct D as [D|D]; [destruct u as [|? [|? ?]]; discriminate|]. apply derives1_single in D.
      destruct D as [r [[x [Hx [<- _]]] _]]. destruct (HC x Hx). lia.
    - destruct (es_drop_around HP C u [A; t] v HC1) as [u' [v' [_ [_ [_ [F D']]]]]]; auto; [discriminate|constructor; auto; constructor; auto; apply old_visible; auto|].
      split; [apply es_terminal; auto|]. exists C, u', v'. apply es_complete; auto. destruct u'; discriminate.
  Qed.

  Lemma es_reaches1 : forall a b, a < num_syms g -> b < num_syms g -> reaches1 (prods g') a b -> reaches1 (prods g) a b.
  Proof.
    intros a b Ha Hb [u [v D]]. apply (k_reaches1 _ _ _ es_kept a b Ha Hb). exists u, v. apply es_sound1. exact D.
  Qed.
  Lemma es_reaches1_kept : (forall s, s < num_syms g -> productive (prods g) s) -> forall a b, a < num_syms g -> visible g b ->
    reaches1 (prods g) a b -> reaches1 (prods g') a b.
  Proof.
    intros HP a b Ha Hb [u [v D]]. pose proof D as D1. apply derives1_single in D1. destruct D1 as [r [HR D1]].
    assert (D0 : derives (prods g) [a] (u ++ [b] ++ v)) by (eapply derives_rule_then; eauto).
    destruct (es_drop_around HP a u [b] v Ha) as [u' [v' [X [_ [_ [F D']]]]]]; auto; [discriminate|].
    exists u', v'. apply es_complete1; auto; [|destruct u'; discriminate].
    (* one or more steps in the binarized grammar *)
    assert (K : derives1 (prods g) [a] (u' ++ [b] ++ v')) by (exists [], a, [], r; split; auto; split; auto; rewrite app_nil_r; eapply derives_trans; eauto).
    apply (k_derives1 _ _ _ es_kept). exact K.
  Qed.
End Elim.

(** ** C113 *)

(** A symbol derives the same forms as before, of those made of symbols that can stand for a
    string that is not empty. *)
Theorem C113_forms : forall g g' result, closed_rules g -> eliminate_nulling g = Ok (g', result) ->
  forall s w, s < num_syms g -> w <> [] ->
  Forall (fun a => a < num_syms g /\ exists x, x <> [] /\ language (prods g) a x) w ->
  (derives (prods g') [s] w <-> derives (prods g) [s] w).
Proof.
  intros g g' result HC E s w Hs Hw HV. destruct (elim_inv g g' result HC E) as [g1 [p [q EL]]].
  assert (HB : Forall (fun a => a < num_syms g) w) by (eapply Forall_impl; [|exact HV]; intros a [Ha _]; exact Ha).
  rewrite <- (es_derives g g1 g' result p q HC EL s w Hs HB). split.
  - apply (elim_sound g g1 g' result p q EL).
  - intros D. apply (es_complete g g1 g' result p q HC EL); auto.
Qed.
Print Assumptions C113_forms.

Definition has_symbol (m : set_map) (A t : nat) : Prop := exists x, map_get m A = Some x /\ In t (set_list x).

(** FIRST, LAST and FOLLOW, as far as the terminals of the given grammar are concerned: they never
    gain anything, and no FIRST or LAST set has the mark for the empty string. *)
Theorem C113_nothing_new : forall g g' result, closed_rules g -> eliminate_nulling g = Ok (g', result) ->
  exists fi fi' la la' fo fo', first_sets_new g = Ok fi /\ first_sets_new g' = Ok fi' /\
  last_sets_new g = Ok la /\ last_sets_new g' = Ok la' /\ follow_sets g = Ok fo /\ follow_sets g' = Ok fo' /\
  (forall A x, map_get (fs_map fi') A = Some x -> has_none x = false) /\
  (forall A x, map_get la' A = Some x -> has_none x = false) /\
  forall A t, A < num_syms g -> t < num_syms g -> terminal (prods g) t ->
    (has_symbol (fs_map fi') A t -> has_symbol (fs_map fi) A t) /\
    (has_symbol la' A t -> has_symbol la A t) /\
    (has_symbol fo' A t -> has_symbol fo A t).
Proof.
  intros g g' result HC E. destruct (elim_inv g g' result HC E) as [g1 [p [q EL]]].
  pose proof (es_closed g g1 g' result p q HC EL) as HC'. destruct (C14_no_empty_rules g g' result HC E) as [_ HN].
  destruct (C40_first_exact g HC) as [fi [E1 [K1 V1]]]. destruct (C40_first_exact g' HC') as [fi' [E1' [K1' V1']]].
  destruct (C41_last_exact g HC) as [la [E2 [K2 V2]]]. destruct (C41_last_exact g' HC') as [la' [E2' [K2' V2']]].
  destruct (follow_sets_spec g HC) as [fo [E3 [K3 V3]]]. destruct (follow_sets_spec g' HC') as [fo' [E3' [K3' V3']]].
  exists fi, fi', la, la', fo, fo'. do 6 (split; [assumption|]).
  split; [|split].
  - intros A x EX. destruct (V1' A x EX) as [_ [_ H]]. destruct (has_none x); auto. exfalso. apply (HN A), H. reflexivity.
  - intros A x EX. destruct (V2' A x EX) as [_ [_ H]]. destruct (has_none x); auto. exfalso. apply (HN A), H. reflexivity.
  - intros A t HA Ht HT. assert (HO : old_terminal g t) by (split; auto).
    assert (NT : nonterminal (prods g') A -> nonterminal (prods g) A).
    { intros [r HR]. apply (es_rule_sound g g1 g' result p q EL) in HR. apply derives1_single in HR. destruct HR as [r0 [HR _]].
      apply (k_nonterminal _ _ _ (es_kept g g1 g' result p q HC EL) A HA). exists r0. exact HR. }
    assert (G : forall (m m' : set_map) (T T' : nat -> nat -> Prop) (O O' : nat -> Prop),
      (forall A, map_get m A <> None <-> nonterminal (prods g) A) -> (forall A, map_get m' A <> None <-> nonterminal (prods g') A) ->
      (forall A v, map_get m A = Some v -> StronglySorted lt (set_list v) /\ (forall t, In t (set_list v) <-> T A t) /\ (has_none v = true <-> O A)) ->
      (forall A v, map_get m' A = Some v -> StronglySorted lt (set_list v) /\ (forall t, In t (set_list v) <-> T' A t) /\ (has_none v = true <-> O' A)) ->
      (T' A t -> T A t) -> has_symbol m' A t -> has_symbol m A t).
    { intros m m' T T' O O' Hm Hm' HV HV' HX [x [EX IX]]. destruct (map_get m A) as [y|] eqn:EY.
      - exists y. split; auto. apply (HV A y EY), HX, (HV' A x EX). exact IX.
      - exfalso. apply (proj2 (Hm A)); [|exact EY]. apply NT, Hm'. congruence. }
    split; [|split].
    + apply (G _ _ (fun A t => begins (prods g) [A] t) (fun A t => begins (prods g') [A] t) _ _ K1 K1' V1 V1'). apply (es_begins g g1 g' result p q HC EL A t HA HO).
    + apply (G _ _ (fun A t => ends (prods g) [A] t) (fun A t => ends (prods g') [A] t) _ _ K2 K2' V2 V2'). apply (es_ends g g1 g' result p q HC EL A t HA HO).
    + apply (G _ _ (follows (prods g)) (follows (prods g')) _ _ K3 K3' V3 V3'). apply (es_follows g g1 g' result p q HC EL A t HA HO).
Qed.
Print Assumptions C113_nothing_new.

(** If every symbol of the given grammar is productive then they lose nothing, and the sets that
    are gone are those of the symbols that derive only the empty string. *)
Theorem C113_nothing_lost : forall g g' result, closed_rules g -> eliminate_nulling g = Ok (g', result) ->
  (forall s, s < num_syms g -> productive (prods g) s) ->
  exists fi fi' la la' fo fo', first_sets_new g = Ok fi /\ first_sets_new g' = Ok fi' /\
  last_sets_new g = Ok la /\ last_sets_new g' = Ok la' /\ follow_sets g = Ok fo /\ follow_sets g' = Ok fo' /\
  (forall A, A < num_syms g -> nonterminal (prods g) A ->
     ((map_get (fs_map fi') A = None <-> forall x, language (prods g) A x -> x = []) /\
      (map_get la' A = None <-> forall x, language (prods g) A x -> x = []) /\
      (map_get fo' A = None <-> forall x, language (prods g) A x -> x = []))) /\
  forall A t, A < num_syms g -> t < num_syms g -> terminal (prods g) t ->
    (has_symbol (fs_map fi) A t -> has_symbol (fs_map fi') A t) /\
    (has_symbol la A t -> has_symbol la' A t) /\
    (has_symbol fo A t -> (exists x, x <> [] /\ language (prods g) A x) -> has_symbol fo' A t).
Proof.
  intros g g' result HC E HP. destruct (elim_inv g g' result HC E) as [g1 [p [q EL]]].
  pose proof (es_closed g g1 g' result p q HC EL) as HC'.
  destruct (C40_first_exact g HC) as [fi [E1 [K1 V1]]]. destruct (C40_first_exact g' HC') as [fi' [E1' [K1' V1']]].
  destruct (C41_last_exact g HC) as [la [E2 [K2 V2]]]. destruct (C41_last_exact g' HC') as [la' [E2' [K2' V2']]].
  destruct (follow_sets_spec g HC) as [fo [E3 [K3 V3]]]. destruct (follow_sets_spec g' HC') as [fo' [E3' [K3' V3']]].
  exists fi, fi', la, la', fo, fo'. do 6 (split; [assumption|]). split.
  - intros A HA HN. pose proof (es_visible_iff g g1 g' result p q HC EL HP A HA) as HV.
    assert (G : forall m : set_map, (map_get m A <> None <-> nonterminal (prods g') A) ->
      (map_get m A = None <-> forall x, language (prods g) A x -> x = [])).
    { intros m Hm. split.
      - intros X x HX. destruct x as [|c x]; auto. exfalso. apply (proj2 Hm); auto. apply HV. split; auto. split; auto. exists (c :: x). split; [discriminate|exact HX].
      - intros X. destruct (map_get m A) eqn:EM; auto. exfalso. destruct (proj1 HV) as [_ [_ [x [Nx Lx]]]]; [apply Hm; discriminate|]. apply Nx, X, Lx. }
    split; [|split]; apply G; auto.
  - intros A t HA Ht HT. assert (HO : old_terminal g t) by (split; auto).
    assert (G : forall (m m' : set_map) (T T' : nat -> nat -> Prop) (O O' : nat -> Prop),
      (forall A, map_get m A <> None <-> nonterminal (prods g) A) -> (forall A, map_get m' A <> None <-> nonterminal (prods g') A) ->
      (forall A v, map_get m A = Some v -> StronglySorted lt (set_list v) /\ (forall t, In t (set_list v) <-> T A t) /\ (has_none v = true <-> O A)) ->
      (forall A v, map_get m' A = Some v -> StronglySorted lt (set_list v) /\ (forall t, In t (set_list v) <-> T' A t) /\ (has_none v = true <-> O' A)) ->
      (T A t -> nonterminal (prods g) A -> T' A t /\ nonterminal (prods g') A) -> has_symbol m A t -> has_symbol m' A t).
    { intros m m' T T' O O' Hm Hm' HV HV' HX [x [EX IX]].
      destruct HX as [HX1 HX2]; [apply (HV A x EX), IX|apply Hm; congruence|].
      destruct (map_get m' A) as [y|] eqn:EY.
      - exists y. split; auto. apply (HV' A y EY), HX1.
      - exfalso. apply (proj2 (Hm' A)); auto. }
    assert (NT : forall w, derives (prods g') [A] w -> In t w -> nonterminal (prods g) A -> nonterminal (prods g') A).
    { intros w D I [r0 HR]. apply derives_inv1 in D. destruct D as [<-|D].
      - destruct I as [->|[]]. exfalso. exact (HT r0 HR).
      - apply derives1_single in D. destruct D as [r [H _]]. exists r. exact H. }
    split; [|split].
    + apply (G _ _ (fun A t => begins (prods g) [A] t) (fun A t => begins (prods g') [A] t) _ _ K1 K1' V1 V1').
      intros B HA0. pose proof (es_begins_kept g g1 g' result p q HC EL HP A t HA HO B) as B'. split; auto. destruct B' as [_ [v D]]. apply (NT (t :: v)); auto. left. reflexivity.
    + apply (G _ _ (fun A t => ends (prods g) [A] t) (fun A t => ends (prods g') [A] t) _ _ K2 K2' V2 V2').
      intros B HA0. pose proof (es_ends_kept g g1 g' result p q HC EL HP A t HA HO B) as B'. split; auto. destruct B' as [_ [v D]]. apply (NT (v ++ [t])); auto. apply in_or_app. right. left. reflexivity.
    + intros X Y. revert X. apply (G _ _ (follows (prods g)) (follows (prods g')) _ _ K3 K3' V3 V3').
      intros B HA0. split; [apply (es_follows_kept g g1 g' result p q HC EL HP A t); auto; split; auto|].
      apply (es_visible_iff g g1 g' result p q HC EL HP A HA). split; auto. split; auto.
Qed.
Print Assumptions C113_nothing_lost.

(** Which symbols a symbol reaches. *)
Theorem C113_reachability : forall g g' result, closed_rules g -> eliminate_nulling g = Ok (g', result) ->
  exists m m', reachability_matrix g = Ok m /\ reachability_matrix g' = Ok m' /\
  (forall a b, a < num_syms g -> b < num_syms g -> mx_get m' a b = Ok true -> mx_get m a b = Ok true) /\
  ((forall s, s < num_syms g -> productive (prods g) s) ->
   forall a b, a < num_syms g -> b < num_syms g -> (exists x, x <> [] /\ language (prods g) b x) -> mx_get m' a b = mx_get m a b).
Proof.
  intros g g' result HC E. destruct (elim_inv g g' result HC E) as [g1 [p [q EL]]].
  pose proof (es_closed g g1 g' result p q HC EL) as HC'. pose proof (es_num g g1 g' result p q HC EL) as HN. pose proof (es_num' g g1 g' result p q EL) as HN'.
  destruct (reachability_spec g HC) as [m [E1 [S1 B1]]]. destruct (reachability_spec g' HC') as [m' [E1' [S1' B1']]].
  exists m, m'. split; auto. split; auto. split.
  - intros a b Ha Hb EX. destruct (mx_get_ok _ m a b S1 Ha Hb) as [x [Ex X]]. destruct (mx_get_ok _ m' a b S1') as [y [Ey Y]]; [lia|lia|].
    rewrite Ex. rewrite Ey in EX. injection EX as ->. f_equal. apply X, B1. apply (es_reaches1 g g1 g' result p q HC EL a b Ha Hb). apply B1', Y. reflexivity.
  - intros HP a b Ha Hb HV. destruct (mx_get_ok _ m a b S1 Ha Hb) as [x [Ex X]]. destruct (mx_get_ok _ m' a b S1') as [y [Ey Y]]; [lia|lia|].
    rewrite Ex, Ey. f_equal. apply bool_iff. rewrite X, Y, B1, B1'. split.
    + apply (es_reaches1 g g1 g' result p q HC EL a b Ha Hb).
    + apply (es_reaches1_kept g g1 g' result p q HC EL HP a b Ha). split; auto.
Qed.
Print Assumptions C113_reachability.

(** S ::= A b A | C ;  A ::= a | ;  C ::= A A ;   every symbol is productive; FIRST of S was {a, b} with
    the mark and is {a, b}; FOLLOW of A was {b}, and {a} from C. *)
Example C113_example : closed_rules ex_null /\ (forall s, s < num_syms ex_null -> productive (prods ex_null) s) /\
  exists g' result fi fi' fo fo', eliminate_nulling ex_null = Ok (g', result) /\ first_sets_new ex_null = Ok fi /\ first_sets_new g' = Ok fi' /\
  follow_sets ex_null = Ok fo /\ follow_sets g' = Ok fo' /\
  option_map (fun x => (has_none x, set_list x)) (map_get (fs_map fi) 0) = Some (true, [2; 3]) /\
  option_map (fun x => (has_none x, set_list x)) (map_get (fs_map fi') 0) = Some (false, [2; 3]) /\
  option_map set_list (map_get fo 1) = Some [2; 3] /\ option_map set_list (map_get fo' 1) = Some [2; 3].
Proof.
  split; [exact ex_null_closed|]. split.
  - assert (T : forall t, t = 2 \/ t = 3 -> terminal (prods ex_null) t).
    { intros t Ht r [x [Hx [<- _]]]. simpl in Hx. repeat (destruct Hx as [<- | Hx]; [simpl in Ht; lia|]). destruct Hx. }
    assert (R : forall x, In x (rules ex_null) -> prods ex_null (lhs x) (rhs x)) by (intros x Hx; exists x; auto).
    assert (N : derives (prods ex_null) [1] []) by (apply derives_rule, (R (mkRule 1 [] hd0)); simpl; auto).
    assert (N4 : derives (prods ex_null) [4] []).
    { eapply derives_rule_then; [apply (R (mkRule 4 [1; 1] hd0)); simpl; tauto|]. apply (derives_app (prods ex_null) [1] [1] [] []); auto. }
    intros s Hs. unfold num_syms in Hs. simpl in Hs. destruct s as [|[|[|[|[|s]]]]]; try lia.
    + exists []. split; [|constructor]. eapply derives_rule_then; [apply (R (mkRule 0 [4] hd0)); simpl; tauto|exact N4].
    + exists []. split; [exact N|constructor].
    + exists [2]. split; [constructor|]. constructor; [apply T; auto|constructor].
    + exists [3]. split; [constructor|]. constructor; [apply T; auto|constructor].
    + exists []. split; [exact N4|constructor].
  - do 6 eexists. do 5 (split; [vm_compute; reflexivity|]). vm_compute. auto.
Qed.
