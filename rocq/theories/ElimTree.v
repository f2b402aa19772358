(** Parse trees under the elimination of nulling rules. *)

From Coq Require Import List Arith Bool Lia.
From Verif Require Import Base ListFacts SpecTree TreeProof.
Import ListNotations.
Local Notation length := List.length.

Section Elim.
  (** [L1] has rules of at most two symbols; [L'] those rules, without empty ones, and with one of two symbols left out.
      [tag i] is the rule of [L1] that rule [i] of [L'] comes from and what was left out: nothing, the left ([Some false])
      or the right ([Some true]) symbol. *)
  Context (L1 L' : list (nat * list nat)) (tag : nat -> nat * option bool) (T N : nat -> Prop) (eps : nat -> tree).
  Hypothesis H_tag : forall i A r, nth_error L' i = Some (A, r) -> r <> [] /\
    match snd (tag i) with
    | None => nth_error L1 (fst (tag i)) = Some (A, r)
    | Some false => exists a b, r = [b] /\ nth_error L1 (fst (tag i)) = Some (A, [a; b]) /\ N a
    | Some true => exists a b, r = [a] /\ nth_error L1 (fst (tag i)) = Some (A, [a; b]) /\ N b
    end.
  Hypothesis H_inj : forall i j p p', nth_error L' i = Some p -> nth_error L' j = Some p' -> tag i = tag j -> i = j.
  Hypothesis H_T : forall s, T s -> forall r, ~ In (s, r) L1.
  Hypothesis H_eps : forall a, N a -> parses L1 a (eps a) /\ yield (eps a) = [].

  Definition sym_at (j k : nat) : nat := nth k (snd (nth j L1 (0, []))) 0.

  Fixpoint etree (t : tree) : tree :=
    match t with
    | Leaf s => Leaf s
    | Node i ts => Node (fst (tag i))
        (match snd (tag i) with
         | None => map etree ts
         | Some false => eps (sym_at (fst (tag i)) 0) :: map etree ts
         | Some true => map etree ts ++ [eps (sym_at (fst (tag i)) 1)]
         end)
    end.

  Lemma sym_at_eq : forall j A r k s, nth_error L1 j = Some (A, r) -> nth_error r k = Some s -> sym_at j k = s.
  Proof.
    intros j A r k s E E'. unfold sym_at. rewrite (nth_error_nth _ _ (0, []) E). cbn [snd]. apply nth_error_nth. exact E'.
  Qed.

  Lemma etree_ok : forall A t, parses L' A t -> Forall T (yield t) -> parses L1 A (etree t) /\ yield (etree t) = yield t.
  Proof.
    apply (parses_ind2 L' (fun A t => Forall T (yield t) -> parses L1 A (etree t) /\ yield (etree t) = yield t)).
    - intros s H HY. cbn [yield] in HY. inversion HY; subst. split; [|reflexivity]. constructor. apply H_T. auto.
    - intros A r i ts E _ HF HY.
      assert (HX : Forall2 (parses L1) r (map etree ts) /\ flat_map yield (map etree ts) = flat_map yield ts).
      { clear E. cbn [yield] in HY. induction HF as [|x t r ts Hx HF IH]; cbn [map flat_map] in *; [split; constructor|].
        apply Forall_app in HY. destruct HY as [H1 H2]. destruct (Hx H1) as [X1 X2]. destruct (IH H2) as [X3 X4]. split; [constructor; auto|congruence]. }
      destruct HX as [X1 X2]. destruct (H_tag i A r E) as [_ HT]. cbn [etree yield]. destruct (snd (tag i)) as [[|]|].
      + destruct HT as [a [b [-> [E1 Hb]]]]. rewrite (sym_at_eq _ _ _ 1 b E1 eq_refl). destruct (H_eps b Hb) as [B1 B2]. split.
        * econstructor; [exact E1|]. inversion X1 as [|? ? ? ? Y1 Y2]; subst. inversion Y2; subst. cbn [app]. repeat constructor; auto.
        * rewrite flat_map_app. cbn [flat_map]. rewrite B2, !app_nil_r. exact X2.
      + destruct HT as [a [b [-> [E1 Ha]]]]. rewrite (sym_at_eq _ _ _ 0 a E1 eq_refl). destruct (H_eps a Ha) as [B1 B2]. split.
        * econstructor; [exact E1|]. constructor; auto.
        * cbn [flat_map]. rewrite B2. exact X2.
      + split; [econstructor; eauto|exact X2].
  Qed.

  Lemma yield_nonempty : forall A t, parses L' A t -> yield t <> [].
  Proof.
    apply (parses_ind2 L' (fun A t => yield t <> [])).
    - intros s _. discriminate.
    - intros A r i ts E _ HF. destruct (H_tag i A r E) as [HN _]. cbn [yield]. destruct HF as [|x t r ts Hx HF]; [congruence|].
      cbn [flat_map]. intros H. apply app_eq_nil in H. tauto.
  Qed.

  Lemma etree_inj : forall A t, parses L' A t -> Forall T (yield t) -> forall u, parses L' A u -> Forall T (yield u) -> etree t = etree u -> t = u.
  Proof.
    apply (parses_ind2 L' (fun A t => Forall T (yield t) -> forall u, parses L' A u -> Forall T (yield u) -> etree t = etree u -> t = u)).
    - intros s H HY [s'|j us] Hu HYu EQ; cbn [etree] in EQ; congruence.
    - intros A r i ts E HP HF HY u Hu HYu EQ. destruct u as [s|j us]; [discriminate|].
      apply parses_node_inv in Hu. destruct Hu as [r' [E' HP']]. cbn [etree] in EQ. injection EQ as EJ EC.
      assert (NE : forall a t, N a -> parses L' a t -> Forall T (yield t) -> etree t <> eps a).
      { intros a t Ha Ht Hyt X. destruct (etree_ok _ _ Ht Hyt) as [_ Y]. rewrite X, (proj2 (H_eps a Ha)) in Y. symmetry in Y.
        eapply yield_nonempty; eauto. }
      destruct (H_tag i A r E) as [_ HT]. destruct (H_tag j A r' E') as [_ HT'].
      assert (ES : snd (tag i) = snd (tag j)).
      { destruct (snd (tag i)) as [[|]|] eqn:S1, (snd (tag j)) as [[|]|] eqn:S2; auto; exfalso; rewrite <- EJ in *.
        - destruct HT as [a [b [-> [E1 Hb]]]]. destruct HT' as [a' [b' [-> [E1' Ha]]]]. rewrite E1 in E1'. injection E1' as <- <-.
          rewrite (sym_at_eq _ _ _ 0 a E1 eq_refl), (sym_at_eq _ _ _ 1 b E1 eq_refl) in EC.
          inversion HP as [|? x ? ? P1 P2]; subst. inversion P2; subst. cbn [map app] in EC. injection EC as EC _. revert EC. apply NE; auto.
          cbn [yield flat_map] in HY. rewrite app_nil_r in HY. exact HY.
        - destruct HT as [a [b [-> [E1 Hb]]]]. rewrite E1 in HT'. injection HT' as <-.
          rewrite (sym_at_eq _ _ _ 1 b E1 eq_refl) in EC. inversion HP' as [|? x ? ? P1 P2]; subst. inversion P2 as [|? y ? ? P3 P4]; subst. inversion P4; subst.
          inversion HP as [|? x' ? ? P1' P2']; subst. inversion P2'; subst. cbn [map app] in EC. injection EC as _ EC. symmetry in EC. revert EC. apply NE; auto.
          cbn [yield flat_map] in HYu. rewrite app_nil_r in HYu. apply Forall_app in HYu. tauto.
        - destruct HT as [a [b [-> [E1 Ha]]]]. destruct HT' as [a' [b' [-> [E1' Hb]]]]. rewrite E1 in E1'. injection E1' as <- <-.
          rewrite (sym_at_eq _ _ _ 0 a E1 eq_refl), (sym_at_eq _ _ _ 1 b E1 eq_refl) in EC.
          inversion HP' as [|? x ? ? P1 P2]; subst. inversion P2; subst. cbn [map app] in EC. injection EC as EC _. symmetry in EC. revert EC. apply NE; auto.
          cbn [yield flat_map] in HYu. rewrite app_nil_r in HYu. exact HYu.
        - destruct HT as [a [b [-> [E1 Ha]]]]. rewrite E1 in HT'. injection HT' as <-.
          rewrite (sym_at_eq _ _ _ 0 a E1 eq_refl) in EC. inversion HP' as [|? x ? ? P1 P2]; subst. 
          cbn [map] in EC. injection EC as EC _. symmetry in EC. revert EC. apply NE; auto.
          cbn [yield flat_map] in HYu. apply Forall_app in HYu. tauto.
        - destruct HT' as [a [b [-> [E1 Hb]]]]. rewrite E1 in HT. injection HT as <-.
          rewrite (sym_at_eq _ _ _ 1 b E1 eq_refl) in EC. inversion HP as [|? x ? ? P1 P2]; subst. inversion P2 as [|? y ? ? P3 P4]; subst. inversion P4; subst.
          inversion HP' as [|? x' ? ? P1' P2']; subst. inversion P2'; subst. cbn [map app] in EC. injection EC as _ EC. revert EC. apply NE; auto.
          cbn [yield flat_map] in HY. rewrite app_nil_r in HY. apply Forall_app in HY. tauto.
        - destruct HT' as [a [b [-> [E1 Ha]]]]. rewrite E1 in HT. injection HT as <-.
          rewrite (sym_at_eq _ _ _ 0 a E1 eq_refl) in EC. inversion HP as [|? x ? ? P1 P2]; subst. 
          cbn [map] in EC. injection EC as EC _. revert EC. apply NE; auto.
          cbn [yield flat_map] in HY. apply Forall_app in HY. tauto. }
      assert (EI : i = j) by (eapply H_inj; eauto; rewrite (surjective_pairing (tag i)), (surjective_pairing (tag j)); congruence).
      subst j. rewrite E in E'. injection E' as <-. f_equal.
      assert (EM : map etree ts = map etree us).
      { destruct (snd (tag i)) as [[|]|]; [apply app_inv_tail in EC|injection EC as EC|]; exact EC. }
      clear - HF HP HP' HY HYu EM. cbn [yield] in *. revert us HP' HYu EM. induction HF as [|x t r ts Hx HF IH]; intros us HP' HYu EM.
      + inversion HP'. reflexivity.
      + inversion HP' as [|? u ? us' P1 P2]; subst. inversion HP; subst. cbn [map] in EM. injection EM as E1 E2. cbn [flat_map] in *.
        apply Forall_app in HY. apply Forall_app in HYu. destruct HY, HYu. f_equal; auto.
  Qed.

  Lemma elim_embeds : embeds (fun _ => True) T L' L1.
  Proof.
    exists etree. split.
    - intros A t _ H HY. apply etree_ok; auto.
    - intros A t u _ H HY Hu HYu E. eapply etree_inj; eauto.
  Qed.

  (** * Onto, if no symbol has two parses of the empty string *)
  Context (live : nat -> Prop).
  Hypothesis H_len : forall j A r, nth_error L1 j = Some (A, r) -> length r <= 2.
  Hypothesis H_full : forall j A r, nth_error L1 j = Some (A, r) -> r <> [] -> live A -> exists i, tag i = (j, None) /\ nth_error L' i = Some (A, r).
  Hypothesis H_left : forall j A a b, nth_error L1 j = Some (A, [a; b]) -> N a -> live A -> exists i, tag i = (j, Some false) /\ nth_error L' i = Some (A, [b]).
  Hypothesis H_right : forall j A a b, nth_error L1 j = Some (A, [a; b]) -> N b -> live A -> exists i, tag i = (j, Some true) /\ nth_error L' i = Some (A, [a]).
  Hypothesis H_live : forall A t, parses L1 A t -> yield t <> [] -> Forall T (yield t) -> live A.
  Hypothesis H_T' : forall s, T s -> forall r, ~ In (s, r) L'.
  Hypothesis H_null : forall a t, parses L1 a t -> yield t = [] -> N a.
  Hypothesis H_one : forall a t, parses L1 a t -> yield t = [] -> t = eps a.

  Lemma etree_onto : forall A t, parses L1 A t -> Forall T (yield t) -> yield t <> [] -> exists t', parses L' A t' /\ etree t' = t.
  Proof.
    apply (parses_ind2 L1 (fun A t => Forall T (yield t) -> yield t <> [] -> exists t', parses L' A t' /\ etree t' = t)).
    - intros s H HY _. exists (Leaf s). split; [|reflexivity]. constructor. apply H_T'. inversion HY; auto.
    - intros A r j ts E HP HF HY HN.
      assert (HL : live A) by (eapply (H_live A (Node j ts)); eauto; econstructor; eauto).
      pose proof (H_len j A r E) as Hlen. cbn [yield] in HY, HN. destruct r as [|a [|b [|c r]]]; cbn in Hlen; try lia.
      + inversion HP; subst. exfalso. apply HN. reflexivity.
      + inversion HP as [|? x ? ? P1 P2]; subst. inversion P2; subst. inversion HF as [|? ? ? ? F1 F2]; subst. cbn [flat_map] in HY, HN. rewrite app_nil_r in *.
        destruct (F1 HY HN) as [x' [X1 X2]]. destruct (H_full j A [a] E) as [i [I1 I2]]; auto; [discriminate|].
        exists (Node i [x']). split; [econstructor; eauto|]. cbn [etree]. rewrite I1. cbn [fst snd map]. congruence.
      + inversion HP as [|? x ? ? P1 P2]; subst. inversion P2 as [|? y ? ? P3 P4]; subst. inversion P4; subst.
        inversion HF as [|? ? ? ? F1 F2]; subst. inversion F2 as [|? ? ? ? F3 F4]; subst. cbn [flat_map] in HY, HN. rewrite app_nil_r in *.
        apply Forall_app in HY. destruct HY as [HY1 HY2].
        assert (DY : forall t, yield t = [] \/ yield t <> []) by (intros t; destruct (yield t); [left|right]; congruence).
        destruct (DY x) as [Zx|Zx], (DY y) as [Zy|Zy].
        * exfalso. apply HN. rewrite Zx, Zy. reflexivity.
        * destruct (F3 HY2 Zy) as [y' [Y1 Y2]]. assert (Na : N a) by eauto. destruct (H_left j A a b E Na HL) as [i [I1 I2]].
          exists (Node i [y']). split; [econstructor; eauto|]. cbn [etree]. rewrite I1. cbn [fst snd map].
          rewrite (sym_at_eq _ _ _ 0 a E eq_refl), <- (H_one a x P1 Zx). congruence.
        * destruct (F1 HY1 Zx) as [x' [X1 X2]]. assert (Nb : N b) by eauto. destruct (H_right j A a b E Nb HL) as [i [I1 I2]].
          exists (Node i [x']). split; [econstructor; eauto|]. cbn [etree]. rewrite I1. cbn [fst snd map app].
          rewrite (sym_at_eq _ _ _ 1 b E eq_refl), <- (H_one b y P3 Zy). congruence.
        * destruct (F1 HY1 Zx) as [x' [X1 X2]]. destruct (F3 HY2 Zy) as [y' [Y1 Y2]]. destruct (H_full j A [a; b] E) as [i [I1 I2]]; auto; [discriminate|].
          exists (Node i [x'; y']). split; [econstructor; eauto|]. cbn [etree]. rewrite I1. cbn [fst snd map]. congruence.
  Qed.
End Elim.
