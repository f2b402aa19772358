(** Negative rules whose forbidden texts cannot overlap another negative symbol. *)

From Coq Require Import List Arith NArith ZArith Bool Lia.
From Verif Require Import Base ListFacts Spec SpecGen GrammarFacts LoopModel LoopFacts HistoryModel CfgModel View
  BitSetModel SetView SetProof SetsModel SetsProof LRProof FloatModel GenModel GenProof GenProof4 GenProof5.
Import ListNotations.

Local Open Scope nat_scope.
Local Notation length := List.length.

Lemma snoc_split : forall (u1 : list nat) A v1 u x, u ++ [x] = u1 ++ A :: v1 ->
  (u1 = u /\ A = x /\ v1 = []) \/ exists v2, v1 = v2 ++ [x] /\ u = u1 ++ A :: v2.
Proof.
  intros u1 A v1 u x H. destruct v1 as [|y v1 _] using rev_ind.
  - left. apply app_inj_tail in H. destruct H as [-> ->]. auto.
  - right. exists v1. change (A :: v1 ++ [y]) with ((A :: v1) ++ [y]) in H. rewrite app_assoc in H.
    apply app_inj_tail in H. destruct H as [-> ->]. auto.
Qed.

Lemma first_such : forall (T N : nat -> Prop) b, Forall (fun x => T x \/ N x) b ->
  Forall T b \/ exists b1 C b2, b = b1 ++ C :: b2 /\ Forall T b1 /\ N C.
Proof.
  induction 1 as [|x b [Hx|Hx] HF [IH|[b1 [C [b2 [-> [I1 I2]]]]]]]; auto.
  - right. exists (x :: b1), C, b2. auto.
  - right. exists [], x, b. auto.
  - right. exists [], x, (b1 ++ C :: b2). auto.
Qed.

Lemma erased_fun : forall N u x y, erased N u x -> erased N u y -> x = y.
Proof.
  intros N u x y H. revert y. induction H as [|s w v Hs H IH|s w v Hs H IH]; intros y HY; inversion HY; subst; auto; try tauto.
  f_equal. auto.
Qed.
Lemma erased_app_inv : forall N u v z, erased N (u ++ v) z -> exists x y, z = x ++ y /\ erased N u x /\ erased N v y.
Proof.
  induction u as [|s u IH]; intros v z H; simpl in H.
  - exists [], z. split; auto. split; auto. constructor.
  - inversion H; subst.
    + destruct (IH _ _ H4) as [x [y [-> [H5 H6]]]]. exists x, y. split; auto. split; auto. apply er_drop; auto.
    + destruct (IH _ _ H4) as [x [y [-> [H5 H6]]]]. exists (s :: x), y. split; auto. split; auto. apply er_keep; auto.
Qed.
Lemma erased_cons_inv : forall (N : nat -> Prop) A v z, N A -> erased N (A :: v) z -> erased N v z.
Proof. intros N A v z HA H. inversion H; subst; tauto. Qed.

Lemma app_same_length : forall (a b c d : list nat), a ++ c = b ++ d -> length c = length d -> a = b /\ c = d.
Proof.
  induction a as [|x a IH]; intros [|y b] c d H HL; simpl in H; auto.
  - subst c. simpl in HL. rewrite app_length in HL. lia.
  - subst d. simpl in HL. rewrite app_length in HL. lia.
  - injection H as -> H. destruct (IH b c d H HL) as [-> ->]. auto.
Qed.

Lemma app_cons_split : forall (u1 : list nat) A v1 u2 B v2, u1 ++ A :: v1 = u2 ++ B :: v2 ->
  (u1 = u2 /\ A = B /\ v1 = v2) \/ (exists m, u2 = u1 ++ A :: m /\ v1 = m ++ B :: v2) \/
  (exists m, u1 = u2 ++ B :: m /\ v2 = m ++ A :: v1).
Proof.
  induction u1 as [|x u1 IH]; intros A v1 [|y u2] B v2 H; simpl in H; injection H as E H; subst.
  - auto.
  - right. left. exists u2. auto.
  - right. right. exists u1. auto.
  - destruct (IH _ _ _ _ _ H) as [[-> [-> ->]]|[[m [-> ->]]|[m [-> ->]]]]; auto.
    + right. left. exists m. auto.
    + right. right. exists m. auto.
Qed.

Section Apart.
  Context {R : Type} (generate : R -> f64 -> res (f64 * R)) (mutate_start : R -> N -> R)
          (to_char : nat -> R -> option nat * R).
  Context (g : cfg).
  Hypothesis HC : closed_rules g.
  Context (ts : bitset).
  Hypothesis Hts : terminal_symbols g = Ok ts.
  Context (l : list (nat * list nat)) (start : nat) (limit : option limits).
  Let neg := negative_map l.
  Local Notation step := (gen_step generate mutate_start to_char (weighted g) ts neg limit).
  Local Notation P := (prods g).
  Local Notation NS := (negative_symbol l P).
  Local Notation K := (keeping NS P).
  Context (tc : nat -> option nat).
  Hypothesis Htc : forall x r, fst (to_char x r) = tc x.
  Hypothesis Hne : forall A f, nonterminal P A -> forbids l A f -> f <> [].
  Hypothesis Hapart : far_apart l P tc start.

  Lemma apart : forall a A b B c f y, forbids l A f -> nonterminal P A -> NS B ->
    Forall (fun x => terminal P x \/ NS x) b -> erased NS b y ->
    derives K [start] (a ++ A :: b ++ B :: c) -> length f <= length (chars_of tc y).
  Proof.
    intros a A b B c f y Hf HA HB HF HE HD. destruct (first_such _ _ _ HF) as [HT|[b1 [C [b2 [-> [HT HN]]]]]].
    - assert (y = b) as ->.
      { apply (erased_none _ _ _ HE). revert HT. apply Forall_impl. intros x Hx [_ [r Hr]]. apply (Hx r Hr). }
      apply (Hapart a A b B c); auto.
    - apply erased_app_inv in HE. destruct HE as [y1 [y2 [-> [E1 E2]]]].
      assert (y1 = b1) as ->.
      { apply (erased_none _ _ _ E1). revert HT. apply Forall_impl. intros x Hx [_ [r Hr]]. apply (Hx r Hr). }
      assert (length f <= length (chars_of tc b1)).
      { apply (Hapart a A b1 C (b2 ++ B :: c)); auto. rewrite <- app_assoc in HD. auto. }
      rewrite chars_of_app, app_length. lia.
  Qed.

  Definition registered (st : @gen R) (u1 : list nat) (A : nat) (f r1 : list nat) : Prop :=
    exists s, map_get (g_back st) (length (chars_of tc r1) + length f) = Some [s] /\
      bt_forbidden s = f /\ bt_result_len s = length r1 /\
      derives K [start] (u1 ++ A :: bt_prev_work s) /\ Forall (fun x => x < num_syms g) (bt_prev_work s) /\
      map_get (g_attempts st) (length (chars_of tc r1)) <> None.

  Record ainv (u : list nat) (st : @gen R) : Prop := {
    ai_lt : Forall (fun x => x < num_syms g) (g_work st);
    ai_limit : in_limit limit (length (g_result st));
    ai_string : g_string st = chars_of tc (g_result st);
    ai_erased : erased NS u (g_result st);
    ai_derives : derives K [start] (u ++ g_work st);
    ai_all : Forall (fun x => terminal P x \/ NS x) u;
    ai_reg : forall u1 A v1 f r1, u = u1 ++ A :: v1 -> nonterminal P A -> forbids l A f -> erased NS u1 r1 ->
      registered st u1 A f r1;
    ai_only : forall key x, map_get (g_back st) key = Some x -> exists u1 A v1 f r1, u = u1 ++ A :: v1 /\
      nonterminal P A /\ forbids l A f /\ erased NS u1 r1 /\ key = length (chars_of tc r1) + length f;
    ai_avoid : forall u1 A v1 f y, u = u1 ++ A :: v1 -> nonterminal P A -> forbids l A f -> erased NS v1 y ->
      ~ exists x, chars_of tc y = f ++ x }.

  Lemma forbids_fun : forall A f f', forbids l A f -> forbids l A f' -> f = f'.
  Proof. intros A f f' H1 H2. apply negative_map_spec in H1. apply negative_map_spec in H2. congruence. Qed.

  Lemma erased_exists : forall u, Forall (fun x => terminal P x \/ NS x) u -> exists r, erased NS u r.
  Proof.
    induction 1 as [|x u [Hx|Hx] HF [r IH]]; [exists []; constructor|exists (x :: r)|exists r].
    - apply er_keep; auto. intros [_ [q Hq]]. apply (Hx q Hq).
    - apply er_drop; auto.
  Qed.

  Lemma astep : forall u st, ainv u st ->
    match step st with
    | inl st' => exists u', ainv u' st'
    | inr (Ok (Generated result string)) => g_work st = [] /\ result = g_result st /\ string = g_string st
    | inr (Ok _) => True
    | inr Panic => exists rng q, asked g q /\ fails generate rng q
    | inr OutOfFuel => exists rng q, generate rng q = OutOfFuel
    end.
  Proof.
    intros u st [I1 I2 I3 I4 I5 I6 I7 I8 I9]. unfold gen_step. destruct (g_work st) as [|sym W] eqn:EW; [auto|].
    inversion I1 as [|? ? Hsym HW]; subst.
    pose proof (ts_get g HC ts Hts sym) as HT. destruct (bs_get ts sym) as [[|]| |]; try tauto; try lia.
    - (* terminal *)
      destruct HT as [_ HT].
      assert (Hnt : forall A, nonterminal P A -> A <> sym) by (intros A [r Hr] ->; apply (HT r Hr)).
      assert (Hnn : ~ NS sym) by (intros [_ HN]; apply (Hnt sym HN); auto).
      unfold gen_terminal. cbn [g_result g_string g_rng g_back g_work g_attempts].
      pose proof (Htc sym (g_rng st)) as Hc. destruct (to_char sym (g_rng st)) as [c rng] eqn:Ec. cbn [fst] in Hc.
      destruct (match limit with Some lim => _ | None => false end) eqn:Ev; auto.
      set (string := match c with Some ch => g_string st ++ [ch] | None => g_string st end).
      set (st1 := mkGen W (g_result st ++ [sym]) string rng (g_back st) (g_attempts st)).
      assert (L0 : string = chars_of tc (g_result st ++ [sym])).
      { rewrite chars_snoc, <- Hc, <- I3. unfold string. destruct c; auto. }
      assert (L1 : in_limit limit (length (g_result st ++ [sym]))).
      { unfold in_limit. destruct limit as [lim|]; auto. apply N.ltb_ge in Ev. auto. }
      assert (L3 : erased NS (u ++ [sym]) (g_result st ++ [sym])).
      { apply erased_app; auto. apply er_keep; auto. constructor. }
      assert (L4 : derives K [start] ((u ++ [sym]) ++ W)) by (rewrite <- app_assoc; auto).
      assert (L5 : Forall (fun x => terminal P x \/ NS x) (u ++ [sym])) by (apply Forall_app; split; auto).
      (* going on is fine when no forbidden text is completed *)
      assert (Hgo : (forall u1 A v2 f y, u = u1 ++ A :: v2 -> nonterminal P A -> forbids l A f -> erased NS v2 y ->
                       chars_of tc (y ++ [sym]) <> f) -> ainv (u ++ [sym]) st1).
      { intros Hok. constructor; cbn [g_work g_result g_string st1]; auto.
        - intros u1 A v1 f r1 Hu HA Hf Hr1. apply snoc_split in Hu. destruct Hu as [[_ [HA' _]]|[v2 [_ Hu]]].
          + apply Hnt in HA. tauto.
          + exact (I7 u1 A v2 f r1 Hu HA Hf Hr1).
        - intros key x Hx. destruct (I8 key x Hx) as [u1 [A [v1 [f [r1 [-> [J1 [J2 [J3 J4]]]]]]]]].
          exists u1, A, (v1 ++ [sym]), f, r1. rewrite <- app_assoc. auto.
        - intros u1 A v1 f y Hu HA Hf Hy [x Hx]. apply snoc_split in Hu. destruct Hu as [[_ [HA' _]]|[v2 [-> Hu]]].
          + apply Hnt in HA. tauto.
          + apply erased_app_inv in Hy. destruct Hy as [y1 [y2 [-> [E1 E2]]]].
            assert (y2 = [sym]) as -> by (inversion E2; subst; [tauto|]; inversion H3; auto).
            destruct x as [|z x _] using rev_ind.
            * rewrite app_nil_r in Hx. apply (Hok u1 A v2 f y1 Hu HA Hf E1 Hx).
            * apply (I9 u1 A v2 f y1 Hu HA Hf E1). rewrite chars_snoc in Hx. destruct (tc sym) as [ch|].
              -- rewrite app_assoc in Hx. apply app_inj_tail in Hx. destruct Hx as [Hx _]. eauto.
              -- eauto. }
      destruct (map_get (g_back st) (length string)) as [states|] eqn:Eb.
      + destruct (I8 _ _ Eb) as [u1 [A [v1 [f [r1 [Hu [J1 [J2 [J3 J4]]]]]]]]].
        destruct (I7 u1 A v1 f r1 Hu J1 J2 J3) as [s [S1 [S2 [S3 [S4 [S5 S6]]]]]].
        assert (states = [s]) by (rewrite <- J4 in S1; congruence). subst states.
        assert (HNA : NS A) by (split; eauto).
        pose proof I4 as I4'. rewrite Hu in I4'. apply erased_app_inv in I4'. destruct I4' as [r1' [y [Hr [E1 E2]]]].
        assert (r1' = r1) by (eapply erased_fun; eauto). subst r1'. apply erased_cons_inv in E2; auto.
        assert (Hstr : string = chars_of tc r1 ++ chars_of tc (y ++ [sym])).
        { rewrite L0, Hr, <- app_assoc, chars_of_app. auto. }
        assert (Hlen : length (chars_of tc (y ++ [sym])) = length f).
        { apply (f_equal (@length nat)) in Hstr. rewrite app_length in Hstr. lia. }
        cbn [gen_backtrack]. rewrite S2. change (g_string st1) with string. change (g_attempts st1) with (g_attempts st).
        change (g_result st1) with (g_result st ++ [sym]). change (g_back st1) with (g_back st).
        destruct (ends_with string f) eqn:Ee.
        * apply ends_with_spec in Ee. destruct Ee as [x Hx]. rewrite Hstr in Hx.
          destruct (app_same_length (chars_of tc r1) x (chars_of tc (y ++ [sym])) f Hx Hlen) as [_ HF].
          assert (Hs0 : firstn (length string - length f) string = chars_of tc r1).
          { rewrite Hstr, HF, app_length. replace (length (chars_of tc r1) + length f - length f) with (length (chars_of tc r1)) by lia.
            rewrite firstn_app, Nat.sub_diag, firstn_all. apply app_nil_r. }
          rewrite Hs0. destruct (map_get (g_attempts st) (length (chars_of tc r1))) as [a|] eqn:Ea; [|congruence].
          destruct (N.ltb (256 * 64) (a + 1)); auto.
          assert (Hr0 : firstn (bt_result_len s) (g_result st ++ [sym]) = r1).
          { rewrite S3, Hr, <- app_assoc, firstn_app, Nat.sub_diag, firstn_all. apply app_nil_r. }
          rewrite Hr0.
          (* no other negative symbol after this one *)
          assert (Hlast : forall b B c, v1 = b ++ B :: c -> ~ NS B).
          { intros b B c0 Hv HB. pose proof E2 as E2'. rewrite Hv in E2'. apply erased_app_inv in E2'. destruct E2' as [y1 [y2 [Hy [E3 E4]]]].
            assert (HF1 : Forall (fun x => terminal P x \/ NS x) b).
            { pose proof I6 as I6'. rewrite Hu, Hv in I6'. apply Forall_app in I6'. destruct I6' as [_ I6']. inversion I6' as [|? ? _ I6'']; subst.
              apply Forall_app in I6''. tauto. }
            assert (HD : derives K [start] (u1 ++ A :: b ++ B :: (c0 ++ sym :: W))).
            { rewrite Hu, Hv in I5. rewrite <- app_assoc in I5. simpl in I5. rewrite <- app_assoc in I5. auto. }
            pose proof (apart u1 A b B _ f y1 J2 J1 HB HF1 E3 HD) as HL.
            apply (I9 u1 A v1 f y Hu J1 J2 E2). exists []. rewrite app_nil_r. rewrite <- HF. rewrite chars_of_app.
            assert (HZ : chars_of tc [sym] = []).
            { rewrite Hy, <- app_assoc, !chars_of_app, !app_length in Hlen. destruct (chars_of tc [sym]); auto. simpl in Hlen. lia. }
            rewrite HZ, app_nil_r. auto. }
          exists (u1 ++ [A]). constructor; cbn [g_work g_result g_string g_back g_attempts]; auto.
          -- unfold in_limit in *. destruct limit; auto. rewrite Hr, !app_length in L1. lia.
          -- rewrite <- (app_nil_r r1). apply erased_app; auto. apply er_drop; auto. constructor.
          -- rewrite <- app_assoc. auto.
          -- rewrite Hu in I6. apply Forall_app in I6. apply Forall_app. split; [tauto|]. constructor; auto.
          -- intros u2 B v2 f2 r2 Hu2 HB Hf2 Hr2.
             assert (Hreg : registered st u2 B f2 r2).
             { apply snoc_split in Hu2. destruct Hu2 as [[-> [-> ->]]|[v3 [-> Hu2]]].
               - apply (I7 u1 A v1 f2 r2); auto.
               - apply (I7 u2 B (v3 ++ A :: v1) f2 r2); auto. rewrite Hu, Hu2, <- app_assoc. auto. }
             destruct Hreg as [s' [T1 [T2 [T3 [T4 [T5 T6]]]]]]. exists s'. cbn [g_back g_attempts].
             split; [auto|]. split; [auto|]. split; [auto|]. split; [auto|]. split; [auto|].
             rewrite map_get_put. destruct (Nat.eqb _ _); [discriminate|auto].
          -- intros key z Hz. destruct (I8 key z Hz) as [u2 [B [v2 [f2 [r2 [Hu2 [K1 [K2 [K3 K4]]]]]]]]].
             rewrite Hu in Hu2. apply app_cons_split in Hu2. destruct Hu2 as [[-> [-> ->]]|[[m [Hm1 Hm2]]|[m [Hm1 Hm2]]]].
             ++ exists u2, B, [], f2, r2. auto.
             ++ exfalso. apply (Hlast m B v2 Hm2). split; eauto.
             ++ exists u2, B, (m ++ [A]), f2, r2. split; [rewrite Hm1, <- app_assoc; auto|auto].
          -- intros u2 B v2 f2 y2 Hu2 HB Hf2 Hy2 [z Hz]. apply snoc_split in Hu2. destruct Hu2 as [[-> [-> ->]]|[v3 [-> Hu2]]].
             ++ inversion Hy2; subst. simpl in Hz. apply (Hne A f2 HB Hf2). destruct f2; auto. discriminate.
             ++ apply erased_app_inv in Hy2. destruct Hy2 as [y3 [y4 [-> [E3 E4]]]]. apply erased_cons_inv in E4; auto.
                inversion E4; subst. rewrite app_nil_r in Hz.
                apply (I9 u2 B (v3 ++ A :: v1) f2 (y3 ++ y)); auto.
                ** rewrite <- app_assoc. auto.
                ** apply erased_app; auto. apply er_drop; auto.
                ** exists (z ++ chars_of tc y). rewrite chars_of_app, Hz, <- app_assoc. auto.
        * exists (u ++ [sym]). apply Hgo. intros u2 B v2 f2 y2 Hu2 HB Hf2 Hy2 Heq.
          assert (HNB : NS B) by (split; eauto).
          pose proof I4 as I4'. rewrite Hu2 in I4'. apply erased_app_inv in I4'. destruct I4' as [r2 [y3 [Hr2 [E3 E4]]]].
          apply erased_cons_inv in E4; auto. assert (y3 = y2) by (eapply erased_fun; eauto). subst y3.
          assert (Hstr2 : string = chars_of tc r2 ++ f2).
          { rewrite L0, Hr2, <- app_assoc, chars_of_app. congruence. }
          destruct (I7 u2 B v2 f2 r2 Hu2 HB Hf2 E3) as [s' [T1 [T2 _]]].
          rewrite <- app_length, <- Hstr2, Eb in T1. injection T1 as <-.
          assert (Hff : f = f2) by congruence.
          assert (ends_with string f = true); [|congruence]. apply ends_with_spec. exists (chars_of tc r2). congruence.
      + exists (u ++ [sym]). apply Hgo. intros u2 B v2 f2 y2 Hu2 HB Hf2 Hy2 Heq.
        assert (HNB : NS B) by (split; eauto).
        pose proof I4 as I4'. rewrite Hu2 in I4'. apply erased_app_inv in I4'. destruct I4' as [r2 [y3 [Hr2 [E3 E4]]]].
        apply erased_cons_inv in E4; auto. assert (y3 = y2) by (eapply erased_fun; eauto). subst y3.
        assert (Hstr2 : string = chars_of tc r2 ++ f2).
        { rewrite L0, Hr2, <- app_assoc, chars_of_app. congruence. }
        destruct (I7 u2 B v2 f2 r2 Hu2 HB Hf2 E3) as [s' [T1 [T2 _]]].
        rewrite <- app_length, <- Hstr2 in T1. congruence.
    - destruct HT as [_ HN]. destruct (map_get neg sym) as [f|] eqn:Ef.
      + (* negative *)
        assert (Hntm : nonterminal P sym).
        { destruct (alts g sym) as [|x rs] eqn:Ex; [congruence|]. exists (rhs x). apply alts_In. rewrite Ex. left. auto. }
        apply negative_map_spec in Ef. assert (HNS : NS sym) by (split; eauto).
        pose proof (Hne sym f Hntm Ef) as Hf0. assert (Hf1 : 1 <= length f) by (destruct f; [tauto|simpl; lia]).
        assert (Hkeys : forall u1 A v1 f1 r1, u = u1 ++ A :: v1 -> nonterminal P A -> forbids l A f1 -> erased NS u1 r1 ->
          length (chars_of tc r1) + length f1 <= length (g_string st)).
        { intros u1 A v1 f1 r1 Hu HA Hf Hr1. assert (HNA : NS A) by (split; eauto).
          pose proof I4 as I4'. rewrite Hu in I4'. apply erased_app_inv in I4'. destruct I4' as [r2 [y [Hr [E3 E4]]]].
          assert (r2 = r1) by (eapply erased_fun; eauto). subst r2. apply erased_cons_inv in E4; auto.
          rewrite I3, Hr, chars_of_app, app_length.
          assert (length f1 <= length (chars_of tc y)); [|lia].
          apply (apart u1 A v1 sym W); auto.
          - rewrite Hu in I6. apply Forall_app in I6. destruct I6 as [_ I6]. inversion I6; auto.
          - rewrite Hu, <- app_assoc in I5. auto. }
        exists (u ++ [sym]). unfold gen_negative. cbn [g_result g_string g_rng g_back g_work g_attempts].
        constructor; cbn [g_result g_string g_rng g_back g_work g_attempts]; auto.
        * rewrite <- (app_nil_r (g_result st)). apply erased_app; auto. apply er_drop; auto. constructor.
        * rewrite <- app_assoc. auto.
        * apply Forall_app. split; auto.
        * assert (Hatt : forall k, map_get (g_attempts st) k <> None \/ k = length (g_string st) ->
            map_get (match map_get (g_attempts st) (length (g_string st)) with
                     | Some _ => g_attempts st | None => map_put (g_attempts st) (length (g_string st)) 0%N end) k <> None).
          { intros k Hk. destruct (map_get (g_attempts st) (length (g_string st))) eqn:Ea.
            - destruct Hk as [Hk|Hk]; auto. congruence.
            - rewrite map_get_put. destruct (Nat.eqb_spec (length (g_string st)) k); [discriminate|]. destruct Hk; auto. }
          intros u1 A v1 f1 r1 Hu HA Hf Hr1. unfold registered. cbn [g_back g_attempts].
          apply snoc_split in Hu. destruct Hu as [[-> [-> ->]]|[v2 [-> Hu]]].
          -- assert (f1 = f) by (eapply forbids_fun; eauto). subst f1.
             assert (r1 = g_result st) by (eapply erased_fun; eauto). subst r1. rewrite <- I3.
             rewrite map_get_put, Nat.eqb_refl.
             assert (Hnone : map_get (g_back st) (length (g_string st) + length f) = None).
             { destruct (map_get (g_back st) (length (g_string st) + length f)) as [z|] eqn:Ez; auto. exfalso.
               destruct (I8 _ _ Ez) as [u2 [B [v2 [f2 [r2 [Hu2 [K1 [K2 [K3 K4]]]]]]]]].
               pose proof (Hkeys u2 B v2 f2 r2 Hu2 K1 K2 K3). lia. }
             rewrite Hnone. cbn [app]. eexists. split; [reflexivity|]. cbn [bt_forbidden bt_result_len bt_prev_work].
             split; [auto|]. split; [auto|]. split; [auto|]. split; [auto|]. apply Hatt. auto.
          -- destruct (I7 u1 A v2 f1 r1 Hu HA Hf Hr1) as [s [T1 [T2 [T3 [T4 [T5 T6]]]]]]. exists s.
             pose proof (Hkeys u1 A v2 f1 r1 Hu HA Hf Hr1).
             split; [|split; [auto|split; [auto|split; [auto|split; [auto|apply Hatt; auto]]]]].
             rewrite map_get_put. destruct (Nat.eqb_spec (length (g_string st) + length f) (length (chars_of tc r1) + length f1)); [lia|auto].
        * intros key z Hz. rewrite map_get_put in Hz. destruct (Nat.eqb_spec (length (g_string st) + length f) key) as [<-|Hk].
          -- exists u, sym, [], f, (g_result st). rewrite <- I3. auto 10.
          -- destruct (I8 _ _ Hz) as [u2 [B [v2 [f2 [r2 [Hu2 [K1 [K2 [K3 K4]]]]]]]]]. exists u2, B, (v2 ++ [sym]), f2, r2.
             split; [rewrite Hu2, <- app_assoc; auto|auto].
        * intros u2 B v2 f2 y2 Hu2 HB Hf2 Hy2 [z Hz]. apply snoc_split in Hu2. destruct Hu2 as [[-> [-> ->]]|[v3 [-> Hu2]]].
          -- inversion Hy2; subst. simpl in Hz. apply (Hne sym f2 HB Hf2). destruct f2; auto. discriminate.
          -- apply erased_app_inv in Hy2. destruct Hy2 as [y3 [y4 [-> [E3 E4]]]]. apply erased_cons_inv in E4; auto.
             inversion E4; subst. rewrite app_nil_r in Hz. apply (I9 u2 B v3 f2 y3); eauto.
      + pose proof (pick_spec generate g sym (g_rng st) HN) as HP.
        destruct (pick_rhs generate (weighted g) sym (g_rng st)) as [[r rng]| |]; [|destruct HP; eauto|destruct HP; eauto].
        exists u. constructor; cbn [g_result g_string g_rng g_back g_work g_attempts]; auto.
        * apply Forall_app. split; auto. destruct HP as [x [Hx [H1 H2]]]. destruct (HC x Hx) as [_ Hcl]. congruence.
        * eapply derives_trans; [exact I5|]. change (sym :: W) with ([sym] ++ W).
          apply (derives_ctx K u W [sym] r). apply derives_rule. split; auto. intros [[f Hf] _]. apply negative_map_spec in Hf.
          unfold neg in Ef. congruence.
  Qed.

  Theorem run_apart : start < num_syms g -> forall p rng,
    match run_loop step p (mkGen [start] [] [] rng [] []) with
    | Ok (Generated result string) => negative_outcome to_char g l start limit result string
    | Ok _ => True
    | Panic => exists rng q, asked g q /\ fails generate rng q
    | OutOfFuel => True
    end.
  Proof.
    intros Hs p rng. unfold run_loop.
    destruct (iter_pow step p (mkGen [start] [] [] rng [] [])) as [st|r] eqn:E; auto.
    destruct (iter_pow_inv step (fun st => exists u, ainv u st)) with (p := p) (s := mkGen [start] [] [] rng [] []) (r := r) as [st [[u HI] Hst]]; auto.
    - intros s s' [u Hs0] Es. pose proof (astep u s Hs0) as HL. rewrite Es in HL. auto.
    - exists []. constructor; cbn [g_result g_string g_rng g_back g_work g_attempts].
      + constructor; auto.
      + unfold in_limit. destruct limit; auto. simpl. lia.
      + reflexivity.
      + constructor.
      + constructor.
      + constructor.
      + intros u1 A v1 f r1 Hu. destruct u1; discriminate.
      + intros key x Hx. discriminate.
      + intros u1 A v1 f y Hu. destruct u1; discriminate.
    - pose proof (astep u st HI) as HL. rewrite Hst in HL. destruct r as [[result string| |]| |]; auto.
      destruct HL as [HW [-> ->]]. destruct HI as [I1 I2 I3 I4 I5 I6 I7 I8 I9]. rewrite HW, app_nil_r in I5.
      exists u. split; [auto|]. split; [auto|]. split; [auto|]. split; [auto|].
      intros tc' Htc'. assert (HX : forall w, chars_of tc' w = chars_of tc w).
      { assert (Hx : forall x, tc' x = tc x) by (intros x; rewrite <- (Htc' x rng), (Htc x rng); auto).
        induction w as [|x w IH]; simpl; auto. rewrite Hx, IH. auto. }
      split; [rewrite HX; auto|]. intros u1 A1 v1 f1 y Hu HA1 Hf1 Hne1 Hy. rewrite HX. eapply I9; eauto.
  Qed.
End Apart.

Theorem random_apart : forall {R : Type} (generate : R -> f64 -> res (f64 * R)) (mutate_start : R -> N -> R)
    (to_char : nat -> R -> option nat * R) g l start limit tc p rng,
  closed_rules g -> start < num_syms g ->
  (forall x r, fst (to_char x r) = tc x) ->
  (forall A f, nonterminal (prods g) A -> forbids l A f -> f <> []) ->
  far_apart l (prods g) tc start ->
  match random generate mutate_start to_char p g start limit rng l with
  | Ok (Generated result string) => negative_outcome to_char g l start limit result string
  | Ok _ => True
  | Panic => exists rng q, asked g q /\ fails generate rng q
  | OutOfFuel => True
  end.
Proof.
  intros R generate mutate_start to_char g l start limit tc p rng HC Hs Htc Hne Hap.
  destruct (bs_terminal_spec g HC) as [ts [Et _]]. unfold random, terminal_symbols. rewrite Et. cbn [bind].
  apply (run_apart generate mutate_start to_char g HC ts Et l start limit tc Htc Hne Hap Hs p rng).
Qed.
