(** Random generation with negative rules. *)

From Coq Require Import List Arith NArith ZArith Bool Lia.
From Verif Require Import Base ListFacts Spec SpecGen GrammarFacts LoopModel LoopFacts HistoryModel CfgModel View
  BitSetModel SetView SetProof SetsModel SetsProof LRProof FloatModel GenModel GenProof.
Import ListNotations.

Local Open Scope nat_scope.
Local Notation length := List.length.

Lemma is_prefix_spec : forall a b, is_prefix a b = true <-> exists x, b = a ++ x.
Proof.
  induction a as [|x a IH]; intros [|y b]; simpl.
  - split; auto. exists []. auto.
  - split; auto. intros _. exists (y :: b). auto.
  - split; [discriminate|]. intros [z H]. discriminate.
  - rewrite andb_true_iff, Nat.eqb_eq, IH. split.
    + intros [-> [z ->]]. exists z. auto.
    + intros [z H]. injection H as -> ->. split; auto. exists z. auto.
Qed.
Lemma ends_with_spec : forall s f, ends_with s f = true <-> exists x, s = x ++ f.
Proof.
  intros. unfold ends_with. rewrite is_prefix_spec. split; intros [x H].
  - exists (rev x). rewrite <- (rev_involutive s), H, rev_app_distr, rev_involutive. auto.
  - exists (rev x). rewrite H, rev_app_distr. auto.
Qed.

Lemma erased_app : forall N u v x y, erased N u x -> erased N v y -> erased N (u ++ v) (x ++ y).
Proof. induction 1; simpl; intros; auto; [apply er_drop|apply er_keep]; auto. Qed.
Lemma erased_none : forall N u x, erased N u x -> Forall (fun s => ~ N s) u -> x = u.
Proof. induction 1; intros HF; auto; inversion HF; subst; [tauto|f_equal; auto]. Qed.

Section Neg.
  Context {R : Type} (generate : R -> f64 -> res (f64 * R)) (mutate_start : R -> N -> R)
          (to_char : nat -> R -> option nat * R).
  Context (g : cfg).
  Hypothesis HC : closed_rules g.
  Context (ts : bitset).
  Hypothesis Hts : terminal_symbols g = Ok ts.
  Context (neg : list (nat * list nat)) (start : nat) (limit : option limits).
  Local Notation step := (gen_step generate mutate_start to_char (weighted g) ts neg limit).
  Local Notation P := (prods g).

  Definition neg_sym (A : nat) : Prop := (exists f, map_get neg A = Some f) /\ nonterminal P A.
  Hypothesis Hone : forall a b c A B, derives (keeping neg_sym P) [start] (a ++ A :: b ++ B :: c) ->
    neg_sym A -> neg_sym B -> False.

  Definition in_limit (n : nat) : Prop :=
    match limit with Some lim => (N.of_nat n <= terminals lim)%N | None => True end.

  (** The part of the state after the negative symbol [A] *)
  Record open_state (st : @gen R) (u : list nat) (u0 v : list nat) (A : nat) (f s0 t r0 : list nat) (s : @bt_state R) : Prop := {
    os_u : u = u0 ++ A :: v;
    os_neg : neg_sym A;
    os_f : map_get neg A = Some f;
    os_back : g_back st = [(length s0 + length f, [s])];
    os_forb : bt_forbidden s = f;
    os_r0 : erased neg_sym u0 r0;
    os_len : bt_result_len s = length r0;
    os_string : g_string st = s0 ++ t;
    os_work : derives (keeping neg_sym P) [start] (u0 ++ A :: bt_prev_work s);
    os_work_lt : Forall (fun x => x < num_syms g) (bt_prev_work s);
    os_att : map_get (g_attempts st) (length s0) <> None;
    os_chars : forall tc, (forall x r, fst (to_char x r) = tc x) -> s0 = chars_of tc r0;
    os_avoid : f <> [] -> ~ exists x, t = f ++ x }.

  Record ninv (st : @gen R) : Prop := {
    ni_lt : Forall (fun x => x < num_syms g) (g_work st);
    ni_limit : in_limit (length (g_result st));
    ni_chars : forall tc, (forall x r, fst (to_char x r) = tc x) -> g_string st = chars_of tc (g_result st);
    ni_trace : exists u, erased neg_sym u (g_result st) /\ derives (keeping neg_sym P) [start] (u ++ g_work st) /\
      Forall (fun x => terminal P x \/ neg_sym x) u /\
      ((g_back st = [] /\ Forall (fun x => ~ neg_sym x) u) \/
       exists u0 v A f s0 t r0 s, open_state st u u0 v A f s0 t r0 s) }.

  Lemma after_neg : forall u0 A v W, derives (keeping neg_sym P) [start] ((u0 ++ A :: v) ++ W) -> neg_sym A ->
    Forall (fun x => ~ neg_sym x) v.
  Proof.
    intros u0 A v W HD HA. apply Forall_forall. intros x Hx HN. apply in_split in Hx. destruct Hx as [v1 [v2 ->]].
    apply (Hone u0 v1 (v2 ++ W) A x); auto. rewrite <- app_assoc in HD. simpl in HD. rewrite <- app_assoc in HD. auto.
  Qed.

  Lemma erased_split : forall u0 A v r r0, erased neg_sym (u0 ++ A :: v) r -> neg_sym A -> erased neg_sym u0 r0 ->
    exists r1, r = r0 ++ r1 /\ erased neg_sym v r1.
  Proof.
    induction u0 as [|x u0 IH]; intros A v r r0 HE HA H0.
    - inversion H0; subst. simpl in HE. exists r. split; auto. inversion HE as [| |]; subst; [auto|tauto].
    - simpl in HE. inversion HE; subst; inversion H0; subst; try tauto.
      + eapply IH; eauto.
      + destruct (IH A v v0 v1) as [r1 [-> H1]]; auto. exists r1. auto.
  Qed.

  Lemma nstep : forall st, ninv st ->
    match step st with
    | inl st' => ninv st'
    | inr (Ok (Generated result string)) => g_work st = [] /\ result = g_result st /\ string = g_string st
    | inr (Ok _) => True
    | inr Panic => exists rng q, asked g q /\ fails generate rng q
    | inr OutOfFuel => exists rng q, generate rng q = OutOfFuel
    end.
  Proof.
    intros st [I1 I2 I3 [u [I4 [I5 [I6 I7]]]]]. unfold gen_step. destruct (g_work st) as [|sym W] eqn:EW; [auto|].
    inversion I1 as [|? ? Hsym HW]; subst.
    pose proof (ts_get g HC ts Hts sym) as HT. destruct (bs_get ts sym) as [[|]| |]; try tauto; try lia.
    - (* terminal *)
      destruct HT as [_ HT].
      assert (Hnn : ~ neg_sym sym) by (intros [_ [r Hr]]; apply (HT r Hr)).
      unfold gen_terminal. cbn [g_result g_string g_rng g_back g_work g_attempts].
      destruct (to_char sym (g_rng st)) as [c rng] eqn:Ec.
      destruct (match limit with Some lim => _ | None => false end) eqn:Ev; auto.
      set (string := match c with Some ch => g_string st ++ [ch] | None => g_string st end).
      set (st1 := mkGen W (g_result st ++ [sym]) string rng (g_back st) (g_attempts st)).
      assert (L1 : in_limit (length (g_result st1))).
      { unfold in_limit, st1. cbn [g_result]. destruct limit as [lim|]; auto. apply N.ltb_ge in Ev. auto. }
      assert (L2 : forall tc, (forall x r, fst (to_char x r) = tc x) -> string = chars_of tc (g_result st ++ [sym])).
      { intros tc Htc. rewrite chars_snoc, <- (Htc sym (g_rng st)), Ec, <- I3 by auto. cbn [fst]. unfold string. destruct c; auto. }
      assert (L3 : erased neg_sym (u ++ [sym]) (g_result st ++ [sym])).
      { apply erased_app; auto. apply er_keep; auto. constructor. }
      assert (L4 : derives (keeping neg_sym P) [start] ((u ++ [sym]) ++ W)) by (rewrite <- app_assoc; auto).
      assert (L5 : Forall (fun x => terminal P x \/ neg_sym x) (u ++ [sym])).
      { apply Forall_app. split; auto. }
      destruct I7 as [[B1 B2]|[u0 [v [A [f [s0 [t [r0 [s HO]]]]]]]]].
      + rewrite B1. cbn [map_get]. constructor; auto. exists (u ++ [sym]). split; [auto|]. split; [auto|]. split; [auto|].
        left. split; auto. apply Forall_app. split; auto.
      + destruct HO as [O1 O2 O3 O4 O5 O6 O7 O8 O9 O10 O11 O12 O13].
        set (t' := match c with Some ch => t ++ [ch] | None => t end).
        assert (Hstr : string = s0 ++ t').
        { unfold string, t'. rewrite O8. destruct c; auto. rewrite app_assoc. auto. }
        assert (Hav : f <> [] -> length t' <> length f -> ~ exists x, t' = f ++ x).
        { intros Hf Hlen [x Hx]. apply (O13 Hf). unfold t' in *. destruct c as [ch|]; [|eauto].
          destruct x as [|y x0] using rev_ind; [rewrite app_nil_r in Hx; congruence|].
          rewrite app_assoc in Hx. apply app_inj_tail in Hx. destruct Hx as [Hx _]. eauto. }
        assert (Hgo : (f <> [] -> ~ exists x, t' = f ++ x) -> ninv st1).
        { intros Hf. constructor; auto. exists (u ++ [sym]). split; [auto|]. split; [auto|]. split; [auto|].
          right. exists u0, (v ++ [sym]), A, f, s0, t', r0, s. constructor; auto. rewrite O1, <- app_assoc. auto. }
        rewrite O4. cbn [map_get]. destruct (Nat.eqb_spec (length s0 + length f) (length string)) as [Hk|Hk].
        * assert (Ht : length t' = length f) by (rewrite Hstr, app_length in Hk; lia).
          cbn [gen_backtrack]. rewrite O5. change (g_string st1) with string. change (g_attempts st1) with (g_attempts st).
          change (g_result st1) with (g_result st ++ [sym]). change (g_back st1) with (g_back st).
          destruct (ends_with string f) eqn:Ee.
          -- assert (Hs0 : firstn (length string - length f) string = s0).
             { rewrite <- Hk, Hstr. replace (length s0 + length f - length f) with (length s0) by lia.
               rewrite firstn_app, Nat.sub_diag, firstn_all. apply app_nil_r. }
             rewrite Hs0. destruct (map_get (g_attempts st) (length s0)) as [a|] eqn:Ea; [|congruence].
             destruct (N.ltb (256 * 64) (a + 1)); auto.
             rewrite O1 in I4. destruct (erased_split _ _ _ _ _ I4 O2 O6) as [r1 [Hr1 Her1]].
             assert (Hr0 : firstn (bt_result_len s) (g_result st ++ [sym]) = r0).
             { rewrite O7, Hr1, <- app_assoc, firstn_app, Nat.sub_diag, firstn_all. apply app_nil_r. }
             rewrite Hr0. constructor; cbn [g_work g_result g_string]; auto.
             ++ unfold in_limit in *. destruct limit; auto. cbn [st1 g_result] in L1. rewrite Hr1, !app_length in L1. lia.
             ++ exists (u0 ++ [A]). split; [|split; [|split]].
                ** rewrite <- (app_nil_r r0). apply erased_app; auto. apply er_drop; auto. constructor.
                ** rewrite <- app_assoc. auto.
                ** rewrite O1 in I6. apply Forall_app in I6. apply Forall_app. split; [tauto|]. constructor; auto.
                ** right. exists u0, [], A, f, s0, [], r0, s. constructor; cbn [g_back g_string g_attempts]; auto.
                   --- rewrite app_nil_r. auto.
                   --- rewrite map_get_put, Nat.eqb_refl. discriminate.
                   --- intros Hf [x Hx]. destruct f; [tauto|discriminate].
          -- apply Hgo. intros Hf [x Hx]. assert (x = []).
             { apply (f_equal (@length nat)) in Hx. rewrite app_length in Hx. destruct x; auto. simpl in Hx. lia. }
             subst x. rewrite app_nil_r in Hx. assert (ends_with string f = true); [|congruence].
             apply ends_with_spec. exists s0. congruence.
        * apply Hgo. intros Hf. apply Hav; auto. intros Ht. apply Hk. rewrite Hstr, app_length. lia.
    - destruct HT as [_ HN]. destruct (map_get neg sym) as [f|] eqn:Ef.
      + (* negative *)
        assert (HNS : neg_sym sym).
        { split; eauto. destruct (alts g sym) as [|x rs] eqn:Ex; [congruence|]. exists (rhs x). apply alts_In. rewrite Ex. left. auto. }
        destruct I7 as [[B1 B2]|[u0 [v [A [f' [s0 [t [r0 [s HO]]]]]]]]].
        * unfold gen_negative. cbn [g_result g_string g_rng g_back g_work g_attempts]. rewrite B1. cbn [map_get app].
          constructor; cbn [g_result g_string g_rng g_back g_work g_attempts]; auto.
          exists (u ++ [sym]). split; [|split; [|split]].
          -- rewrite <- (app_nil_r (g_result st)). apply erased_app; auto. apply er_drop; auto. constructor.
          -- rewrite <- app_assoc. auto.
          -- apply Forall_app. split; auto.
          -- right. exists u, [], sym, f, (g_string st), [], (g_result st).
             eexists. constructor; cbn [g_result g_string g_rng g_back g_work g_attempts bt_forbidden bt_result_len bt_prev_work map_put]; auto.
             ++ rewrite app_nil_r. auto.
             ++ destruct (map_get (g_attempts st) (length (g_string st))) eqn:Ea; [congruence|].
                rewrite map_get_put, Nat.eqb_refl. discriminate.
             ++ intros Hf [x Hx]. destruct f; [tauto|discriminate].
        * exfalso. destruct HO as [O1 O2 _ _ _ _ _ _ _ _ _ _ _]. apply (Hone u0 v W A sym); auto.
          rewrite O1, <- app_assoc in I5. auto.
      + pose proof (pick_spec generate g sym (g_rng st) HN) as HP.
        destruct (pick_rhs generate (weighted g) sym (g_rng st)) as [[r rng]| |]; [|destruct HP; eauto|destruct HP; eauto].
        constructor; cbn [g_result g_string g_rng g_back g_work g_attempts]; auto.
        * apply Forall_app. split; auto. destruct HP as [x [Hx [H1 H2]]]. destruct (HC x Hx) as [_ Hcl]. congruence.
        * exists u. split; [auto|]. split; [|split; [auto|]].
          -- eapply derives_trans; [exact I5|]. change (sym :: W) with ([sym] ++ W).
             apply (derives_ctx (keeping neg_sym P) u W [sym] r). apply derives_rule. split; auto. intros [[f Hf] _]. congruence.
          -- destruct I7 as [I7|[u0 [v [A [f' [s0 [t [r0 [s HO]]]]]]]]]; [left; auto|]. right.
             exists u0, v, A, f', s0, t, r0, s. destruct HO. constructor; auto.
  Qed.

  Lemma ninit : start < num_syms g -> forall rng, ninv (mkGen [start] [] [] rng [] []).
  Proof.
    intros Hs rng. constructor; cbn [g_result g_string g_rng g_back g_work g_attempts]; auto.
    - unfold in_limit. destruct limit; auto. simpl. lia.
    - exists []. split; [constructor|]. split; [constructor|]. split; [constructor|]. left. auto.
  Qed.

  Theorem run_negative : start < num_syms g -> forall p rng,
    match run_loop step p (mkGen [start] [] [] rng [] []) with
    | Ok (Generated result string) => exists w, derives (keeping neg_sym P) [start] w /\
        Forall (fun x => terminal P x \/ neg_sym x) w /\ erased neg_sym w result /\
        in_limit (length result) /\
        (forall tc, (forall x r, fst (to_char x r) = tc x) ->
           string = chars_of tc result /\
           forall u A v f, w = u ++ A :: v -> neg_sym A -> map_get neg A = Some f -> f <> [] ->
             ~ exists x, chars_of tc v = f ++ x)
    | Ok _ => True
    | Panic => exists rng q, asked g q /\ fails generate rng q
    | OutOfFuel => True
    end.
  Proof.
    intros Hs p rng. unfold run_loop.
    destruct (iter_pow step p (mkGen [start] [] [] rng [] [])) as [st|r] eqn:E; auto.
    destruct (iter_pow_inv step ninv) with (p := p) (s := mkGen [start] [] [] rng [] []) (r := r) as [st [HI Hst]]; auto.
    - intros s s' HS Es. pose proof (nstep s HS) as HL. rewrite Es in HL. auto.
    - apply ninit. auto.
    - pose proof (nstep st HI) as HL. rewrite Hst in HL. destruct r as [[result string| |]| |]; auto.
      destruct HL as [HW [-> ->]]. destruct HI as [I1 I2 I3 [u [I4 [I5 [I6 I7]]]]]. rewrite HW, app_nil_r in I5.
      exists u. split; [auto|]. split; [auto|]. split; [auto|]. split; [auto|].
      intros tc Htc. split; [auto|]. intros u1 A1 v1 f1 Hu HA1 Hf1 Hne [x Hx].
      destruct I7 as [[_ B2]|[u0 [v [A [f [s0 [t [r0 [s HO]]]]]]]]].
      + rewrite Forall_forall in B2. apply (B2 A1); auto. subst. apply in_elt.
      + destruct HO as [O1 O2 O3 O4 O5 O6 O7 O8 O9 O10 O11 O12 O13].
        assert (HD : derives (keeping neg_sym P) [start] ((u0 ++ A :: v) ++ [])) by (rewrite app_nil_r; congruence).
        pose proof (after_neg _ _ _ _ HD O2) as HF.
        assert (HD1 : derives (keeping neg_sym P) [start] ((u1 ++ A1 :: v1) ++ [])) by (rewrite app_nil_r; congruence).
        pose proof (after_neg _ _ _ _ HD1 HA1) as HF1.
        assert (Heq : u1 = u0 /\ A1 = A /\ v1 = v).
        { rewrite Hu in O1. clear - O1 HF HF1 O2 HA1. revert u0 O1. induction u1 as [|y u1 IH]; intros [|z u0] O1; simpl in O1; injection O1; intros; subst; auto.
          - exfalso. rewrite Forall_forall in HF1. apply (HF1 A); auto. apply in_elt.
          - exfalso. rewrite Forall_forall in HF. apply (HF A1); auto. apply in_elt.
          - destruct (IH u0) as [-> [-> ->]]; auto. }
        destruct Heq as [-> [-> ->]]. assert (f1 = f) by congruence. subst f1.
        apply (O13 Hne). exists x. rewrite O1 in I4. destruct (erased_split _ _ _ _ _ I4 O2 O6) as [r1 [Hr1 Her1]].
        apply erased_none in Her1; auto. subst r1. rewrite <- Hx.
        pose proof (I3 tc Htc) as HS. rewrite O8, Hr1, chars_of_app, <- (O12 tc Htc) in HS. apply app_inv_head in HS. auto.
  Qed.
End Neg.
