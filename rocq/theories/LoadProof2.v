(** Proofs about the BNF loader: rules and files. *)

From Coq Require Import List Arith NArith Ascii Bool String Lia.
From Verif Require Import Base ListFacts Spec GrammarFacts SymbolModel HistoryModel CfgModel View CfgProof SpecSeq SeqModel
  SpecLoad LoadModel LoadParseProof LoadProof.
Import ListNotations.
Local Open Scope list_scope.

Definition placed (sym : string -> nat) (zs : list (nat * (nat * repetition))) (f : fragment) (s : nat) : Prop :=
  match snd f with
  | Once => s = sym (fst f)
  | k => In (s, (sym (fst f), k)) zs
  end.

Lemma placed_weaken : forall sym zs zs' fs rs, incl zs zs' -> Forall2 (placed sym zs) fs rs -> Forall2 (placed sym zs') fs rs.
Proof.
  intros sym zs zs' fs rs HI H. induction H as [|f s fs rs Hf H IH]; constructor; auto.
  unfold placed in *. destruct (snd f); auto.
Qed.

Lemma agrees_mono : forall ld ld' sym, (forall y s, lookup ld y = Some s -> lookup ld' y = Some s) -> agrees ld' sym -> agrees ld sym.
Proof. intros ld ld' sym H HA x s Hx. apply HA. auto. Qed.

Definition once (f : fragment) : Prop := snd f = Once.

Lemma lookup_cfg : forall g g' it m x, lookup (mkLoader g it m) x = lookup (mkLoader g' it m) x.
Proof. reflexivity. Qed.

Lemma fragment_step : forall debug ld f acc, good ld -> exists s ld',
  load_fragment debug (acc, ld) f = Ok (acc ++ [s], ld') /\ good ld' /\ roots (ld_cfg ld') = roots (ld_cfg ld) /\
  (forall y t, lookup ld y = Some t -> lookup ld' y = Some t) /\ lookup ld' (fst f) <> None /\ s < num_syms (ld_cfg ld') /\
  num_syms (ld_cfg ld) <= num_syms (ld_cfg ld') /\
  (once f -> rules (ld_cfg ld') = rules (ld_cfg ld)) /\
  forall sym, agrees ld' sym -> (once f -> s = sym (fst f)) /\ forall done zs, loaded sym ld done zs ->
    exists zs', loaded sym ld' done zs' /\ incl zs zs' /\ placed sym zs' f s.
Proof.
  intros debug ld [x k] acc HG. unfold load_fragment. cbn [fst snd].
  destruct (named_step ld x HG) as [s [ld1 [H1 [H2 [H3 [H4 [H5 [H6 H7]]]]]]]]. rewrite H1.
  assert (HN1 : num_syms (ld_cfg ld) <= num_syms (ld_cfg ld1)).
  { destruct (symbol_named_ok ld x HG) as [s0 [ld0 [E0 [_ [_ [_ [_ [_ HH]]]]]]]]. rewrite H1 in E0. injection E0 as -> ->.
    destruct HH as [[HH _]|[HH [HH2 _]]]; lia. }
  assert (Hplain : k = Once -> exists s' ld', Ok (acc ++ [s], ld1) = Ok (acc ++ [s'], ld') /\ good ld' /\ roots (ld_cfg ld') = roots (ld_cfg ld) /\
    (forall y t, lookup ld y = Some t -> lookup ld' y = Some t) /\ lookup ld' x <> None /\ s' < num_syms (ld_cfg ld') /\
    num_syms (ld_cfg ld) <= num_syms (ld_cfg ld') /\
    (once (x, k) -> rules (ld_cfg ld') = rules (ld_cfg ld)) /\
    forall sym, agrees ld' sym -> (once (x, k) -> s' = sym x) /\ forall done zs, loaded sym ld done zs ->
    exists zs', loaded sym ld' done zs' /\ incl zs zs' /\ placed sym zs' (x, k) s').
  { intros ->. exists s, ld1. split; auto. split; auto. split; auto. split; auto. split; [congruence|].
    split; [apply (g_below _ H2); eapply lookup_seen; eauto|]. split; auto. split; auto.
    intros sym HA. pose proof (HA x s H3) as Es. split; [intros _; simpl; auto|].
    intros done zs HL. exists zs. split; [apply H7; auto; eapply agrees_mono; eauto|]. split; [apply incl_refl|].
    unfold placed. simpl. auto. }
  assert (Hrep : k <> Once -> exists s' ld', 
    (let (z, g) := next_sym (ld_cfg ld1) None in
     do g' <- add_sequence debug g z (kind_call k) s;
     Ok (acc ++ [z], mkLoader g' (ld_intern ld1) (ld_map ld1))) = Ok (acc ++ [s'], ld') /\
    good ld' /\ roots (ld_cfg ld') = roots (ld_cfg ld) /\
    (forall y t, lookup ld y = Some t -> lookup ld' y = Some t) /\ lookup ld' x <> None /\ s' < num_syms (ld_cfg ld') /\
    num_syms (ld_cfg ld) <= num_syms (ld_cfg ld') /\
    (once (x, k) -> rules (ld_cfg ld') = rules (ld_cfg ld)) /\
    forall sym, agrees ld' sym -> (once (x, k) -> s' = sym x) /\ forall done zs, loaded sym ld done zs ->
    exists zs', loaded sym ld' done zs' /\ incl zs zs' /\ placed sym zs' (x, k) s').
  { intros Hk. destruct (next_sym (ld_cfg ld1) None) as [z g1] eqn:EN.
    destruct (repetition_step debug ld1 s k z g1 H2 (lookup_seen _ _ _ H3) EN) as [g' [R1 [R2 [R3 R4]]]].
    assert (HB : num_syms g1 <= num_syms g' /\ num_syms g1 = S z /\ z = num_syms (ld_cfg ld1)).
    { unfold next_sym, src_next in EN. injection EN as <- <-. unfold num_syms at 1 3 4. simpl. split; auto.
      rewrite add_sequence_eq in R1.
      pose proof (g_source _ R2) as HS. simpl in HS.
      match type of R1 with seq_rewrite _ ?gg _ = _ => set (gx := gg) in * end.
      destruct (PropsSeq.rewrite_ok' debug gx (mkSeq (num (src (ld_cfg ld1))) s (kind_start k) None Null None)) as [g'' [E1 [E2 _]]].
      - intros r Hr. destruct (g_closed _ H2 r Hr) as [C1 C2]. unfold num_syms in *. simpl. split; [lia|].
        eapply Forall_impl; [|exact C2]. simpl. intros; lia.
      - simpl. rewrite (g_limit _ H2). exact I.
      - pose proof (g_below _ H2 s (lookup_seen _ _ _ H3)) as HB. unfold PropsSeq.seq_in, num_syms in *. simpl. repeat split; lia.
      - split; [destruct k; simpl; lia | discriminate].
      - rewrite R1 in E1. injection E1 as <-. apply grows_num in E2. unfold num_syms in E2. simpl in E2. exact E2. }
    exists z, (mkLoader g' (ld_intern ld1) (ld_map ld1)). rewrite R1. cbn [bind]. split; auto. split; auto.
    split; [simpl; rewrite R3; auto|]. split; [intros y t Hy; exact (H4 y t Hy)|]. split; [unfold lookup in *; simpl; congruence|].
    split; [simpl; lia|]. split; [simpl; lia|]. split; [unfold once; simpl; congruence|].
    intros sym HA. split; [unfold once; simpl; congruence|]. intros done zs HL.
    assert (HA1 : agrees ld1 sym) by exact HA.
    exists (zs ++ [(z, (s, k))]). split; [apply R4; auto; apply H7; auto; eapply agrees_mono; eauto|].
    split; [apply incl_appl; apply incl_refl|]. unfold placed. cbn [fst snd]. rewrite (HA1 x s H3).
    destruct k; [congruence|..]; apply in_or_app; simpl; auto. }
  destruct k; [apply Hplain; auto | apply Hrep; discriminate | apply Hrep; discriminate].
Qed.

Lemma fragments_step : forall debug fs ld acc, good ld -> exists rs ld',
  fold_res (load_fragment debug) fs (acc, ld) = Ok (acc ++ rs, ld') /\ good ld' /\ roots (ld_cfg ld') = roots (ld_cfg ld) /\
  (forall y t, lookup ld y = Some t -> lookup ld' y = Some t) /\ (forall x, In x (map fst fs) -> lookup ld' x <> None) /\
  Forall (fun s => s < num_syms (ld_cfg ld')) rs /\ num_syms (ld_cfg ld) <= num_syms (ld_cfg ld') /\
  (Forall once fs -> rules (ld_cfg ld') = rules (ld_cfg ld)) /\
  forall sym, agrees ld' sym -> (Forall once fs -> rs = map (fun f => sym (fst f)) fs) /\ forall done zs, loaded sym ld done zs ->
    exists zs', loaded sym ld' done zs' /\ incl zs zs' /\ Forall2 (placed sym zs') fs rs.
Proof.
  intros debug. induction fs as [|f fs IH]; intros ld acc HG.
  - exists [], ld. cbn [fold_res]. rewrite app_nil_r. split; auto. split; auto. split; auto. split; auto. split; [simpl; tauto|].
    split; auto. split; auto. split; auto. intros sym HA. split; auto. intros done zs HL. exists zs. split; auto. split; [apply incl_refl | constructor].
  - cbn [fold_res]. destruct (fragment_step debug ld f acc HG) as [s [ld1 [E1 [G1 [O1 [M1 [L1 [B1 [N1 [R1 S1]]]]]]]]]]. rewrite E1. cbn [bind].
    destruct (IH ld1 (acc ++ [s]) G1) as [rs [ld2 [E2 [G2 [O2 [M2 [L2 [B2 [N2 [R2 S2]]]]]]]]]].
    exists (s :: rs), ld2. rewrite E2, <- app_assoc. split; auto. split; auto. split; [congruence|]. split; [auto|].
    split; [intros x [<-|Hx]; auto; destruct (lookup ld1 (fst f)) as [t|] eqn:EL; [|congruence]; rewrite (M2 _ _ EL); discriminate|].
    split; [constructor; auto; lia|]. split; [lia|].
    split; [intros HF; inversion HF; subst; rewrite R2 by auto; auto|].
    intros sym HA. assert (HA1 : agrees ld1 sym) by (eapply agrees_mono; eauto).
    destruct (S1 sym HA1) as [P1 Q1]. destruct (S2 sym HA) as [P2 Q2]. split.
    + intros HF. inversion HF; subst. rewrite P1, P2 by auto. reflexivity.
    + intros done zs HL. destruct (Q1 done zs HL) as [zs1 [Z1 [I1 T1]]]. destruct (Q2 done zs1 Z1) as [zs2 [Z2 [I2 T2]]].
      exists zs2. split; auto. split; [eapply incl_tran; eauto|]. constructor; auto.
      unfold placed in *. destruct (snd f); auto.
Qed.

(** * Rules *)

(** What a symbol stands for. *)
Definition means (ld : loader) (zs : list (nat * (nat * repetition))) (s : nat) (u : list nat) : Prop :=
  (seen ld s /\ u = [s]) \/ kind_prods zs s u.

Lemma means_seen : forall sym ld done zs w v, loaded sym ld done zs -> Forall (seen ld) w -> lift (means ld zs) w v -> v = w.
Proof.
  intros sym ld done zs w v HL HW HV. eapply lift_id_inv; [|exact HV]. intros s x Hs HM. rewrite Forall_forall in HW.
  destruct HM as [[_ HM]|HM]; auto. exfalso. destruct HM as [y [k [n [H _]]]]. apply (l_zs _ _ _ _ HL) in H. apply H. auto.
Qed.

Lemma lift_cons_inv : forall F s u v, lift F (s :: u) v -> exists x y, v = x ++ y /\ F s x /\ lift F u y.
Proof. intros F s u v H. inversion H; subst. eauto. Qed.

Lemma nodup_fst : forall {A : Type} (l : list (nat * A)) z a b, NoDup (map fst l) -> In (z, a) l -> In (z, b) l -> a = b.
Proof.
  induction l as [|[z0 a0] l IH]; intros z a b HN H1 H2; [contradiction|]. simpl in HN. inversion HN as [|? ? N1 N2 E1].
  destruct H1 as [H1|H1], H2 as [H2|H2].
  - congruence.
  - injection H1 as <- <-. exfalso. apply N1. apply (in_map fst) in H2. exact H2.
  - injection H2 as <- <-. exfalso. apply N1. apply (in_map fst) in H1. exact H1.
  - eauto.
Qed.

Lemma lift_expands : forall sym ld done zs fs rs, agrees ld sym -> loaded sym ld done zs ->
  (forall x, In x (map fst fs) -> seen ld (sym x)) -> Forall2 (placed sym zs) fs rs ->
  forall v, lift (means ld zs) rs v -> exists w, expands fs w /\ v = map sym w.
Proof.
  intros sym ld done zs fs rs HA HL HS H.
  assert (HU : forall z x k x' k', In (z, (x, k)) zs -> In (z, (x', k')) zs -> x = x' /\ k = k').
  { intros z x k x' k' I1 I2. pose proof (nodup_fst _ _ _ _ (l_nodup _ _ _ _ HL) I1 I2) as E. injection E. auto. }
  induction H as [|[x k] s fs rs Hp H IH]; intros v Hv.
  - inversion Hv; subst. exists []. split; constructor.
  - apply lift_cons_inv in Hv. destruct Hv as [a [b [-> [Ha Hb]]]].
    destruct IH with (v := b) as [w [W1 ->]]; auto. { intros y Hy. apply HS. simpl. auto. }
    assert (HR : forall m, map sym (repeat x m ++ w) = repeat (sym x) m ++ map sym w).
    { intros m. rewrite map_app. f_equal. clear. induction m; simpl; congruence. }
    assert (Hx : seen ld (sym x)) by (apply HS; simpl; auto).
    unfold placed in Hp. cbn [fst snd] in Hp. destruct k.
    + subst s. exists (x :: w). split; [constructor; auto|]. simpl.
      destruct Ha as [[_ ->]|[y [k [n [Hk _]]]]]; [reflexivity|]. exfalso. apply (l_zs _ _ _ _ HL) in Hk. apply Hk. auto.
    + destruct Ha as [[Ha _]|[y [k [n [Hk [-> Hn]]]]]]; [exfalso; apply (l_zs _ _ _ _ HL) in Hp; apply Hp; auto|].
      destruct (HU _ _ _ _ _ Hp Hk) as [<- <-]. exists (repeat x n ++ w). split; [constructor; auto|]. auto.
    + destruct Ha as [[Ha _]|[y [k [n [Hk [-> Hn]]]]]]; [exfalso; apply (l_zs _ _ _ _ HL) in Hp; apply Hp; auto|].
      destruct (HU _ _ _ _ _ Hp Hk) as [<- <-]. exists (repeat x n ++ w). split; [constructor; auto|]. auto.
Qed.

Lemma expands_derives : forall sym zs (P : productions) fs rs, (forall A r, kind_prods zs A r -> P A r) ->
  Forall2 (placed sym zs) fs rs -> forall w, expands fs w -> derives P rs (map sym w).
Proof.
  intros sym zs P fs rs HP H. induction H as [|[x k] s fs rs Hp H IH]; intros w Hw.
  - inversion Hw; subst. constructor.
  - assert (HR : forall m w', map sym (repeat x m ++ w') = repeat (sym x) m ++ map sym w').
    { intros m w'. rewrite map_app. f_equal. clear. induction m; simpl; congruence. }
    unfold placed in Hp. cbn [fst snd] in Hp. inversion Hw; subst; cbn [map].
    + rewrite Hp. apply (derives_cons P (sym x) rs [sym x]); auto. constructor.
    + rewrite HR. apply derives_cons; auto. apply derives_rule. apply HP. exists (sym x), ZeroOrMore, n. split; auto. split; auto. discriminate.
    + rewrite HR. apply derives_cons; auto. apply derives_rule. apply HP. exists (sym x), OneOrMore, n. split; auto.
Qed.

Lemma expands_some : forall fs, exists w, expands fs w.
Proof.
  induction fs as [|[x []] fs [w IH]].
  - exists []. constructor.
  - exists (x :: w). constructor. auto.
  - exists (repeat x 0 ++ w). constructor. auto.
  - exists (repeat x 1 ++ w). constructor; auto.
Qed.

Lemma push_prods : forall g x A r, prods (push_rule g x) A r <-> union (prods g) (fun B q => B = lhs x /\ q = rhs x) A r.
Proof.
  intros g x A r. unfold prods, push_rule, set_rules, union. simpl. split.
  - intros [y [Hy [<- <-]]]. apply in_app_or in Hy. destruct Hy as [Hy|[<-|[]]]; auto. left. exists y. auto.
  - intros [[y [Hy HE]]|[-> ->]]; [exists y | exists x]; split; auto; apply in_or_app; simpl; auto.
Qed.

Lemma push_step : forall ld l fs rs h, good ld -> (forall x, In x (map fst fs) -> lookup ld x <> None) -> lookup ld l <> None ->
  Forall (fun s => s < num_syms (ld_cfg ld)) rs ->
  forall s, lookup ld l = Some s -> let ld' := mkLoader (push_rule (ld_cfg ld) (mkRule s rs h)) (ld_intern ld) (ld_map ld) in
  good ld' /\ forall sym done zs, agrees ld sym -> loaded sym ld done zs -> Forall2 (placed sym zs) fs rs ->
    loaded sym ld' (done ++ [(l, fs)]) [].
Proof.
  intros ld l fs rs h HG Hfs Hl Hrs s Es. cbn zeta. split.
  { constructor; try apply HG. simpl. intros x Hx. unfold push_rule, set_rules in Hx. simpl in Hx.
    change (num_syms (push_rule (ld_cfg ld) (mkRule s rs h))) with (num_syms (ld_cfg ld)).
    apply in_app_or in Hx. destruct Hx as [Hx|[<-|[]]]; [apply (g_closed _ HG); auto|]. simpl. split; auto.
    apply HG. eapply lookup_seen; eauto. }
  intros sym done zs HA HL HP. pose proof (HA l s Es) as Esl.
  assert (HSl : seen ld s) by (eapply lookup_seen; eauto).
  set (one := fun (B : nat) (q : list nat) => B = s /\ q = rs).
  set (old := union (written_prods sym done) (kind_prods zs)).
  set (new := written_prods sym (done ++ [(l, fs)])).
  assert (Hseen_fs : forall x, In x (map fst fs) -> seen ld (sym x)) by (intros x Hx; apply sym_seen; auto).
  assert (Hrs' : Forall (fun y => seen ld y \/ hidden zs y) rs).
  { clear - HP Hseen_fs. induction HP as [|[x k] y fs rs Hp HP IH]; constructor.
    - unfold placed in Hp. cbn [fst snd] in Hp. destruct k; [left; subst; apply Hseen_fs; simpl; auto|..];
        right; apply (in_map fst) in Hp; exact Hp.
    - apply IH. intros x' Hx'. apply Hseen_fs. simpl. auto. }
  assert (HN1 : forall A r, written_prods sym done A r -> new A r).
  { intros A r [l0 [fs0 [w [W1 W2]]]]. exists l0, fs0, w. split; auto. apply in_or_app. auto. }
  assert (Hsim : similar (union old one) new (seen ld) (seen ld)).
  { intros u w Hu Hw. split; intros HD.
    - destruct (derives_subst (union old one) new (means ld zs)) with (a := u) (b := w) (v := w) as [u' [U1 U2]]; auto.
      + intros A r v HR Hv. destruct HR as [[HR|HR]|[-> ->]].
        * destruct (written_seen _ _ _ _ _ _ HA HL HR) as [S1 S2]. rewrite (means_seen _ _ _ _ _ _ HL S2 Hv).
          exists [A]. split; [left; auto | apply derives_rule; auto].
        * destruct (kind_seen _ _ _ _ _ _ HL HR) as [S1 S2]. rewrite (means_seen _ _ _ _ _ _ HL S2 Hv).
          exists r. split; [right; auto | constructor].
        * destruct (lift_expands _ _ _ _ _ _ HA HL Hseen_fs HP v Hv) as [w0 [W1 ->]].
          exists [s]. split; [left; auto|]. apply derives_rule. exists l, fs, w0. split; [apply in_or_app; simpl; auto|]. auto.
      + apply lift_id. intros y Hy. left. rewrite Forall_forall in Hw. auto.
      + rewrite (means_seen _ _ _ _ _ _ HL Hu U1) in U2. exact U2.
    - eapply derives_sim; [|exact HD]. intros A r [l0 [fs0 [w0 [W1 [-> [W3 ->]]]]]]. apply in_app_or in W1.
      destruct W1 as [W1|[W1|[]]].
      + apply derives_rule. left. left. exists l0, fs0, w0. auto.
      + injection W1 as <- <-. rewrite Esl. eapply derives_rule_then; [right; split; reflexivity|].
        apply (expands_derives sym zs _ fs rs); auto. intros B q HB. left. right. exact HB. }
  constructor.
  - simpl. change (seen (mkLoader (push_rule (ld_cfg ld) (mkRule s rs h)) (ld_intern ld) (ld_map ld))) with (seen ld).
    apply similar_ext with (P := union (prods (ld_cfg ld)) one) (E := new).
    + eapply similar_weaken with (U := seen ld) (V := seen ld); [|unfold hidden; simpl; tauto|auto].
      eapply similar_trans; [|exact Hsim].
      eapply similar_weaken; [apply (similar_union _ _ one _ _ (l_sim _ _ _ _ HL))|..]; simpl; auto.
      intros A r [-> ->]. auto.
    + intros A r. symmetry. apply push_prods.
    + intros A r. unfold union, kind_prods. split; auto. intros [H|[x [k [n [[] _]]]]]. exact H.
  - constructor.
  - intros z x k [].
  - intros x [l0 [fs0 [H1 H2]]]. change (lookup ld x <> None). apply in_app_or in H1. destruct H1 as [H1|[H1|[]]].
    + apply (l_done _ _ _ _ HL). exists l0, fs0. auto.
    + injection H1 as <- <-. destruct H2 as [->|H2]; auto.
  - intros y Hy. change (num_syms _) with (num_syms (ld_cfg ld)) in Hy. destruct (l_nt _ _ _ _ HL y Hy) as [HX|[r HX]]; auto.
    right. exists r. apply push_prods. left. auto.
  - intros y Hy. change (seen ld y) in Hy. pose proof (l_left _ _ _ _ HL y Hy) as HLy. split.
    + intros [r Hr]. apply push_prods in Hr. destruct Hr as [Hr|[-> _]].
      * destruct (proj1 HLy (ex_intro _ r Hr)) as [l0 [fs0 [H1 H2]]]. exists l0, fs0. split; auto. apply in_or_app. auto.
      * exists l, fs. split; [apply in_or_app; simpl; auto | auto].
    + intros [l0 [fs0 [H1 H2]]]. apply in_app_or in H1. destruct H1 as [H1|[H1|[]]].
      * destruct (proj2 HLy) as [r Hr]; [eauto|]. exists r. apply push_prods. left. auto.
      * injection H1 as <- <-. exists rs. apply push_prods. right. simpl. split; auto. congruence.
Qed.

Lemma roots_step : forall ld l, good ld -> let ld' := mkLoader (set_roots (ld_cfg ld) l) (ld_intern ld) (ld_map ld) in
  good ld' /\ (forall sym done zs, loaded sym ld done zs -> loaded sym ld' done zs).
Proof.
  intros ld l HG. cbn zeta. split; [constructor; try apply HG|].
  intros sym done zs HL. constructor; try apply HL.
Qed.

(** The rule that is loaded from a plain one. *)
Definition plain_rule (sym : string -> nat) (i : nat) (r : bnf_rule) (x : rule) : Prop :=
  lhs x = sym (fst r) /\ rhs x = map (fun f => sym (fst f)) (snd r) /\ hist x = process_root (ROrigin (i + 1)).

Lemma rule_step : forall debug ld idx r, good ld -> exists ld' s, load_rule debug (idx, ld) r = Ok (S idx, ld') /\ good ld' /\
  (forall y t, lookup ld y = Some t -> lookup ld' y = Some t) /\ lookup ld' (fst r) = Some s /\
  roots (ld_cfg ld') = (if Nat.eqb idx 0 then [s] else roots (ld_cfg ld)) /\
  (forall sym, agrees ld' sym -> (forall done, loaded sym ld done [] -> loaded sym ld' (done ++ [r]) []) /\
     (Forall once (snd r) -> exists x, rules (ld_cfg ld') = rules (ld_cfg ld) ++ [x] /\ plain_rule sym idx r x)).
Proof.
  intros debug ld idx [l fs] HG. unfold load_rule. cbn [fst snd].
  destruct (named_step ld l HG) as [s [ld1 [H1 [H2 [H3 [H4 [H5 [H6 H7]]]]]]]]. rewrite H1.
  set (g1 := if Nat.eqb idx 0 then set_roots (ld_cfg ld1) [s] else ld_cfg ld1).
  set (ld1' := mkLoader g1 (ld_intern ld1) (ld_map ld1)).
  assert (HG1 : good ld1' /\ (forall sym done zs, loaded sym ld1 done zs -> loaded sym ld1' done zs) /\ rules g1 = rules (ld_cfg ld1) /\
    roots g1 = (if Nat.eqb idx 0 then [s] else roots (ld_cfg ld)) /\ lookup ld1' = lookup ld1).
  { unfold ld1', g1. destruct (Nat.eqb idx 0).
    - destruct (roots_step ld1 [s] H2). auto.
    - destruct ld1. simpl in *. auto. }
  destruct HG1 as [HG1 [HL1 [HR1 [HO1 HK1]]]].
  destruct (fragments_step debug fs ld1' [] HG1) as [rs [ld2 [E2 [G2 [O2 [M2 [L2 [B2 [N2 [R2 S2]]]]]]]]]].
  rewrite E2. cbn [bind app].
  assert (Hl2 : lookup ld2 l = Some s) by (apply M2; rewrite HK1; auto).
  unfold rule_history_rhs, add_rule. rewrite add_rule_none by apply G2. cbn [bind].
  set (h := process_root (ROrigin (idx + 1))).
  assert (Hl2' : lookup ld2 l <> None) by congruence.
  destruct (push_step ld2 l fs rs h G2 L2 Hl2' B2 s Hl2) as [P1 P2].
  eexists _, s. split; [reflexivity|]. split; [exact P1|]. split; [intros y t Hy; change (lookup ld2 y = Some t); apply M2; rewrite HK1; auto|].
  split; [exact Hl2|]. split; [simpl; rewrite O2; auto|]. intros sym HA. change (agrees ld2 sym) in HA.
  destruct (S2 sym HA) as [Q1 Q2]. split.
  - intros done HL. assert (HA1 : agrees ld sym).
    { eapply agrees_mono; [|exact HA]. intros y t Hy. apply M2. rewrite HK1. auto. }
    destruct (Q2 done []) as [zs' [Z1 [_ Z2]]]; [apply HL1; apply H7; auto|]. apply (P2 sym done zs'); auto.
  - intros HF. exists (mkRule s rs h). simpl. rewrite (R2 HF). simpl. rewrite HR1, H5. split; auto.
    split; [simpl; symmetry; apply HA; auto|]. split; [simpl; auto | reflexivity].
Qed.

Lemma rules_step : forall debug rs ld idx, good ld -> exists ld', fold_res (load_rule debug) rs (idx, ld) = Ok (idx + List.length rs, ld') /\ good ld' /\
  (forall y t, lookup ld y = Some t -> lookup ld' y = Some t) /\
  (forall sym, agrees ld' sym ->
     roots (ld_cfg ld') = (if Nat.eqb idx 0 then match rs with r :: _ => [sym (fst r)] | [] => roots (ld_cfg ld) end else roots (ld_cfg ld)) /\
     (forall done, loaded sym ld done [] -> loaded sym ld' (done ++ rs) []) /\
     (Forall (fun r => Forall once (snd r)) rs -> exists c, rules (ld_cfg ld') = rules (ld_cfg ld) ++ c /\
        List.length c = List.length rs /\ forall i r x, nth_error rs i = Some r -> nth_error c i = Some x -> plain_rule sym (idx + i) r x)).
Proof.
  intros debug. induction rs as [|r rs IH]; intros ld idx HG.
  - exists ld. cbn [fold_res List.length]. rewrite Nat.add_0_r. split; auto. split; auto. split; auto. intros sym HA. split; [destruct (Nat.eqb idx 0); auto|].
    split; [intros done HL; rewrite app_nil_r; auto|]. intros _. exists []. rewrite app_nil_r. split; auto. split; auto.
    intros i r x Hr. destruct i; discriminate.
  - cbn [fold_res]. destruct (rule_step debug ld idx r HG) as [ld1 [s [E1 [G1 [M1 [L1 [O1 S1]]]]]]]. rewrite E1. cbn [bind].
    destruct (IH ld1 (S idx) G1) as [ld2 [E2 [G2 [M2 S2]]]]. exists ld2. rewrite E2. cbn [List.length].
    split; [f_equal; f_equal; lia|]. split; auto. split; auto. intros sym HA.
    assert (HA1 : agrees ld1 sym) by (eapply agrees_mono; eauto).
    destruct (S1 sym HA1) as [P1 P2]. destruct (S2 sym HA) as [Q1 [Q2 Q3]]. split; [|split].
    + rewrite Q1. simpl. rewrite O1. destruct (Nat.eqb idx 0); auto. rewrite (HA1 _ _ L1). auto.
    + intros done HL. rewrite (app_assoc done [r] rs : done ++ r :: rs = _). apply Q2. apply P1. auto.
    + intros HF. inversion HF; subst. destruct P2 as [x [X1 X2]]; auto. destruct Q3 as [c [C1 [C2 C3]]]; auto.
      exists (x :: c). rewrite C1, X1, <- app_assoc. split; auto. split; [simpl; auto|].
      intros i r0 y Hr Hy. destruct i as [|i].
      * simpl in *. injection Hr as <-. injection Hy as <-. rewrite Nat.add_0_r. auto.
      * simpl in *. replace (idx + S i) with (S idx + i) by lia. eauto.
Qed.

(** * Files *)

Lemma good_new : good (mkLoader cfg_new [] []).
Proof.
  constructor; simpl; auto; try constructor; try (intros; contradiction); try (intros; discriminate).
Qed.

Lemma loaded_new : forall sym, loaded sym (mkLoader cfg_new [] []) [] [].
Proof.
  intros sym. constructor.
  - intros u w _ _. split; intros HD; (eapply derives_mono; [|exact HD]).
    + intros A r [x [[] _]].
    + intros A r [[l [fs [w' [[] _]]]]|[x [k [n [[] _]]]]].
  - constructor.
  - intros z x k [].
  - intros x [l [fs [[] _]]].
  - unfold num_syms. simpl. intros; lia.
  - intros s [].
Qed.

Lemma load_rules_ok : forall debug rs, exists g sym, load_rules debug rs = Ok g /\ closed_rules g /\
  (forall x y, named rs x -> named rs y -> sym x = sym y -> x = y) /\
  (forall x, named rs x -> nth_error (names (src g)) (sym x) = Some (Some x)) /\
  roots g = match rs with r :: _ => [sym (fst r)] | [] => [] end /\
  (forall u w, Forall (fun s => exists x, named rs x /\ s = sym x) u -> Forall (fun s => exists x, named rs x /\ s = sym x) w ->
     (derives (prods g) u w <-> derives (written_prods sym rs) u w)) /\
  (forall x w, named rs x -> (language (prods g) (sym x) w <-> language (written_prods sym rs) (sym x) w)) /\
  (Forall (fun r => Forall once (snd r)) rs -> List.length (rules g) = List.length rs /\
     forall i r x, nth_error rs i = Some r -> nth_error (rules g) i = Some x -> plain_rule sym i r x).
Proof.
  intros debug rs. unfold load_rules. destruct (rules_step debug rs _ 0 good_new) as [ld [E [G [_ S]]]]. rewrite E. cbn [bind].
  set (sym := fun x => match lookup ld x with Some s => s | None => 0 end).
  assert (HA : agrees ld sym) by (intros x s H; unfold sym; rewrite H; auto).
  destruct (S sym HA) as [S1 [S2 S3]]. specialize (S2 [] (loaded_new sym)). simpl in S2.
  assert (HN : forall x, named rs x -> lookup ld x = Some (sym x)).
  { intros x Hx. apply (l_done _ _ _ _ S2) in Hx. destruct (lookup ld x) as [s|] eqn:EL; [|congruence]. rewrite (HA x s EL). auto. }
  exists (ld_cfg ld), sym. split; auto. split; [apply G|]. split; [|split; [|split; [|split; [|split]]]].
  - intros x y Hx Hy Es. apply (lookup_inj ld x y (sym x) G); auto. rewrite Es. auto.
  - intros x Hx. apply (g_names _ G). auto.
  - rewrite S1. destruct rs; reflexivity.
  - intros u w Hu Hw.
    assert (HE : forall l, Forall (fun s => exists x, named rs x /\ s = sym x) l -> Forall (seen ld) l).
    { intros l Hl. eapply Forall_impl; [|exact Hl]. simpl. intros s [x [Hx ->]]. eapply lookup_seen; eauto. }
    rewrite (l_sim _ _ _ _ S2 u w); [|eapply Forall_impl; [|apply HE; exact Hu]; simpl; auto|apply HE; auto].
    apply derives_ext. intros A r. unfold union. split; auto. intros [H|[y [k [n [[] _]]]]]. auto.
  - intros x w Hx. assert (Hsx : seen ld (sym x)) by (eapply lookup_seen; eauto).
    assert (HS : forall u w, Forall (seen ld) u -> Forall (seen ld) w -> (derives (prods (ld_cfg ld)) u w <-> derives (written_prods sym rs) u w)).
    { intros u v Hu Hv. rewrite (l_sim _ _ _ _ S2 u v); auto; [|eapply Forall_impl; [|exact Hu]; simpl; auto].
      apply derives_ext. intros A r. unfold union. split; auto. intros [H|[y [k [n [[] _]]]]]. auto. }
    assert (HT : forall s, seen ld s -> (terminal (prods (ld_cfg ld)) s <-> terminal (written_prods sym rs) s)).
    { intros s Hs. pose proof (l_left _ _ _ _ S2 s Hs) as HL. split; intros Ht r Hr.
      - destruct Hr as [l [fs [w0 [W1 [W2 _]]]]]. destruct (proj2 HL) as [q Hq]; [eauto|]. exact (Ht q Hq).
      - destruct (proj1 HL (ex_intro _ r Hr)) as [l [fs [L1 L2]]]. destruct (expands_some fs) as [w0 Hw0].
        apply (Ht (map sym w0)). exists l, fs, w0. auto. }
    unfold language. split; intros [D T].
    + assert (HW : Forall (seen ld) w).
      { assert (HB : Forall (fun s => s < num_syms (ld_cfg ld)) w).
        { eapply derives_Forall; [|exact D|].
          - intros A r [q [Hq [<- <-]]] _. apply (g_closed _ G q Hq).
          - constructor; auto. apply G. auto. }
        rewrite Forall_forall in *. intros s Hs. destruct (l_nt _ _ _ _ S2 s (HB s Hs)) as [|[r Hr]]; auto.
        exfalso. exact (T s Hs r Hr). }
      split; [apply HS; auto|]. rewrite Forall_forall in *. intros s Hs. apply HT; auto.
    + assert (HW : Forall (seen ld) w).
      { eapply derives_Forall; [|exact D|auto]. intros A r HR _. destruct (written_seen _ _ _ _ _ _ HA S2 HR). auto. }
      split; [apply HS; auto|]. rewrite Forall_forall in *. intros s Hs. apply HT; auto.
  - intros HF. destruct (S3 HF) as [c [C1 [C2 C3]]]. simpl in C1. rewrite C1. auto.
Qed.
