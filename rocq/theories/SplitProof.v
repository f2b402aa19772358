(** What a grammar with a split rule has in common with the original, for the symbols of the original. *)

From Coq Require Import List Arith Bool Lia Relations.
From Verif Require Import Base ListFacts Spec SpecClassify SpecPredict GrammarFacts SymbolModel HistoryModel CfgModel View CfgProof TreeLimit.
Import ListNotations.

(** The facts that the analyses report, for symbols below [n]. *)
Record kept (n : nat) (P Q : productions) : Prop := {
  k_derives1 : forall a w, derives1 P [a] w -> derives1 Q [a] w;
  k_back1 : forall a w, a < n -> Forall (fun x => x < n) w -> derives1 Q [a] w -> derives1 P [a] w;
  k_terminal : forall a, a < n -> (terminal P a <-> terminal Q a);
  k_nonterminal : forall a, a < n -> (nonterminal P a <-> nonterminal Q a);
  k_nulling : forall a, a < n -> (P a [] <-> Q a []);
  k_occurs : forall a, a < n -> (occurs P a <-> occurs Q a);
  k_nullable : forall a, a < n -> (nullable P a <-> nullable Q a);
  k_reaches1 : forall a b, a < n -> b < n -> (reaches1 P a b <-> reaches1 Q a b);
  k_reaches : forall a b, a < n -> b < n -> (reaches P a b <-> reaches Q a b);
  k_unit : forall a b, a < n -> b < n -> (unit_derives P a b <-> unit_derives Q a b);
  k_cycle_free : cycle_free_grammar P <-> cycle_free_grammar Q;
  k_language : forall a w, a < n -> (language P a w <-> language Q a w);
  k_begins : forall a t, a < n -> (begins P [a] t <-> begins Q [a] t);
  k_ends : forall a t, a < n -> (ends P [a] t <-> ends Q [a] t);
  k_follows : forall a t, a < n -> (follows P a t <-> follows Q a t);
  k_useful : forall l, Forall (fun s => s < n) l ->
    ((forall A r, P A r -> useful P l A r) <-> (forall A r, Q A r -> useful Q l A r))
}.

Lemma kept_ext : forall n P P' Q Q', (forall A r, P A r <-> P' A r) -> (forall A r, Q A r <-> Q' A r) -> kept n P' Q' -> kept n P Q.
Proof.
  intros n P P' Q Q' H H' K.
  assert (HR : forall X Y : productions, (forall A r, X A r <-> Y A r) -> forall a b, reaches X a b -> reaches Y a b).
  { intros X Y E a b [u [v D]]. exists u, v. apply (derives_ext X Y E); auto. }
  assert (HR1 : forall X Y : productions, (forall A r, X A r <-> Y A r) -> forall a b, reaches1 X a b -> reaches1 Y a b).
  { intros X Y E a b [u [v [x [A [y [r [E1 [E2 D]]]]]]]]. exists u, v, x, A, y, r. split; auto. split; [apply E; auto|]. apply (derives_ext X Y E); auto. }
  assert (HU : forall X Y : productions, (forall A r, X A r <-> Y A r) -> forall a b, unit_derives X a b -> unit_derives Y a b).
  { intros X Y E a b D. induction D as [a b [D N]|]; [apply t_step; split; auto; apply E; auto|eapply t_trans; eauto]. }
  assert (HF : forall X Y : productions, (forall A r, X A r <-> Y A r) -> forall l, (forall A r, X A r -> useful X l A r) -> forall A r, Y A r -> useful Y l A r).
  { intros X Y E l U A r HY. destruct (U A r) as [[R [HRt HRe]] [w [D T]]]; [apply E; auto|]. split; [exists R; split; auto; apply (HR X Y E); auto|].
    exists w. split; [apply (derives_ext X Y E); auto|]. eapply Forall_impl; [|exact T]. intros t. apply (terminal_ext X Y E). }
  assert (HB : forall X Y : productions, (forall A r, X A r <-> Y A r) -> forall a t, begins X [a] t -> begins Y [a] t).
  { intros X Y E a t [T [w D]]. split; [apply (terminal_ext X Y E); auto|exists w; apply (derives_ext X Y E); auto]. }
  assert (HE : forall X Y : productions, (forall A r, X A r <-> Y A r) -> forall a t, ends X [a] t -> ends Y [a] t).
  { intros X Y E a t [T [w D]]. split; [apply (terminal_ext X Y E); auto|exists w; apply (derives_ext X Y E); auto]. }
  assert (HFo : forall X Y : productions, (forall A r, X A r <-> Y A r) -> forall a t, follows X a t -> follows Y a t).
  { intros X Y E a t [T [C [u [w D]]]]. split; [apply (terminal_ext X Y E); auto|exists C, u, w; apply (derives_ext X Y E); auto]. }
  assert (HNn : forall X Y : productions, (forall A r, X A r <-> Y A r) -> forall a, nonterminal X a -> nonterminal Y a).
  { intros X Y E a [r D]. exists r. apply E; auto. }
  assert (HO : forall X Y : productions, (forall A r, X A r <-> Y A r) -> forall a, occurs X a -> occurs Y a).
  { intros X Y E a [A [r [D O]]]. exists A, r. split; auto. apply E; auto. }
  assert (S : forall X Y : productions, (forall A r, X A r <-> Y A r) -> forall A r, Y A r <-> X A r) by (intros X Y E A r; symmetry; auto).
  assert (HD : forall X Y : productions, (forall A r, X A r <-> Y A r) -> forall a w, derives1 X [a] w -> derives1 Y [a] w).
  { intros X Y E a w [x [A [y [r [E1 [E2 D]]]]]]. exists x, A, y, r. split; auto. split; [apply E; auto|]. apply (derives_ext X Y E); auto. }
  constructor.
  - intros a w D. apply (HD _ _ (S _ _ H')), (k_derives1 _ _ _ K), (HD _ _ H), D.
  - intros a w Ha Hw D. apply (HD _ _ (S _ _ H)), (k_back1 _ _ _ K a w Ha Hw), (HD _ _ H'), D.
  - intros a Ha. rewrite (terminal_ext _ _ H), (terminal_ext _ _ H'). apply (k_terminal _ _ _ K); auto.
  - intros a Ha. pose proof (k_nonterminal _ _ _ K a Ha) as X. split; intros Y; [apply (HNn _ _ (S _ _ H')), X, (HNn _ _ H)|apply (HNn _ _ (S _ _ H)), X, (HNn _ _ H')]; auto.
  - intros a Ha. rewrite H, H'. apply (k_nulling _ _ _ K); auto.
  - intros a Ha. pose proof (k_occurs _ _ _ K a Ha) as X. split; intros Y; [apply (HO _ _ (S _ _ H')), X, (HO _ _ H)|apply (HO _ _ (S _ _ H)), X, (HO _ _ H')]; auto.
  - intros a Ha. unfold nullable. rewrite (derives_ext _ _ H), (derives_ext _ _ H'). apply (k_nullable _ _ _ K); auto.
  - intros a b Ha Hb. pose proof (k_reaches1 _ _ _ K a b Ha Hb) as X. split; intros Y; [apply (HR1 _ _ (S _ _ H')), X, (HR1 _ _ H)|apply (HR1 _ _ (S _ _ H)), X, (HR1 _ _ H')]; auto.
  - intros a b Ha Hb. pose proof (k_reaches _ _ _ K a b Ha Hb) as X. split; intros Y; [apply (HR _ _ (S _ _ H')), X, (HR _ _ H)|apply (HR _ _ (S _ _ H)), X, (HR _ _ H')]; auto.
  - intros a b Ha Hb. pose proof (k_unit _ _ _ K a b Ha Hb) as X. split; intros Y; [apply (HU _ _ (S _ _ H')), X, (HU _ _ H)|apply (HU _ _ (S _ _ H)), X, (HU _ _ H')]; auto.
  - pose proof (k_cycle_free _ _ _ K) as X. split; intros Y A D; [apply (HU _ _ H') in D; revert D; apply X|apply (HU _ _ H) in D; revert D; apply X]; intros B D;
      [apply (HU _ _ (S _ _ H)) in D|apply (HU _ _ (S _ _ H')) in D]; exact (Y B D).
  - intros a w Ha. rewrite (language_ext _ _ H), (language_ext _ _ H'). apply (k_language _ _ _ K); auto.
  - intros a t Ha. pose proof (k_begins _ _ _ K a t Ha) as X. split; intros Y; [apply (HB _ _ (S _ _ H')), X, (HB _ _ H)|apply (HB _ _ (S _ _ H)), X, (HB _ _ H')]; auto.
  - intros a t Ha. pose proof (k_ends _ _ _ K a t Ha) as X. split; intros Y; [apply (HE _ _ (S _ _ H')), X, (HE _ _ H)|apply (HE _ _ (S _ _ H)), X, (HE _ _ H')]; auto.
  - intros a t Ha. pose proof (k_follows _ _ _ K a t Ha) as X. split; intros Y; [apply (HFo _ _ (S _ _ H')), X, (HFo _ _ H)|apply (HFo _ _ (S _ _ H)), X, (HFo _ _ H')]; auto.
  - intros l Hl. pose proof (k_useful _ _ _ K l Hl) as X. split; intros Y; [apply (HF _ _ (S _ _ H')), X, (HF _ _ H)|apply (HF _ _ (S _ _ H)), X, (HF _ _ H')]; auto.
Qed.

Lemma kept_refl : forall n P, kept n P P.
Proof. intros. constructor; intros; tauto. Qed.

Lemma kept_trans : forall n P Q R, kept n P Q -> kept n Q R -> kept n P R.
Proof.
  intros n P Q R K L. constructor; intros;
  [apply (k_derives1 _ _ _ L), (k_derives1 _ _ _ K)|apply (k_back1 _ _ _ K); [| |apply (k_back1 _ _ _ L)]|rewrite (k_terminal _ _ _ K), (k_terminal _ _ _ L)|rewrite (k_nonterminal _ _ _ K), (k_nonterminal _ _ _ L)|rewrite (k_nulling _ _ _ K), (k_nulling _ _ _ L)
  |rewrite (k_occurs _ _ _ K), (k_occurs _ _ _ L)|rewrite (k_nullable _ _ _ K), (k_nullable _ _ _ L)|rewrite (k_reaches1 _ _ _ K), (k_reaches1 _ _ _ L)
  |rewrite (k_reaches _ _ _ K), (k_reaches _ _ _ L)|rewrite (k_unit _ _ _ K), (k_unit _ _ _ L)|rewrite (k_cycle_free _ _ _ K), (k_cycle_free _ _ _ L)
  |rewrite (k_language _ _ _ K), (k_language _ _ _ L)|rewrite (k_begins _ _ _ K), (k_begins _ _ _ L)|rewrite (k_ends _ _ _ K), (k_ends _ _ _ L)
  |rewrite (k_follows _ _ _ K), (k_follows _ _ _ L)|rewrite (k_useful _ _ _ K), (k_useful _ _ _ L)]; auto; tauto.
Qed.

Section One.
  Context (P Q P0 : productions) (n s A0 : nat) (u v : list nat).
  Context (HP : forall A r, P A r <-> (A = A0 /\ r = u ++ v) \/ P0 A r).
  Context (HQ : forall A r, Q A r <-> (A = s /\ r = u) \/ (A = A0 /\ r = s :: v) \/ P0 A r).
  Context (FR : forall A r, P A r -> A <> s /\ Forall (fun x => x <> s) r).
  Context (Hn : n <= s) (Hu : 2 <= length u) (Hv : v <> []).

  Let f (x : nat) : list nat := if x =? s then u else [x].

  Lemma o_f : forall x, x <> s -> f x = [x].
  Proof. intros x H. unfold f. apply Nat.eqb_neq in H. rewrite H. reflexivity. Qed.
  Lemma o_fs : f s = u.
  Proof. unfold f. rewrite Nat.eqb_refl. reflexivity. Qed.
  Lemma o_F : forall w, Forall (fun x => x <> s) w -> flat_map f w = w.
  Proof. intros w H. apply flat_map_single. rewrite Forall_forall in H. intros x Hx. apply o_f; auto. Qed.

  Lemma o_split : A0 <> s /\ Forall (fun x => x <> s) u /\ Forall (fun x => x <> s) v.
  Proof. destruct (FR A0 (u ++ v)) as [H1 H2]; [apply HP; auto|]. apply Forall_app in H2. tauto. Qed.
  Lemma o_rest : forall A r, P0 A r -> A <> s /\ Forall (fun x => x <> s) r.
  Proof. intros A r H. apply FR, HP. auto. Qed.

  Lemma o_whole : derives Q [A0] (u ++ v).
  Proof.
    apply (derives_step Q [] A0 [] (s :: v)); [apply HQ; auto|]. cbn [app]. rewrite app_nil_r.
    apply (derives_step Q [] s v u); [apply HQ; auto|]. cbn [app]. constructor.
  Qed.
  Lemma o_sim : forall A r, P A r -> derives Q [A] r.
  Proof. intros A r H. apply HP in H. destruct H as [[-> ->]|H]; [apply o_whole|]. apply derives_rule. apply HQ. auto. Qed.
  Lemma o_to : forall x y, derives P x y -> derives Q x y.
  Proof. intros x y H. eapply derives_sim; [|exact H]. apply o_sim. Qed.

  Lemma o_hom : forall x y, derives Q x y -> derives P (flat_map f x) (flat_map f y).
  Proof.
    intros x y H. eapply derives_hom; [|exact H]. destruct o_split as [HA [HU HV]]. intros A r HR. apply HQ in HR. destruct HR as [[-> ->]|[[-> ->]|HR]].
    - rewrite o_fs, (o_F u HU). constructor.
    - rewrite (o_f A0 HA). cbn [flat_map]. rewrite o_fs, (o_F v HV). apply derives_rule. apply HP. auto.
    - destruct (o_rest A r HR) as [X Y]. rewrite (o_f A X), (o_F r Y). apply derives_rule. apply HP. auto.
  Qed.

  Lemma o_free : forall x y, derives P x y -> Forall (fun a => a <> s) x -> Forall (fun a => a <> s) y.
  Proof. intros x y H HX. eapply derives_Forall; [|exact H|exact HX]. intros A r HR _. exact (proj2 (FR A r HR)). Qed.

  Lemma o_derives : forall x y, Forall (fun a => a <> s) x -> Forall (fun a => a <> s) y -> (derives P x y <-> derives Q x y).
  Proof. intros x y HX HY. split; [apply o_to|]. intros H. apply o_hom in H. rewrite (o_F x HX), (o_F y HY) in H. exact H. Qed.

  Lemma o_terminal : forall a, a <> s -> (terminal P a <-> terminal Q a).
  Proof.
    intros a Ha. split; intros H r HR.
    - apply HQ in HR. destruct HR as [[-> _]|[[-> _]|HR]]; [apply Ha; auto|apply (H (u ++ v)), HP; auto|apply (H r), HP; auto].
    - apply HP in HR. destruct HR as [[-> _]|HR]; [apply (H (s :: v)), HQ; auto|apply (H r), HQ; auto].
  Qed.
  Lemma o_not_terminal : ~ terminal Q s.
  Proof. intros H. apply (H u), HQ. auto. Qed.
  Lemma o_neq : forall t, terminal Q t -> t <> s.
  Proof. intros t H ->. apply o_not_terminal; auto. Qed.
  Lemma o_stuck : forall w, derives P [s] w -> w = [s].
  Proof.
    intros w H. apply derives_inv1 in H. destruct H as [<-|H]; auto. exfalso. apply derives1_single in H. destruct H as [r [HR _]].
    destruct (FR s r HR) as [X _]. apply X; auto.
  Qed.

  Lemma o_one : forall A w, A <> s -> derives1 Q [A] w -> derives1 P [A] (flat_map f w).
  Proof.
    intros A w HA H. apply derives1_single in H. destruct H as [r [HR HD]]. apply derives1_single. apply o_hom in HD.
    destruct o_split as [_ [_ HV]]. apply HQ in HR. destruct HR as [[X _]|[[-> ->]|HR]]; [destruct (HA X)| |].
    - cbn [flat_map] in HD. rewrite o_fs, (o_F v HV) in HD. exists (u ++ v). split; auto. apply HP. auto.
    - destruct (o_rest A r HR) as [X Y]. rewrite (o_F r Y) in HD. exists r. split; auto. apply HP. auto.
  Qed.
  Lemma o_one' : forall A w, derives1 P [A] w -> derives1 Q [A] w.
  Proof.
    intros A w H. apply derives1_single in H. destruct H as [r [HR HD]]. apply derives1_single. apply o_to in HD.
    apply HP in HR. destruct HR as [[-> ->]|HR].
    - exists (s :: v). split; [apply HQ; auto|]. apply (derives_step Q [] s v u); [apply HQ; auto|]. exact HD.
    - exists r. split; auto. apply HQ. auto.
  Qed.

  Lemma o_unit_step : forall a b, unit_step Q a b <-> unit_step P a b.
  Proof.
    intros a b. unfold unit_step. rewrite HP, HQ. split; intros [H N]; split; auto.
    - destruct H as [[_ X]|[[_ X]|H]]; auto; exfalso; [rewrite <- X in Hu; cbn in Hu; lia|]. injection X as _ X. apply Hv; auto.
    - destruct H as [[_ X]|H]; auto. exfalso. apply (f_equal (@length nat)) in X. rewrite app_length in X. cbn in X. lia.
  Qed.
  Lemma o_unit : forall a b, unit_derives P a b <-> unit_derives Q a b.
  Proof.
    intros a b. split; intros H; (induction H; [apply t_step; apply o_unit_step; auto|eapply t_trans; eauto]).
  Qed.

  Lemma o_language : forall a w, a <> s -> (language P a w <-> language Q a w).
  Proof.
    intros a w Ha. split; intros [HD HF].
    - pose proof (o_free [a] w HD ltac:(auto)) as HW. split; [apply o_to; auto|]. rewrite Forall_forall in *. intros x Hx. apply o_terminal; auto.
    - assert (HW : Forall (fun x => x <> s) w) by (eapply Forall_impl; [|exact HF]; apply o_neq).
      split; [apply o_derives; auto|]. rewrite Forall_forall in *. intros x Hx. apply o_terminal; auto.
  Qed.

  Lemma o_reaches : forall a b, a <> s -> b <> s -> (reaches P a b <-> reaches Q a b).
  Proof.
    intros a b Ha Hb. split; intros [x [y HD]].
    - exists x, y. apply o_to; auto.
    - exists (flat_map f x), (flat_map f y). apply o_hom in HD. rewrite flat_map_app in HD. cbn [flat_map] in HD. rewrite app_nil_r in HD. rewrite (o_f a Ha), (o_f b Hb) in HD. exact HD.
  Qed.

  Lemma o_productive : forall r, Forall (fun x => x <> s) r -> (productive_rhs P r <-> productive_rhs Q r).
  Proof.
    intros r Hr. split; intros [w [HD HF]]; exists w.
    - pose proof (o_free r w HD Hr) as HW. split; [apply o_to; auto|]. rewrite Forall_forall in *. intros x Hx. apply o_terminal; auto.
    - assert (HW : Forall (fun x => x <> s) w) by (eapply Forall_impl; [|exact HF]; apply o_neq).
      split; [apply o_derives; auto|]. rewrite Forall_forall in *. intros x Hx. apply o_terminal; auto.
  Qed.

  Lemma one_kept : kept n P Q.
  Proof.
    assert (LT : forall a, a < n -> a <> s) by (intros; lia). destruct o_split as [HA [HU HV]]. constructor.
    - apply o_one'.
    - intros a w Ha Hw D. apply o_one in D; auto. rewrite o_F in D; auto. eapply Forall_impl; [|exact Hw]. cbn. intros x Hx. apply LT. exact Hx.
    - intros a Ha. apply o_terminal; auto.
    - intros a Ha. split; intros [r H].
      + apply HP in H. destruct H as [[-> _]|H]; [exists (s :: v)|exists r]; apply HQ; auto.
      + apply HQ in H. destruct H as [[-> _]|[[-> _]|H]]; [lia|exists (u ++ v)|exists r]; apply HP; auto.
    - intros a Ha. rewrite HP, HQ. split; intros H.
      + destruct H as [[_ X]|H]; auto. exfalso. apply (f_equal (@length nat)) in X. rewrite app_length in X. cbn in X. lia.
      + destruct H as [[X _]|[[_ X]|H]]; auto; [exfalso; lia|discriminate].
    - intros a Ha. split; intros [A [r [H O]]].
      + apply HP in H. destruct H as [[-> ->]|H]; [|exists A, r; split; auto; apply HQ; auto]. destruct O as [->|O].
        * exists A0, (s :: v). split; [apply HQ|]; auto.
        * apply in_app_or in O. destruct O as [O|O]; [exists s, u|exists A0, (s :: v)]; (split; [apply HQ; auto|right; auto]). right. auto.
      + apply HQ in H. destruct H as [[-> ->]|[[-> ->]|H]]; [| |exists A, r; split; auto; apply HP; auto].
        * destruct O as [O|O]; [exfalso; lia|]. exists A0, (u ++ v). split; [apply HP; auto|]. right. apply in_or_app. auto.
        * exists A0, (u ++ v). split; [apply HP; auto|]. destruct O as [O|[O|O]]; [left; auto|exfalso; lia|]. right. apply in_or_app. auto.
    - intros a Ha. unfold nullable. apply o_derives; auto.
    - intros a b Ha Hb. split; intros [x [y HD]].
      + exists x, y. apply o_one'; auto.
      + exists (flat_map f x), (flat_map f y). apply o_one in HD; auto. rewrite flat_map_app in HD. cbn [flat_map] in HD. rewrite (o_f b) in HD; auto.
    - intros a b Ha Hb. apply o_reaches; auto.
    - intros a b _ _. apply o_unit.
    - split; intros H A X; apply (H A); apply o_unit; auto.
    - intros a w Ha. apply o_language; auto.
    - intros a t Ha. split; intros [HT [w HD]].
      + pose proof (o_free _ _ HD ltac:(auto)) as X. inversion X; subst. split; [apply o_terminal; auto|]. exists w. apply o_to; auto.
      + pose proof (o_neq t HT) as X. split; [apply o_terminal; auto|]. exists (flat_map f w). apply o_hom in HD. cbn [flat_map] in HD.
        rewrite app_nil_r, (o_f a), (o_f t) in HD; auto.
    - intros a t Ha. split; intros [HT [w HD]].
      + pose proof (o_free _ _ HD ltac:(auto)) as X. apply Forall_app in X. destruct X as [_ X]. inversion X; subst. split; [apply o_terminal; auto|]. exists w. apply o_to; auto.
      + pose proof (o_neq t HT) as X. split; [apply o_terminal; auto|]. exists (flat_map f w). apply o_hom in HD. rewrite flat_map_app in HD. cbn [flat_map] in HD.
        rewrite !app_nil_r, (o_f a), (o_f t) in HD; auto.
    - intros a t Ha. split; intros [HT [C [x [y HD]]]].
      + destruct (Nat.eq_dec C s) as [->|NC].
        { apply o_stuck in HD. exfalso. apply (f_equal (@length nat)) in HD. rewrite app_length in HD. cbn in HD. lia. }
        pose proof (o_free _ _ HD ltac:(auto)) as X. apply Forall_app in X. destruct X as [_ X]. inversion X as [|? ? _ X2]; subst. inversion X2; subst.
        split; [apply o_terminal; auto|]. exists C, x, y. apply o_to; auto.
      + pose proof (o_neq t HT) as X. split; [apply o_terminal; auto|].
        assert (HM : forall D z w, D <> s -> derives Q [D] (z ++ a :: t :: w) -> exists C x y, derives P [C] (x ++ a :: t :: y)).
        { intros D z w ND H. exists D, (flat_map f z), (flat_map f w). apply o_hom in H. rewrite flat_map_app in H. cbn [flat_map] in H.
          rewrite app_nil_r, (o_f D), (o_f a), (o_f t) in H; auto. }
        destruct (Nat.eq_dec C s) as [->|NC]; [|apply (HM C x y NC HD)].
        apply (HM A0 x (y ++ v) HA). apply (derives_step Q [] A0 [] (s :: v)); [apply HQ; auto|]. cbn [app]. rewrite app_nil_r.
        replace (x ++ a :: t :: y ++ v) with ((x ++ a :: t :: y) ++ v) by (rewrite <- app_assoc; reflexivity).
        apply (derives_app Q [s] v); [exact HD|constructor].
    - intros l Hl. assert (HRe : forall b, b <> s -> (reachable_from P l b <-> reachable_from Q l b)).
      { intros b Hb. rewrite Forall_forall in Hl. split; intros [R [HR X]]; exists R; (split; [auto|]); apply o_reaches; auto. }
      split; intros H A r HR.
      + assert (HA0 : useful P l A0 (u ++ v)) by (apply H, HP; auto). destruct HA0 as [U1 [w [HD HF]]].
        assert (HW : Forall (fun x => x <> s) w) by (apply (o_free _ _ HD); apply Forall_app; auto).
        apply HQ in HR. destruct HR as [[-> ->]|[[-> ->]|HR]].
        * split.
          -- apply HRe in U1; auto. destruct U1 as [R [HR [x [y HX]]]]. exists R. split; auto. exists x, (v ++ y).
             eapply derives_trans; [exact HX|]. apply (derives_step Q x A0 y (s :: v)); [apply HQ; auto|]. cbn [app]. constructor.
          -- apply o_productive; auto. apply derives_app_inv in HD. destruct HD as [w1 [w2 [-> [HD _]]]]. exists w1. split; auto. apply Forall_app in HF. tauto.
        * split; [apply HRe; auto|]. exists w. split.
          -- apply (derives_step Q [] s v u); [apply HQ; auto|]. apply o_to; auto.
          -- rewrite Forall_forall in *. intros x Hx. apply o_terminal; auto.
        * destruct (o_rest A r HR) as [X Y]. destruct (H A r) as [U2 U3]; [apply HP; auto|]. split; [apply HRe; auto|apply o_productive; auto].
      + apply HP in HR. destruct HR as [[-> ->]|HR].
        * destruct (H A0 (s :: v)) as [U1 [w [HD HF]]]; [apply HQ; auto|]. split; [apply HRe; auto|].
          assert (HW : Forall (fun x => x <> s) w) by (eapply Forall_impl; [|exact HF]; apply o_neq).
          exists w. apply o_hom in HD. cbn [flat_map] in HD. rewrite o_fs, (o_F v HV), (o_F w HW) in HD. split; auto.
          rewrite Forall_forall in *. intros x Hx. apply o_terminal; auto.
        * destruct (o_rest A r HR) as [X Y]. destruct (H A r) as [U2 U3]; [apply HQ; auto|]. split; [apply HRe; auto|apply o_productive; auto].
  Qed.
End One.

(** ** All splits that [limit_rhs_len] makes *)
Definition in_list (l : list (nat * list nat)) : productions := fun A r => In (A, r) l.

Lemma chain_kept : forall r l p s w c, chain r l p s w c -> 2 <= l -> forall n X Y, n <= s -> Forall (below s) X -> Forall (below s) Y ->
  below s (lhs r, w) -> kept n (in_list (X ++ (lhs r, w) :: Y)) (in_list (X ++ map pr c ++ Y)).
Proof.
  intros r l p s w c H H2l. induction H as [p s w Hw Hl|p s w c Hl Hc IH]; intros n X Y Hn HX HY HB.
  - apply kept_refl.
  - assert (HI : forall A q, In (A, q) (X ++ (lhs r, w) :: Y) -> below s (A, q)).
    { intros A q Hi. apply in_app_or in Hi. destruct Hi as [Hi|[Hi|Hi]]; [|rewrite <- Hi; exact HB|]; rewrite Forall_forall in *; auto. }
    assert (H1 : kept n (in_list (X ++ (lhs r, w) :: Y)) (in_list (X ++ (s, firstn l w) :: (lhs r, s :: skipn l w) :: Y))).
    { apply (one_kept _ _ (in_list (X ++ Y)) n s (lhs r) (firstn l w) (skipn l w)).
      - intros A q. unfold in_list. rewrite firstn_skipn, !in_app_iff. cbn [In]. split.
        + intros [K|[K|K]]; auto. injection K as <- <-. auto.
        + intros [[-> ->]|[K|K]]; auto.
      - intros A q. unfold in_list. rewrite !in_app_iff. cbn [In]. split.
        + intros [K|[K|[K|K]]]; auto; injection K as <- <-; auto.
        + intros [[-> ->]|[[-> ->]|[K|K]]]; auto.
      - intros A q Hi. apply HI in Hi. destruct Hi as [Ha Hq]. cbn in Ha, Hq. split; [lia|]. eapply Forall_impl; [|exact Hq]. cbn; intros; lia.
      - exact Hn.
      - rewrite firstn_length. lia.
      - intros K. apply (f_equal (@length nat)) in K. rewrite skipn_length in K. cbn in K. lia. }
    assert (H2 : kept n (in_list ((X ++ [(s, firstn l w)]) ++ (lhs r, s :: skipn l w) :: Y)) (in_list ((X ++ [(s, firstn l w)]) ++ map pr c ++ Y))).
    { apply IH.
      - lia.
      - apply Forall_app. split.
        + eapply Forall_impl; [|exact HX]. intros; eapply below_le; [|eauto]; lia.
        + constructor; [|constructor]. split; cbn [fst snd]; [lia|]. destruct HB as [_ HB]. cbn in HB. apply Forall_forall.
          intros x Hx. rewrite Forall_forall in HB. assert (x < s); [|lia]. apply HB. rewrite <- (firstn_skipn l w). apply in_or_app. auto.
      - eapply Forall_impl; [|exact HY]. intros; eapply below_le; [|eauto]; lia.
      - destruct HB as [HA HB]. cbn in HA, HB. split; cbn [fst snd]; [lia|]. constructor; [lia|]. apply Forall_forall.
        intros x Hx. rewrite Forall_forall in HB. assert (x < s); [|lia]. apply HB. rewrite <- (firstn_skipn l w). apply in_or_app. auto. }
    rewrite <- !app_assoc in H2. cbn [app] in H2. exact (kept_trans _ _ _ _ H1 H2).
Qed.

Lemma add_rule_kept : forall g r g' n Y, good_limit (limit g) -> add_rule g r = Ok g' -> n <= num_syms g ->
  Forall (below (num_syms g)) (map pr (rules g)) -> Forall (below (num_syms g)) Y -> below (num_syms g) (pr r) ->
  kept n (in_list (map pr (rules g) ++ pr r :: Y)) (in_list (map pr (rules g') ++ Y)).
Proof.
  intros g r g' n Y HL E Hn HX HY HB. destruct (add_rule_spec g r HL) as [k [c [E' [Hk Hc]]]]. rewrite E' in E. injection E as <-.
  assert (R : rules (added g k c) = rules g ++ c) by reflexivity. rewrite R, map_app, <- app_assoc.
  destruct Hc as [[-> _]|[l [EL [_ Hc]]]]; [apply kept_refl|]. rewrite EL in HL. eapply chain_kept; eauto.
Qed.

Lemma limit_fold_kept : forall rs g g' n, good_limit (limit g) -> fold_res add_rule rs g = Ok g' -> n <= num_syms g ->
  Forall (below (num_syms g)) (map pr (rules g)) -> Forall (below n) (map pr rs) ->
  kept n (in_list (map pr (rules g) ++ map pr rs)) (in_list (map pr (rules g'))).
Proof.
  induction rs as [|r rs IH]; intros g g' n HL E Hn HX HY; cbn [fold_res] in E.
  - injection E as <-. cbn [map]. rewrite app_nil_r. apply kept_refl.
  - destruct (add_rule g r) as [g1| |] eqn:E1; try discriminate. cbn [bind] in E. inversion HY as [|? ? HB HY']; subst.
    assert (HY2 : Forall (below (num_syms g)) (map pr rs)) by (eapply Forall_impl; [|exact HY']; intros; eapply below_le; eauto).
    assert (HB2 : below (num_syms g) (pr r)) by (eapply below_le; eauto).
    destruct (add_rule_same g r g1 (map pr rs) HL E1 HX HY2 HB2) as [_ [A2 [A3 A4]]].
    cbn [map]. eapply kept_trans; [apply (add_rule_kept g r g1 n (map pr rs) HL E1); auto|]. apply IH; auto; [congruence|lia].
Qed.

Theorem limit_kept : forall g lim g', closed_rules g -> good_limit lim -> limit_rhs_len g lim = Ok g' -> kept (num_syms g) (prods g) (prods g').
Proof.
  intros g lim g' HC HL E. unfold limit_rhs_len in E.
  assert (HI : forall h A r, prods h A r <-> in_list (map pr (rules h)) A r).
  { intros h A r. unfold in_list, prods, pr. rewrite in_map_iff. split.
    - intros [x [Hx [<- <-]]]. exists x. auto.
    - intros [x [K Hx]]. injection K as <- <-. exists x. auto. }
  apply (kept_ext _ _ (in_list (map pr (rules g))) _ (in_list (map pr (rules g')))); [apply HI|apply HI|].
  apply (limit_fold_kept (rules g) (mkCfg (src g) [] (roots g) (wroots g) lim) g' (num_syms g)); auto; [constructor|].
  apply Forall_forall. intros [A r] Hx. apply in_map_iff in Hx. destruct Hx as [x [K Hx]]. injection K as <- <-. apply (HC x Hx).
Qed.
