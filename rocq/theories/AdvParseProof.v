(** Proofs about the parser of the rich notation. *)

From Coq Require Import String List Arith NArith Bool Lia.
From Verif Require Import Base SpecLoad SpecAdv AdvModel.
Import ListNotations.

Notation ntok := (adv_token * nat)%type.

(** * The strings of tokens and their values *)

Inductive frag_shape : list ntok -> xfragment -> Prop :=
| fs_plus : forall x i j, frag_shape [(AIdent x, i); (APlus, j)] (name_frag x OneOrMore)
| fs_mul : forall x i j, frag_shape [(AIdent x, i); (AMul, j)] (name_frag x ZeroOrMore)
| fs_once : forall x i, frag_shape [(AIdent x, i)] (name_frag x Once)
| fs_string : forall s i, frag_shape [(AString s, i)] (mkXFrag (FString s) (i + 1) 0)
| fs_call : forall x i j s k m, frag_shape [(AIdent x, i); (ALParen, j); (AString s, k); (ARParen, m)]
    (mkXFrag (FCall x s) (i + 1) (k + 1)).

Inductive alt_shape : list ntok -> list xfragment -> Prop :=
| as_one : forall ts f, frag_shape ts f -> alt_shape ts [f]
| as_more : forall ts fs i ts' f, alt_shape ts fs -> frag_shape ts' f -> alt_shape (ts ++ (ATilde, i) :: ts') (fs ++ [f]).

Inductive alt2_shape : list ntok -> list xfragment * option string -> Prop :=
| a2_plain : forall ts fs, alt_shape ts fs -> alt2_shape ts (fs, None)
| a2_action : forall ts fs i a j, alt_shape ts fs -> alt2_shape (ts ++ [(AGt, i); (AIdent a, j)]) (fs, Some a).

Inductive rhs_shape : list ntok -> list (list xfragment * option string) -> Prop :=
| rs_one : forall ts a, alt2_shape ts a -> rhs_shape ts [a]
| rs_more : forall ts l i ts' a, rhs_shape ts l -> alt2_shape ts' a -> rhs_shape (ts ++ (APipe, i) :: ts') (l ++ [a]).

Definition to_rules (l : string) (i : nat) (alts : list (list xfragment * option string)) : list xrule :=
  map (fun p => mkXRule l (fst p) (snd p) i) alts.

Inductive rule_shape : list ntok -> list xrule -> Prop :=
| ru_empty : forall l i j k, rule_shape [(AIdent l, i); (AOp, j); (ASemicolon, k)] [mkXRule l [] None (i + 1)]
| ru_action : forall l i j k a m n,
    rule_shape [(AIdent l, i); (AOp, j); (AGt, k); (AIdent a, m); (ASemicolon, n)] [mkXRule l [] (Some a) (i + 1)]
| ru_rhs : forall l i j ts alts k, rhs_shape ts alts ->
    rule_shape ((AIdent l, i) :: (AOp, j) :: ts ++ [(ASemicolon, k)]) (to_rules l (i + 1) alts).

Inductive rules_shape : list ntok -> list xrule -> Prop :=
| rl_one : forall ts l, rule_shape ts l -> rules_shape ts l
| rl_more : forall ts l ts' l', rules_shape ts l -> rule_shape ts' l' -> rules_shape (ts ++ ts') (l ++ l').

Inductive decl_shape : list ntok -> adv_value -> Prop :=
| ds_rule : forall ts l, rule_shape ts l -> decl_shape ts (XVRules l)
| ds_lexer : forall i j ts l k, rules_shape ts l ->
    decl_shape ((ALexer, i) :: (ALBrace, j) :: ts ++ [(ARBrace, k)]) (XVLex l).

Inductive start_shape : list ntok -> res adv_value -> Prop :=
| ss_one : forall ts v, decl_shape ts v -> start_shape ts (adv_product 3 [v])
| ss_more : forall ts r ts' v, start_shape ts r -> decl_shape ts' v ->
    start_shape (ts ++ ts') (do x <- r; adv_product 2 [x; v]).

Definition shape (A : adv_symbol) (ts : list ntok) (v : res adv_value) : Prop :=
  match A with
  | ZFragment => exists f, frag_shape ts f /\ v = Ok (XVFragment f)
  | ZAlt => exists l, alt_shape ts l /\ v = Ok (XVAlt l)
  | ZAction => exists i a j, ts = [(AGt, i); (AIdent a, j)] /\ v = Ok (XVIdent a (j + 1))
  | ZAlt2 => exists a, alt2_shape ts a /\ v = Ok (XVAlt2 (fst a) (snd a))
  | ZRhs => exists l, rhs_shape ts l /\ v = Ok (XVRhs l)
  | ZRule => exists l, rule_shape ts l /\ v = Ok (XVRules l)
  | ZRules => exists l, rules_shape ts l /\ v = Ok (XVRules l)
  | ZLexer => exists i j ts' l k, ts = (ALexer, i) :: (ALBrace, j) :: ts' ++ [(ARBrace, k)] /\ rules_shape ts' l /\
      v = Ok (XVLex l)
  | ZDecl => exists x, decl_shape ts x /\ v = Ok x
  | ZStart => start_shape ts v
  | _ => exists t i, ts = [(t, i)] /\ adv_token_symbol t = A /\ v = Ok (adv_leaf t i)
  end.

Inductive shapes : list adv_symbol -> list ntok -> res (list adv_value) -> Prop :=
| sh_nil : shapes [] [] (Ok [])
| sh_cons : forall A r ts1 ts2 v args, shape A ts1 v -> shapes r ts2 args ->
    shapes (A :: r) (ts1 ++ ts2) (do x <- v; do l <- args; Ok (x :: l)).

Lemma shapes_cons : forall A r ts args, shapes (A :: r) ts args -> exists ts1 ts2 v args',
  ts = ts1 ++ ts2 /\ shape A ts1 v /\ shapes r ts2 args' /\ args = (do x <- v; do l <- args'; Ok (x :: l)).
Proof.
  intros A r ts args H. inversion H as [|A' r' ts1 ts2 v args' H1 H2]. subst.
  exists ts1, ts2, v, args'. repeat split; assumption.
Qed.
Lemma shapes_nil : forall ts args, shapes [] ts args -> ts = [] /\ args = Ok [].
Proof. intros ts args H. inversion H. split; reflexivity. Qed.

Ltac uncons H a v S :=
  let r := fresh "r" in let w := fresh "w" in
  apply shapes_cons in H; destruct H as [a [r [v [w [-> [S [H ->]]]]]]].
Ltac unnil H := apply shapes_nil in H; destruct H as [-> ->].

Ltac terminal H :=
  let t := fresh "t" in let i := fresh "i" in let E := fresh "E" in
  destruct H as [t [i [-> [E ->]]]]; destruct t; try discriminate E; clear E.

Lemma rule_step : forall action A r ts args, In (action, A, r) adv_grammar -> shapes r ts args ->
  shape A ts (do l <- args; adv_product action l).
Proof.
  intros action A r ts args Hin H. unfold adv_grammar in Hin. cbn [In] in Hin.
  repeat lazymatch type of Hin with
  | _ \/ _ => destruct Hin as [Hin|Hin]; [injection Hin as <- <- <-|]
  end; [..|contradiction].
  - uncons H a va Ha. uncons H b vb Hb. unnil H. rewrite app_nil_r. destruct Hb as [y [Hy ->]].
    replace (do l <- _; adv_product 2 l) with (do x <- va; adv_product 2 [x; y]) by (destruct va; reflexivity).
    apply ss_more; assumption.
  - uncons H a va Ha. unnil H. rewrite app_nil_r. destruct Ha as [y [Hy ->]]. apply ss_one. exact Hy.
  - uncons H a va Ha. unnil H. destruct Ha as [l [Hl ->]]. cbn. rewrite app_nil_r. exists (XVRules l).
    split; [constructor; exact Hl|reflexivity].
  - uncons H a va Ha. unnil H. destruct Ha as [i [j [ts' [l [k [-> [Hl ->]]]]]]]. rewrite app_nil_r. exists (XVLex l).
    split; [constructor; exact Hl|reflexivity].
  - uncons H a va Ha. uncons H b vb Hb. uncons H c vc Hc. unnil H. terminal Ha. terminal Hb. terminal Hc.
    eexists. split; [constructor|reflexivity].
  - uncons H a va Ha. uncons H b vb Hb. uncons H c vc Hc. uncons H d vd Hd. unnil H. terminal Ha. terminal Hb. terminal Hd.
    destruct Hc as [k [x [m [-> ->]]]]. eexists. split; [constructor|reflexivity].
  - uncons H a va Ha. uncons H b vb Hb. uncons H c vc Hc. uncons H d vd Hd. unnil H. terminal Ha. terminal Hb. terminal Hd.
    destruct Hc as [alts [Hr ->]]. cbn [app]. exists (to_rules name (i + 1) alts).
    split; [apply ru_rhs; exact Hr|reflexivity].
  - uncons H a va Ha. uncons H b vb Hb. uncons H c vc Hc. unnil H. terminal Hb.
    destruct Ha as [l [Hl ->]]. destruct Hc as [[fs x] [Hx ->]]. cbn [app]. rewrite app_nil_r.
    exists (l ++ [(fs, x)]). split; [apply rs_more; assumption|reflexivity].
  - uncons H a va Ha. unnil H. destruct Ha as [[fs x] [Hx ->]]. rewrite app_nil_r. exists [(fs, x)].
    split; [constructor; exact Hx|reflexivity].
  - uncons H a va Ha. unnil H. destruct Ha as [fs [Hx ->]]. rewrite app_nil_r. exists (fs, None).
    split; [constructor; exact Hx|reflexivity].
  - uncons H a va Ha. uncons H b vb Hb. unnil H. destruct Ha as [fs [Hx ->]]. destruct Hb as [i [x [j [-> ->]]]].
    rewrite app_nil_r. exists (fs, Some x). split; [constructor; exact Hx|reflexivity].
  - uncons H a va Ha. uncons H b vb Hb. uncons H c vc Hc. unnil H. terminal Hb.
    destruct Ha as [fs [Hx ->]]. destruct Hc as [f [Hf ->]]. cbn [app]. rewrite app_nil_r.
    exists (fs ++ [f]). split; [apply as_more; assumption|reflexivity].
  - uncons H a va Ha. unnil H. destruct Ha as [f [Hf ->]]. rewrite app_nil_r. exists [f].
    split; [constructor; exact Hf|reflexivity].
  - uncons H a va Ha. uncons H b vb Hb. unnil H. terminal Ha. terminal Hb. eexists. split; [apply fs_plus|reflexivity].
  - uncons H a va Ha. uncons H b vb Hb. unnil H. terminal Ha. terminal Hb. eexists. split; [apply fs_mul|reflexivity].
  - uncons H a va Ha. unnil H. terminal Ha. eexists. split; [apply fs_once|reflexivity].
  - uncons H a va Ha. unnil H. terminal Ha. eexists. split; [apply fs_string|reflexivity].
  - uncons H a va Ha. uncons H b vb Hb. uncons H c vc Hc. uncons H d vd Hd. unnil H.
    terminal Ha. terminal Hb. terminal Hc. terminal Hd. eexists. split; [apply fs_call|reflexivity].
  - uncons H a va Ha. uncons H b vb Hb. uncons H c vc Hc. uncons H d vd Hd. unnil H.
    terminal Ha. terminal Hb. terminal Hd. destruct Hc as [l [Hl ->]]. cbn [app].
    eexists _, _, c, l, _. split; [reflexivity|]. split; [exact Hl|reflexivity].
  - uncons H a va Ha. uncons H b vb Hb. unnil H. terminal Ha. terminal Hb. eexists _, _, _. split; reflexivity.
  - uncons H a va Ha. unnil H. destruct Ha as [l [Hl ->]]. rewrite app_nil_r. exists l. split; [constructor; exact Hl|reflexivity].
  - uncons H a va Ha. uncons H b vb Hb. unnil H. destruct Ha as [l [Hl ->]]. destruct Hb as [l' [Hl' ->]]. rewrite app_nil_r.
    exists (l ++ l'). split; [apply rl_more; assumption|reflexivity].
Qed.

Scheme evaluates_ind2 := Minimality for adv_evaluates Sort Prop
with evaluate_all_ind2 := Minimality for adv_evaluate_all Sort Prop.
Combined Scheme evaluates_mutual from evaluates_ind2, evaluate_all_ind2.

Theorem evaluates_shape : forall A ts v, adv_evaluates A ts v -> shape A ts v.
Proof.
  apply (evaluates_ind2 shape shapes).
  - intros t i. destruct t; eexists _, _; split; try reflexivity; split; reflexivity.
  - intros action A r ts args Hin _ H. apply (rule_step action A r ts args Hin H).
  - constructor.
  - intros A r ts1 ts2 v args _ H1 _ H2. constructor; assumption.
Qed.

Lemma all_tok : forall t i r ts args, adv_evaluate_all r ts (Ok args) ->
  adv_evaluate_all (adv_token_symbol t :: r) ((t, i) :: ts) (Ok (adv_leaf t i :: args)).
Proof. intros t i r ts args H. exact (xe_cons _ r [(t, i)] ts _ _ (xe_leaf t i) H). Qed.

Lemma all_sym : forall A r ts1 ts2 v args, adv_evaluates A ts1 (Ok v) -> adv_evaluate_all r ts2 (Ok args) ->
  adv_evaluate_all (A :: r) (ts1 ++ ts2) (Ok (v :: args)).
Proof. intros A r ts1 ts2 v args H1 H2. exact (xe_cons A r ts1 ts2 _ _ H1 H2). Qed.

Lemma all_last : forall A ts v, adv_evaluates A ts (Ok v) -> adv_evaluate_all [A] ts (Ok [v]).
Proof. intros A ts v H. rewrite <- (app_nil_r ts). apply all_sym; [exact H|constructor]. Qed.

Lemma rule_ok : forall action A r ts args v, In (action, A, r) adv_grammar -> adv_evaluate_all r ts (Ok args) ->
  adv_product action args = v -> adv_evaluates A ts v.
Proof. intros action A r ts args v Hin H <-. exact (xe_rule action A r ts _ Hin H). Qed.

Ltac in_grammar := unfold adv_grammar; cbn [In]; tauto.

Lemma frag_evaluates : forall ts f, frag_shape ts f -> adv_evaluates ZFragment ts (Ok (XVFragment f)).
Proof.
  intros ts f H. destruct H as [x i j|x i j|x i|s i|x i j s k m].
  - apply (rule_ok 15 _ [ZIdent; ZOpPlus] _ [XVIdent x (i + 1); XVNone (j + 1)]); [in_grammar| |reflexivity].
    apply (all_tok (AIdent x)). apply (all_tok APlus). constructor.
  - apply (rule_ok 16 _ [ZIdent; ZOpMul] _ [XVIdent x (i + 1); XVNone (j + 1)]); [in_grammar| |reflexivity].
    apply (all_tok (AIdent x)). apply (all_tok AMul). constructor.
  - apply (rule_ok 17 _ [ZIdent] _ [XVIdent x (i + 1)]); [in_grammar| |reflexivity].
    apply (all_tok (AIdent x)). constructor.
  - apply (rule_ok 18 _ [ZString] _ [XVString s (i + 1)]); [in_grammar| |reflexivity].
    apply (all_tok (AString s)). constructor.
  - apply (rule_ok 19 _ [ZIdent; ZLParen; ZString; ZRParen] _
      [XVIdent x (i + 1); XVNone (j + 1); XVString s (k + 1); XVNone (m + 1)]); [in_grammar| |reflexivity].
    apply (all_tok (AIdent x)). apply (all_tok ALParen). apply (all_tok (AString s)). apply (all_tok ARParen). constructor.
Qed.

Lemma alt_evaluates : forall ts l, alt_shape ts l -> adv_evaluates ZAlt ts (Ok (XVAlt l)).
Proof.
  intros ts l H. induction H as [ts f Hf|ts fs i ts' f H IH Hf].
  - apply (rule_ok 14 _ [ZFragment] _ [XVFragment f]); [in_grammar| |reflexivity]. apply all_last. apply frag_evaluates. exact Hf.
  - apply (rule_ok 13 _ [ZAlt; ZTildeOp; ZFragment] _ [XVAlt fs; XVNone (i + 1); XVFragment f]); [in_grammar| |reflexivity].
    apply all_sym; [exact IH|]. apply (all_tok ATilde). apply all_last. apply frag_evaluates. exact Hf.
Qed.

Lemma action_evaluates : forall i a j, adv_evaluates ZAction [(AGt, i); (AIdent a, j)] (Ok (XVIdent a (j + 1))).
Proof.
  intros i a j. apply (rule_ok 21 _ [ZGtOp; ZIdent] _ [XVNone (i + 1); XVIdent a (j + 1)]); [in_grammar| |reflexivity].
  apply (all_tok AGt). apply (all_tok (AIdent a)). constructor.
Qed.

Lemma alt2_evaluates : forall ts a, alt2_shape ts a -> adv_evaluates ZAlt2 ts (Ok (XVAlt2 (fst a) (snd a))).
Proof.
  intros ts a H. destruct H as [ts fs H|ts fs i a j H].
  - apply (rule_ok 11 _ [ZAlt] _ [XVAlt fs]); [in_grammar| |reflexivity]. apply all_last. apply alt_evaluates. exact H.
  - apply (rule_ok 12 _ [ZAlt; ZAction] _ [XVAlt fs; XVIdent a (j + 1)]); [in_grammar| |reflexivity].
    apply all_sym; [apply alt_evaluates; exact H|]. apply all_last. apply action_evaluates.
Qed.

Lemma rhs_evaluates : forall ts l, rhs_shape ts l -> adv_evaluates ZRhs ts (Ok (XVRhs l)).
Proof.
  intros ts l H. induction H as [ts a Ha|ts l i ts' a H IH Ha].
  - apply (rule_ok 10 _ [ZAlt2] _ [XVAlt2 (fst a) (snd a)]); [in_grammar| |destruct a; reflexivity].
    apply all_last. apply alt2_evaluates. exact Ha.
  - apply (rule_ok 9 _ [ZRhs; ZPipe; ZAlt2] _ [XVRhs l; XVNone (i + 1); XVAlt2 (fst a) (snd a)]);
      [in_grammar| |destruct a; reflexivity].
    apply all_sym; [exact IH|]. apply (all_tok APipe). apply all_last. apply alt2_evaluates. exact Ha.
Qed.

Lemma rule_evaluates : forall ts l, rule_shape ts l -> adv_evaluates ZRule ts (Ok (XVRules l)).
Proof.
  intros ts l H. destruct H as [l i j k|l i j k a m n|l i j ts alts k H].
  - apply (rule_ok 6 _ [ZIdent; ZBnfOp; ZSemicolon] _ [XVIdent l (i + 1); XVNone (j + 1); XVNone (k + 1)]);
      [in_grammar| |reflexivity].
    apply (all_tok (AIdent l)). apply (all_tok AOp). apply (all_tok ASemicolon). constructor.
  - apply (rule_ok 7 _ [ZIdent; ZBnfOp; ZAction; ZSemicolon] _
      [XVIdent l (i + 1); XVNone (j + 1); XVIdent a (m + 1); XVNone (n + 1)]); [in_grammar| |reflexivity].
    apply (all_tok (AIdent l)). apply (all_tok AOp).
    apply (all_sym ZAction _ [(AGt, k); (AIdent a, m)] _ (XVIdent a (m + 1))); [apply action_evaluates|].
    apply (all_tok ASemicolon). constructor.
  - apply (rule_ok 8 _ [ZIdent; ZBnfOp; ZRhs; ZSemicolon] _
      [XVIdent l (i + 1); XVNone (j + 1); XVRhs alts; XVNone (k + 1)]); [in_grammar| |reflexivity].
    apply (all_tok (AIdent l)). apply (all_tok AOp). apply all_sym; [apply rhs_evaluates; exact H|].
    apply (all_tok ASemicolon). constructor.
Qed.

Lemma rules_evaluates : forall ts l, rules_shape ts l -> adv_evaluates ZRules ts (Ok (XVRules l)).
Proof.
  intros ts l H. induction H as [ts l H|ts l ts' l' H IH H'].
  - apply (rule_ok 22 _ [ZRule] _ [XVRules l]); [in_grammar| |reflexivity]. apply all_last. apply rule_evaluates. exact H.
  - apply (rule_ok 23 _ [ZRules; ZRule] _ [XVRules l; XVRules l']); [in_grammar| |reflexivity].
    apply all_sym; [exact IH|]. apply all_last. apply rule_evaluates. exact H'.
Qed.

Lemma decl_evaluates : forall ts v, decl_shape ts v -> adv_evaluates ZDecl ts (Ok v).
Proof.
  intros ts v H. destruct H as [ts l H|i j ts l k H].
  - apply (rule_ok 4 _ [ZRule] _ [XVRules l]); [in_grammar| |reflexivity]. apply all_last. apply rule_evaluates. exact H.
  - apply (rule_ok 5 _ [ZLexer] _ [XVLex l]); [in_grammar| |reflexivity]. apply all_last.
    apply (rule_ok 20 _ [ZLexerKeyword; ZLBrace; ZRules; ZRBrace] _
      [XVNone (i + 1); XVNone (j + 1); XVRules l; XVNone (k + 1)]); [in_grammar| |reflexivity].
    apply (all_tok ALexer). apply (all_tok ALBrace). apply all_sym; [apply rules_evaluates; exact H|].
    apply (all_tok ARBrace). constructor.
Qed.

Lemma start_evaluates : forall ts v, start_shape ts v -> adv_evaluates ZStart ts v.
Proof.
  intros ts v H. induction H as [ts v H|ts r ts' v H IH H'].
  - apply (rule_ok 3 _ [ZDecl] _ [v]); [in_grammar| |reflexivity]. apply all_last. apply decl_evaluates. exact H.
  - replace (do x <- r; adv_product 2 [x; v]) with
      (do l <- (do x <- r; do l <- Ok [v]; Ok (x :: l)); adv_product 2 l) by (destruct r; reflexivity).
    apply (xe_rule 2 ZStart [ZStart; ZDecl]); [in_grammar|]. apply xe_cons; [exact IH|].
    apply all_last. apply decl_evaluates. exact H'.
Qed.

Theorem start_iff : forall ts v, adv_evaluates ZStart ts v <-> start_shape ts v.
Proof. intros ts v. split; [apply (evaluates_shape ZStart)|apply start_evaluates]. Qed.

(** * The automaton reads what has a value *)

Fixpoint run (p : adv_parser) (l : list ntok) : option adv_parser :=
  match l with
  | [] => Some p
  | (t, n) :: l' => match adv_step p t n with Some p' => run p' l' | None => None end
  end.

Fixpoint srun (st : adv_state) (l : list ntok) : option adv_state :=
  match l with
  | [] => Some st
  | (t, n) :: l' => match statement_step st t n with Some (inl st') => srun st' l' | _ => None end
  end.

Lemma run_app : forall l l' p, run p (l ++ l') = match run p l with Some p' => run p' l' | None => None end.
Proof.
  intros l. induction l as [|[t n] l IH]; intros l' p; [reflexivity|]. cbn [app run].
  destruct (adv_step p t n); [apply IH|reflexivity].
Qed.

Lemma srun_app : forall l l' p, srun p (l ++ l') = match srun p l with Some p' => srun p' l' | None => None end.
Proof.
  intros l. induction l as [|[t n] l IH]; intros l' p; [reflexivity|]. cbn [app srun].
  destruct (statement_step p t n) as [[st|rs]|]; [apply IH|reflexivity|reflexivity].
Qed.

(** At the beginning of a fragment, and after it. *)
Definition begins (l : string) (i : nat) alts alt st :=
  (alts = [] /\ alt = [] /\ st = QOp l i) \/ st = QBegin l i alts alt.
Definition ready (l : string) (i : nat) alts alt st :=
  st = QAlt l i alts alt \/ exists alt0 x k, alt = alt0 ++ [name_frag x Once] /\ st = QIdent l i alts alt0 x k.

Lemma ready_step : forall l i alts alt st t n, ready l i alts alt st ->
  match t with ATilde | AGt | APipe | ASemicolon => True | _ => False end ->
  statement_step st t n = after_fragment l i alts alt t.
Proof.
  intros l i alts alt st t n [->|[alt0 [x [k [-> ->]]]]] Ht; destruct t; try contradiction; reflexivity.
Qed.

Lemma frag_runs : forall ts f l i alts alt st, frag_shape ts f -> begins l i alts alt st ->
  exists st', srun st ts = Some st' /\ ready l i alts (alt ++ [f]) st'.
Proof.
  intros ts f l i alts alt st H Hb.
  destruct H as [x m j|x m j|x m|s m|x m j s k o]; destruct Hb as [[-> [-> ->]]| ->].
  - eexists. split; [reflexivity|]. left. reflexivity.
  - eexists. split; [reflexivity|]. left. reflexivity.
  - eexists. split; [reflexivity|]. left. reflexivity.
  - eexists. split; [reflexivity|]. left. reflexivity.
  - eexists. split; [reflexivity|]. right. exists [], x, (m + 1). split; reflexivity.
  - eexists. split; [reflexivity|]. right. exists alt, x, (m + 1). split; reflexivity.
  - eexists. split; [reflexivity|]. left. reflexivity.
  - eexists. split; [reflexivity|]. left. reflexivity.
  - eexists. split; [reflexivity|]. left. reflexivity.
  - eexists. split; [reflexivity|]. left. reflexivity.
Qed.

Lemma alt_runs : forall ts fs l i alts st, alt_shape ts fs -> begins l i alts [] st ->
  exists st', srun st ts = Some st' /\ ready l i alts fs st'.
Proof.
  intros ts fs l i alts st H Hb. revert st Hb. induction H as [ts f Hf|ts fs k ts' f H IH Hf]; intros st Hb.
  - exact (frag_runs ts f l i alts [] st Hf Hb).
  - destruct (IH st Hb) as [st1 [E1 R1]]. rewrite srun_app, E1. cbn [srun].
    rewrite (ready_step l i alts fs st1 ATilde k R1 I). cbn [after_fragment].
    apply (frag_runs ts' f l i alts fs); [exact Hf|]. right. reflexivity.
Qed.

(** After an alternative. *)
Definition closes (l : string) (i : nat) alts (a : list xfragment * option string) st :=
  forall n, statement_step st APipe n = Some (inl (QBegin l i (alts ++ [a]) [])) /\
            statement_step st ASemicolon n = Some (inr (to_rules l i (alts ++ [a]))).

Lemma alt2_runs : forall ts a l i alts st, alt2_shape ts a -> begins l i alts [] st ->
  exists st', srun st ts = Some st' /\ closes l i alts a st'.
Proof.
  intros ts a l i alts st H Hb. destruct H as [ts fs H|ts fs k a j H].
  - destruct (alt_runs ts fs l i alts st H Hb) as [st1 [E1 R1]]. exists st1. split; [exact E1|]. intros n.
    rewrite (ready_step l i alts fs st1 APipe n R1 I), (ready_step l i alts fs st1 ASemicolon n R1 I). split; reflexivity.
  - destruct (alt_runs ts fs l i alts st H Hb) as [st1 [E1 R1]]. rewrite srun_app, E1. cbn [srun].
    rewrite (ready_step l i alts fs st1 AGt k R1 I). cbn [after_fragment statement_step].
    eexists. split; [reflexivity|]. intros n. split; reflexivity.
Qed.

Lemma rhs_runs : forall ts alts l i st, rhs_shape ts alts -> begins l i [] [] st ->
  exists st', srun st ts = Some st' /\ exists alts0 a, alts = alts0 ++ [a] /\ closes l i alts0 a st'.
Proof.
  intros ts alts l i st H Hb. revert st Hb. induction H as [ts a Ha|ts l0 k ts' a H IH Ha]; intros st Hb.
  - destruct (alt2_runs ts a l i [] st Ha Hb) as [st' [E C]]. exists st'. split; [exact E|]. exists [], a.
    split; [reflexivity|exact C].
  - destruct (IH st Hb) as [st1 [E1 [alts0 [a0 [-> C1]]]]]. rewrite srun_app, E1. cbn [srun].
    rewrite (proj1 (C1 k)).
    destruct (alt2_runs ts' a l i (alts0 ++ [a0]) (QBegin l i (alts0 ++ [a0]) []) Ha (or_intror eq_refl)) as [st' [E C]].
    exists st'. split; [exact E|]. exists (alts0 ++ [a0]), a. split; [reflexivity|exact C].
Qed.

Lemma rule_runs : forall ts rs, rule_shape ts rs -> exists x m ts0 t n st,
  ts = (AIdent x, m) :: ts0 ++ [(t, n)] /\ srun (QLhs x (m + 1)) ts0 = Some st /\ statement_step st t n = Some (inr rs) /\
  st <> QStart.
Proof.
  intros ts rs H. destruct H as [l i j k|l i j k a m n|l i j ts alts k H].
  - exists l, i, [(AOp, j)], ASemicolon, k. eexists. split; [reflexivity|]. split; [reflexivity|]. split; [reflexivity|discriminate].
  - exists l, i, [(AOp, j); (AGt, k); (AIdent a, m)], ASemicolon, n. eexists. split; [reflexivity|]. split; [reflexivity|].
    split; [reflexivity|discriminate].
  - destruct (rhs_runs ts alts l (i + 1) (QOp l (i + 1)) H) as [st' [E [alts0 [a [-> C]]]]].
    { left. repeat split. }
    exists l, i, ((AOp, j) :: ts), ASemicolon, k, st'. split; [reflexivity|]. split; [exact E|].
    split; [exact (proj2 (C k))|]. intros ->. destruct (C k) as [_ C']. discriminate C'.
Qed.

(** Statements in a context. *)
Definition in_context (c : adv_context) : Prop := c <> CKeyword.
Definition ends (c : adv_context) (v : option (res adv_value)) (rs : list xrule) : adv_parser :=
  match c with
  | CBlock l => (CBlock (l ++ rs), QStart, v)
  | _ => (CFile, QStart, Some (add_rules v rs))
  end.

Lemma step_inside : forall c st v t n st', in_context c -> st <> QStart -> statement_step st t n = Some (inl st') ->
  adv_step (c, st, v) t n = Some (c, st', v).
Proof.
  intros c st v t n st' Hc Hs E. destruct c as [| |l]; [|contradiction Hc; reflexivity|].
  - cbn [adv_step]. destruct st; try (contradiction Hs; reflexivity); rewrite E; reflexivity.
  - cbn [adv_step]. destruct l; destruct st; try (contradiction Hs; reflexivity); rewrite E; reflexivity.
Qed.

Lemma step_ends : forall c st v t n rs, in_context c -> st <> QStart -> statement_step st t n = Some (inr rs) ->
  adv_step (c, st, v) t n = Some (ends c v rs).
Proof.
  intros c st v t n rs Hc Hs E. destruct c as [| |l]; [|contradiction Hc; reflexivity|].
  - cbn [adv_step]. destruct st; try (contradiction Hs; reflexivity); rewrite E; reflexivity.
  - cbn [adv_step]. destruct l; destruct st; try (contradiction Hs; reflexivity); rewrite E; reflexivity.
Qed.

Lemma inside_not_start : forall st t n st', statement_step st t n = Some (inl st') -> st' <> QStart.
Proof.
  intros st t n st' E ->. destruct st; destruct t; discriminate E.
Qed.

Lemma run_inside : forall ts c st v st', in_context c -> st <> QStart -> srun st ts = Some st' ->
  run (c, st, v) ts = Some (c, st', v) /\ st' <> QStart.
Proof.
  intros ts. induction ts as [|[t n] ts IH]; intros c st v st' Hc Hs E.
  - injection E as <-. split; [reflexivity|exact Hs].
  - cbn [srun run] in *. destruct (statement_step st t n) as [[st1|rs]|] eqn:E1; try discriminate.
    rewrite (step_inside c st v t n st1 Hc Hs E1). apply IH; [exact Hc|exact (inside_not_start _ _ _ _ E1)|exact E].
Qed.

Lemma step_begins : forall c v x m, in_context c -> adv_step (c, QStart, v) (AIdent x) m = Some (c, QLhs x (m + 1), v).
Proof.
  intros c v x m Hc. destruct c as [| |l]; [reflexivity|contradiction Hc; reflexivity|]. destruct l; reflexivity.
Qed.

Lemma run_rule : forall ts rs c v, rule_shape ts rs -> in_context c -> run (c, QStart, v) ts = Some (ends c v rs).
Proof.
  intros ts rs c v H Hc. destruct (rule_runs ts rs H) as [x [m [ts0 [t [n [st [-> [E1 [E2 Hs]]]]]]]]].
  cbn [run]. rewrite step_begins by exact Hc. rewrite run_app.
  destruct (run_inside ts0 c (QLhs x (m + 1)) v st Hc) as [E3 _]; [discriminate|exact E1|].
  rewrite E3. cbn [run]. rewrite (step_ends c st v t n rs Hc Hs E2). reflexivity.
Qed.

Lemma run_rules : forall ts rs l v, rules_shape ts rs -> run (CBlock l, QStart, v) ts = Some (CBlock (l ++ rs), QStart, v).
Proof.
  intros ts rs l v H. revert l. induction H as [ts rs H|ts rs ts' rs' H IH H']; intros l.
  - rewrite (run_rule ts rs (CBlock l) v H); [reflexivity|discriminate].
  - rewrite run_app, IH. rewrite (run_rule ts' rs' (CBlock (l ++ rs)) v H') by discriminate.
    cbn [ends]. rewrite app_assoc. reflexivity.
Qed.

Lemma rule_shape_nonempty : forall ts rs, rule_shape ts rs -> rs <> [].
Proof.
  intros ts rs H. destruct H as [l i j k|l i j k a m n|l i j ts alts k H]; [discriminate|discriminate|].
  destruct H as [ts a Ha|ts l0 i0 ts' a H Ha]; [discriminate|]. unfold to_rules. rewrite map_app. intros E.
  apply app_eq_nil in E. destruct E as [_ E]. discriminate E.
Qed.

Lemma rules_shape_nonempty : forall ts rs, rules_shape ts rs -> rs <> [].
Proof.
  intros ts rs H. induction H as [ts rs H|ts rs ts' rs' H IH H']; [exact (rule_shape_nonempty ts rs H)|].
  intros E. apply app_eq_nil in E. destruct E as [E _]. exact (IH E).
Qed.

Definition add_decl (v : option (res adv_value)) (x : adv_value) : res adv_value :=
  match v with
  | None => adv_product 3 [x]
  | Some r => do y <- r; adv_product 2 [y; x]
  end.

Lemma run_decl : forall ts x v, decl_shape ts x -> run (CFile, QStart, v) ts = Some (CFile, QStart, Some (add_decl v x)).
Proof.
  intros ts x v H. destruct H as [ts l H|i j ts l k H].
  - rewrite (run_rule ts l CFile v H); [reflexivity|discriminate].
  - cbn [run adv_step]. rewrite run_app. rewrite (run_rules ts l [] v H). cbn [app run].
    pose proof (rules_shape_nonempty ts l H) as Hne. destruct l as [|r l]; [contradiction Hne; reflexivity|].
    cbn [adv_step]. reflexivity.
Qed.

Theorem run_start : forall ts r, start_shape ts r -> run (CFile, QStart, None) ts = Some (CFile, QStart, Some r).
Proof.
  intros ts r H. induction H as [ts v H|ts r ts' v H IH H'].
  - rewrite (run_decl ts v None H). reflexivity.
  - rewrite run_app, IH. rewrite (run_decl ts' v (Some r) H'). reflexivity.
Qed.

(** * What the automaton has read *)

Definition alts_read (ts : list ntok) (alts : list (list xfragment * option string)) : Prop :=
  (alts = [] /\ ts = []) \/ exists ts0 i, rhs_shape ts0 alts /\ ts = ts0 ++ [(APipe, i)].
Definition alt_read (ts : list ntok) (alt : list xfragment) : Prop :=
  (alt = [] /\ ts = []) \/ exists ts0 i, alt_shape ts0 alt /\ ts = ts0 ++ [(ATilde, i)].

(** The left-hand side, the alternatives before and something else. *)
Definition body_read (ts : list ntok) (l : string) (i : nat) alts (last : list ntok -> Prop) : Prop :=
  exists n m ts1 ts2, i = n + 1 /\ ts = (AIdent l, n) :: (AOp, m) :: ts1 ++ ts2 /\ alts_read ts1 alts /\ last ts2.

Definition state_read (ts : list ntok) (st : adv_state) : Prop :=
  match st with
  | QStart => ts = []
  | QLhs l i => exists n, i = n + 1 /\ ts = [(AIdent l, n)]
  | QOp l i => exists n m, i = n + 1 /\ ts = [(AIdent l, n); (AOp, m)]
  | QGt0 l i => exists n m k, i = n + 1 /\ ts = [(AIdent l, n); (AOp, m); (AGt, k)]
  | QAct0 l i a => exists n m k j, i = n + 1 /\ ts = [(AIdent l, n); (AOp, m); (AGt, k); (AIdent a, j)]
  | QBegin l i alts alt => body_read ts l i alts (fun ts2 => alt_read ts2 alt)
  | QIdent l i alts alt x k => body_read ts l i alts (fun ts2 => exists ts3 j, k = j + 1 /\ alt_read ts3 alt /\
      ts2 = ts3 ++ [(AIdent x, j)])
  | QParen l i alts alt x k => body_read ts l i alts (fun ts2 => exists ts3 j m, k = j + 1 /\ alt_read ts3 alt /\
      ts2 = ts3 ++ [(AIdent x, j); (ALParen, m)])
  | QArg l i alts alt x k s q => body_read ts l i alts (fun ts2 => exists ts3 j m n, k = j + 1 /\ q = n + 1 /\ alt_read ts3 alt /\
      ts2 = ts3 ++ [(AIdent x, j); (ALParen, m); (AString s, n)])
  | QAlt l i alts alt => body_read ts l i alts (fun ts2 => alt_shape ts2 alt)
  | QGt l i alts alt => body_read ts l i alts (fun ts2 => exists ts3 j, alt_shape ts3 alt /\ ts2 = ts3 ++ [(AGt, j)])
  | QAct l i alts alt a => body_read ts l i alts (fun ts2 => exists ts3 j m, alt_shape ts3 alt /\
      ts2 = ts3 ++ [(AGt, j); (AIdent a, m)])
  end.

Lemma alt_read_more : forall ts alt ts' f, alt_read ts alt -> frag_shape ts' f -> alt_shape (ts ++ ts') (alt ++ [f]).
Proof.
  intros ts alt ts' f [[-> ->]|[ts0 [i [H ->]]]] Hf.
  - apply as_one. exact Hf.
  - rewrite <- app_assoc. apply as_more; assumption.
Qed.

Lemma alts_read_more : forall ts alts ts' a, alts_read ts alts -> alt2_shape ts' a -> rhs_shape (ts ++ ts') (alts ++ [a]).
Proof.
  intros ts alts ts' a [[-> ->]|[ts0 [i [H ->]]]] Ha.
  - apply rs_one. exact Ha.
  - rewrite <- app_assoc. apply rs_more; assumption.
Qed.

(** What was read of a statement that goes on or ends *)
Definition result_read (ts : list ntok) (r : adv_state + list xrule) : Prop :=
  match r with
  | inl st => state_read ts st
  | inr rs => rule_shape ts rs
  end.

Lemma after_fragment_read : forall ts l i alts alt t n r, body_read ts l i alts (fun ts2 => alt_shape ts2 alt) ->
  after_fragment l i alts alt t = Some r -> result_read (ts ++ [(t, n)]) r.
Proof.
  intros ts l i alts alt t n r [k [m [ts1 [ts2 [-> [-> [Ha H2]]]]]]] E.
  assert (Hr : rhs_shape (ts1 ++ ts2) (alts ++ [(alt, None)])) by (apply alts_read_more; [exact Ha|constructor; exact H2]).
  destruct t; try discriminate E; injection E as <-; cbn [result_read state_read].
  - change (((AIdent l, k) :: (AOp, m) :: ts1 ++ ts2) ++ [(ASemicolon, n)]) with
      ((AIdent l, k) :: (AOp, m) :: (ts1 ++ ts2) ++ [(ASemicolon, n)]).
    apply (ru_rhs l k m (ts1 ++ ts2) _ n Hr).
  - exists k, m, ((ts1 ++ ts2) ++ [(APipe, n)]), []. split; [reflexivity|]. split; [rewrite app_nil_r; reflexivity|].
    split; [right; exists (ts1 ++ ts2), n; split; [exact Hr|reflexivity]|]. left. split; reflexivity.
  - exists k, m, ts1, (ts2 ++ [(AGt, n)]). split; [reflexivity|]. split; [cbn; rewrite app_assoc; reflexivity|].
    split; [exact Ha|]. exists ts2, n. split; [exact H2|reflexivity].
  - exists k, m, ts1, (ts2 ++ [(ATilde, n)]). split; [reflexivity|]. split; [cbn; rewrite app_assoc; reflexivity|].
    split; [exact Ha|]. right. exists ts2, n. split; [exact H2|reflexivity].
Qed.

Lemma body_more : forall ts l i alts (P Q : list ntok -> Prop) x, body_read ts l i alts P ->
  (forall ts2, P ts2 -> Q (ts2 ++ x)) -> body_read (ts ++ x) l i alts Q.
Proof.
  intros ts l i alts P Q x [k [m [ts1 [ts2 [-> [-> [Ha H2]]]]]]] HPQ.
  exists k, m, ts1, (ts2 ++ x). split; [reflexivity|]. split; [cbn; rewrite app_assoc; reflexivity|].
  split; [exact Ha|]. apply HPQ. exact H2.
Qed.

Lemma body_weaken : forall ts l i alts (P Q : list ntok -> Prop), body_read ts l i alts P ->
  (forall ts2, P ts2 -> Q ts2) -> body_read ts l i alts Q.
Proof.
  intros ts l i alts P Q [k [m [ts1 [ts2 [-> [-> [Ha H2]]]]]]] HPQ.
  exists k, m, ts1, ts2. repeat split; try assumption. apply HPQ. exact H2.
Qed.

Lemma body_new : forall n m l x (Q : list ntok -> Prop), Q x ->
  body_read ([(AIdent l, n); (AOp, m)] ++ x) l (n + 1) [] Q.
Proof.
  intros n m l x Q H. exists n, m, [], x. split; [reflexivity|]. split; [reflexivity|]. split; [|exact H]. left. split; reflexivity.
Qed.

Lemma statement_reads : forall ts st t n r, state_read ts st -> statement_step st t n = Some r ->
  result_read (ts ++ [(t, n)]) r.
Proof.
  intros ts st t n r H E. destruct st as [|l i|l i|l i|l i a|l i alts alt|l i alts alt x k|l i alts alt x k|l i alts alt x k s q|l i alts alt|l i alts alt|l i alts alt a].
  - destruct t; try discriminate E. injection E as <-. cbn in H. subst ts. exists n. split; reflexivity.
  - destruct t; try discriminate E. injection E as <-. destruct H as [m [-> ->]]. exists m, n. split; reflexivity.
  - destruct H as [m [k [-> ->]]]. destruct t; try discriminate E; injection E as <-.
    + apply body_new. exists [], n. split; [reflexivity|]. split; [left; split; reflexivity|reflexivity].
    + constructor.
    + apply body_new. apply as_one. apply fs_string.
    + exists m, k, n. split; reflexivity.
  - destruct t; try discriminate E. injection E as <-. destruct H as [m [k [j [-> ->]]]]. exists m, k, j, n. split; reflexivity.
  - destruct t; try discriminate E. injection E as <-. destruct H as [m [k [j [o [-> ->]]]]]. constructor.
  - destruct t; try discriminate E; injection E as <-; cbn [result_read state_read] in *.
    + apply (body_more ts l i alts _ _ [(AIdent name, n)] H). intros ts2 H2. exists ts2, n.
      split; [reflexivity|]. split; [exact H2|reflexivity].
    + apply (body_more ts l i alts _ _ [(AString s, n)] H). intros ts2 H2.
      apply alt_read_more; [exact H2|]. apply fs_string.
  - cbn [state_read] in H.
    assert (Hr : body_read ts l i alts (fun ts2 => alt_shape ts2 (alt ++ [name_frag x Once]))).
    { apply (body_weaken ts l i alts _ _ H). intros ts2 [ts3 [j [-> [H2 ->]]]]. apply alt_read_more; [exact H2|apply fs_once]. }
    destruct t; try (apply (after_fragment_read ts l i alts (alt ++ [name_frag x Once]) _ n r Hr E)); injection E as <-;
      cbn [result_read state_read].
    + apply (body_more ts l i alts _ _ [(APlus, n)] H). intros ts2 [ts3 [j [-> [H2 ->]]]]. rewrite <- app_assoc.
      apply alt_read_more; [exact H2|apply fs_plus].
    + apply (body_more ts l i alts _ _ [(AMul, n)] H). intros ts2 [ts3 [j [-> [H2 ->]]]]. rewrite <- app_assoc.
      apply alt_read_more; [exact H2|apply fs_mul].
    + apply (body_more ts l i alts _ _ [(ALParen, n)] H). intros ts2 [ts3 [j [-> [H2 ->]]]]. rewrite <- app_assoc.
      exists ts3, j, n. split; [reflexivity|]. split; [exact H2|reflexivity].
  - destruct t; try discriminate E. injection E as <-. cbn [result_read state_read] in *.
    apply (body_more ts l i alts _ _ [(AString s, n)] H). intros ts2 [ts3 [j [m [-> [H2 ->]]]]]. rewrite <- app_assoc.
    exists ts3, j, m, n. split; [reflexivity|]. split; [reflexivity|]. split; [exact H2|reflexivity].
  - destruct t; try discriminate E. injection E as <-. cbn [result_read state_read] in *.
    apply (body_more ts l i alts _ _ [(ARParen, n)] H). intros ts2 [ts3 [j [m [o [-> [-> [H2 ->]]]]]]]. rewrite <- app_assoc.
    apply alt_read_more; [exact H2|apply fs_call].
  - apply (after_fragment_read ts l i alts alt t n r H E).
  - destruct t; try discriminate E. injection E as <-. cbn [result_read state_read] in *.
    apply (body_more ts l i alts _ _ [(AIdent name, n)] H). intros ts2 [ts3 [j [H2 ->]]]. rewrite <- app_assoc.
    exists ts3, j, n. split; [exact H2|reflexivity].
  - cbn [state_read] in H. destruct H as [k [m [ts1 [ts2 [-> [-> [Ha [ts3 [j [o [H2 ->]]]]]]]]]]].
    assert (Hr : rhs_shape (ts1 ++ ts3 ++ [(AGt, j); (AIdent a, o)]) (alts ++ [(alt, Some a)])).
    { apply alts_read_more; [exact Ha|]. apply a2_action. exact H2. }
    destruct t; try discriminate E; injection E as <-; cbn [result_read state_read].
    + change (((AIdent l, k) :: (AOp, m) :: ts1 ++ ts3 ++ [(AGt, j); (AIdent a, o)]) ++ [(ASemicolon, n)]) with
        ((AIdent l, k) :: (AOp, m) :: (ts1 ++ ts3 ++ [(AGt, j); (AIdent a, o)]) ++ [(ASemicolon, n)]).
      apply (ru_rhs l k m _ _ n Hr).
    + exists k, m, ((ts1 ++ ts3 ++ [(AGt, j); (AIdent a, o)]) ++ [(APipe, n)]), []. split; [reflexivity|].
      split; [rewrite app_nil_r; reflexivity|]. split; [right; eexists _, n; split; [exact Hr|reflexivity]|].
      left. split; reflexivity.
Qed.

Definition value_read (ts : list ntok) (v : option (res adv_value)) : Prop :=
  match v with
  | None => ts = []
  | Some r => start_shape ts r
  end.
Definition block_read (ts : list ntok) (l : list xrule) : Prop :=
  (l = [] /\ ts = []) \/ rules_shape ts l.

Definition parser_read (ts : list ntok) (p : adv_parser) : Prop :=
  match p with
  | (CFile, st, v) => exists ts0 ts1, ts = ts0 ++ ts1 /\ value_read ts0 v /\ state_read ts1 st
  | (CKeyword, st, v) => exists ts0 i, ts = ts0 ++ [(ALexer, i)] /\ value_read ts0 v
  | (CBlock l, st, v) => exists ts0 i j ts1 ts2, ts = ts0 ++ (ALexer, i) :: (ALBrace, j) :: ts1 ++ ts2 /\
      value_read ts0 v /\ block_read ts1 l /\ state_read ts2 st
  end.

Lemma value_more : forall ts v ts' x, value_read ts v -> decl_shape ts' x -> start_shape (ts ++ ts') (add_decl v x).
Proof.
  intros ts [r|] ts' x H Hx.
  - apply ss_more; assumption.
  - cbn in H. subst ts. apply ss_one. exact Hx.
Qed.

Lemma block_more : forall ts l ts' rs, block_read ts l -> rule_shape ts' rs -> rules_shape (ts ++ ts') (l ++ rs).
Proof.
  intros ts l ts' rs [[-> ->]|H] Hr.
  - apply rl_one. exact Hr.
  - apply rl_more; assumption.
Qed.

Lemma statement_in_file : forall ts0 ts1 v st t n r, value_read ts0 v -> state_read ts1 st -> statement_step st t n = Some r ->
  parser_read ((ts0 ++ ts1) ++ [(t, n)])
    match r with inl st' => (CFile, st', v) | inr rs => (CFile, QStart, Some (add_rules v rs)) end.
Proof.
  intros ts0 ts1 v st t n r Hv Hs E. pose proof (statement_reads ts1 st t n r Hs E) as H.
  rewrite <- app_assoc. destruct r as [st'|rs]; cbn [result_read] in H.
  - exists ts0, (ts1 ++ [(t, n)]). split; [reflexivity|]. split; [exact Hv|exact H].
  - exists (ts0 ++ ts1 ++ [(t, n)]), []. split; [rewrite app_nil_r; reflexivity|]. split; [|reflexivity].
    change (add_rules v rs) with (add_decl v (XVRules rs)). apply value_more; [exact Hv|]. constructor. exact H.
Qed.

Lemma statement_in_block : forall ts0 i j ts1 ts2 l v st t n r, value_read ts0 v -> block_read ts1 l -> state_read ts2 st ->
  statement_step st t n = Some r ->
  parser_read ((ts0 ++ (ALexer, i) :: (ALBrace, j) :: ts1 ++ ts2) ++ [(t, n)])
    match r with inl st' => (CBlock l, st', v) | inr rs => (CBlock (l ++ rs), QStart, v) end.
Proof.
  intros ts0 i j ts1 ts2 l v st t n r Hv Hb Hs E. pose proof (statement_reads ts2 st t n r Hs E) as H.
  rewrite <- app_assoc. cbn [app]. rewrite <- app_assoc. destruct r as [st'|rs]; cbn [result_read] in H.
  - exists ts0, i, j, ts1, (ts2 ++ [(t, n)]). split; [reflexivity|]. split; [exact Hv|]. split; [exact Hb|exact H].
  - exists ts0, i, j, (ts1 ++ ts2 ++ [(t, n)]), []. split; [rewrite app_nil_r; reflexivity|]. split; [exact Hv|].
    split; [|reflexivity]. right. apply block_more; assumption.
Qed.

Lemma step_reads : forall ts p t n p', parser_read ts p -> adv_step p t n = Some p' -> parser_read (ts ++ [(t, n)]) p'.
Proof.
  intros ts [[c st] v] t n p' H E. destruct c as [| |l].
  - destruct H as [ts0 [ts1 [-> [Hv Hs]]]].
    assert (Hcase : (st = QStart /\ t = ALexer) \/
      (st <> QStart \/ exists x, t = AIdent x) \/ (st = QStart /\ t <> ALexer /\ forall x, t <> AIdent x)).
    { destruct st; try (right; left; left; discriminate). destruct t;
        try (left; split; reflexivity); try (right; left; right; eexists; reflexivity);
        right; right; (split; [reflexivity|split; [discriminate|intros x; discriminate]]). }
    destruct Hcase as [[-> ->]|[Hc|[-> [H1 H2]]]].
    + injection E as <-. cbn in Hs. subst ts1. exists (ts0), n. rewrite app_nil_r. split; [reflexivity|exact Hv].
    + pose proof (statement_in_file ts0 ts1 v st t n) as Hf.
      assert (E' : adv_step (CFile, st, v) t n = match statement_step st t n with
        | None => None | Some r => Some match r with inl st' => (CFile, st', v) | inr rs => (CFile, QStart, Some (add_rules v rs)) end end).
      { destruct Hc as [Hc|[x ->]].
        - destruct st; try (contradiction Hc; reflexivity); cbn [adv_step];
            destruct (statement_step _ t n) as [[st'|rs]|]; reflexivity.
        - destruct st; cbn [adv_step]; try reflexivity; destruct (statement_step _ _ n) as [[st'|rs]|]; reflexivity. }
      rewrite E' in E. destruct (statement_step st t n) as [r|]; [|discriminate]. injection E as <-.
      apply Hf; [exact Hv|exact Hs|reflexivity].
    + destruct t; try discriminate E; [contradiction (H2 name); reflexivity|contradiction H1; reflexivity].
  - destruct H as [ts0 [i [-> Hv]]]. cbn [adv_step] in E. destruct t; try discriminate E. injection E as <-.
    exists ts0, i, n, [], []. rewrite <- app_assoc. split; [reflexivity|]. split; [exact Hv|].
    split; [left; split; reflexivity|reflexivity].
  - destruct H as [ts0 [i [j [ts1 [ts2 [-> [Hv [Hb Hs]]]]]]]].
    assert (Hcase : (st = QStart /\ t = ARBrace /\ l <> []) \/
      adv_step (CBlock l, st, v) t n = match statement_step st t n with
        | None => None | Some r => Some match r with inl st' => (CBlock l, st', v) | inr rs => (CBlock (l ++ rs), QStart, v) end end).
    { destruct st; try (right; destruct l; cbn [adv_step]; destruct (statement_step _ t n) as [[st'|rs]|]; reflexivity).
      destruct l as [|r l].
      - right. cbn [adv_step]. destruct (statement_step QStart t n) as [[st'|rs]|]; reflexivity.
      - destruct t; try (right; reflexivity). left. split; [reflexivity|]. split; [reflexivity|discriminate]. }
    destruct Hcase as [[-> [-> Hl]]|E'].
    + destruct l as [|r l]; [contradiction Hl; reflexivity|]. injection E as <-. cbn in Hs. subst ts2.
      destruct Hb as [[Hb _]|Hb]; [discriminate|].
      exists (ts0 ++ (ALexer, i) :: (ALBrace, j) :: ts1 ++ [(ARBrace, n)]), [].
      split; [rewrite !app_nil_r; rewrite <- app_assoc; reflexivity|]. split; [|reflexivity].
      change (add_block v (r :: l)) with (add_decl v (XVLex (r :: l))). apply value_more; [exact Hv|]. constructor. exact Hb.
    + pose proof (statement_in_block ts0 i j ts1 ts2 l v st t n) as Hf. rewrite E' in E.
      destruct (statement_step st t n) as [r|]; [|discriminate]. injection E as <-.
      apply Hf; [exact Hv|exact Hb|exact Hs|reflexivity].
Qed.

Lemma run_reads : forall l ts p p', parser_read ts p -> run p l = Some p' -> parser_read (ts ++ l) p'.
Proof.
  intros l. induction l as [|[t n] l IH]; intros ts p p' H E.
  - injection E as <-. rewrite app_nil_r. exact H.
  - cbn [run] in E. destruct (adv_step p t n) as [p1|] eqn:E1; [|discriminate].
    replace (ts ++ (t, n) :: l) with ((ts ++ [(t, n)]) ++ l) by (rewrite <- app_assoc; reflexivity).
    apply (IH _ p1); [apply (step_reads ts p t n p1 H E1)|exact E].
Qed.

Theorem run_sound : forall ts p v, run (CFile, QStart, None) ts = Some p -> finished p = Some v -> start_shape ts v.
Proof.
  intros ts p v E F.
  assert (H : parser_read ts p).
  { apply (run_reads ts [] (CFile, QStart, None) p); [|exact E]. exists [], []. repeat split. }
  destruct p as [[c st] w]. destruct c; try discriminate F. destruct st; try discriminate F. cbn in F. subst w.
  destruct H as [ts0 [ts1 [-> [Hv Hs]]]]. cbn in Hs. subst ts1. rewrite app_nil_r. exact Hv.
Qed.

(** * Every state can be completed *)

Lemma state_completes : forall st, st <> QStart -> exists ts rs t m st',
  srun st ts = Some st' /\ st' <> QStart /\ statement_step st' t m = Some (inr rs).
Proof.
  intros st Hs.
  destruct st as [|l i|l i|l i|l i a|l i alts alt|l i alts alt x k|l i alts alt x k|l i alts alt x k s q|l i alts alt|l i alts alt|l i alts alt a].
  - contradiction Hs; reflexivity.
  - exists [(AOp, 0)]. eexists _, ASemicolon, 0, _. repeat split; try reflexivity; discriminate.
  - exists []. eexists _, ASemicolon, 0, _. repeat split; try reflexivity; discriminate.
  - exists [(AIdent "a"%string, 0)]. eexists _, ASemicolon, 0, _. repeat split; try reflexivity; discriminate.
  - exists []. eexists _, ASemicolon, 0, _. repeat split; try reflexivity; discriminate.
  - exists [(AIdent "a"%string, 0)]. eexists _, ASemicolon, 0, _. repeat split; try reflexivity; discriminate.
  - exists []. eexists _, ASemicolon, 0, _. repeat split; try reflexivity; discriminate.
  - exists [(AString [], 0); (ARParen, 0)]. eexists _, ASemicolon, 0, _. repeat split; try reflexivity; discriminate.
  - exists [(ARParen, 0)]. eexists _, ASemicolon, 0, _. repeat split; try reflexivity; discriminate.
  - exists []. eexists _, ASemicolon, 0, _. repeat split; try reflexivity; discriminate.
  - exists [(AIdent "a"%string, 0)]. eexists _, ASemicolon, 0, _. repeat split; try reflexivity; discriminate.
  - exists []. eexists _, ASemicolon, 0, _. repeat split; try reflexivity; discriminate.
Qed.

Lemma app_last_nonempty : forall (A : Type) (l : list A) x, l ++ [x] <> [].
Proof. intros A l x E. apply app_eq_nil in E. destruct E as [_ E]. discriminate E. Qed.

Lemma ends_nonempty : forall st t n rs, statement_step st t n = Some (inr rs) -> rs <> [].
Proof.
  intros st t n rs E. destruct st; destruct t; try discriminate E; injection E as <-; try discriminate;
    rewrite map_app; apply app_last_nonempty.
Qed.

Lemma statement_completes : forall c st v, in_context c -> exists ts rs, rs <> [] /\ run (c, st, v) ts = Some (ends c v rs).
Proof.
  assert (Hother : forall c st v, in_context c -> st <> QStart -> exists ts rs, rs <> [] /\ run (c, st, v) ts = Some (ends c v rs)).
  { intros c st v Hc Hs. destruct (state_completes st Hs) as [ts [rs [t [m [st' [E1 [Hs' E2]]]]]]].
    exists (ts ++ [(t, m)]), rs. split; [exact (ends_nonempty _ _ _ _ E2)|].
    rewrite run_app. destruct (run_inside ts c st v st' Hc Hs E1) as [-> _]. cbn [run].
    rewrite (step_ends c st' v t m rs Hc Hs' E2). reflexivity. }
  intros c st v Hc. destruct st; try (apply Hother; [exact Hc|discriminate]).
  destruct (Hother c (QLhs "a"%string 1) v Hc) as [ts [rs [Hrs E]]]; [discriminate|].
  exists ((AIdent "a"%string, 0) :: ts), rs. split; [exact Hrs|]. cbn [run]. rewrite step_begins by exact Hc. exact E.
Qed.

Theorem completes : forall p, exists ts p' r, run p ts = Some p' /\ finished p' = Some r.
Proof.
  assert (Hblock : forall l st v, exists ts p' r, run (CBlock l, st, v) ts = Some p' /\ finished p' = Some r).
  { intros l st v. destruct (statement_completes (CBlock l) st v) as [ts [rs [Hrs E]]]; [discriminate|].
    exists (ts ++ [(ARBrace, 0)]). rewrite run_app, E. cbn [ends].
    destruct (l ++ rs) as [|x y] eqn:El; [apply app_eq_nil in El; destruct El; contradiction|].
    eexists _, _. split; reflexivity. }
  intros [[c st] v]. destruct c as [| |l].
  - destruct (statement_completes CFile st v) as [ts [rs [_ E]]]; [discriminate|].
    exists ts, (ends CFile v rs). eexists. split; [exact E|reflexivity].
  - destruct (Hblock [] QStart v) as [ts [p' [r [E F]]]]. exists ((ALBrace, 0) :: ts), p', r. split; [exact E|exact F].
  - apply Hblock.
Qed.

(** * Files *)

Definition erase_rule (r : xrule) : adv_rule := (xr_lhs r, map xf_frag (xr_rhs r), xr_action r).
Definition erase_alt (a : list xfragment * option string) : adv_alternative := (map xf_frag (fst a), snd a).

Lemma joined_snoc : forall sep l a, l <> [] -> joined sep (l ++ [a]) = joined sep l ++ sep :: a.
Proof.
  intros sep l a Hl. induction l as [|x l IH]; [contradiction Hl; reflexivity|].
  destruct l as [|y l]; [reflexivity|].
  change (x ++ sep :: joined sep ((y :: l) ++ [a]) = (x ++ sep :: joined sep (y :: l)) ++ sep :: a).
  rewrite IH by discriminate. rewrite <- app_assoc. reflexivity.
Qed.

Lemma frag_tokens_shape : forall ts f, frag_shape ts f -> map fst ts = frag_tokens (xf_frag f).
Proof. intros ts f H. destruct H; reflexivity. Qed.

Lemma map_nonempty : forall (A B : Type) (f : A -> B) l, l <> [] -> map f l <> [].
Proof. intros A B f [|x l] H; [contradiction H; reflexivity|discriminate]. Qed.

Lemma alt_tokens_shape : forall ts fs, alt_shape ts fs ->
  map fst ts = joined ATilde (map frag_tokens (map xf_frag fs)) /\ fs <> [].
Proof.
  intros ts fs H. induction H as [ts f Hf|ts fs i ts' f H [IH Hn] Hf].
  - split; [exact (frag_tokens_shape ts f Hf)|discriminate].
  - split; [|apply app_last_nonempty]. rewrite !map_app. cbn [map fst]. rewrite joined_snoc by (do 2 apply map_nonempty; exact Hn).
    rewrite IH, (frag_tokens_shape ts' f Hf). reflexivity.
Qed.

Lemma alt2_tokens_shape : forall ts a, alt2_shape ts a -> map fst ts = alt_tokens (erase_alt a) /\ fst (erase_alt a) <> [].
Proof.
  intros ts a H. destruct H as [ts fs H|ts fs i a j H]; destruct (alt_tokens_shape ts fs H) as [E Hn];
    (split; [|apply map_nonempty; exact Hn]); unfold alt_tokens, erase_alt; cbn [fst snd action_tokens].
  - rewrite app_nil_r. exact E.
  - rewrite map_app, E. reflexivity.
Qed.

Lemma rhs_tokens_shape : forall ts l, rhs_shape ts l ->
  map fst ts = joined APipe (map alt_tokens (map erase_alt l)) /\ l <> [] /\ Forall (fun a => fst a <> []) (map erase_alt l).
Proof.
  intros ts l H. induction H as [ts a Ha|ts l i ts' a H [IH [Hn Hf]] Ha]; destruct (alt2_tokens_shape _ a Ha) as [E Hne].
  - split; [exact E|]. split; [discriminate|]. constructor; [exact Hne|constructor].
  - split; [|split; [apply app_last_nonempty|]].
    + rewrite !map_app. cbn [map fst]. rewrite joined_snoc by (do 2 apply map_nonempty; exact Hn). rewrite IH, E. reflexivity.
    + rewrite map_app. apply Forall_app. split; [exact Hf|]. constructor; [exact Hne|constructor].
Qed.

(** A statement with its tokens and rules *)
Definition is_statement (ts : list ntok) (rs : list xrule) (s : adv_statement) : Prop :=
  ok_adv_statement s /\ map fst ts = adv_statement_tokens s /\ map erase_rule rs = adv_statement_rules s.

Lemma rule_tokens_shape : forall ts rs, rule_shape ts rs -> exists s, is_statement ts rs s.
Proof.
  intros ts rs H. destruct H as [l i j k|l i j k a m n|l i j ts alts k H].
  - exists (SEmpty l None). repeat split.
  - exists (SEmpty l (Some a)). repeat split.
  - destruct (rhs_tokens_shape ts alts H) as [E [Hn Hf]]. exists (SAlts l (map erase_alt alts)). split; [|split].
    + split; [apply map_nonempty; exact Hn|exact Hf].
    + cbn [map fst adv_statement_tokens]. rewrite map_app, E. reflexivity.
    + cbn [adv_statement_rules]. unfold to_rules. rewrite !map_map. reflexivity.
Qed.

Lemma rules_tokens_shape : forall ts rs, rules_shape ts rs -> exists l, l <> [] /\ Forall ok_adv_statement l /\
  map fst ts = flat_map adv_statement_tokens l /\ map erase_rule rs = flat_map adv_statement_rules l.
Proof.
  intros ts rs H. induction H as [ts rs H|ts rs ts' rs' H [l [Hn [Hok [E1 E2]]]] H'].
  - destruct (rule_tokens_shape ts rs H) as [s [Hok [E1 E2]]]. exists [s]. split; [discriminate|].
    split; [constructor; [exact Hok|constructor]|]. cbn [flat_map]. rewrite !app_nil_r. split; assumption.
  - destruct (rule_tokens_shape ts' rs' H') as [s [Hok' [E1' E2']]]. exists (l ++ [s]). split; [apply app_last_nonempty|].
    split; [apply Forall_app; split; [exact Hok|constructor; [exact Hok'|constructor]]|].
    rewrite !flat_map_app, !map_app. cbn [flat_map]. rewrite !app_nil_r, E1, E2, E1', E2'. split; reflexivity.
Qed.

(** The value of a declaration *)
Definition decl_value (d : declaration) (v : adv_value) : Prop :=
  match d, v with
  | DStatement s, XVRules rs => map erase_rule rs = adv_statement_rules s
  | DLexer l, XVLex rs => map erase_rule rs = flat_map adv_statement_rules l
  | _, _ => False
  end.

Lemma decl_tokens_shape : forall ts v, decl_shape ts v -> exists d, ok_declaration d /\
  map fst ts = declaration_tokens d /\ decl_value d v.
Proof.
  intros ts v H. destruct H as [ts l H|i j ts l k H].
  - destruct (rule_tokens_shape ts l H) as [s [Hok [E1 E2]]]. exists (DStatement s). repeat split; assumption.
  - destruct (rules_tokens_shape ts l H) as [l' [Hn [Hok [E1 E2]]]]. exists (DLexer l'). split; [split; assumption|].
    split; [|exact E2]. cbn [map fst declaration_tokens]. rewrite map_app, E1. reflexivity.
Qed.

(** The value of a file *)
Definition file_value (f : list declaration) (r : res adv_value) : Prop :=
  match r with
  | Ok (XVStart rs lex) => one_lexer f /\ map erase_rule rs = parser_rules f /\
      match lex with
      | Some l => map erase_rule l = lexer_rules f /\ length (filter is_block f) = 1
      | None => lexer_rules f = [] /\ length (filter is_block f) = 0
      end
  | Panic => ~ one_lexer f
  | _ => False
  end.

Lemma one_lexer_snoc_statement : forall f s, f <> [] -> one_lexer (f ++ [DStatement s]) <-> one_lexer f.
Proof.
  intros [|d f] s Hn; [contradiction Hn; reflexivity|]. destruct d as [s0|l]; [|reflexivity]. cbn [app one_lexer].
  rewrite filter_app, app_length. cbn. lia.
Qed.

Lemma first_value : forall d v, decl_value d v -> file_value [d] (adv_product 3 [v]).
Proof.
  intros [s|l] v H; destruct v; try contradiction; cbn in H; cbn.
  - split; [lia|]. rewrite app_nil_r. split; [exact H|]. split; reflexivity.
  - intros C. exact C.
Qed.

Lemma next_value : forall f r d v, f <> [] -> file_value f r -> decl_value d v ->
  file_value (f ++ [d]) (do x <- r; adv_product 2 [x; v]).
Proof.
  intros f r d v Hn Hr Hd. destruct r as [x| |]; [| |contradiction].
  - destruct x; try contradiction. destruct Hr as [H1 [H2 H3]].
    destruct d as [s|dl]; destruct v; try contradiction; cbn in Hd.
    + replace (do x <- _; _) with (Ok (XVStart (l ++ l0) lex)) by (destruct lex; reflexivity). cbn [file_value].
      split; [apply one_lexer_snoc_statement; assumption|].
      split; [unfold parser_rules in *; rewrite map_app, flat_map_app, H2; cbn [flat_map]; rewrite app_nil_r, Hd; reflexivity|].
      unfold lexer_rules in *. rewrite flat_map_app, filter_app, app_length. cbn [flat_map filter is_block length]. rewrite !app_nil_r.
      rewrite Nat.add_0_r. exact H3.
    + destruct lex as [lx|].
      * change (file_value (f ++ [DLexer dl]) Panic). cbn [file_value]. intros C. destruct f as [|[s|l1] f]; [exact C| |exact C].
        cbn [app one_lexer] in C. rewrite filter_app, app_length in C. cbn in C. destruct H3 as [_ H3]. cbn in H3. lia.
      * change (file_value (f ++ [DLexer dl]) (Ok (XVStart l (Some l0)))). cbn [file_value]. destruct H3 as [H3 H4].
        split.
        { destruct f as [|[s|l1] f]; [contradiction Hn; reflexivity| |contradiction H1].
          cbn [app one_lexer]. rewrite filter_app, app_length. cbn in H4 |- *. lia. }
        unfold parser_rules, lexer_rules in *. rewrite !flat_map_app, filter_app, app_length, H3, H4. cbn [flat_map].
        rewrite !app_nil_r. split; [exact H2|]. split; [exact Hd|reflexivity].
  - cbn [bind file_value] in *. intros C. apply Hr. destruct f as [|[s|l1] f]; [contradiction Hn; reflexivity| |exact C].
    cbn [app one_lexer] in *. rewrite filter_app, app_length in C. lia.
Qed.

Theorem start_tokens_shape : forall ts r, start_shape ts r -> exists f, adv_file f /\ map fst ts = adv_file_tokens f /\ file_value f r.
Proof.
  intros ts r H. induction H as [ts v H|ts r ts' v H [f [[Hn Hok] [E1 E2]]] H'].
  - destruct (decl_tokens_shape ts v H) as [d [Hok [E1 E2]]]. exists [d]. split; [split; [discriminate|constructor; [exact Hok|constructor]]|].
    split; [cbn; rewrite app_nil_r; exact E1|]. apply first_value. exact E2.
  - destruct (decl_tokens_shape ts' v H') as [d [Hok' [E1' E2']]]. exists (f ++ [d]).
    split; [split; [apply app_last_nonempty|apply Forall_app; split; [exact Hok|constructor; [exact Hok'|constructor]]]|].
    split; [unfold adv_file_tokens in *; rewrite map_app, flat_map_app, E1, E1'; cbn [flat_map]; rewrite app_nil_r; reflexivity|].
    apply next_value; assumption.
Qed.

(** The other direction: the tokens of a file have a value. *)
Lemma map_fst_app : forall (ts : list ntok) a b, map fst ts = a ++ b -> exists ts1 ts2, ts = ts1 ++ ts2 /\ map fst ts1 = a /\ map fst ts2 = b.
Proof.
  intros ts a. revert ts. induction a as [|x a IH]; intros ts b E.
  - exists [], ts. repeat split. exact E.
  - destruct ts as [|[t i] ts]; [discriminate E|]. cbn in E. injection E as -> E.
    destruct (IH ts b E) as [ts1 [ts2 [-> [E1 E2]]]]. exists ((x, i) :: ts1), ts2. split; [reflexivity|].
    split; [cbn; rewrite E1; reflexivity|exact E2].
Qed.
Lemma map_fst_cons : forall (ts : list ntok) t b, map fst ts = t :: b -> exists i ts', ts = (t, i) :: ts' /\ map fst ts' = b.
Proof.
  intros [|[t' i] ts] t b E; [discriminate E|]. cbn in E. injection E as -> E. exists i, ts. split; [reflexivity|exact E].
Qed.
Lemma map_fst_nil : forall ts : list ntok, map fst ts = [] -> ts = [].
Proof. intros [|x ts] E; [reflexivity|discriminate E]. Qed.

Ltac tok E i := let ts' := fresh "ts" in let E' := fresh "E" in
  apply map_fst_cons in E; destruct E as [i [ts' [-> E']]]; rename E' into E.
Ltac notok E := apply map_fst_nil in E; match type of E with ?x = _ => subst x end.

Lemma tokens_frag : forall f ts, map fst ts = frag_tokens f -> exists x, frag_shape ts x /\ xf_frag x = f.
Proof.
  intros f ts E. destruct f as [x k|s|x s]; [destruct k| |]; cbn in E.
  - tok E i. notok E. eexists. split; [apply fs_once|reflexivity].
  - tok E i. tok E j. notok E. eexists. split; [apply fs_mul|reflexivity].
  - tok E i. tok E j. notok E. eexists. split; [apply fs_plus|reflexivity].
  - tok E i. notok E. eexists. split; [apply fs_string|reflexivity].
  - tok E i. tok E j. tok E k. tok E m. notok E. eexists. split; [apply fs_call|reflexivity].
Qed.

Lemma tokens_alt : forall fs ts, fs <> [] -> map fst ts = joined ATilde (map frag_tokens fs) ->
  exists xs, alt_shape ts xs /\ map xf_frag xs = fs.
Proof.
  intros fs. induction fs as [|f fs IH] using rev_ind; intros ts Hn E; [contradiction Hn; reflexivity|].
  destruct fs as [|f0 fs].
  - destruct (tokens_frag f ts E) as [x [Hx Ex]]. exists [x]. split; [constructor; exact Hx|cbn; rewrite Ex; reflexivity].
  - rewrite map_app in E. cbn [map] in E. rewrite joined_snoc in E by discriminate.
    apply map_fst_app in E. destruct E as [ts1 [ts2 [-> [E1 E2]]]]. tok E2 i.
    destruct (IH ts1) as [xs [Hxs Exs]]; [discriminate|exact E1|].
    destruct (tokens_frag f _ E2) as [x [Hx Ex]]. exists (xs ++ [x]). split; [apply as_more; assumption|].
    rewrite map_app, Exs. cbn. rewrite Ex. reflexivity.
Qed.

Lemma tokens_alt2 : forall a ts, fst a <> [] -> map fst ts = alt_tokens a -> exists x, alt2_shape ts x /\ erase_alt x = a.
Proof.
  intros [fs a] ts Hn E. unfold alt_tokens in E. cbn [fst snd] in *. apply map_fst_app in E. destruct E as [ts1 [ts2 [-> [E1 E2]]]].
  destruct (tokens_alt fs ts1 Hn E1) as [xs [Hxs Exs]]. destruct a as [a|]; cbn in E2.
  - tok E2 i. tok E2 j. notok E2. exists (xs, Some a). split; [apply a2_action; exact Hxs|unfold erase_alt; cbn; rewrite Exs; reflexivity].
  - notok E2. rewrite app_nil_r. exists (xs, None). split; [constructor; exact Hxs|unfold erase_alt; cbn; rewrite Exs; reflexivity].
Qed.

Lemma tokens_rhs : forall alts ts, alts <> [] -> Forall (fun a => fst a <> []) alts ->
  map fst ts = joined APipe (map alt_tokens alts) -> exists xs, rhs_shape ts xs /\ map erase_alt xs = alts.
Proof.
  intros alts. induction alts as [|a alts IH] using rev_ind; intros ts Hn Hf E; [contradiction Hn; reflexivity|].
  apply Forall_app in Hf. destruct Hf as [Hf1 Hf2]. inversion Hf2 as [|? ? Ha _]; subst. destruct alts as [|a0 alts].
  - destruct (tokens_alt2 a ts Ha E) as [x [Hx Ex]]. exists [x]. split; [constructor; exact Hx|cbn; rewrite Ex; reflexivity].
  - rewrite map_app in E. cbn [map] in E. rewrite joined_snoc in E by discriminate.
    apply map_fst_app in E. destruct E as [ts1 [ts2 [-> [E1 E2]]]]. tok E2 i.
    destruct (IH ts1) as [xs [Hxs Exs]]; [discriminate|exact Hf1|exact E1|].
    destruct (tokens_alt2 a _ Ha E2) as [x [Hx Ex]]. exists (xs ++ [x]). split; [apply rs_more; assumption|].
    rewrite map_app, Exs. cbn. rewrite Ex. reflexivity.
Qed.

Lemma tokens_rule : forall s ts, ok_adv_statement s -> map fst ts = adv_statement_tokens s -> exists rs,
  rule_shape ts rs /\ map erase_rule rs = adv_statement_rules s.
Proof.
  intros [l a|l alts] ts Hok E; cbn [adv_statement_tokens] in E; tok E i; tok E j; apply map_fst_app in E;
    destruct E as [ts1 [ts2 [-> [E1 E2]]]]; tok E2 k; notok E2.
  - destruct a as [a|]; cbn in E1.
    + tok E1 m. tok E1 n. notok E1. eexists. split; [apply ru_action|reflexivity].
    + notok E1. eexists. split; [apply ru_empty|reflexivity].
  - destruct Hok as [Hn Hf]. destruct (tokens_rhs alts ts1 Hn Hf E1) as [xs [Hxs Exs]]. eexists. split; [apply ru_rhs; exact Hxs|].
    cbn [adv_statement_rules]. rewrite <- Exs. unfold to_rules. rewrite !map_map. reflexivity.
Qed.

Lemma tokens_rules : forall l ts, l <> [] -> Forall ok_adv_statement l -> map fst ts = flat_map adv_statement_tokens l ->
  exists rs, rules_shape ts rs /\ map erase_rule rs = flat_map adv_statement_rules l.
Proof.
  intros l. induction l as [|s l IH] using rev_ind; intros ts Hn Hok E; [contradiction Hn; reflexivity|].
  apply Forall_app in Hok. destruct Hok as [Hok1 Hok2]. inversion Hok2 as [|? ? Hs _]; subst.
  rewrite flat_map_app in E. cbn [flat_map] in E. rewrite app_nil_r in E.
  apply map_fst_app in E. destruct E as [ts1 [ts2 [-> [E1 E2]]]]. destruct (tokens_rule s ts2 Hs E2) as [rs2 [H2 R2]].
  destruct l as [|s0 l].
  - notok E1. eexists. split; [apply rl_one; exact H2|]. cbn. rewrite app_nil_r. exact R2.
  - destruct (IH ts1) as [rs1 [H1 R1]]; [discriminate|exact Hok1|exact E1|]. eexists. split; [apply rl_more; eassumption|].
    rewrite map_app, flat_map_app, R1, R2. cbn [flat_map]. rewrite app_nil_r. reflexivity.
Qed.

Lemma tokens_decl : forall d ts, ok_declaration d -> map fst ts = declaration_tokens d -> exists v, decl_shape ts v /\ decl_value d v.
Proof.
  intros [s|l] ts Hok E.
  - destruct (tokens_rule s ts Hok E) as [rs [H R]]. eexists. split; [constructor; exact H|exact R].
  - cbn [declaration_tokens] in E. tok E i. tok E j. apply map_fst_app in E. destruct E as [ts1 [ts2 [-> [E1 E2]]]]. tok E2 k. notok E2.
    destruct Hok as [Hn Hok]. destruct (tokens_rules l ts1 Hn Hok E1) as [rs [H R]]. eexists. split; [constructor; exact H|exact R].
Qed.

Theorem tokens_start : forall f ts, adv_file f -> map fst ts = adv_file_tokens f -> exists r, start_shape ts r /\ file_value f r.
Proof.
  intros f. induction f as [|d f IH] using rev_ind; intros ts [Hn Hok] E; [contradiction Hn; reflexivity|].
  apply Forall_app in Hok. destruct Hok as [Hok1 Hok2]. inversion Hok2 as [|? ? Hd _]; subst.
  unfold adv_file_tokens in E. rewrite flat_map_app in E. cbn [flat_map] in E. rewrite app_nil_r in E.
  apply map_fst_app in E. destruct E as [ts1 [ts2 [-> [E1 E2]]]]. destruct (tokens_decl d ts2 Hd E2) as [v2 [H2 V2]].
  destruct f as [|d0 f].
  - notok E1. eexists. split; [apply ss_one; exact H2|]. apply first_value. exact V2.
  - destruct (IH ts1) as [r1 [H1 V1]]; [split; [discriminate|exact Hok1]|exact E1|]. eexists. split; [apply ss_more; eassumption|].
    apply next_value; [discriminate|exact V1|exact V2].
Qed.

(** The rules of statements in the shapes above determine those of the file. *)
Theorem values_agree : forall ts r r', start_shape ts r -> start_shape ts r' -> r = r'.
Proof.
  intros ts r r' H H'. pose proof (run_start ts r H) as E. rewrite (run_start ts r' H') in E. injection E as ->. reflexivity.
Qed.

(** * The loop *)

Definition number (n : nat) (ts : list adv_token) : list ntok := combine ts (seq n (length ts)).

Lemma number_cons : forall n t ts, number n (t :: ts) = (t, n) :: number (n + 1) ts.
Proof. intros n t ts. unfold number. cbn [length seq combine]. rewrite Nat.add_1_r. reflexivity. Qed.

Lemma number_fst : forall ts n, map fst (number n ts) = ts.
Proof.
  intros ts. induction ts as [|t ts IH]; intros n; [reflexivity|]. rewrite number_cons. cbn [map fst]. rewrite IH. reflexivity.
Qed.

Lemma number_app : forall ts ts' n, number n (ts ++ ts') = number n ts ++ number (n + length ts) ts'.
Proof.
  intros ts. induction ts as [|t ts IH]; intros ts' n.
  - cbn. rewrite Nat.add_0_r. reflexivity.
  - cbn [app]. rewrite !number_cons, IH. cbn [length app]. replace (n + S (length ts)) with (n + 1 + length ts) by lia. reflexivity.
Qed.

Lemma parse_loop_run : forall ts p n,
  match adv_parse_loop p n ts with
  | inl p' => run p (number n ts) = Some p'
  | inr k => exists pre x post p', ts = pre ++ x :: post /\ k = n + length pre /\ run p (number n pre) = Some p' /\
      adv_step p' x k = None
  end.
Proof.
  intros ts. induction ts as [|t ts IH]; intros p n.
  - reflexivity.
  - cbn [adv_parse_loop]. rewrite number_cons. cbn [run]. destruct (adv_step p t n) as [p1|] eqn:E.
    + specialize (IH p1 (n + 1)). destruct (adv_parse_loop p1 (n + 1) ts) as [p'|k]; [exact IH|].
      destruct IH as [pre [x [post [p' [-> [-> [E1 E2]]]]]]]. exists (t :: pre), x, post, p'. split; [reflexivity|].
      split; [cbn; lia|]. split; [|exact E2]. rewrite number_cons. cbn [run]. rewrite E. exact E1.
    + exists [], t, ts, p. split; [reflexivity|]. split; [cbn; lia|]. split; [reflexivity|exact E].
Qed.

Definition parser_new : adv_parser := (CFile, QStart, None).

(** Tokens that were read begin a file. *)
Lemma run_viable : forall ts p, run parser_new (number 0 ts) = Some p -> viable ts.
Proof.
  intros ts p E. destruct (completes p) as [ts' [p' [r [E' F]]]].
  assert (H : start_shape (number 0 ts ++ ts') r).
  { apply (run_sound _ p'); [|exact F]. rewrite run_app. unfold parser_new in E. rewrite E. exact E'. }
  destruct (start_tokens_shape _ _ H) as [f [Hf [Ef _]]]. exists f, (map fst ts'). split; [exact Hf|].
  rewrite <- Ef, map_app, number_fst. reflexivity.
Qed.

Lemma viable_run : forall ts, viable ts -> exists p, run parser_new (number 0 ts) = Some p.
Proof.
  intros ts [f [rest [Hf E]]]. destruct (tokens_start f (number 0 (ts ++ rest)) Hf) as [r [Hr _]].
  { rewrite number_fst. symmetry. exact E. }
  pose proof (run_start _ _ Hr) as Er. rewrite number_app, run_app in Er. fold parser_new in Er.
  destruct (run parser_new (number 0 ts)) as [p|]; [exists p; reflexivity|discriminate].
Qed.

(** What the loop gives. *)
Theorem parse_loop_ok : forall ts,
  match adv_parse_loop parser_new 0 ts with
  | inl p => viable ts /\
      match finished p with
      | None => ~ exists f, adv_file f /\ adv_file_tokens f = ts
      | Some r => (exists f, adv_file f /\ adv_file_tokens f = ts) /\ (forall f, adv_file f -> adv_file_tokens f = ts -> file_value f r) /\
          forall v, adv_evaluates ZStart (number 0 ts) v <-> v = r
      end
  | inr k => exists pre x post, ts = pre ++ x :: post /\ k = length pre /\ viable pre /\ ~ viable (pre ++ [x])
  end.
Proof.
  intros ts. pose proof (parse_loop_run ts parser_new 0) as H. destruct (adv_parse_loop parser_new 0 ts) as [p|k].
  - split; [exact (run_viable ts p H)|]. destruct (finished p) as [r|] eqn:F.
    + pose proof (run_sound _ p r H F) as Hs. split; [|split].
      * destruct (start_tokens_shape _ _ Hs) as [f [Hf [Ef _]]]. exists f. rewrite number_fst in Ef. split; [exact Hf|symmetry; exact Ef].
      * intros f Hf Ef. destruct (tokens_start f (number 0 ts) Hf) as [r' [Hr' V]]; [rewrite number_fst; symmetry; exact Ef|].
        rewrite (values_agree _ _ _ Hs Hr'). exact V.
      * intros v. rewrite start_iff. split; [intros Hv; exact (values_agree _ _ _ Hv Hs)|intros ->; exact Hs].
    + intros [f [Hf Ef]]. destruct (tokens_start f (number 0 ts) Hf) as [r' [Hr' _]]; [rewrite number_fst; symmetry; exact Ef|].
      pose proof (run_start _ _ Hr') as Er. fold parser_new in Er. rewrite H in Er. injection Er as ->. discriminate F.
  - destruct H as [pre [x [post [p' [-> [-> [E1 E2]]]]]]]. exists pre, x, post. split; [reflexivity|]. split; [reflexivity|].
    split; [exact (run_viable pre p' E1)|]. intros Hv. destruct (viable_run _ Hv) as [q Eq].
    rewrite number_app, run_app, E1 in Eq. cbn in Eq. cbn in E2. rewrite E2 in Eq. discriminate.
Qed.
