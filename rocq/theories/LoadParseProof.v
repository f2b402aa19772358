(** Proofs about the BNF parser and the string interner. *)

From Coq Require Import List Arith Ascii Bool String Lia.
From Verif Require Import Base SpecLoad LoadModel.
Import ListNotations.
Local Open Scope list_scope.

Definition ok_statement (s : statement) : Prop := Forall (fun a => a <> []) (snd s).

Lemma fragments_app : forall a b, fragments (a ++ b) = fragments a ++ fragments b.
Proof. intros. unfold fragments. apply flat_map_app. Qed.
Lemma alternative_app : forall a b, alternative_tokens (a ++ b) = alternative_tokens a ++ alternative_tokens b.
Proof. intros. unfold alternative_tokens. apply flat_map_app. Qed.

Lemma alternatives_cons : forall a l, l <> [] -> alternatives_tokens (a :: l) = alternative_tokens a ++ BPipe :: alternatives_tokens l.
Proof. intros a [|b l] H; [congruence | reflexivity]. Qed.

(** Alternatives that are followed by a pipe. *)
Definition piped (l : list (list (option fragment))) : list bnf_token :=
  flat_map (fun a => alternative_tokens a ++ [BPipe]) l.

Lemma alternatives_last : forall l a, alternatives_tokens (l ++ [a]) = piped l ++ alternative_tokens a.
Proof.
  induction l as [|b l IH]; intros a; [reflexivity|]. simpl app. rewrite alternatives_cons by (destruct l; discriminate).
  rewrite IH. unfold piped. simpl. rewrite <- !app_assoc. reflexivity.
Qed.

Lemma statement_rules_alts : forall l alts, alts <> [] ->
  statement_rules (l, alts) = map (fun r => (l, r)) (map fragments alts).
Proof. intros l [|a alts] H; [congruence|]. unfold statement_rules. simpl. rewrite map_map. reflexivity. Qed.

Lemma file_tokens_app : forall a b, file_tokens (a ++ b) = file_tokens a ++ file_tokens b.
Proof. intros. unfold file_tokens. apply flat_map_app. Qed.
Lemma file_rules_app : forall a b, file_rules (a ++ b) = file_rules a ++ file_rules b.
Proof. intros. unfold file_rules. apply flat_map_app. Qed.

(** * The parse trees *)

Definition denotes (Y : bnf_symbol) (ts : list bnf_token) (v : bnf_value) : Prop :=
  match Y with
  | YStart => exists f, valid_file f /\ ts = file_tokens f /\ v = VRules (file_rules f)
  | YRule => exists s, ok_statement s /\ ts = statement_tokens s /\ v = VRules (statement_rules s)
  | YRhs => exists l, l <> [] /\ Forall (fun a => a <> []) l /\ ts = alternatives_tokens l /\ v = VRhs (map fragments l)
  | YAlt => exists a, a <> [] /\ ts = alternative_tokens a /\ v = VAlt (fragments a)
  | YFragment => exists f, ts = fragment_tokens f /\ v = VFragment f
  | _ => exists t, token_symbol t = Y /\ ts = [t] /\ v = eval_leaf t
  end.

Inductive denote_all : list bnf_symbol -> list bnf_token -> list bnf_value -> Prop :=
| dn_nil : denote_all [] [] []
| dn_cons : forall A r ts1 ts2 v args, denotes A ts1 v -> denote_all r ts2 args ->
    denote_all (A :: r) (ts1 ++ ts2) (v :: args).

Scheme evaluates_mut := Minimality for evaluates Sort Prop
with evaluate_all_mut := Minimality for evaluate_all Sort Prop.

Lemma leaf_denotes : forall t, denotes (token_symbol t) [t] (eval_leaf t).
Proof. intros t. destruct t; simpl; eexists; (split; [|split]); try reflexivity; reflexivity. Qed.

Ltac open_denotes :=
  repeat match goal with
  | H : denote_all (_ :: _) _ _ |- _ => inversion H; clear H; subst
  | H : denote_all [] _ _ |- _ => inversion H; clear H; subst
  end;
  repeat match goal with
  | H : denotes YIdent _ _ |- _ => destruct H as [[] [? [? ?]]]; try discriminate; subst
  | H : denotes YBnfOp _ _ |- _ => destruct H as [[] [? [? ?]]]; try discriminate; subst
  | H : denotes YPipe _ _ |- _ => destruct H as [[] [? [? ?]]]; try discriminate; subst
  | H : denotes YOpMul _ _ |- _ => destruct H as [[] [? [? ?]]]; try discriminate; subst
  | H : denotes YOpPlus _ _ |- _ => destruct H as [[] [? [? ?]]]; try discriminate; subst
  | H : denotes YSemicolon _ _ |- _ => destruct H as [[] [? [? ?]]]; try discriminate; subst
  | H : denotes YLParen _ _ |- _ => destruct H as [[] [? [? ?]]]; try discriminate; subst
  | H : denotes YRParen _ _ |- _ => destruct H as [[] [? [? ?]]]; try discriminate; subst
  | H : denotes YStart _ _ |- _ => destruct H as [? [? [? ?]]]; subst
  | H : denotes YRule _ _ |- _ => destruct H as [? [? [? ?]]]; subst
  | H : denotes YRhs _ _ |- _ => destruct H as [? [? [? [? ?]]]]; subst
  | H : denotes YAlt _ _ |- _ => destruct H as [? [? [? ?]]]; subst
  | H : denotes YFragment _ _ |- _ => destruct H as [? [? ?]]; subst
  end.

Lemma rule_denotes : forall action A r ts args v, In (action, A, r) bnf_grammar ->
  denote_all r ts args -> eval_product action args = Ok v -> denotes A ts v.
Proof.
  intros action A r ts args v HIn HD HE. unfold bnf_grammar in HIn. cbn [In] in HIn.
  repeat (destruct HIn as [HIn|HIn]; [injection HIn as <- <- <-; open_denotes; cbn in HE; injection HE as <- |]); [..|contradiction].
  - destruct H as [F1 F2]. exists (x ++ [x0]). rewrite file_tokens_app, file_rules_app. simpl. rewrite !app_nil_r.
    split; [split; [destruct x; discriminate|]|auto]. apply Forall_app. split; auto.
  - exists [x]. split; [split; [discriminate | auto]|]. simpl. rewrite !app_nil_r. auto.
  - exists (name, []). split; [constructor|]. auto.
  - exists (name, x). split; auto. split; [reflexivity|]. rewrite statement_rules_alts; auto.
  - exists (x ++ [x0]). split; [destruct x; discriminate|]. split; [apply Forall_app; auto|].
    split; [|rewrite map_app; auto]. rewrite app_nil_r. match goal with HN : x <> [] |- _ => clear - HN end. induction x as [|a l IH]; [congruence|].
    destruct l as [|b l]; [reflexivity|]. simpl app. rewrite !alternatives_cons by discriminate.
    rewrite <- app_assoc. simpl. f_equal. f_equal. apply IH. discriminate.
  - exists [x]. split; [discriminate|]. split; auto. simpl. rewrite app_nil_r. auto.
  - exists (x ++ [x0]). split; [destruct x; discriminate|]. rewrite alternative_app, fragments_app.
    unfold alternative_tokens at 2. simpl. rewrite !app_nil_r. auto.
  - exists [x]. split; [discriminate|]. unfold alternative_tokens. simpl. rewrite !app_nil_r. auto.
  - exists (Some (name, OneOrMore)). auto.
  - exists (Some (name, ZeroOrMore)). auto.
  - exists (Some (name, Once)). auto.
  - exists None. auto.
Qed.

Lemma evaluates_denotes : forall Y ts v, evaluates Y ts v -> denotes Y ts v.
Proof.
  apply (evaluates_mut denotes denote_all).
  - apply leaf_denotes.
  - intros. eapply rule_denotes; eauto.
  - constructor.
  - intros. constructor; auto.
Qed.

(** Conversely. *)
Lemma all_1 : forall A t v, evaluates A t v -> evaluate_all [A] t [v].
Proof. intros. rewrite <- (app_nil_r t). constructor; auto. constructor. Qed.
Lemma all_2 : forall A B t t' v v', evaluates A t v -> evaluates B t' v' -> evaluate_all [A; B] (t ++ t') [v; v'].
Proof. intros. constructor; auto. apply all_1. auto. Qed.
Lemma all_3 : forall A B C t t' t'' v v' v'', evaluates A t v -> evaluates B t' v' -> evaluates C t'' v'' ->
  evaluate_all [A; B; C] (t ++ t' ++ t'') [v; v'; v''].
Proof. intros. constructor; auto. apply all_2; auto. Qed.

Lemma in_1 : forall (A : Type) (a : A) l, nth_error l 0 = Some a -> In a l.
Proof. intros. eapply nth_error_In; eauto. Qed.

Lemma fragment_evaluates : forall f, evaluates YFragment (fragment_tokens f) (VFragment f).
Proof.
  intros [[x []]|].
  - apply (ev_rule 12 YFragment [YIdent] _ [VIdent x]); [apply (nth_error_In _ 10); reflexivity | | reflexivity].
    apply all_1. apply (ev_leaf (BIdent x)).
  - apply (ev_rule 11 YFragment [YIdent; YOpMul] _ [VIdent x; VNone]); [apply (nth_error_In _ 9); reflexivity | | reflexivity].
    apply (all_2 YIdent YOpMul [BIdent x] [BMul]); [apply (ev_leaf (BIdent x)) | apply (ev_leaf BMul)].
  - apply (ev_rule 10 YFragment [YIdent; YOpPlus] _ [VIdent x; VNone]); [apply (nth_error_In _ 8); reflexivity | | reflexivity].
    apply (all_2 YIdent YOpPlus [BIdent x] [BPlus]); [apply (ev_leaf (BIdent x)) | apply (ev_leaf BPlus)].
  - apply (ev_rule 13 YFragment [YLParen; YRParen] _ [VNone; VNone]); [apply (nth_error_In _ 11); reflexivity | | reflexivity].
    apply (all_2 YLParen YRParen [BLParen] [BRParen]); [apply (ev_leaf BLParen) | apply (ev_leaf BRParen)].
Qed.

Lemma alternative_evaluates : forall a, a <> [] -> evaluates YAlt (alternative_tokens a) (VAlt (fragments a)).
Proof.
  intros a. induction a as [|f a IH] using rev_ind; intros H; [congruence|].
  rewrite alternative_app, fragments_app. destruct a as [|f0 a].
  - apply (ev_rule 9 YAlt [YFragment] _ [VFragment f]); [apply (nth_error_In _ 7); reflexivity | |].
    + apply all_1. unfold alternative_tokens. simpl. rewrite app_nil_r. apply fragment_evaluates.
    + simpl. rewrite app_nil_r. reflexivity.
  - apply (ev_rule 8 YAlt [YAlt; YFragment] _ [VAlt (fragments (f0 :: a)); VFragment f]);
      [apply (nth_error_In _ 6); reflexivity | |].
    + apply all_2; [apply IH; discriminate|]. unfold alternative_tokens. simpl. rewrite app_nil_r. apply fragment_evaluates.
    + cbn [eval_product nth fragments flat_map]. rewrite app_nil_r. reflexivity.
Qed.

Lemma alternatives_evaluate : forall l, l <> [] -> Forall (fun a => a <> []) l ->
  evaluates YRhs (alternatives_tokens l) (VRhs (map fragments l)).
Proof.
  intros l. induction l as [|a l IH] using rev_ind; intros H HF; [congruence|].
  apply Forall_app in HF. destruct HF as [HF1 HF2]. apply Forall_inv in HF2. rewrite map_app.
  destruct l as [|a0 l].
  - apply (ev_rule 7 YRhs [YAlt] _ [VAlt (fragments a)]); [apply (nth_error_In _ 5); reflexivity | | reflexivity].
    apply all_1. apply alternative_evaluates. auto.
  - rewrite alternatives_last.
    assert (E : piped (a0 :: l) = alternatives_tokens (a0 :: l) ++ [BPipe]).
    { clear. revert a0. induction l as [|b l IH]; intros a0; [unfold piped; simpl; rewrite app_nil_r; auto|].
      rewrite alternatives_cons by discriminate. unfold piped in *. cbn [flat_map] in *. rewrite IH.
      rewrite <- !app_assoc. reflexivity. }
    rewrite E, <- app_assoc.
    apply (ev_rule 6 YRhs [YRhs; YPipe; YAlt] _ [VRhs (map fragments (a0 :: l)); VNone; VAlt (fragments a)]);
      [apply (nth_error_In _ 4); reflexivity | | reflexivity].
    apply all_3; [apply IH; auto; discriminate | apply (ev_leaf BPipe) | apply alternative_evaluates; auto].
Qed.

Lemma statement_evaluates : forall s, ok_statement s -> evaluates YRule (statement_tokens s) (VRules (statement_rules s)).
Proof.
  intros [l alts] H. unfold ok_statement in H. simpl in H. destruct alts as [|a alts].
  - apply (ev_rule 4 YRule [YIdent; YBnfOp; YSemicolon] _ [VIdent l; VNone; VNone]);
      [apply (nth_error_In _ 2); reflexivity | | reflexivity].
    apply (all_3 YIdent YBnfOp YSemicolon [BIdent l] [BOp] [BSemicolon]);
      [apply (ev_leaf (BIdent l)) | apply (ev_leaf BOp) | apply (ev_leaf BSemicolon)].
  - rewrite statement_rules_alts by discriminate.
    apply (ev_rule 5 YRule [YIdent; YBnfOp; YRhs; YSemicolon] _ [VIdent l; VNone; VRhs (map fragments (a :: alts)); VNone]);
      [apply (nth_error_In _ 3); reflexivity | | reflexivity].
    apply (ev_cons YIdent _ [BIdent l]); [apply (ev_leaf (BIdent l))|].
    apply (all_3 YBnfOp YRhs YSemicolon [BOp] _ [BSemicolon]);
      [apply (ev_leaf BOp) | apply alternatives_evaluate; auto; discriminate | apply (ev_leaf BSemicolon)].
Qed.

Lemma file_evaluates : forall f, valid_file f -> evaluates YStart (file_tokens f) (VRules (file_rules f)).
Proof.
  intros f. induction f as [|s f IH] using rev_ind; intros [H HF]; [congruence|].
  apply Forall_app in HF. destruct HF as [HF1 HF2]. apply Forall_inv in HF2. rewrite file_tokens_app, file_rules_app.
  simpl. rewrite !app_nil_r. destruct f as [|s0 f].
  - apply (ev_rule 3 YStart [YRule] _ [VRules (statement_rules s)]); [apply (nth_error_In _ 1); reflexivity | | reflexivity].
    apply all_1. apply statement_evaluates. auto.
  - apply (ev_rule 2 YStart [YStart; YRule] _ [VRules (file_rules (s0 :: f)); VRules (statement_rules s)]);
      [apply (nth_error_In _ 0); reflexivity | | reflexivity].
    apply all_2; [apply IH; split; auto; discriminate | apply statement_evaluates; auto].
Qed.

(** * The parser *)

Definition ident_tokens (i : option string) : list bnf_token := match i with Some x => [BIdent x] | None => [] end.

(** The tokens of the current statement that have been read. *)
Definition reading (st : parse_state) (ts : list bnf_token) : Prop :=
  match st with
  | PStart => ts = []
  | PLhs l => ts = [BIdent l]
  | POp l => ts = [BIdent l; BOp]
  | PAlt l alts alt i => exists alts' alt', Forall (fun a => a <> []) alts' /\ map fragments alts' = alts /\ fragments alt' = alt /\
      (alt' <> [] \/ i <> None) /\ ts = BIdent l :: BOp :: piped alts' ++ alternative_tokens alt' ++ ident_tokens i
  | PPipe l alts => exists alts', Forall (fun a => a <> []) alts' /\ map fragments alts' = alts /\
      ts = BIdent l :: BOp :: piped alts'
  | PParen l alts alt => exists alts' alt', Forall (fun a => a <> []) alts' /\ map fragments alts' = alts /\ fragments alt' = alt /\
      ts = BIdent l :: BOp :: piped alts' ++ alternative_tokens alt' ++ [BLParen]
  end.

Definition progress (st : parse_state) (rules : list bnf_rule) (ts : list bnf_token) : Prop :=
  exists f cur, Forall ok_statement f /\ rules = file_rules f /\ reading st cur /\ ts = file_tokens f ++ cur.

Lemma with_ident_ok : forall alt' i, exists b, fragments b = with_ident (fragments alt') i /\
  alternative_tokens b = alternative_tokens alt' ++ ident_tokens i /\ ((alt' <> [] \/ i <> None) -> b <> []).
Proof.
  intros alt' [x|].
  - exists (alt' ++ [Some (x, Once)]). rewrite fragments_app, alternative_app. split; auto. split; auto.
    intros _. destruct alt'; discriminate.
  - exists alt'. simpl. rewrite app_nil_r. split; auto. split; auto. intros [H|H]; [auto | congruence].
Qed.

Lemma piped_app : forall a b, piped (a ++ b) = piped a ++ piped b.
Proof. intros. apply flat_map_app. Qed.

Lemma finish_statement : forall f l alts alts' rules ts, Forall ok_statement f -> rules = file_rules f ->
  Forall (fun a => a <> []) alts' -> alts' <> [] -> map fragments alts' = alts ->
  ts = BIdent l :: BOp :: alternatives_tokens alts' ->
  progress PStart (rules ++ map (fun r => (l, r)) alts) ((file_tokens f ++ ts) ++ [BSemicolon]).
Proof.
  intros f l alts alts' rules ts HF HR HA HN HM HT. exists (f ++ [(l, alts')]), []. split; [apply Forall_app; auto|].
  split; [rewrite file_rules_app; simpl; rewrite app_nil_r, statement_rules_alts by auto; congruence|].
  split; [reflexivity|]. rewrite file_tokens_app. simpl. rewrite !app_nil_r, <- app_assoc. f_equal. subst ts. reflexivity.
Qed.

Lemma step_progress : forall st rules t st' rules' ts, progress st rules ts -> parse_token st rules t = Some (st', rules') ->
  progress st' rules' (ts ++ [t]).
Proof.
  intros st rules t st' rules' ts [f [cur [HF [HR [HC HT]]]]] HP. subst ts.
  assert (HK : forall st1 cur1, reading st1 cur1 -> cur1 = cur ++ [t] -> progress st1 rules ((file_tokens f ++ cur) ++ [t])).
  { intros st1 cur1 H1 E. exists f, cur1. rewrite E in *. rewrite <- app_assoc. auto. }
  destruct st as [|l|l|l alts alt i|l alts|l alts alt]; simpl in HC.
  - subst cur. destruct t; try discriminate. injection HP as <- <-. eapply HK; simpl; auto.
  - subst cur. destruct t; try discriminate. injection HP as <- <-. eapply HK; simpl; auto.
  - subst cur. destruct t; try discriminate.
    + injection HP as <- <-. eapply HK; [|reflexivity]. exists [], []. repeat split; auto. right. discriminate.
    + injection HP as <- <-. exists (f ++ [(l, [])]), []. split; [apply Forall_app; split; auto; constructor; auto; constructor|].
      split; [rewrite file_rules_app; subst rules; reflexivity|]. split; [reflexivity|].
      rewrite file_tokens_app. simpl. rewrite <- app_assoc, app_nil_r. reflexivity.
    + injection HP as <- <-. eapply HK; [|reflexivity]. exists [], []. repeat split; auto.
  - destruct HC as [alts' [alt' [A1 [A2 [A3 [A4 A5]]]]]]. destruct (with_ident_ok alt' i) as [b [B1 [B2 B3]]].
    specialize (B3 A4). rewrite A3 in B1.
    destruct t as [x| | | | | | | ]; try (destruct i; discriminate).
    + assert (HP' : Some (PAlt l alts (with_ident alt i) (Some x), rules) = Some (st', rules')) by (destruct i; exact HP).
      injection HP' as <- <-. eapply HK; [|reflexivity]. exists alts', b. repeat split; auto.
      rewrite A5, B2. simpl. rewrite <- !app_assoc. reflexivity.
    + assert (HP' : Some (PStart, rules ++ map (fun r => (l, r)) (alts ++ [with_ident alt i])) = Some (st', rules'))
        by (destruct i; exact HP). injection HP' as <- <-. clear HP.
      apply finish_statement with (alts' := alts' ++ [b]); auto.
      * apply Forall_app; auto.
      * destruct alts'; discriminate.
      * rewrite map_app, A2, <- B1. reflexivity.
      * rewrite A5, alternatives_last, B2. reflexivity.
    + assert (HP' : Some (PPipe l (alts ++ [with_ident alt i]), rules) = Some (st', rules'))
        by (destruct i; exact HP). injection HP' as <- <-. clear HP.
      eapply HK; [|reflexivity]. exists (alts' ++ [b]). split; [apply Forall_app; auto|].
      split; [rewrite map_app, A2, <- B1; reflexivity|]. rewrite A5, piped_app. unfold piped at 2. simpl. rewrite app_nil_r, B2.
      rewrite <- !app_assoc. reflexivity.
    + destruct i as [x|]; [|discriminate]. simpl in HP. injection HP as <- <-. eapply HK; [|reflexivity].
      exists alts', (alt' ++ [Some (x, OneOrMore)]). split; auto. split; auto. split; [rewrite fragments_app, A3; reflexivity|].
      split; [left; destruct alt'; discriminate|]. rewrite A5, alternative_app. simpl. rewrite <- !app_assoc. reflexivity.
    + destruct i as [x|]; [|discriminate]. simpl in HP. injection HP as <- <-. eapply HK; [|reflexivity].
      exists alts', (alt' ++ [Some (x, ZeroOrMore)]). split; auto. split; auto. split; [rewrite fragments_app, A3; reflexivity|].
      split; [left; destruct alt'; discriminate|]. rewrite A5, alternative_app. simpl. rewrite <- !app_assoc. reflexivity.
    + simpl in HP. assert (HP' : Some (PParen l alts (with_ident alt i), rules) = Some (st', rules')) by (destruct i; exact HP).
      injection HP' as <- <-. eapply HK; [|reflexivity]. exists alts', b. repeat split; auto.
      rewrite A5, B2. simpl. rewrite <- !app_assoc. reflexivity.
  - destruct HC as [alts' [A1 [A2 A3]]]. destruct t; try discriminate; simpl in HP; injection HP as <- <-.
    + eapply HK; [|reflexivity]. exists alts', []. repeat split; auto. right; discriminate. rewrite A3. reflexivity.
    + eapply HK; [|reflexivity]. exists alts', []. repeat split; auto. rewrite A3. reflexivity.
  - destruct HC as [alts' [alt' [A1 [A2 [A3 A4]]]]]. destruct t; try discriminate. simpl in HP. injection HP as <- <-.
    eapply HK; [|reflexivity]. exists alts', (alt' ++ [None]). split; auto. split; auto.
    split; [rewrite fragments_app, A3; simpl; apply app_nil_r|]. split; [left; destruct alt'; discriminate|].
    rewrite A4, alternative_app. simpl. rewrite app_nil_r, <- !app_assoc. reflexivity.
Qed.

Lemma parse_sound : forall ts st rules read rs, progress st rules read -> parse_loop st rules ts = Some rs ->
  exists f, valid_file f /\ read ++ ts = file_tokens f /\ rs = file_rules f.
Proof.
  induction ts as [|t ts IH]; intros st rules read rs HP HL; simpl in HL.
  - destruct st; try discriminate. destruct rules as [|r rules]; try discriminate. injection HL as <-.
    destruct HP as [f [cur [HF [HR [HC HT]]]]]. simpl in HC. subst cur. exists f. rewrite app_nil_r in *.
    split; [split; auto; intros ->; discriminate | auto].
  - destruct (parse_token st rules t) as [[st' rules']|] eqn:E; [|discriminate].
    destruct (IH st' rules' (read ++ [t]) rs (step_progress _ _ _ _ _ _ HP E) HL) as [f [F1 [F2 F3]]].
    exists f. rewrite <- app_assoc in F2. auto.
Qed.

(** Completeness. *)
Lemma parse_alternative : forall a l alts alt i rules rest, exists alt2 i2,
  parse_loop (PAlt l alts alt i) rules (alternative_tokens a ++ rest) = parse_loop (PAlt l alts alt2 i2) rules rest /\
  with_ident alt2 i2 = with_ident alt i ++ fragments a.
Proof.
  induction a as [|f a IH]; intros l alts alt i rules rest.
  - exists alt, i. simpl. rewrite app_nil_r. auto.
  - unfold alternative_tokens, fragments. simpl flat_map. fold (alternative_tokens a). fold (fragments a).
    destruct f as [[x r]|].
    + destruct r; simpl.
      * destruct (IH l alts (with_ident alt i) (Some x) rules rest) as [alt2 [i2 [H1 H2]]]. exists alt2, i2.
        split; [destruct i; exact H1|]. rewrite H2. simpl. rewrite <- app_assoc. reflexivity.
      * destruct (IH l alts (with_ident alt i ++ [(x, ZeroOrMore)]) None rules rest) as [alt2 [i2 [H1 H2]]]. exists alt2, i2.
        split; [destruct i; exact H1|]. rewrite H2. simpl. rewrite <- app_assoc. reflexivity.
      * destruct (IH l alts (with_ident alt i ++ [(x, OneOrMore)]) None rules rest) as [alt2 [i2 [H1 H2]]]. exists alt2, i2.
        split; [destruct i; exact H1|]. rewrite H2. simpl. rewrite <- app_assoc. reflexivity.
    + simpl. destruct (IH l alts (with_ident alt i) None rules rest) as [alt2 [i2 [H1 H2]]]. exists alt2, i2.
      split; [destruct i; exact H1|]. rewrite H2. reflexivity.
Qed.

(** From the start of an alternative. *)
Lemma parse_first : forall st l alts a rules rest, (st = PPipe l alts \/ (st = POp l /\ alts = [])) -> a <> [] ->
  exists alt2 i2, parse_loop st rules (alternative_tokens a ++ rest) = parse_loop (PAlt l alts alt2 i2) rules rest /\
  with_ident alt2 i2 = fragments a.
Proof.
  intros st l alts a rules rest HS HN. destruct a as [|f a]; [congruence|].
  assert (E : parse_loop st rules (alternative_tokens (f :: a) ++ rest) = parse_loop (PAlt l alts [] None) rules (alternative_tokens (f :: a) ++ rest)).
  { destruct f as [[x []]|]; destruct HS as [->|[-> ->]]; reflexivity. }
  rewrite E. destruct (parse_alternative (f :: a) l alts [] None rules rest) as [alt2 [i2 [H1 H2]]].
  exists alt2, i2. split; auto.
Qed.

Lemma parse_alternatives : forall l st lhs alts rules rest, l <> [] -> Forall (fun a => a <> []) l ->
  (st = PPipe lhs alts \/ (st = POp lhs /\ alts = [])) ->
  parse_loop st rules (alternatives_tokens l ++ BSemicolon :: rest) =
  parse_loop PStart (rules ++ map (fun r => (lhs, r)) (alts ++ map fragments l)) rest.
Proof.
  induction l as [|a l IH]; intros st lhs alts rules rest HN HF HS; [congruence|]. inversion HF; subst.
  destruct l as [|b l].
  - cbn [alternatives_tokens]. destruct (parse_first st lhs alts a rules (BSemicolon :: rest) HS H1) as [alt2 [i2 [E1 E2]]].
    rewrite E1. cbn [parse_loop].
    assert (EP : parse_token (PAlt lhs alts alt2 i2) rules BSemicolon = Some (PStart, rules ++ map (fun r => (lhs, r)) (alts ++ [with_ident alt2 i2])))
      by (destruct i2; reflexivity).
    rewrite EP, E2. reflexivity.
  - rewrite alternatives_cons by discriminate. rewrite <- app_assoc.
    change ((BPipe :: alternatives_tokens (b :: l)) ++ BSemicolon :: rest) with
      (BPipe :: alternatives_tokens (b :: l) ++ BSemicolon :: rest).
    destruct (parse_first st lhs alts a rules (BPipe :: alternatives_tokens (b :: l) ++ BSemicolon :: rest) HS H1) as [alt2 [i2 [E1 E2]]].
    rewrite E1. cbn [parse_loop].
    assert (EP : parse_token (PAlt lhs alts alt2 i2) rules BPipe = Some (PPipe lhs (alts ++ [with_ident alt2 i2]), rules))
      by (destruct i2; reflexivity).
    rewrite EP, E2. rewrite (IH (PPipe lhs (alts ++ [fragments a])) lhs (alts ++ [fragments a])); auto; [|discriminate].
    rewrite <- app_assoc. reflexivity.
Qed.

Lemma parse_statement : forall s rules rest, ok_statement s ->
  parse_loop PStart rules (statement_tokens s ++ rest) = parse_loop PStart (rules ++ statement_rules s) rest.
Proof.
  intros [l alts] rules rest H. destruct alts as [|a alts]; [reflexivity|].
  rewrite statement_rules_alts by discriminate. unfold statement_tokens. cbn [fst snd].
  change ((BIdent l :: BOp :: alternatives_tokens (a :: alts) ++ [BSemicolon]) ++ rest) with
    (BIdent l :: BOp :: (alternatives_tokens (a :: alts) ++ [BSemicolon]) ++ rest).
  rewrite <- app_assoc. cbn [parse_loop parse_token].
  change ([BSemicolon] ++ rest) with (BSemicolon :: rest). rewrite (parse_alternatives (a :: alts) (POp l) l []); auto. discriminate.
Qed.

Lemma parse_file : forall f rules, Forall ok_statement f ->
  parse_loop PStart rules (file_tokens f) = parse_loop PStart (rules ++ file_rules f) [].
Proof.
  induction f as [|s f IH]; intros rules H.
  - simpl. rewrite app_nil_r. reflexivity.
  - inversion H; subst.
    change (file_tokens (s :: f)) with (statement_tokens s ++ file_tokens f).
    change (file_rules (s :: f)) with (statement_rules s ++ file_rules f).
    rewrite parse_statement by auto. rewrite IH by auto. rewrite <- app_assoc. reflexivity.
Qed.

Lemma statement_rules_nonempty : forall s, statement_rules s <> [].
Proof. intros [l [|a alts]]; discriminate. Qed.

Lemma parse_complete : forall f, valid_file f -> parse_bnf (file_tokens f) = Some (file_rules f).
Proof.
  intros f [HN HF]. unfold parse_bnf. rewrite parse_file by auto. simpl.
  destruct f as [|s f]; [congruence|]. unfold file_rules. simpl.
  pose proof (statement_rules_nonempty s) as HS. destruct (statement_rules s); [congruence|]. reflexivity.
Qed.

Lemma parse_iff : forall ts rs, parse_bnf ts = Some rs <-> exists f, valid_file f /\ ts = file_tokens f /\ rs = file_rules f.
Proof.
  intros ts rs. split.
  - intros H. apply (parse_sound ts PStart [] [] rs); auto. exists [], []. repeat split; auto.
  - intros [f [F1 [-> ->]]]. apply parse_complete. auto.
Qed.

Lemma parse_evaluates : forall ts v, evaluates YStart ts v <-> exists rs, v = VRules rs /\ parse_bnf ts = Some rs.
Proof.
  intros ts v. split.
  - intros H. apply evaluates_denotes in H. destruct H as [f [F1 [F2 F3]]]. exists (file_rules f). split; auto.
    apply parse_iff. eauto.
  - intros [rs [-> H]]. apply parse_iff in H. destruct H as [f [F1 [-> ->]]]. apply file_evaluates. auto.
Qed.

(** * The interner *)

Lemma string_index_some : forall l s i, string_index l s = Some i -> nth_error l i = Some s.
Proof.
  induction l as [|x l IH]; intros s i H; [discriminate|]. simpl in H. destruct (String.eqb x s) eqn:E.
  - injection H as <-. apply String.eqb_eq in E. subst. reflexivity.
  - destruct (string_index l s) as [j|] eqn:EJ; [|discriminate]. injection H as <-. simpl. auto.
Qed.
Lemma string_index_none : forall l s, string_index l s = None -> ~ In s l.
Proof.
  induction l as [|x l IH]; intros s H; [auto|]. simpl in H. destruct (String.eqb x s) eqn:E; [discriminate|].
  destruct (string_index l s) as [j|] eqn:EJ; [discriminate|]. intros [->|HI]; [rewrite String.eqb_refl in E; discriminate|].
  exact (IH s EJ HI).
Qed.

Lemma get_or_intern_ok : forall l s i l', NoDup l -> get_or_intern l s = (i, l') ->
  NoDup l' /\ nth_error l' i = Some s /\ exists c, l' = l ++ c.
Proof.
  intros l s i l' HN H. unfold get_or_intern in H. destruct (string_index l s) as [j|] eqn:E; injection H as <- <-.
  - apply string_index_some in E. split; auto. split; auto. exists []. rewrite app_nil_r. reflexivity.
  - apply string_index_none in E. split; [|split; [|eauto]].
    + apply NoDup_rev in HN. rewrite <- (rev_involutive (l ++ [s])). apply NoDup_rev. rewrite rev_app_distr. simpl.
      constructor; auto. rewrite <- in_rev. exact E.
    + rewrite nth_error_app2 by lia. rewrite Nat.sub_diag. reflexivity.
Qed.
