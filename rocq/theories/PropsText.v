(** Property C91: the text of a grammar made for reading. *)

From Coq Require Import String Ascii List Arith NArith Bool Lia DecimalString DecimalNat.
From Verif Require Import Base ListFacts SymbolModel HistoryModel CfgModel View SpecLoad LoadLexProof LoadPrintProof PropsLoad PropsTree.
Import ListNotations.
Local Open Scope string_scope.
Local Open Scope list_scope.
Local Notation length := List.length.

(** No symbol of the grammar was given a name. *)
Definition anonymous (g : cfg) : Prop := forall n, In n (names (src g)) -> n = None.

(** What stands for a symbol: its number, and its name in front if there are any names. *)
Definition shows (g : cfg) (s : nat) (t : string) : Prop :=
  (anonymous g /\ t = string_of_nat s) \/ (~ anonymous g /\ t = append (name_of g s) (append "(" (append (string_of_nat s) ")"))).

(** What stands for a right-hand side. *)
Inductive shows_rhs (g : cfg) : list nat -> string -> Prop :=
| show_none : shows_rhs g [] "()"
| show_one : forall s t, shows g s t -> shows_rhs g [s] t
| show_more : forall s t r u, shows g s t -> r <> [] -> shows_rhs g r u -> shows_rhs g (s :: r) (append t (append " ~ " u)).

(** One line for each rule. *)
Inductive shows_rules (g : cfg) : list (nat * list nat) -> string -> Prop :=
| show_end : shows_rules g [] ""
| show_rule : forall A r l a b u, shows g A a -> shows_rhs g r b -> shows_rules g l u ->
    shows_rules g ((A, r) :: l) (append a (append " ::= " (append b (append ";" (String newline_char u))))).

(** * Proofs *)

Definition quiet (g : cfg) : bool := forallb (fun n => match n with None => true | Some _ => false end) (names (src g)).

Lemma quiet_iff : forall g, quiet g = true <-> anonymous g.
Proof.
  intros g. unfold quiet, anonymous. rewrite forallb_forall. split; intros H n Hn; specialize (H n Hn); destruct n; congruence.
Qed.

Definition sym_text (g : cfg) (s : nat) : string := stringify_sym (quiet g) (src g) s.

Lemma shows_sym : forall g s, shows g s (sym_text g s).
Proof.
  intros g s. unfold shows, sym_text, stringify_sym, name_of. destruct (quiet g) eqn:E.
  - left. apply quiet_iff in E. auto.
  - right. split; auto. rewrite <- quiet_iff. congruence.
Qed.

Lemma shows_fun : forall g s t t', shows g s t -> shows g s t' -> t = t'.
Proof. intros g s t t' [[A ->]|[A ->]] [[B ->]|[B ->]]; try contradiction; reflexivity. Qed.

Definition rhs_text (g : cfg) (r : list nat) : string :=
  match r with [] => "()"%string | _ => concat_sep " ~ " (map (sym_text g) r) end.

Lemma concat_sep_cons : forall sep x y l, concat_sep sep (x :: y :: l) = append x (append sep (concat_sep sep (y :: l))).
Proof.
  intros sep x y l. cbn [concat_sep fold_left]. assert (H : forall l a b, fold_left (fun acc y => append acc (append sep y)) l (append a b) =
    append a (fold_left (fun acc y => append acc (append sep y)) l b)).
  { clear. induction l as [|y l IH]; intros a b; cbn [fold_left]; auto. rewrite append_assoc, IH. reflexivity. }
  rewrite H. f_equal. rewrite H. reflexivity.
Qed.

Lemma shows_rhs_text : forall g r, shows_rhs g r (rhs_text g r).
Proof.
  intros g r. destruct r as [|s r]; [constructor|]. revert s. induction r as [|s' r IH]; intros s.
  - cbn. constructor. apply shows_sym.
  - cbn [rhs_text map]. rewrite concat_sep_cons. constructor; [apply shows_sym|discriminate|]. apply (IH s').
Qed.

Lemma text_app : forall g l acc, fold_left (fun acc r => append acc (stringify_rule (quiet g) (src g) r)) l acc =
  append acc (fold_left (fun acc r => append acc (stringify_rule (quiet g) (src g) r)) l "").
Proof.
  intros g l. induction l as [|x l IH]; intros acc; cbn [fold_left]; [rewrite append_nil_r; reflexivity|].
  rewrite IH. rewrite (IH (append "" _)). cbn [append]. rewrite append_assoc. reflexivity.
Qed.

Lemma shows_text : forall g l, shows_rules g (map (fun x => (lhs x, rhs x)) l)
  (fold_left (fun acc r => append acc (stringify_rule (quiet g) (src g) r)) l "").
Proof.
  intros g l. induction l as [|x l IH]; cbn [fold_left map]; [constructor|]. rewrite text_app. cbn [append].
  unfold stringify_rule. rewrite !append_assoc. constructor; [apply shows_sym|apply (shows_rhs_text g (rhs x))|exact IH].
Qed.

(** ** C91: the text is that of the rules *)
Theorem C91_text : forall g, shows_rules g (rule_list g) (stringify_to_bnf g).
Proof. intros g. apply (shows_text g (rules g)). Qed.
Print Assumptions C91_text.

(** * Reading *)

Lemma split_first : forall (p : ascii -> bool) a a' c c' b b', all_chars p a = true -> all_chars p a' = true -> p c = false -> p c' = false ->
  append a (String c b) = append a' (String c' b') -> a = a' /\ c = c' /\ b = b'.
Proof.
  intros p. induction a as [|x a IH]; intros [|y a'] c c' b b' Ha Ha' Hc Hc' E; cbn in *.
  - injection E as -> ->. auto.
  - injection E as -> E. apply andb_true_iff in Ha'. destruct Ha'. congruence.
  - injection E as -> E. apply andb_true_iff in Ha. destruct Ha. congruence.
  - injection E as -> E. apply andb_true_iff in Ha. apply andb_true_iff in Ha'. destruct Ha, Ha'.
    destruct (IH a' c c' b b') as [-> [-> ->]]; auto.
Qed.

Definition digit (c : ascii) : bool := between_chars "0" "9" c.

Lemma uint_digits : forall u, all_chars digit (NilEmpty.string_of_uint u) = true.
Proof. induction u; cbn [NilEmpty.string_of_uint all_chars]; auto; rewrite IHu; reflexivity. Qed.
Lemma nat_digits : forall n, all_chars digit (string_of_nat n) = true.
Proof. intros n. apply uint_digits. Qed.
Lemma nat_text_inj : forall i j, string_of_nat i = string_of_nat j -> i = j.
Proof.
  intros i j H. unfold string_of_nat in H.
  apply (f_equal NilEmpty.uint_of_string) in H. rewrite !NilEmpty.usu in H. injection H as H. apply Unsigned.to_uint_inj. exact H.
Qed.
Lemma nat_text_first : forall n, exists c t, string_of_nat n = String c t /\ digit c = true.
Proof.
  intros n. pose proof (nat_digits n) as H. destruct (string_of_nat n) as [|c t] eqn:E.
  - exfalso. assert (X : string_of_nat n = "") by exact E. unfold string_of_nat in X.
    assert (HN : Nat.to_uint n <> Decimal.Nil) by (intros HN; pose proof (Unsigned.of_to n) as Hn; rewrite HN in Hn; cbn in Hn; subst n; discriminate). destruct (Nat.to_uint n); cbn in X; congruence.
  - cbn in H. apply andb_true_iff in H. destruct H. eauto.
Qed.

Definition no_paren (c : ascii) : bool := negb (Ascii.eqb c "(").

Lemma digit_no_paren : forall s, all_chars digit s = true -> all_chars no_paren s = true.
Proof.
  induction s as [|c s IH]; cbn [all_chars]; auto. rewrite !andb_true_iff. intros [H H']. split; auto. unfold no_paren.
  destruct (Ascii.eqb c "(") eqn:E; auto. apply Ascii.eqb_eq in E. subst. discriminate.
Qed.
Lemma all_chars_app : forall p a b, all_chars p (append a b) = all_chars p a && all_chars p b.
Proof. intros p a b. induction a as [|c a IH]; cbn [append all_chars]; auto. rewrite IH. apply andb_assoc. Qed.

(** Names without an opening parenthesis. *)
Definition plain_names (g : cfg) : Prop := forall n, In (Some n) (names (src g)) -> all_chars no_paren n = true.

Lemma plain_name : forall g s, plain_names g -> all_chars no_paren (name_of g s) = true.
Proof.
  intros g s H. unfold name_of, names_name_of. destruct (nth_error (names (src g)) s) as [[n|]|] eqn:E.
  - apply H. eapply nth_error_In; eauto.
  - cbn [append]. cbn [all_chars]. rewrite digit_no_paren; [reflexivity|apply nat_digits].
  - cbn [append all_chars]. rewrite digit_no_paren; [reflexivity|apply nat_digits].
Qed.

Lemma anonymous_name : forall g s, anonymous g -> name_of g s = append "g" (string_of_nat s).
Proof.
  intros g s H. unfold name_of, names_name_of. destruct (nth_error (names (src g)) s) as [[n|]|] eqn:E; auto.
  apply nth_error_In in E. apply H in E. discriminate.
Qed.

Lemma string_tail : forall c a b, String c a = String c b -> a = b.
Proof. intros c a b H. injection H as H. exact H. Qed.

Section Read.
Variables (g g' : cfg).
Hypothesis HP : plain_names g.
Hypothesis HP' : plain_names g'.

(** Both with names, or both without. *)
Hypothesis HQ : quiet g = quiet g'.

(** Text that goes on after a symbol. *)
Definition after (t : string) : Prop := exists c u, t = String c u /\ digit c = false.

Lemma read_sym : forall s s' R R', after R -> after R' -> append (sym_text g s) R = append (sym_text g' s') R' ->
  s = s' /\ name_of g s = name_of g' s' /\ R = R'.
Proof.
  intros s s' R R' [c [u [-> Hc]]] [c' [u' [-> Hc']]] E. unfold sym_text, stringify_sym in E. rewrite <- HQ in E. destruct (quiet g) eqn:EQ.
  - apply split_first with (p := digit) in E; auto using nat_digits. destruct E as [E [-> ->]]. apply nat_text_inj in E. subst s'.
    assert (A : anonymous g) by (apply quiet_iff; auto). assert (A' : anonymous g') by (apply quiet_iff; congruence).
    rewrite !anonymous_name; auto.
  - rewrite !append_assoc in E. cbn [append] in E. change (names_name_of (names (src g)) s) with (name_of g s) in E.
    change (names_name_of (names (src g')) s') with (name_of g' s') in E.
    apply split_first with (p := no_paren) in E; try reflexivity; try (apply plain_name; auto). destruct E as [EN [_ E]].
    apply split_first with (p := digit) in E; auto using nat_digits. destruct E as [E [_ E']]. apply nat_text_inj in E. subst. auto.
Qed.

Lemma sym_text_first : forall (h : cfg) s R, plain_names h -> append (sym_text h s) R <> append "()" R /\ forall u, append (sym_text h s) u <> String "(" (String ")" R).
Proof.
  intros h s R Hh. assert (X : forall u, append (sym_text h s) u <> String "(" (String ")" R)).
  { intros u E. unfold sym_text, stringify_sym in E. destruct (nat_text_first s) as [c [t [Et Hc]]]. destruct (quiet h).
    - rewrite Et in E. cbn in E. injection E as -> _. discriminate.
    - rewrite !append_assoc in E. cbn [append] in E. change (names_name_of (names (src h)) s) with (name_of h s) in E.
      change (String "(" (String ")" R)) with (append "" (String "(" (String ")" R))) in E.
      apply split_first with (p := no_paren) in E; try reflexivity; [|apply plain_name; auto]. destruct E as [_ [_ E]].
      rewrite Et in E. cbn in E. injection E as -> _. discriminate. }
  split; auto.
Qed.

Lemma rhs_text_cons : forall h s s' r, rhs_text h (s :: s' :: r) = append (sym_text h s) (append " ~ " (rhs_text h (s' :: r))).
Proof. intros. unfold rhs_text. cbn [map]. apply concat_sep_cons. Qed.

Lemma read_rhs : forall r r' R R', append (rhs_text g r) (String ";" R) = append (rhs_text g' r') (String ";" R') ->
  r = r' /\ map (name_of g) r = map (name_of g') r /\ R = R'.
Proof.
  assert (A1 : forall R, after (String ";" R)) by (intros R; eexists; eexists; split; [reflexivity|reflexivity]).
  assert (A2 : forall R, after (append " ~ " R)) by (intros R; eexists; eexists; split; [reflexivity|reflexivity]).
  assert (N0 : forall h s r R R', plain_names h -> append (rhs_text h (s :: r)) R <> String "(" (String ")" R')).
  { intros h s r R R' Hh E. destruct r as [|s' r].
    - cbn [rhs_text map concat_sep fold_left] in E. eapply (proj2 (sym_text_first h s R' Hh)); eauto.
    - rewrite rhs_text_cons, !append_assoc in E. eapply (proj2 (sym_text_first h s R' Hh)); eauto. }
  intros r. destruct r as [|s r].
  - intros [|s' r'] R R' E.
    + cbn in E. injection E as ->. auto.
    + exfalso. cbn [rhs_text append] in E. symmetry in E. eapply N0; eauto.
  - revert s. induction r as [|t r IH]; intros s [|s' r'] R R' E.
    1, 3: exfalso; eapply N0; [|exact E]; auto.
    + destruct r' as [|t' r'].
      * cbn [rhs_text map concat_sep fold_left] in E. apply read_sym in E; auto. destruct E as [-> [EN E]]. injection E as ->. cbn [map]. rewrite EN. auto.
      * exfalso. rewrite rhs_text_cons, !append_assoc in E. cbn [rhs_text map concat_sep fold_left] in E. apply read_sym in E; auto.
        destruct E as [_ [_ E]]. discriminate.
    + rewrite rhs_text_cons, !append_assoc in E. destruct r' as [|t' r'].
      * exfalso. cbn [rhs_text map concat_sep fold_left] in E. apply read_sym in E; auto. destruct E as [_ [_ E]]. discriminate.
      * rewrite rhs_text_cons, !append_assoc in E. apply read_sym in E; auto. destruct E as [-> [EN E]]. cbn [append] in E. do 3 apply string_tail in E.
        apply IH in E. destruct E as [E [EM ->]]. injection E as -> ->. split; auto. split; auto. cbn [map]. rewrite EN. f_equal. exact EM.
Qed.

Definition rules_text (h : cfg) (l : list (nat * list nat)) : string :=
  fold_right (fun p u => append (sym_text h (fst p)) (append " ::= " (append (rhs_text h (snd p)) (append ";" (String newline_char u))))) "" l.

Lemma read_rules : forall l l', rules_text g l = rules_text g' l' ->
  l = l' /\ Forall (fun p => name_of g (fst p) = name_of g' (fst p) /\ map (name_of g) (snd p) = map (name_of g') (snd p)) l.
Proof.
  assert (NE : forall h p l, rules_text h (p :: l) <> "").
  { intros h [A r] l E. cbn [rules_text fold_right fst snd] in E. destruct (sym_text h A); discriminate. }
  induction l as [|[A r] l IH]; intros [|[A' r'] l'] E.
  - split; auto.
  - symmetry in E. apply NE in E. destruct E.
  - apply NE in E. destruct E.
  - cbn [rules_text fold_right fst snd] in E. apply read_sym in E; [|eexists; eexists; split; reflexivity|eexists; eexists; split; reflexivity].
    destruct E as [-> [EN E]]. cbn [append] in E. do 5 apply string_tail in E. apply read_rhs in E. destruct E as [-> [EM E]]. apply string_tail in E.
    apply IH in E. destruct E as [-> HF]. split; auto.
Qed.
End Read.

Lemma text_rules : forall g, stringify_to_bnf g = rules_text g (rule_list g).
Proof.
  intros g. unfold stringify_to_bnf, rule_list. fold (quiet g). induction (rules g) as [|x l IH]; [reflexivity|].
  cbn [fold_left map]. rewrite text_app, IH. cbn [append]. unfold stringify_rule. rewrite !append_assoc. reflexivity.
Qed.

(** In a text of numbers, an opening parenthesis is not followed by a digit. *)
Lemma quiet_text : forall g l, quiet g = true -> forall a c u, digit c = true -> rules_text g l <> append a (String "(" (String c u)).
Proof.
  intros g l EQ. induction l as [|[A r] l IH]; intros a c u Hc E.
  - cbn in E. destruct a; discriminate.
  - assert (ND : forall v w a, all_chars digit v = true -> (forall a, w <> append a (String "(" (String c u))) -> append v w <> append a (String "(" (String c u))).
    { clear - Hc. intros v w. induction v as [|x v IHv]; intros a Hv Hw; [apply Hw|]. cbn in Hv. apply andb_true_iff in Hv. destruct Hv as [Hx Hv].
      destruct a as [|y a]; cbn.
      - intros E. injection E as -> _. discriminate.
      - intros E. injection E as _ E. revert E. apply IHv; auto. }
    assert (NC : forall x w a, x <> "("%char -> (forall a, w <> append a (String "(" (String c u))) -> String x w <> append a (String "(" (String c u))).
    { clear. intros x w a Hx Hw E. destruct a as [|y a]; cbn in E; injection E as E1 E2; [congruence|]. revert E2. apply Hw. }
    assert (SY : forall s, sym_text g s = string_of_nat s) by (intros s; unfold sym_text, stringify_sym; rewrite EQ; reflexivity).
    revert E. cbn [rules_text fold_right fst snd]. rewrite SY. apply ND; [apply nat_digits|]. clear a. intros a. cbn [append].
    do 5 (apply NC; [discriminate|]; clear a; intros a). revert a.
    assert (TL : forall a, append ";" (String newline_char (rules_text g l)) <> append a (String "(" (String c u))).
    { intros a. cbn [append]. apply NC; [discriminate|]. clear a. intros a. apply NC; [discriminate|]. clear a. intros a. apply IH. exact Hc. }
    destruct r as [|s r].
    + intros [|x a] E; cbn in E; [injection E as <- _; discriminate|]. injection E as _ E. revert E. apply NC; [discriminate|]. exact TL.
    + revert s. induction r as [|t r IHr]; intros s a.
      * cbn [rhs_text map concat_sep fold_left]. rewrite SY. apply ND; [apply nat_digits|exact TL].
      * rewrite rhs_text_cons, SY, !append_assoc. apply ND; [apply nat_digits|]. clear a. intros a. cbn [append].
        do 3 (apply NC; [discriminate|]; clear a; intros a). apply IHr.
Qed.

Lemma named_text : forall g A r l, quiet g = false -> exists a c u, digit c = true /\ rules_text g ((A, r) :: l) = append a (String "(" (String c u)).
Proof.
  intros g A r l EQ. cbn [rules_text fold_right fst snd]. unfold sym_text at 1, stringify_sym. rewrite EQ. destruct (nat_text_first A) as [c [t [Et Hc]]].
  exists (names_name_of (names (src g)) A), c. rewrite Et. eexists. split; auto. rewrite !append_assoc. cbn [append]. reflexivity.
Qed.

(** ** C91: the rules and the names can be read off the text, if no name has an opening parenthesis. *)
Theorem C91_readable_partial : forall g g', plain_names g -> plain_names g' -> stringify_to_bnf g = stringify_to_bnf g' ->
  rule_list g = rule_list g' /\ forall s, used g s -> name_of g s = name_of g' s.
Proof.
  intros g g' HP HP' E. rewrite !text_rules in E.
  assert (HQ : rules g = [] /\ rules g' = [] \/ quiet g = quiet g').
  { destruct (quiet g) eqn:Q, (quiet g') eqn:Q'; auto; left.
    - destruct (rules g') as [|x l] eqn:ER; [|exfalso; unfold rule_list in E; rewrite ER in E; cbn [map] in E; destruct (named_text g' (lhs x) (rhs x) (map (fun x => (lhs x, rhs x)) l) Q') as [a [c [u [Hc Eu]]]];
        rewrite Eu in E; eapply quiet_text; eauto].
      destruct (rules g) as [|x l] eqn:ER'; auto. exfalso. unfold rule_list in E. rewrite ER, ER' in E. cbn in E. destruct (sym_text g (lhs x)); discriminate.
    - destruct (rules g) as [|x l] eqn:ER; [|exfalso; unfold rule_list in E; rewrite ER in E; cbn [map] in E; destruct (named_text g (lhs x) (rhs x) (map (fun x => (lhs x, rhs x)) l) Q) as [a [c [u [Hc Eu]]]];
        rewrite Eu in E; symmetry in E; eapply quiet_text; eauto].
      destruct (rules g') as [|x l] eqn:ER'; auto. exfalso. unfold rule_list in E. rewrite ER, ER' in E. cbn in E. destruct (sym_text g' (lhs x)); discriminate. }
  destruct HQ as [[H1 H2]|HQ].
  - unfold rule_list. rewrite H1, H2. split; auto. intros s [r [Hr _]]. rewrite H1 in Hr. destruct Hr.
  - apply (read_rules g g' HP HP' HQ) in E. destruct E as [E HF]. split; auto. intros s [x [Hx Hs]].
    rewrite Forall_forall in HF. specialize (HF (lhs x, rhs x)). cbn [fst snd] in HF. destruct HF as [H1 H2].
    { unfold rule_list. apply in_map_iff. eauto. }
    destruct Hs as [->|Hs]; auto. clear - H2 Hs. induction (rhs x) as [|a r IH]; [destruct Hs|]. cbn in H2. injection H2 as H2 H3. destruct Hs as [->|Hs]; auto.
Qed.
Print Assumptions C91_readable_partial.

(** A name with a parenthesis. *)
Theorem C91_names_refuted : exists g g', closed g /\ closed g' /\ stringify_to_bnf g = stringify_to_bnf g' /\ rule_list g <> rule_list g'.
Proof.
  exists (mkCfg (mkSrc 3 [Some "s"; Some "x"; Some "x(1) ~ y"]) [mkRule 0 [2] (history_new 0%N)] [0] [] None).
  exists (mkCfg (mkSrc 3 [Some "s"; Some "x"; Some "y"]) [mkRule 0 [1; 2] (history_new 0%N)] [0] [] None).
  split; [|split; [|split; [vm_compute; reflexivity|discriminate]]].
  - split; [intros x [<-|[]]; split; [vm_compute; lia|]; repeat constructor; vm_compute; lia|]. split; repeat constructor; vm_compute; lia.
  - split; [intros x [<-|[]]; split; [vm_compute; lia|]; repeat constructor; vm_compute; lia|]. split; repeat constructor; vm_compute; lia.
Qed.
Print Assumptions C91_names_refuted.

Example C91_example :
  let l := [mkRule 0 [2; 1] (history_new 0%N); mkRule 1 [] (history_new 0%N)] in
  let g := mkCfg (mkSrc 3 [Some "sum"; None; Some "num"]) l [0] [] None in
  let g' := mkCfg (mkSrc 3 [None; None; None]) l [0] [] None in
  plain_names g /\ ~ anonymous g /\ anonymous g' /\
  stringify_to_bnf g = append "sum(0) ::= num(2) ~ g1(1);" (append newline (append "g1(1) ::= ();" newline)) /\
  stringify_to_bnf g' = append "0 ::= 2 ~ 1;" (append newline (append "1 ::= ();" newline)).
Proof.
  intros l g g'. split.
  { intros n Hn. cbn in Hn. destruct Hn as [E|[E|[E|[]]]]; try discriminate; injection E as <-; reflexivity. }
  split; [intros H; specialize (H (Some "sum") (or_introl eq_refl)); discriminate|].
  split; [intros n Hn; cbn in Hn; intuition congruence|]. split; vm_compute; reflexivity.
Qed.
