(** Proofs about the BNF tokenizer. *)

From Coq Require Import List Arith Ascii Bool String Lia.
From Verif Require Import Base SpecLoad LoadModel.
Import ListNotations.
Local Open Scope string_scope.

Definition pos (l : lexer) : nat * nat := (lx_line l, lx_col l).
Definition position_from (s : string) (p : nat * nat) : nat * nat := position s (fst p) (snd p).

Lemma append_assoc : forall a b c : string, append (append a b) c = append a (append b c).
Proof. induction a; simpl; intros; congruence. Qed.
Lemma append_nil_r : forall a : string, append a "" = a.
Proof. induction a; simpl; congruence. Qed.
Lemma append_length : forall a b : string, String.length (append a b) = String.length a + String.length b.
Proof. induction a; simpl; intros; auto. Qed.
Lemma append_inj : forall a b c : string, append a b = append a c -> b = c.
Proof. induction a; simpl; intros b c H; auto. injection H as H. auto. Qed.

Lemma position_app : forall a b p, position_from (append a b) p = position_from b (position_from a p).
Proof.
  unfold position_from. induction a as [|c a IH]; intros b [x y]; simpl; auto.
  destruct (Ascii.eqb c newline_char); [apply (IH b (x + 1, 1)) | apply (IH b (x, y + 1))].
Qed.

Lemma advance_spec : forall l c s, lx_chars l = String c s ->
  lx_chars (lex_advance l) = s /\ pos (lex_advance l) = position_from (one_char c) (pos l).
Proof.
  intros [ch ln cl] c s H. simpl in H. subst ch. unfold lex_advance, pos, position_from. simpl.
  destruct (Ascii.eqb c newline_char); auto.
Qed.

Definition stops (p : ascii -> bool) (s : string) : Prop :=
  match s with EmptyString => True | String c _ => p c = false end.

Lemma continues_eq : forall c,
  between_chars "a" "z" c || between_chars "A" "Z" c || Ascii.eqb c "_" || between_chars "0" "9" c = continues_identifier c.
Proof. reflexivity. Qed.

Lemma ident_spec : forall s l, lx_chars l = s -> let (w, l') := lex_ident s l in
  s = append w (lx_chars l') /\ all_chars continues_identifier w = true /\ stops continues_identifier (lx_chars l') /\
  pos l' = position_from w (pos l).
Proof.
  induction s as [|c s IH]; intros l H.
  - simpl. rewrite H. simpl. repeat split; auto.
  - cbn [lex_ident]. rewrite continues_eq. destruct (continues_identifier c) eqn:EC.
    + destruct (advance_spec l c s H) as [A1 A2]. specialize (IH (lex_advance l) A1).
      destruct (lex_ident s (lex_advance l)) as [w l']. destruct IH as [I1 [I2 [I3 I4]]].
      split; [simpl; congruence|]. split; [simpl; rewrite EC; auto|]. split; auto.
      rewrite I4, A2. change (String c w) with (append (one_char c) w). rewrite position_app. reflexivity.
    + rewrite H. simpl. repeat split; auto.
Qed.

Lemma word_nonempty : forall w t, word w t -> w <> "".
Proof. intros w t H. destruct H; try discriminate. destruct s; [contradiction | discriminate]. Qed.

(** The first character of a word tells its kind. *)
Lemma word_ident : forall c s w t, word w t -> begins w (String c s) -> starts_identifier c = true ->
  exists u, w = String c u /\ t = Some (BIdent w) /\ all_chars continues_identifier u = true /\ begins u s.
Proof.
  intros c s w t Hw [r E] Hc. destruct Hw; try (simpl in E; injection E as -> _; discriminate).
  destruct s0 as [|c' u]; [contradiction|]. simpl in E. injection E as <- E. destruct H as [_ H].
  exists u. split; auto. split; auto. split; auto. exists r. auto.
Qed.

Lemma prefix_stops : forall p u v w rest, append u v = append w rest -> all_chars p u = true -> stops p rest ->
  String.length u <= String.length w.
Proof.
  intros p. induction u as [|c u IH]; intros v w rest E H HS; [simpl; lia|]. destruct w as [|c' w]; simpl in *.
  - subst rest. simpl in HS. apply andb_prop in H. destruct H. congruence.
  - injection E as -> E. apply andb_prop in H. destruct H as [_ H]. specialize (IH v w rest E H HS). lia.
Qed.

Lemma char_eq_dec : forall a b : ascii, a = b \/ a <> b.
Proof. intros. destruct (ascii_dec a b); auto. Qed.

Definition longest (w text : string) : Prop :=
  forall w' t', word w' t' -> begins w' text -> String.length w' <= String.length w.

Lemma eat_spec : forall l c s, lx_chars l = String c s -> let (t, l') := lex_eat c l in
  match t with
  | LTok x => exists w, word w (Some x) /\ String c s = append w (lx_chars l') /\ longest w (String c s) /\
                pos l' = position_from w (pos l)
  | LWhitespace => exists w, word w None /\ String c s = append w (lx_chars l') /\ longest w (String c s) /\
                pos l' = position_from w (pos l)
  | LError line col => (line, col) = pos l /\ forall w t, word w t -> ~ begins w (String c s)
  end.
Proof.
  intros l c s H. unfold lex_eat.
  change (between_chars "a" "z" c || between_chars "A" "Z" c || Ascii.eqb c "_") with (starts_identifier c).
  destruct (advance_spec l c s H) as [A1 A2].
  destruct (starts_identifier c) eqn:EC.
  - pose proof (ident_spec (lx_chars (lex_advance l)) (lex_advance l) eq_refl) as HI.
    destruct (lex_ident _ _) as [w l']. destruct HI as [I1 [I2 [I3 I4]]]. rewrite A1 in I1.
    exists (String c w). split; [constructor; simpl; auto|]. split; [simpl; congruence|]. split.
    + intros w' t' Hw' Hb. destruct (word_ident c s w' t' Hw' Hb EC) as [u [-> [_ [Hu [r Hr]]]]].
      simpl. apply le_n_S. eapply prefix_stops; [|exact Hu|exact I3]. rewrite <- I1. symmetry. exact Hr.
    + rewrite I4, A2. change (String c w) with (append (one_char c) w). rewrite position_app. reflexivity.
  - assert (Hfirst : forall w t, word w t -> begins w (String c s) -> exists u, w = String c u /\ (forall x, t <> Some (BIdent x))).
    { intros w t Hw [r E]. destruct w as [|c' u]; [exfalso; exact (word_nonempty _ _ Hw eq_refl)|].
      simpl in E. injection E as <- E. exists u. split; auto. intros x ->. inversion Hw; subst.
      match goal with HI : identifier _ |- _ => destruct HI as [HI _]; congruence end. }
    assert (Hone : forall w t, word w t -> begins w (String c s) -> c <> ":"%char -> String.length w = 1).
    { intros w t Hw Hb Hc. destruct (Hfirst w t Hw Hb) as [u [-> Hn]]. inversion Hw; subst; auto.
      - exfalso. eapply Hn. reflexivity.
      - congruence. }
    assert (Hmany : forall t, word (one_char c) t -> c <> ":"%char ->
      exists w, word w t /\ String c s = append w (lx_chars (lex_advance l)) /\ longest w (String c s) /\
        pos (lex_advance l) = position_from w (pos l)).
    { intros t Ht Hc. exists (one_char c). split; auto. split; [rewrite A1; reflexivity|]. split; auto.
      intros w' t' Hw' Hb. rewrite (Hone w' t' Hw' Hb Hc). simpl. lia. }
    destruct (Ascii.eqb c ":") eqn:E1.
    { apply Ascii.eqb_eq in E1. subst c. rewrite H. destruct (starts_with "::=" (String ":" s)) eqn:ES.
      - assert (Hs : exists r, s = String ":" (String "=" r)).
        { unfold starts_with in ES. apply String.prefix_correct in ES. cbn in ES.
          destruct s as [|c1 s1]; [discriminate|]. destruct s1 as [|c2 s2]; [discriminate|].
          simpl in ES. injection ES as -> ->. eauto. }
        destruct Hs as [r ->]. destruct (advance_spec (lex_advance l) _ _ A1) as [B1 B2].
        destruct (advance_spec (lex_advance (lex_advance l)) _ _ B1) as [C1 C2].
        exists "::=". split; [constructor|]. split; [rewrite C1; reflexivity|]. split.
        + intros w' t' Hw' Hb. destruct (Hfirst w' t' Hw' Hb) as [u [-> Hn]]. inversion Hw'; subst; auto.
          exfalso. eapply Hn. reflexivity.
        + rewrite C2, B2, A2. destruct l; reflexivity.
      - split; [reflexivity|]. intros w t Hw Hb. destruct (Hfirst w t Hw Hb) as [u [-> Hn]]. inversion Hw; subst.
        + eapply Hn. reflexivity.
        + destruct Hb as [r Hr]. simpl in Hr. injection Hr as Hr. rewrite Hr in ES. destruct r; vm_compute in ES; discriminate. }
    assert (Hc : c <> ":"%char) by (apply Ascii.eqb_neq; auto).
    destruct (Ascii.eqb c ";") eqn:E2; [apply Ascii.eqb_eq in E2; subst c; apply Hmany; [constructor | auto]|].
    destruct (Ascii.eqb c "|") eqn:E3; [apply Ascii.eqb_eq in E3; subst c; apply Hmany; [constructor | auto]|].
    destruct (Ascii.eqb c "+") eqn:E4; [apply Ascii.eqb_eq in E4; subst c; apply Hmany; [constructor | auto]|].
    destruct (Ascii.eqb c "*") eqn:E5; [apply Ascii.eqb_eq in E5; subst c; apply Hmany; [constructor | auto]|].
    destruct (Ascii.eqb c "(") eqn:E6; [apply Ascii.eqb_eq in E6; subst c; apply Hmany; [constructor | auto]|].
    destruct (Ascii.eqb c ")") eqn:E7; [apply Ascii.eqb_eq in E7; subst c; apply Hmany; [constructor | auto]|].
    destruct (Ascii.eqb c " " || Ascii.eqb c newline_char || Ascii.eqb c tab_char) eqn:E8.
    + apply Hmany; auto. apply orb_prop in E8. destruct E8 as [E8|E8]; [apply orb_prop in E8; destruct E8 as [E8|E8]|];
        apply Ascii.eqb_eq in E8; subst c; constructor.
    + split; [reflexivity|]. intros w t Hw Hb. destruct (Hfirst w t Hw Hb) as [u [-> Hn]].
      apply orb_false_elim in E8. destruct E8 as [E8 E9]. apply orb_false_elim in E8. destruct E8 as [E8 E10].
      inversion Hw; subst; try (cbn in *; discriminate); solve [eapply Hn; reflexivity | congruence |
        rewrite Ascii.eqb_refl in *; discriminate].
Qed.

Lemma tokenize_spec : forall fuel l acc, String.length (lx_chars l) <= fuel ->
  (exists toks, tokenize_loop fuel l acc = Ok (inl (acc ++ toks)%list) /\ reads (lx_chars l) toks "") \/
  (exists line col pre toks rest, tokenize_loop fuel l acc = Ok (inr (line, col)) /\
     lx_chars l = append pre rest /\ reads (lx_chars l) toks rest /\ rest <> "" /\
     (forall w t, word w t -> ~ begins w rest) /\ (line, col) = position_from pre (pos l)).
Proof.
  induction fuel as [|fuel IH]; intros l acc Hf; cbn [tokenize_loop]; unfold eat_token.
  - destruct (lx_chars l) as [|c s] eqn:E; [|simpl in Hf; lia]. left. exists []. rewrite app_nil_r. split; auto. constructor.
  - destruct (lx_chars l) as [|c s] eqn:E; [left; exists []; rewrite app_nil_r; split; auto; constructor|].
    pose proof (eat_spec l c s E) as HE. destruct (lex_eat c l) as [t l'].
    assert (HC : forall w t, word w t -> String c s = append w (lx_chars l') -> String.length (lx_chars l') <= fuel).
    { intros w t0 Hw EW. apply word_nonempty in Hw. assert (HL : String.length (String c s) = String.length w + String.length (lx_chars l')).
      { rewrite EW. apply append_length. }
      destruct w; [congruence|]. simpl in HL, Hf. lia. }
    destruct t as [x| |line col].
    + destruct HE as [w [W1 [W2 [W3 W4]]]]. destruct (IH l' (acc ++ [x])%list (HC w _ W1 W2)) as [[toks [H1 H2]]|HR].
      * left. exists (x :: toks). rewrite H1, <- app_assoc. split; auto. rewrite W2.
        apply (reads_word w (Some x)); auto. rewrite <- W2. exact W3.
      * right. destruct HR as [line [col [pre [toks [rest [H1 [H2 [H3 [H4 [H5 H6]]]]]]]]]].
        exists line, col, (append w pre), (x :: toks), rest. split; auto. split; [rewrite W2, H2, append_assoc; auto|].
        split; [rewrite W2; apply (reads_word w (Some x)); auto; rewrite <- W2; exact W3|]. split; auto. split; auto.
        rewrite H6, W4, position_app. reflexivity.
    + destruct HE as [w [W1 [W2 [W3 W4]]]]. destruct (IH l' acc (HC w _ W1 W2)) as [[toks [H1 H2]]|HR].
      * left. exists toks. split; auto. rewrite W2. apply (reads_word w None); auto. rewrite <- W2. exact W3.
      * right. destruct HR as [line [col [pre [toks [rest [H1 [H2 [H3 [H4 [H5 H6]]]]]]]]]].
        exists line, col, (append w pre), toks, rest. split; auto. split; [rewrite W2, H2, append_assoc; auto|].
        split; [rewrite W2; apply (reads_word w None); auto; rewrite <- W2; exact W3|]. split; auto. split; auto.
        rewrite H6, W4, position_app. reflexivity.
    + destruct HE as [H1 H2]. right. exists line, col, "", [], (String c s). split; auto. split; auto.
      split; [constructor|]. split; [discriminate|]. split; auto.
Qed.

(** * Reading is deterministic *)

Lemma prefix_unique : forall a b x y : string, append a x = append b y -> String.length a = String.length b -> a = b /\ x = y.
Proof.
  induction a as [|c a IH]; intros [|c' b] x y E L; try discriminate; auto.
  simpl in *. injection E as -> E. injection L as L. destruct (IH b x y E L) as [-> ->]. auto.
Qed.

Lemma word_token : forall w t t', word w t -> word w t' -> t = t'.
Proof.
  intros w t t' H H'. inversion H; subst; inversion H'; subst; auto;
    repeat match goal with H : identifier _ |- _ => destruct H as [X _]; vm_compute in X; discriminate X end.
Qed.

Lemma reads_det : forall s t1 r1, reads s t1 r1 -> forall t2 r2, reads s t2 r2 ->
  (forall w t, word w t -> ~ begins w r1) -> (forall w t, word w t -> ~ begins w r2) -> t1 = t2 /\ r1 = r2.
Proof.
  induction 1 as [text|w t text toks rest Hw Hm Hr IH]; intros t2 r2 H2 N1 N2.
  - inversion H2 as [|w t text' toks' rest' Hw Hm Hr]; subst; auto. exfalso. apply (N1 w t Hw). exists text'. auto.
  - inversion H2 as [x Ex|w' t' text' toks' rest' Hw' Hm' Hr' E1 E2 E3].
    + subst. exfalso. apply (N2 w t Hw). exists text. auto.
    + assert (HL : String.length w' = String.length w).
      { apply Nat.le_antisymm.
        - apply (Hm w' t' Hw'). exists text'. auto.
        - apply (Hm' w t Hw). exists text. auto. }
      destruct (prefix_unique w' w text' text E1 HL) as [-> ->].
      rewrite (word_token w t t' Hw Hw') in *. destruct (IH toks' r2 Hr' N1 N2) as [-> ->]. auto.
Qed.

Lemma empty_stuck : forall w t, word w t -> ~ begins w "".
Proof. intros w t Hw [r E]. destruct w; [exact (word_nonempty _ _ Hw eq_refl) | discriminate]. Qed.

Lemma reads_tokenize : forall text toks, reads text toks "" -> tokenize text = Ok (inl toks).
Proof.
  intros text toks HR. unfold tokenize. destruct (tokenize_spec (String.length text) (mkLex text 1 1) [] (Nat.le_refl _)) as
    [[toks' [H1 H2]]|[line [col [pre [toks' [rest [H1 [H2 [H3 [H4 [H5 H6]]]]]]]]]]].
  - rewrite H1. simpl. destruct (reads_det _ _ _ HR _ _ H2 empty_stuck empty_stuck) as [<- _]. reflexivity.
  - destruct (reads_det _ _ _ HR _ _ H3 empty_stuck H5) as [_ E]. congruence.
Qed.
