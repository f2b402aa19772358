(** Proofs about the tokenizer of the rich notation. *)

From Coq Require Import String Ascii List Arith NArith Bool Lia.
From Verif Require Import Base SpecLoad SpecAdv AdvModel.
Import ListNotations.

Definition lexer_at (s : text) (p : nat * nat) : adv_lexer := mkXLex s (fst p) (snd p).

Lemma advance_at : forall c s p, x_advance (lexer_at (c :: s) p) = lexer_at s (place [c] p).
Proof.
  intros c s p. unfold x_advance, lexer_at. cbn [xl_chars xl_line xl_col place].
  destruct (c =? 10)%N; reflexivity.
Qed.

Lemma place_app : forall a b p, place (a ++ b) p = place b (place a p).
Proof. intros a. induction a as [|c a IH]; intros b p; [reflexivity|]. cbn [app place]. apply IH. Qed.

Lemma place_cons : forall c a p, place (c :: a) p = place a (place [c] p).
Proof. intros c a p. apply (place_app [c] a). Qed.

(** * Identifiers *)

Lemma starts_name_test : forall c,
  (in_range 97 122 c || in_range 65 90 c || (c =? 95)%N)%bool = starts_name c.
Proof. reflexivity. Qed.

Lemma continues_name_test : forall c,
  (in_range 97 122 c || in_range 65 90 c || (c =? 95)%N || in_range 48 57 c)%bool = continues_name c.
Proof. reflexivity. Qed.

Lemma x_ident_at : forall s p, exists w rest,
  s = w ++ rest /\ forallb continues_name w = true /\
  match rest with c :: _ => continues_name c = false | [] => True end /\
  x_ident s (lexer_at s p) = (w, lexer_at rest (place w p)).
Proof.
  intros s. induction s as [|c s IH]; intros p.
  - exists [], []. repeat split; reflexivity.
  - cbn [x_ident]. rewrite continues_name_test. destruct (continues_name c) eqn:Hc.
    + rewrite advance_at. destruct (IH (place [c] p)) as [w [rest [-> [Hw [Hr E]]]]].
      rewrite E. exists (c :: w), rest. split; [reflexivity|]. split; [cbn; rewrite Hc; exact Hw|].
      split; [exact Hr|]. rewrite (place_cons c w p). reflexivity.
    + exists [], (c :: s). split; [reflexivity|]. split; [reflexivity|]. split; [exact Hc|reflexivity].
Qed.

Lemma starts_continues : forall c, starts_name c = true -> continues_name c = true.
Proof. intros c H. unfold continues_name. rewrite H. reflexivity. Qed.

Lemma continues_small : forall c, continues_name c = true -> (c < 256)%N.
Proof.
  intros c H. unfold continues_name, starts_name in H.
  rewrite !orb_true_iff, !andb_true_iff, !N.leb_le, N.eqb_eq in H. lia.
Qed.

Lemma of_to_string : forall w, forallb continues_name w = true -> of_string (to_string w) = w.
Proof.
  intros w. unfold of_string, to_string. rewrite list_ascii_of_string_of_list_ascii.
  induction w as [|c w IH]; intros H; [reflexivity|].
  cbn in H. apply andb_true_iff in H. destruct H as [Hc Hw].
  cbn [map]. rewrite N_ascii_embedding by (apply continues_small; exact Hc). rewrite IH by exact Hw. reflexivity.
Qed.

Lemma name_chars_all : forall w, name_chars w -> forallb continues_name w = true.
Proof.
  intros [|c w] H; [contradiction|]. destruct H as [Hc Hw]. cbn. rewrite starts_continues by exact Hc. exact Hw.
Qed.

Lemma prefix_of_names : forall w w' rest, forallb continues_name w' = true ->
  match rest with c :: _ => continues_name c = false | [] => True end ->
  starts w' (w ++ rest) -> length w' <= length w.
Proof.
  intros w. induction w as [|c w IH]; intros w' rest Hw' Hr [u E].
  - destruct w' as [|c' w']; [apply le_n|]. cbn in E. subst rest. cbn in Hw'. rewrite Hr in Hw'. discriminate.
  - destruct w' as [|c' w']; [apply Nat.le_0_l|]. cbn in E. injection E as -> E.
    cbn in Hw'. apply andb_true_iff in Hw'. destruct Hw' as [_ Hw'].
    cbn. apply le_n_S. apply (IH w' rest Hw' Hr). exists u. exact E.
Qed.

(** * Strings *)

Lemma quoted_unique : forall b v, quoted b v -> forall b' v' r r', quoted b' v' -> b ++ 34%N :: r = b' ++ 34%N :: r' ->
  b = b' /\ v = v'.
Proof.
  intros b v H. induction H as [|c b v H1 H2 H IH|c b v H IH]; intros b' v' r r' H' E.
  - destruct H' as [|c b' v' H1' H2' H'|c b' v' H']; [split; reflexivity| |].
    + cbn in E. injection E as E _. congruence.
    + cbn in E. discriminate.
  - destruct H' as [|c' b' v' H1' H2' H'|c' b' v' H'].
    + cbn in E. injection E as E _. congruence.
    + cbn in E. injection E as -> E. destruct (IH _ _ _ _ H' E) as [-> ->]. split; reflexivity.
    + cbn in E. injection E as E _. congruence.
  - destruct H' as [|c' b' v' H1' H2' H'|c' b' v' H'].
    + cbn in E. discriminate.
    + cbn in E. injection E as E _. congruence.
    + cbn in E. injection E as -> E. destruct (IH _ _ _ _ H' E) as [-> ->]. split; reflexivity.
Qed.

Lemma starts_quoted : forall b s, starts (b ++ [34%N]) s <-> exists r, s = b ++ 34%N :: r.
Proof.
  intros b s. split; intros [r E]; exists r.
  - rewrite <- app_assoc in E. exact E.
  - rewrite <- app_assoc. exact E.
Qed.

Lemma x_string_at : forall n s p, length s <= n ->
  (exists b v rest, quoted b v /\ s = b ++ 34%N :: rest /\
     x_string s (lexer_at s p) = (v, lexer_at (34%N :: rest) (place b p))) \/
  ((forall b v r, quoted b v -> s <> b ++ 34%N :: r) /\
   exists v, x_string s (lexer_at s p) = (v, lexer_at [] (place s p))).
Proof.
  intros n. induction n as [|n IH]; intros s p Hn.
  - destruct s as [|c s]; [|cbn in Hn; lia]. right. split.
    + intros b v r _ E. destruct b; discriminate.
    + exists []. reflexivity.
  - destruct s as [|c s].
    { right. split; [intros b v r _ E; destruct b; discriminate|]. exists []. reflexivity. }
    cbn [x_string]. destruct (c =? 34)%N eqn:E1.
    { apply N.eqb_eq in E1. subst c. left. exists [], [], s. split; [constructor|]. split; reflexivity. }
    apply N.eqb_neq in E1. destruct (c =? 92)%N eqn:E2.
    + apply N.eqb_eq in E2. subst c. destruct s as [|c' s].
      { right. split.
        - intros b v r H E. destruct H as [|c b v H1 H2 H|c b v H]; cbn in E; [discriminate| |discriminate].
          injection E as <- E. congruence.
        - exists []. rewrite advance_at. reflexivity. }
      rewrite !advance_at. rewrite <- (place_cons 92%N [c']).
      destruct (IH s (place [92%N; c'] p)) as [[b [v [rest [Hq [-> E]]]]]|[Hno [v E]]]; [cbn in Hn; lia| |].
      * left. exists (92%N :: c' :: b), (c' :: v), rest. split; [constructor; exact Hq|]. split; [reflexivity|].
        rewrite E. rewrite (place_app [92%N; c'] b). reflexivity.
      * right. split.
        -- intros b v' r H E'. destruct H as [|c b v' H1 H2 H|c b v' H]; cbn in E'.
           ++ injection E' as E'. congruence.
           ++ injection E' as <- E'. congruence.
           ++ injection E' as _ E'. exact (Hno _ _ _ H E').
        -- exists (c' :: v). rewrite E. rewrite (place_app [92%N; c'] s). reflexivity.
    + apply N.eqb_neq in E2. rewrite advance_at.
      destruct (IH s (place [c] p)) as [[b [v [rest [Hq [-> E]]]]]|[Hno [v E]]]; [cbn in Hn; lia| |].
      * left. exists (c :: b), (c :: v), rest. split; [constructor; assumption|]. split; [reflexivity|].
        rewrite E. rewrite (place_cons c b p). reflexivity.
      * right. split.
        -- intros b v' r H E'. destruct H as [|c0 b v' H1 H2 H|c0 b v' H]; cbn in E'.
           ++ injection E' as E'. congruence.
           ++ injection E' as _ E'. exact (Hno _ _ _ H E').
           ++ injection E' as E' _. congruence.
        -- exists (c :: v). rewrite E. rewrite (place_cons c s p). reflexivity.
Qed.

(** * Words *)

(** What a single character is, apart from identifiers. *)
Definition single (c : N) : option (option adv_token) :=
  if (c =? 59)%N then Some (Some ASemicolon)
  else if (c =? 124)%N then Some (Some APipe)
  else if (c =? 43)%N then Some (Some APlus)
  else if (c =? 42)%N then Some (Some AMul)
  else if (c =? 126)%N then Some (Some ATilde)
  else if (c =? 40)%N then Some (Some ALParen)
  else if (c =? 41)%N then Some (Some ARParen)
  else if (c =? 123)%N then Some (Some ALBrace)
  else if (c =? 125)%N then Some (Some ARBrace)
  else if (c =? 62)%N then Some (Some AGt)
  else if (c =? 32)%N || (c =? 10)%N || (c =? 9)%N then Some None
  else None.

Definition name_token (w : text) : adv_token :=
  if String.eqb (to_string w) "lexer" then ALexer else AIdent (to_string w).

Lemma word_shape : forall w o, adv_word w o -> exists c u, w = c :: u /\
  ((starts_name c = true /\ forallb continues_name u = true /\ o = Some (name_token w)) \/
   (c = 34%N /\ exists b v, quoted b v /\ u = b ++ [34%N] /\ o = Some (AString v)) \/
   (w = [58; 58; 61]%N /\ o = Some AOp) \/
   (single c = Some o /\ u = [])).
Proof.
  intros w o H. destruct H as [l Hl Hn| |b v Hq| | | | | | | | | | | | | |].
  - destruct l as [|c u]; [contradiction|]. destruct Hl as [Hc Hu]. exists c, u. split; [reflexivity|]. left.
    split; [exact Hc|]. split; [exact Hu|]. unfold name_token.
    destruct (String.eqb (to_string (c :: u)) "lexer") eqn:E; [apply String.eqb_eq in E; contradiction|reflexivity].
  - eexists _, _. split; [reflexivity|]. left. repeat split; reflexivity.
  - exists 34%N, (b ++ [34%N]). split; [reflexivity|]. right. left. split; [reflexivity|]. exists b, v.
    split; [exact Hq|]. split; reflexivity.
  - eexists _, _. split; [reflexivity|]. right. right. left. split; reflexivity.
  - eexists _, _. split; [reflexivity|]. right. right. right. split; reflexivity.
  - eexists _, _. split; [reflexivity|]. right. right. right. split; reflexivity.
  - eexists _, _. split; [reflexivity|]. right. right. right. split; reflexivity.
  - eexists _, _. split; [reflexivity|]. right. right. right. split; reflexivity.
  - eexists _, _. split; [reflexivity|]. right. right. right. split; reflexivity.
  - eexists _, _. split; [reflexivity|]. right. right. right. split; reflexivity.
  - eexists _, _. split; [reflexivity|]. right. right. right. split; reflexivity.
  - eexists _, _. split; [reflexivity|]. right. right. right. split; reflexivity.
  - eexists _, _. split; [reflexivity|]. right. right. right. split; reflexivity.
  - eexists _, _. split; [reflexivity|]. right. right. right. split; reflexivity.
  - eexists _, _. split; [reflexivity|]. right. right. right. split; reflexivity.
  - eexists _, _. split; [reflexivity|]. right. right. right. split; reflexivity.
  - eexists _, _. split; [reflexivity|]. right. right. right. split; reflexivity.
Qed.

Lemma single_word : forall c o, single c = Some o -> adv_word [c] o.
Proof.
  intros c o H. unfold single in H.
  repeat match type of H with
  | (if (?c =? ?k)%N then _ else _) = _ =>
      let E := fresh "E" in
      destruct (c =? k)%N eqn:E; [apply N.eqb_eq in E; subst c; injection H as <-; constructor|]
  end.
  destruct (c =? 32)%N eqn:F1; [apply N.eqb_eq in F1; subst c; injection H as <-; constructor|].
  destruct (c =? 10)%N eqn:F2; [apply N.eqb_eq in F2; subst c; injection H as <-; constructor|].
  destruct (c =? 9)%N eqn:F3; [apply N.eqb_eq in F3; subst c; injection H as <-; constructor|].
  cbn in H; discriminate.
Qed.

(** The first characters of different kinds of words differ. *)
Lemma kinds_differ : forall c, (starts_name c = true -> single c = None /\ c <> 34%N /\ c <> 58%N).
Proof.
  intros c H. unfold starts_name in H. rewrite !orb_true_iff, !andb_true_iff, !N.leb_le, N.eqb_eq in H.
  split; [|lia].
  unfold single.
  repeat match goal with |- context [(c =? ?k)%N] => replace (c =? k)%N with false by (symmetry; apply N.eqb_neq; lia) end.
  reflexivity.
Qed.

Definition lexeme (o : option adv_token) : adv_lexeme := match o with Some t => XTok t | None => XWhitespace end.

Lemma name_token_word : forall w, name_chars w -> adv_word w (Some (name_token w)).
Proof.
  intros w Hw. unfold name_token. destruct (String.eqb (to_string w) "lexer") eqn:E.
  - apply String.eqb_eq in E. pose proof (of_to_string w (name_chars_all w Hw)) as Ew. rewrite E in Ew. rewrite <- Ew.
    apply aw_lexer.
  - apply String.eqb_neq in E. apply aw_ident; assumption.
Qed.

Lemma op_prefix : forall s, {rest | s = (58 :: 58 :: 61 :: rest)%N} +
  {~ exists rest, s = (58 :: 58 :: 61 :: rest)%N}.
Proof.
  intros [|a s]; [right; intros [r E]; discriminate|].
  destruct (N.eq_dec a 58) as [->|Ha]; [|right; intros [r E]; injection E; congruence].
  destruct s as [|b s]; [right; intros [r E]; discriminate|].
  destruct (N.eq_dec b 58) as [->|Hb]; [|right; intros [r E]; injection E; congruence].
  destruct s as [|d s]; [right; intros [r E]; discriminate|].
  destruct (N.eq_dec d 61) as [->|Hd]; [|right; intros [r E]; injection E; congruence].
  left. exists s. reflexivity.
Qed.

Lemma op_match : forall (A : Type) (x y : A) s, (~ exists rest, s = (58 :: 58 :: 61 :: rest)%N) ->
  match s with (58 :: 58 :: 61 :: _)%N => x | _ => y end = y.
Proof.
  intros A x y s H. destruct s as [|a s]; [reflexivity|].
  destruct (N.eq_dec a 58) as [->|Ha].
  - destruct s as [|b s]; [reflexivity|]. destruct (N.eq_dec b 58) as [->|Hb].
    + destruct s as [|d s]; [reflexivity|]. destruct (N.eq_dec d 61) as [->|Hd].
      * exfalso. apply H. exists s. reflexivity.
      * destruct d as [|d]; [reflexivity|]. repeat (destruct d as [d|d|]; try reflexivity). contradiction Hd; reflexivity.
    + destruct b as [|b]; [reflexivity|]. repeat (destruct b as [b|b|]; try reflexivity). contradiction Hb; reflexivity.
  - destruct a as [|a]; [reflexivity|]. repeat (destruct a as [a|a|]; try reflexivity). contradiction Ha; reflexivity.
Qed.

Lemma eat_colon : forall s p, x_eat 58%N (lexer_at s p) =
  match s with
  | (58 :: 58 :: 61 :: _)%N => (XTok AOp, x_advance (x_advance (x_advance (lexer_at s p))))
  | _ => (XError (fst p) (snd p), lexer_at s p)
  end.
Proof. reflexivity. Qed.

(** The part of eat for single characters. *)
Lemma eat_single : forall c s p, starts_name c = false -> c <> 58%N -> c <> 34%N ->
  x_eat c (lexer_at (c :: s) p) =
  match single c with
  | Some o => (lexeme o, lexer_at s (place [c] p))
  | None => (XError (fst p) (snd p), lexer_at (c :: s) p)
  end.
Proof.
  intros c s p H1 H2 H3. unfold x_eat. rewrite starts_name_test, H1.
  rewrite (proj2 (N.eqb_neq c 58) H2). rewrite (proj2 (N.eqb_neq c 34) H3). unfold single. rewrite !advance_at.
  repeat match goal with
  | |- context [if ?b then _ else _] => lazymatch b with starts_name _ => fail | _ => destruct b; try reflexivity end
  end.
Qed.

Lemma eat_at : forall c s p,
  (exists w o rest, c :: s = w ++ rest /\ adv_word w o /\
     (forall w' o', adv_word w' o' -> starts w' (c :: s) -> length w' <= length w) /\
     x_eat c (lexer_at (c :: s) p) = (lexeme o, lexer_at rest (place w p))) \/
  (no_word (c :: s) /\ exists l',
     let q := if (c =? 34)%N then place (c :: s) p else p in
     x_eat c (lexer_at (c :: s) p) = (XError (fst q) (snd q), l')).
Proof.
  intros c s p. destruct (starts_name c) eqn:Hc.
  { left. destruct (kinds_differ c Hc) as [K1 [K2 K3]].
    destruct (x_ident_at (c :: s) p) as [w [rest [Ew [Hw [Hr E]]]]].
    destruct w as [|c0 w].
    { cbn in Ew. subst rest. rewrite starts_continues in Hr by exact Hc. discriminate. }
    injection Ew as <- Ew. subst s. cbn in Hw. apply andb_true_iff in Hw. destruct Hw as [_ Hw].
    exists (c :: w), (Some (name_token (c :: w))), rest. split; [reflexivity|].
    split; [apply name_token_word; split; assumption|]. split.
    - intros w' o' H' [u Eu].
      destruct (word_shape w' o' H') as [c' [u' [-> [[Hc' [Hu' _]]|[[-> _]|[[E' _]|[Hs _]]]]]]].
      + apply (prefix_of_names (c :: w) (c' :: u') rest); [cbn; rewrite starts_continues by exact Hc'; exact Hu'|exact Hr|].
        exists u. exact Eu.
      + injection Eu as Eu _. congruence.
      + injection E' as -> _. injection Eu as Eu _. congruence.
      + injection Eu as <- _. congruence.
    - unfold x_eat. rewrite starts_name_test, Hc. cbn [xl_chars lexer_at].
      change (xl_chars (lexer_at (c :: w ++ rest) p)) with (c :: w ++ rest).
      change (mkXLex (c :: w ++ rest) (fst p) (snd p)) with (lexer_at (c :: w ++ rest) p).
      rewrite E. unfold name_token, lexeme. destruct (String.eqb (to_string (c :: w)) "lexer"); reflexivity. }
  destruct (N.eq_dec c 58) as [->|H58].
  { rewrite eat_colon.
    destruct (op_prefix (58%N :: s)) as [[rest E]|Hno].
    - left. exists [58; 58; 61]%N, (Some AOp), rest. injection E as ->. split; [reflexivity|].
      split; [apply aw_op|]. split.
      + intros w' o' H' [u Eu].
        destruct (word_shape w' o' H') as [c' [u' [-> [[Hc' [Hu' _]]|[[-> _]|[[E' _]|[Hs ->]]]]]]].
        * injection Eu as <- _. discriminate.
        * discriminate.
        * rewrite E'. apply le_n.
        * cbn. lia.
      + cbv beta iota. rewrite !advance_at. rewrite <- !place_app. reflexivity.
    - right. split.
      + intros w o Hw [u Eu].
        destruct (word_shape w o Hw) as [c' [u' [-> [[Hc' [Hu' _]]|[[-> _]|[[E' _]|[Hs ->]]]]]]].
        * injection Eu as <- _. discriminate.
        * discriminate.
        * rewrite E' in Eu. apply Hno. exists u. exact Eu.
        * injection Eu as <- _. discriminate.
      + exists (lexer_at (58%N :: s) p). exact (op_match _ _ _ _ Hno). }
  destruct (N.eq_dec c 34) as [->|H34].
  { destruct (x_string_at (length s) s (place [34%N] p) (le_n _)) as [[b [v [rest [Hq [Es E]]]]]|[Hno [v E]]].
    - left. exists (34%N :: b ++ [34%N]), (Some (AString v)), rest. split; [rewrite Es; cbn; rewrite <- app_assoc; reflexivity|].
      split; [apply aw_string; exact Hq|]. split.
      + intros w' o' H' [u Eu].
        destruct (word_shape w' o' H') as [c' [u' [-> [[Hc' [Hu' _]]|[[-> [b' [v' [Hq' [-> _]]]]]|[[E' _]|[Hs ->]]]]]]].
        * injection Eu as <- _. discriminate.
        * injection Eu as Eu. rewrite Es, <- app_assoc in Eu. cbn [app] in Eu.
          destruct (quoted_unique b v Hq b' v' rest u Hq' Eu) as [-> _]. apply le_n.
        * injection E' as -> _. discriminate.
        * injection Eu as <- _. discriminate.
      + change (x_eat 34%N (lexer_at (34%N :: s) p)) with
          (let l1 := x_advance (lexer_at (34%N :: s) p) in
           let (result, l2) := x_string (xl_chars l1) l1 in
           match xl_chars l2 with
           | 34%N :: _ => (XTok (AString result), x_advance l2)
           | _ => (XError (xl_line l2) (xl_col l2), l2)
           end). cbv zeta. rewrite advance_at. change (xl_chars (lexer_at s (place [34%N] p))) with s.
        rewrite E. change (xl_chars (lexer_at (34%N :: rest) (place b (place [34%N] p)))) with (34%N :: rest). cbv iota beta.
        rewrite advance_at. rewrite <- !place_app. reflexivity.
    - right. split.
      + intros w' o' H' [u Eu].
        destruct (word_shape w' o' H') as [c' [u' [-> [[Hc' [Hu' _]]|[[-> [b' [v' [Hq' [-> _]]]]]|[[E' _]|[Hs ->]]]]]]].
        * injection Eu as <- _. discriminate.
        * injection Eu as Eu. rewrite <- app_assoc in Eu. exact (Hno _ _ _ Hq' Eu).
        * injection E' as -> _. discriminate.
        * injection Eu as <- _. discriminate.
      + exists (lexer_at [] (place (34%N :: s) p)).
        change (x_eat 34%N (lexer_at (34%N :: s) p)) with
          (let l1 := x_advance (lexer_at (34%N :: s) p) in
           let (result, l2) := x_string (xl_chars l1) l1 in
           match xl_chars l2 with
           | 34%N :: _ => (XTok (AString result), x_advance l2)
           | _ => (XError (xl_line l2) (xl_col l2), l2)
           end). cbv zeta. rewrite advance_at. change (xl_chars (lexer_at s (place [34%N] p))) with s.
        rewrite E. rewrite <- place_cons. reflexivity. }
  rewrite (eat_single c s p Hc H58 H34). destruct (single c) as [o|] eqn:Es.
  - left. exists [c], o, s. split; [reflexivity|]. split; [apply single_word; exact Es|]. split; [|reflexivity].
    intros w' o' H' [u Eu].
    destruct (word_shape w' o' H') as [c' [u' [-> [[Hc' [Hu' _]]|[[-> _]|[[E' _]|[Hs ->]]]]]]].
    + injection Eu as <- _. congruence.
    + injection Eu as Eu _. congruence.
    + injection E' as -> _. injection Eu as Eu _. congruence.
    + apply le_n.
  - right. split.
    + intros w' o' H' [u Eu].
      destruct (word_shape w' o' H') as [c' [u' [-> [[Hc' [Hu' _]]|[[-> _]|[[E' _]|[Hs ->]]]]]]].
      * injection Eu as <- _. congruence.
      * injection Eu as Eu _. congruence.
      * injection E' as -> _. injection Eu as Eu _. congruence.
      * injection Eu as <- _. congruence.
    + exists (lexer_at (c :: s) p). cbv zeta. rewrite (proj2 (N.eqb_neq c 34) H34). reflexivity.
Qed.

(** * The whole text *)

Lemma loop_ok : forall fuel s p acc, length s <= fuel -> exists tokens rest consumed,
  s = consumed ++ rest /\ adv_reads p s tokens rest /\ no_word rest /\
  x_tokenize_loop fuel (lexer_at s p) p acc = Ok (acc ++ tokens, error_place rest (place consumed p)).
Proof.
  intros fuel. induction fuel as [|fuel IH]; intros s p acc Hf.
  - destruct s as [|c s]; [|cbn in Hf; lia]. exists [], [], []. split; [reflexivity|]. split; [constructor|].
    split.
    + intros w o Hw [u Eu]. destruct (word_shape w o Hw) as [c [u' [-> _]]]. discriminate.
    + rewrite app_nil_r. reflexivity.
  - destruct s as [|c s].
    { exists [], [], []. split; [reflexivity|]. split; [constructor|]. split.
      - intros w o Hw [u Eu]. destruct (word_shape w o Hw) as [c [u' [-> _]]]. discriminate.
      - rewrite app_nil_r. reflexivity. }
    cbn [x_tokenize_loop]. cbn [xl_chars lexer_at].
    change (mkXLex (c :: s) (fst p) (snd p)) with (lexer_at (c :: s) p).
    change (xl_chars (lexer_at (c :: s) p)) with (c :: s). cbv iota.
    destruct (eat_at c s p) as [[w [o [rest [Ew [Hw [Hl E]]]]]]|[Hno [l' E]]].
    + rewrite E. change (xl_line (lexer_at rest (place w p)), xl_col (lexer_at rest (place w p)))
        with (fst (place w p), snd (place w p)). rewrite <- surjective_pairing.
      assert (Hlen : length rest <= fuel).
      { destruct (word_shape w o Hw) as [c' [u' [-> _]]]. apply (f_equal (@length N)) in Ew.
        cbn in Ew, Hf. rewrite app_length in Ew. lia. }
      destruct o as [t|]; cbn [lexeme].
      * destruct (IH rest (place w p) (acc ++ [(t, p)]) Hlen) as [tokens [rest' [consumed [Er [Hr [Hn' E']]]]]].
        exists ((t, p) :: tokens), rest', (w ++ consumed). rewrite Ew, Er. split; [apply app_assoc|].
        rewrite Ew in Hl. rewrite Er in Hl, Hr. split; [|split; [exact Hn'|]].
        -- exact (ar_word p w (Some t) (consumed ++ rest') tokens rest' Hw Hl Hr).
        -- rewrite place_app. rewrite Er in E'. rewrite E', <- app_assoc. reflexivity.
      * destruct (IH rest (place w p) acc Hlen) as [tokens [rest' [consumed [Er [Hr [Hn' E']]]]]].
        exists tokens, rest', (w ++ consumed). rewrite Ew, Er. split; [apply app_assoc|].
        rewrite Ew in Hl. rewrite Er in Hl, Hr. split; [|split; [exact Hn'|]].
        -- exact (ar_word p w None (consumed ++ rest') tokens rest' Hw Hl Hr).
        -- rewrite place_app. rewrite Er in E'. exact E'.
    + cbv zeta in E. rewrite E. exists [], (c :: s), []. split; [reflexivity|]. split; [constructor|]. split; [exact Hno|].
      rewrite app_nil_r. cbn [place error_place]. rewrite <- surjective_pairing. reflexivity.
Qed.

Theorem tokenize_ok : forall t, exists tokens rest consumed,
  t = consumed ++ rest /\ adv_reads (1, 1) t tokens rest /\ no_word rest /\
  x_tokenize t = Ok (tokens, error_place rest (place consumed (1, 1))).
Proof. intros t. exact (loop_ok (length t) t (1, 1) [] (le_n _)). Qed.

(** Reading is unique. *)
Lemma longest_unique : forall w o w' o' t t', adv_word w o -> adv_word w' o' -> w ++ t = w' ++ t' -> length w = length w' ->
  w = w' /\ o = o' /\ t = t'.
Proof.
  intros w o w' o' t t' H H' E Hl.
  assert (w = w' /\ t = t') as [<- <-].
  { revert w' H' E Hl. clear. induction w as [|c w IH]; intros [|c' w'] H' E Hl; try discriminate; [split; [reflexivity|exact E]|].
    cbn in E. injection E as -> E. cbn in Hl. injection Hl as Hl.
    assert (w = w' /\ t = t') as [-> ->]; [|split; reflexivity].
    clear H' IH. revert w' E Hl. induction w as [|a w IH]; intros [|a' w'] E Hl; try discriminate; [split; [reflexivity|exact E]|].
    cbn in E. injection E as -> E. cbn in Hl. injection Hl as Hl. destruct (IH w' E Hl) as [-> ->]. split; reflexivity. }
  split; [reflexivity|]. split; [|reflexivity].
  destruct (word_shape w o H) as [c [u [-> [[Hc [Hu ->]]|[[-> [b [v [Hq [-> ->]]]]]|[[E1 ->]|[Hs ->]]]]]]];
  destruct (word_shape _ o' H') as [c' [u' [E' [[Hc' [Hu' ->]]|[[-> [b' [v' [Hq' [-> ->]]]]]|[[E1' ->]|[Hs' ->]]]]]]].
  - reflexivity.
  - injection E' as -> _. discriminate.
  - rewrite E1' in E'. injection E1' as -> _. discriminate.
  - injection E' as -> _. destruct (kinds_differ _ Hc) as [K _]. congruence.
  - injection E' as <- _. discriminate.
  - injection E' as E'. destruct (quoted_unique b v Hq b' v' [] [] Hq' E') as [_ ->]. reflexivity.
  - discriminate.
  - injection E' as <- _. discriminate.
  - injection E1 as -> _. injection E' as <- _. discriminate.
  - injection E1 as -> _. discriminate.
  - reflexivity.
  - injection E1 as -> _. injection E' as <- _. discriminate.
  - injection E' as <- _. destruct (kinds_differ _ Hc') as [K _]. congruence.
  - injection E' as -> _. discriminate.
  - discriminate.
  - injection E' as <-. congruence.
Qed.

Lemma reads_unique : forall p t tokens rest, adv_reads p t tokens rest -> no_word rest ->
  forall tokens' rest', adv_reads p t tokens' rest' -> no_word rest' -> tokens = tokens' /\ rest = rest'.
Proof.
  intros p t tokens rest H. induction H as [p t|p w o t tokens rest Hw Hl H IH]; intros Hn tokens' rest' H' Hn'.
  - inversion H' as [|p' w' o' t' tokens1 rest1 Hw' Hl' H1]; subst; [split; reflexivity|].
    exfalso. apply (Hn w' o' Hw'). exists t'. reflexivity.
  - remember (w ++ t) as s eqn:Es. destruct H' as [p' s|p' w' o' t' tokens1 rest1 Hw' Hl' H1].
    + exfalso. apply (Hn' w o Hw). exists t. exact Es.
    + assert (El : length w = length w').
      { apply Nat.le_antisymm.
        - apply (Hl' w o Hw). exists t. exact Es.
        - apply (Hl w' o' Hw'). exists t'. reflexivity. }
      destruct (longest_unique w o w' o' t t' Hw Hw' (eq_sym Es) El) as [<- [<- <-]].
      destruct (IH Hn tokens1 rest1 H1 Hn') as [<- <-]. split; reflexivity.
Qed.

Lemma no_word_nil : no_word [].
Proof. intros w o Hw [u Eu]. destruct (word_shape w o Hw) as [c [u' [-> _]]]. discriminate. Qed.
