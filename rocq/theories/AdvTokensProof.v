(** A string of tokens is written by at most one file of the rich notation. *)

From Coq Require Import String List Arith NArith Bool Lia.
From Verif Require Import Base SpecLoad SpecAdv.
Import ListNotations.

Definition ends_fragment (t : adv_token) : bool :=
  match t with ATilde | AGt | APipe | ASemicolon => true | _ => false end.
Definition after (p : adv_token -> bool) (l : list adv_token) : Prop :=
  match l with t :: _ => p t = true | [] => False end.

Lemma frag_cancel : forall f f' r r', after ends_fragment r -> after ends_fragment r' ->
  frag_tokens f ++ r = frag_tokens f' ++ r' -> f = f' /\ r = r'.
Proof.
  intros f f' r r' Hr Hr' E.
  destruct f as [x [| |]|s|g s], f' as [x' [| |]|s'|g' s']; cbn [frag_tokens app] in E;
    try discriminate E; try (injection E; intros; subst; split; reflexivity);
    injection E; intros; subst; cbn in Hr, Hr'; discriminate.
Qed.

Definition ends_alt (t : adv_token) : bool := match t with APipe | ASemicolon => true | _ => false end.

Lemma joined_cons : forall sep a b l, joined sep (a :: b :: l) = a ++ sep :: joined sep (b :: l).
Proof. reflexivity. Qed.

Definition ends_frags (t : adv_token) : bool := match t with AGt | APipe | ASemicolon => true | _ => false end.

Lemma frags_cancel : forall l l' r r', l <> [] -> l' <> [] -> after ends_frags r -> after ends_frags r' ->
  joined ATilde (map frag_tokens l) ++ r = joined ATilde (map frag_tokens l') ++ r' -> l = l' /\ r = r'.
Proof.
  intros l. induction l as [|f l IH]; intros [|f' l'] r r' Hl Hl' Hr Hr' E; try (contradiction Hl; reflexivity);
    try (contradiction Hl'; reflexivity).
  assert (W : forall q, after ends_frags q -> after ends_fragment q)
    by (intros [|[] q] Hq; cbn in *; congruence).
  destruct l as [|g l], l' as [|g' l']; cbn [map] in E; rewrite ?joined_cons in E; rewrite <- ?app_assoc in E;
    cbn [app] in E; apply frag_cancel in E; try reflexivity; try (apply W; assumption); destruct E as [-> E].
  - split; [reflexivity|exact E].
  - subst r. discriminate Hr.
  - subst r'. discriminate Hr'.
  - injection E as E. destruct (IH (g' :: l') r r') as [E1 E2]; try discriminate; try assumption.
    rewrite E1. split; [reflexivity|exact E2].
Qed.

Lemma alt_cancel : forall a a' r r', fst a <> [] -> fst a' <> [] -> after ends_alt r -> after ends_alt r' ->
  alt_tokens a ++ r = alt_tokens a' ++ r' -> a = a' /\ r = r'.
Proof.
  intros [l x] [l' x'] r r' Hl Hl' Hr Hr' E. unfold alt_tokens in E. cbn [fst snd] in *. rewrite <- !app_assoc in E.
  assert (W : forall y q, after ends_alt q -> after ends_frags (action_tokens y ++ q))
    by (intros [y|] [|[] q] Hq; cbn in *; congruence).
  apply frags_cancel in E; try assumption; try (apply W; assumption). destruct E as [-> E].
  destruct x as [x|], x' as [x'|]; cbn [action_tokens app] in E.
  - injection E as -> ->. split; reflexivity.
  - subst r'. discriminate Hr'.
  - subst r. discriminate Hr.
  - subst r'. split; reflexivity.
Qed.

Lemma alts_cancel : forall l l' r r', l <> [] -> l' <> [] -> Forall (fun a => fst a <> []) l -> Forall (fun a => fst a <> []) l' ->
  joined APipe (map alt_tokens l) ++ ASemicolon :: r = joined APipe (map alt_tokens l') ++ ASemicolon :: r' ->
  l = l' /\ r = r'.
Proof.
  intros l. induction l as [|a l IH]; intros [|a' l'] r r' Hl Hl' Fl Fl' E; try (contradiction Hl; reflexivity);
    try (contradiction Hl'; reflexivity).
  inversion Fl as [|? ? Ha Fl2]; subst. inversion Fl' as [|? ? Ha' Fl2']; subst.
  destruct l as [|b l], l' as [|b' l']; cbn [map] in E; rewrite ?joined_cons in E; rewrite <- ?app_assoc in E;
    cbn [app] in E; apply alt_cancel in E; try reflexivity; try assumption; destruct E as [-> E].
  - injection E as ->. split; reflexivity.
  - discriminate E.
  - discriminate E.
  - injection E as E. destruct (IH (b' :: l') r r') as [E1 E2]; try discriminate; try assumption.
    rewrite E1. split; [reflexivity|exact E2].
Qed.

Lemma alts_begin : forall l, l <> [] -> Forall (fun a => fst a <> []) l -> exists t q,
  joined APipe (map alt_tokens l) = t :: q /\ t <> AGt /\ t <> ASemicolon.
Proof.
  intros [|[[|f fs] x] l] Hl F; [contradiction Hl; reflexivity|inversion F as [|? ? Hf]; contradiction Hf; reflexivity|]. clear.
  assert (H : exists t q, alt_tokens (f :: fs, x) = t :: q /\ t <> AGt /\ t <> ASemicolon).
  { unfold alt_tokens. cbn [fst map]. destruct fs as [|f2 fs]; cbn [map];
      [|rewrite joined_cons]; destruct f as [y [| |]|s|g s]; cbn;
      eexists _, _; (split; [reflexivity|split; discriminate]). }
  destruct H as [t [q [E H]]]. destruct l as [|b l]; cbn [map]; [|rewrite joined_cons].
  - exists t, q. split; [exact E|exact H].
  - rewrite E. cbn [app]. eexists _, _. split; [reflexivity|exact H].
Qed.

Lemma statement_cancel : forall s s' r r', ok_adv_statement s -> ok_adv_statement s' ->
  adv_statement_tokens s ++ r = adv_statement_tokens s' ++ r' -> s = s' /\ r = r'.
Proof.
  assert (X : forall l x l' alts r r', alts <> [] -> Forall (fun a => fst a <> []) alts ->
    adv_statement_tokens (SEmpty l x) ++ r <> adv_statement_tokens (SAlts l' alts) ++ r').
  { intros l x l' alts r r' H F E. destruct (alts_begin alts H F) as [t [q [Eq [H1 H2]]]].
    cbn [adv_statement_tokens app] in E. rewrite Eq in E. cbn [app] in E.
    destruct x; cbn in E; injection E; intros; congruence. }
  intros [l x|l alts] [l' x'|l' alts'] r r' H H' E.
  - cbn [adv_statement_tokens app] in E. injection E as -> E. rewrite <- !app_assoc in E. cbn [app] in E.
    destruct x as [x|], x' as [x'|]; cbn in E; try discriminate; injection E; intros; subst; split; reflexivity.
  - exfalso. destruct H'. apply (X _ _ _ _ _ _ H0 H1 E).
  - exfalso. destruct H. symmetry in E. apply (X _ _ _ _ _ _ H H0 E).
  - cbn [adv_statement_tokens app] in E. injection E as -> E. rewrite <- !app_assoc in E. cbn [app] in E.
    destruct H, H'. apply alts_cancel in E; try assumption. destruct E as [-> ->]. split; reflexivity.
Qed.

Lemma statement_begin : forall s, exists l q, adv_statement_tokens s = AIdent l :: q.
Proof. intros [l x|l alts]; cbn; eexists _, _; reflexivity. Qed.

Lemma statements_cancel : forall l l' r r', Forall ok_adv_statement l -> Forall ok_adv_statement l' ->
  flat_map adv_statement_tokens l ++ ARBrace :: r = flat_map adv_statement_tokens l' ++ ARBrace :: r' -> l = l' /\ r = r'.
Proof.
  intros l. induction l as [|s l IH]; intros [|s' l'] r r' F F' E; cbn [flat_map app] in E.
  - injection E as ->. split; reflexivity.
  - destruct (statement_begin s') as [x [q Eq]]. rewrite Eq in E. discriminate E.
  - destruct (statement_begin s) as [x [q Eq]]. rewrite Eq in E. discriminate E.
  - inversion F; subst. inversion F'; subst. rewrite <- !app_assoc in E.
    apply statement_cancel in E; try assumption. destruct E as [-> E]. apply IH in E; try assumption.
    destruct E as [-> ->]. split; reflexivity.
Qed.

Lemma declaration_cancel : forall d d' r r', ok_declaration d -> ok_declaration d' ->
  declaration_tokens d ++ r = declaration_tokens d' ++ r' -> d = d' /\ r = r'.
Proof.
  intros [s|l] [s'|l'] r r' H H' E; cbn [declaration_tokens] in E.
  - apply statement_cancel in E; try assumption. destruct E as [-> ->]. split; reflexivity.
  - destruct (statement_begin s) as [x [q Eq]]. rewrite Eq in E. discriminate E.
  - destruct (statement_begin s') as [x [q Eq]]. rewrite Eq in E. discriminate E.
  - cbn [app] in E. injection E as E. rewrite <- !app_assoc in E. cbn [app] in E. destruct H, H'.
    apply statements_cancel in E; try assumption. destruct E as [-> ->]. split; reflexivity.
Qed.

Lemma files_cancel : forall f f', Forall ok_declaration f -> Forall ok_declaration f' ->
  adv_file_tokens f = adv_file_tokens f' -> f = f'.
Proof.
  assert (X : forall d l, declaration_tokens d ++ l <> []).
  { intros [s|q] l; cbn; [destruct (statement_begin s) as [x [q Eq]]; rewrite Eq|]; discriminate. }
  intros f. induction f as [|d f IH]; intros [|d' f'] F F' E; unfold adv_file_tokens in E; cbn [flat_map] in E.
  - reflexivity.
  - exfalso. symmetry in E. apply (X _ _ E).
  - exfalso. apply (X _ _ E).
  - inversion F; subst. inversion F'; subst. apply declaration_cancel in E; try assumption. destruct E as [-> E].
    rewrite (IH f'); try assumption. reflexivity.
Qed.
