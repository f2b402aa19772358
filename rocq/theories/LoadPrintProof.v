(** Proofs about printed grammars: how they are read back. *)

From Coq Require Import List Arith Ascii Bool String Lia.
From Verif Require Import Base Spec SymbolModel CfgModel View SpecLoad LoadModel LoadLexProof.
Import ListNotations.
Local Open Scope string_scope.

(** * Printed lines *)

Fixpoint spaced (l : list string) : string :=
  match l with
  | [] => ""
  | n :: l' => append n (String " " (spaced l'))
  end.
Fixpoint joined (l : list string) : string :=
  match l with
  | [] => ""
  | [n] => n
  | n :: l' => append n (String " " (joined l'))
  end.

Lemma joined_cons : forall n m l, joined (n :: m :: l) = append n (String " " (joined (m :: l))).
Proof. reflexivity. Qed.

Lemma spaced_fold : forall (name : nat -> string) l acc,
  fold_left (fun acc s => append acc (append (name s) " ")) l acc = append acc (spaced (map name l)).
Proof.
  intros name. induction l as [|s l IH]; intros acc; simpl.
  - rewrite append_nil_r. reflexivity.
  - rewrite IH. rewrite !append_assoc. reflexivity.
Qed.

Lemma not_whitespace : forall c, continues_identifier c = true -> is_whitespace c = false.
Proof. intros [[] [] [] [] [] [] [] []]; vm_compute; intros H; auto; discriminate. Qed.

Lemma starts_continues : forall c, starts_identifier c = true -> continues_identifier c = true.
Proof. intros c H. unfold continues_identifier. rewrite H. reflexivity. Qed.

Lemma identifier_chars : forall n, identifier n -> n <> "" /\ all_chars continues_identifier n = true.
Proof.
  intros [|c n] H; [contradiction|]. destruct H as [H1 H2]. split; [discriminate|]. simpl. rewrite (starts_continues c H1). auto.
Qed.

Lemma trim_end_word : forall n s, all_chars continues_identifier n = true -> trim_end (append n s) = append n (trim_end s).
Proof.
  induction n as [|c n IH]; intros s H; [reflexivity|]. simpl in H. apply andb_prop in H. destruct H as [H1 H2].
  cbn [append trim_end all_whitespace]. rewrite (not_whitespace c H1). simpl. rewrite IH; auto.
Qed.

Lemma all_whitespace_word : forall n s, identifier n -> all_whitespace (append n s) = false.
Proof.
  intros [|c n] s H; [contradiction|]. destruct H as [H1 _]. cbn [append all_whitespace].
  rewrite (not_whitespace c (starts_continues c H1)). reflexivity.
Qed.

Lemma trim_spaced : forall l, Forall identifier l -> trim (spaced l) = joined l.
Proof.
  intros l HF. assert (HS : trim_start (spaced l) = spaced l).
  { destruct l as [|n l]; [reflexivity|]. apply Forall_inv in HF. destruct n as [|c n]; [contradiction|]. destruct HF as [H1 _].
    cbn [spaced append trim_start]. rewrite (not_whitespace c (starts_continues c H1)). reflexivity. }
  unfold trim. rewrite HS. clear HS. induction HF as [|n l Hn HF IH]; [reflexivity|].
  destruct (identifier_chars n Hn) as [_ HC]. cbn [spaced]. rewrite trim_end_word by auto. destruct l as [|m l].
  - simpl. apply append_nil_r.
  - rewrite joined_cons. f_equal. inversion HF; subst.
    assert (HW : all_whitespace (spaced (m :: l)) = false) by (cbn [spaced]; apply all_whitespace_word; auto).
    cbn [trim_end all_whitespace]. change (is_whitespace " ") with true. cbn [andb]. rewrite HW. rewrite IH. reflexivity.
Qed.

(** * Reading *)

Lemma reads_ident : forall n rest ts r, identifier n -> stops continues_identifier rest -> reads rest ts r ->
  reads (append n rest) (BIdent n :: ts) r.
Proof.
  intros n rest ts r Hn HS HR. apply (reads_word n (Some (BIdent n))); auto; [constructor; auto|].
  intros w' t' Hw' Hb. destruct n as [|c u]; [contradiction|]. destruct Hn as [H1 H2].
  destruct (word_ident c (append u rest) w' t' Hw' Hb H1) as [v [-> [_ [Hv [q Hq]]]]].
  simpl. apply le_n_S. eapply prefix_stops; [|exact Hv|exact HS]. symmetry. exact Hq.
Qed.

Lemma not_ident_first : forall c s w t, word w t -> begins w (String c s) -> starts_identifier c = false ->
  exists u, w = String c u /\ forall x, t <> Some (BIdent x).
Proof.
  intros c s w t Hw [r E] HC. destruct w as [|c' u]; [exfalso; exact (word_nonempty _ _ Hw eq_refl)|].
  simpl in E. injection E as <- E. exists u. split; auto. intros x ->. inversion Hw; subst.
  match goal with HI : identifier _ |- _ => destruct HI as [HI _]; congruence end.
Qed.

Lemma reads_char : forall c t rest ts r, word (one_char c) t -> starts_identifier c = false -> c <> ":"%char -> reads rest ts r ->
  reads (String c rest) (match t with Some x => x :: ts | None => ts end) r.
Proof.
  intros c t rest ts r Hw HC HN HR. change (String c rest) with (append (one_char c) rest). apply reads_word; auto.
  intros w' t' Hw' Hb. destruct (not_ident_first c rest w' t' Hw' Hb HC) as [u [-> Hx]].
  inversion Hw'; subst; simpl; auto; [exfalso; eapply Hx; reflexivity | congruence].
Qed.

Lemma reads_op : forall rest ts r, reads rest ts r -> reads (append "::=" rest) (BOp :: ts) r.
Proof.
  intros rest ts r HR. apply (reads_word "::=" (Some BOp)); auto; [constructor|].
  intros w' t' Hw' Hb. destruct (not_ident_first ":" (append ":=" rest) w' t' Hw' Hb eq_refl) as [u [-> Hx]].
  inversion Hw'; subst; simpl; auto. exfalso. eapply Hx. reflexivity.
Qed.

Lemma reads_joined : forall l rest ts r, Forall identifier l -> stops continues_identifier rest -> reads rest ts r ->
  reads (append (joined l) rest) (map BIdent l ++ ts)%list r.
Proof.
  induction l as [|n l IH]; intros rest ts r HF HS HR; [exact HR|]. inversion HF; subst. destruct l as [|m l].
  - cbn [joined map app]. apply reads_ident; auto.
  - rewrite joined_cons. rewrite append_assoc. cbn [append]. cbn [map app].
    apply reads_ident; auto; [reflexivity|]. apply (reads_char " " None); [constructor | reflexivity | discriminate|].
    apply IH; auto.
Qed.

(** The tokens of a printed rule. *)
Definition printed_tokens (name : nat -> string) (r : rule) : list bnf_token :=
  BIdent (name (lhs r)) :: BOp :: map (fun s => BIdent (name s)) (rhs r) ++ [BSemicolon].

Definition named_rule (name : nat -> string) (r : rule) : Prop :=
  identifier (name (lhs r)) /\ Forall (fun s => identifier (name s)) (rhs r).

Definition name_of (g : cfg) (s : nat) : string := names_name_of (names (src g)) s.

Lemma reads_line : forall g r rest ts q, named_rule (name_of g) r -> reads rest ts q ->
  reads (append (bnf_line g r) rest) (printed_tokens (name_of g) r ++ ts)%list q.
Proof.
  intros g r rest ts q [H1 H2] HR. unfold bnf_line. rewrite spaced_fold. cbn [append].
  fold (name_of g). change (names_name_of (names (src g))) with (name_of g).
  rewrite trim_spaced by (rewrite Forall_map; auto). rewrite !append_assoc. cbn [append].
  unfold printed_tokens. cbn [app].
  apply reads_ident; auto; [reflexivity|]. apply (reads_char " " None); [constructor | reflexivity | discriminate|].
  apply reads_op. apply (reads_char " " None); [constructor | reflexivity | discriminate|].
  rewrite !append_assoc. cbn [append].
  rewrite <- app_assoc. rewrite <- (map_map (name_of g) BIdent). apply reads_joined; [rewrite Forall_map; auto | reflexivity|].
  apply (reads_char ";" (Some BSemicolon)); [constructor | reflexivity | discriminate|].
  apply (reads_char newline_char None); [constructor | reflexivity | discriminate|]. exact HR.
Qed.

Lemma to_bnf_eq : forall g, to_bnf g = fold_right (fun r s => append (bnf_line g r) s) "" (rules g).
Proof.
  intros g. unfold to_bnf.
  assert (H : forall l acc, fold_left (fun acc r => append acc (bnf_line g r)) l acc =
    append acc (fold_right (fun r s => append (bnf_line g r) s) "" l)).
  { induction l as [|r l IH]; intros acc; simpl; [rewrite append_nil_r; auto|]. rewrite IH, append_assoc. reflexivity. }
  apply H.
Qed.

Lemma reads_bnf : forall g, Forall (named_rule (name_of g)) (rules g) ->
  reads (to_bnf g) (flat_map (printed_tokens (name_of g)) (rules g)) "".
Proof.
  intros g H. rewrite to_bnf_eq. induction H as [|r l Hr H IH]; [constructor|]. cbn [fold_right flat_map].
  apply reads_line; auto.
Qed.

(** * The printed file *)

Definition printed_statement (name : nat -> string) (r : rule) : statement :=
  (name (lhs r), match rhs r with [] => [] | l => [map (fun s => Some (name s, Once)) l] end).
Definition printed_rule (name : nat -> string) (r : rule) : bnf_rule :=
  (name (lhs r), map (fun s => (name s, Once)) (rhs r)).

Lemma flat_map_single_map : forall {A B : Type} (f : A -> B) l, flat_map (fun a => [f a]) l = map f l.
Proof. induction l; simpl; congruence. Qed.

Lemma printed_statement_tokens : forall name r, statement_tokens (printed_statement name r) = printed_tokens name r.
Proof.
  intros name [l rs h]. unfold statement_tokens, printed_statement, printed_tokens. cbn [fst snd lhs rhs].
  destruct rs as [|s rs]; [reflexivity|]. f_equal. f_equal. f_equal. cbn [alternatives_tokens]. unfold alternative_tokens.
  rewrite flat_map_concat_map, map_map. cbn [fragment_tokens]. rewrite <- flat_map_concat_map.
  apply (flat_map_single_map (fun x => BIdent (name x))).
Qed.

Lemma printed_statement_rules : forall name r, statement_rules (printed_statement name r) = [printed_rule name r].
Proof.
  intros name [l rs h]. unfold statement_rules, printed_statement, printed_rule. cbn [fst snd lhs rhs].
  destruct rs as [|s rs]; [reflexivity|]. cbn [map]. f_equal. f_equal. unfold fragments. cbn [flat_map]. cbn [app]. f_equal.
  rewrite flat_map_concat_map, map_map. cbn [fragment_tokens]. rewrite <- flat_map_concat_map.
  apply (flat_map_single_map (fun x => (name x, Once))).
Qed.

Lemma printed_file : forall name l, l <> [] -> let f := map (printed_statement name) l in
  valid_file f /\ file_tokens f = flat_map (printed_tokens name) l /\ file_rules f = map (printed_rule name) l.
Proof.
  intros name l HN. cbn zeta. split; [split; [destruct l; [congruence | discriminate]|]|split].
  - rewrite Forall_map. apply Forall_forall. intros r _. simpl. destruct (rhs r); constructor; [discriminate | constructor].
  - unfold file_tokens. rewrite flat_map_concat_map, map_map, <- flat_map_concat_map. clear.
    induction l as [|r l IH]; [reflexivity|]. cbn [flat_map]. rewrite printed_statement_tokens, IH. reflexivity.
  - unfold file_rules. rewrite flat_map_concat_map, map_map, <- flat_map_concat_map. clear.
    induction l as [|r l IH]; [reflexivity|]. cbn [flat_map map]. rewrite printed_statement_rules, IH. reflexivity.
Qed.
