(** Specification: the rich BNF notation, its words, its rules and the grammar they describe.
    A text is a list of Unicode scalar values. *)

From Coq Require Import String Ascii List Arith NArith Bool.
From Verif Require Import Spec SpecLoad SpecRegex.
Import ListNotations.

Definition text := list N.

(** * Words *)

(** [a-zA-Z_] *)
Definition starts_name (c : N) : bool :=
  ((97 <=? c) && (c <=? 122) || (65 <=? c) && (c <=? 90) || (c =? 95))%N.
(** [a-zA-Z_0-9] *)
Definition continues_name (c : N) : bool := (starts_name c || ((48 <=? c) && (c <=? 57)))%N.

Definition name_chars (l : text) : Prop :=
  match l with
  | [] => False
  | c :: l' => starts_name c = true /\ forallb continues_name l' = true
  end.

(** The string of ASCII characters. *)
Definition to_string (l : text) : string := string_of_list_ascii (map ascii_of_N l).
Definition of_string (s : string) : text := map N_of_ascii (list_ascii_of_string s).

(** What is between quotes, and the characters it stands for. *)
Inductive quoted : text -> text -> Prop :=
| q_end : quoted [] []
| q_char : forall c b v, c <> 34%N -> c <> 92%N -> quoted b v -> quoted (c :: b) (c :: v)
| q_escape : forall c b v, quoted b v -> quoted (92%N :: c :: b) (c :: v).

Inductive adv_token :=
| AIdent (name : string)
| AOp
| ASemicolon
| APipe
| APlus
| AMul
| AString (s : text)
| ALBrace
| ARBrace
| ALParen
| ARParen
| AGt
| ALexer
| ATilde.

Inductive adv_word : text -> option adv_token -> Prop :=
| aw_ident : forall l, name_chars l -> to_string l <> "lexer"%string -> adv_word l (Some (AIdent (to_string l)))
| aw_lexer : adv_word (of_string "lexer") (Some ALexer)
| aw_string : forall b v, quoted b v -> adv_word (34%N :: b ++ [34%N]) (Some (AString v))
| aw_op : adv_word (of_string "::=") (Some AOp)
| aw_semicolon : adv_word (of_string ";") (Some ASemicolon)
| aw_pipe : adv_word (of_string "|") (Some APipe)
| aw_plus : adv_word (of_string "+") (Some APlus)
| aw_mul : adv_word (of_string "*") (Some AMul)
| aw_tilde : adv_word (of_string "~") (Some ATilde)
| aw_lparen : adv_word (of_string "(") (Some ALParen)
| aw_rparen : adv_word (of_string ")") (Some ARParen)
| aw_lbrace : adv_word (of_string "{") (Some ALBrace)
| aw_rbrace : adv_word (of_string "}") (Some ARBrace)
| aw_gt : adv_word (of_string ">") (Some AGt)
| aw_space : adv_word [32%N] None
| aw_newline : adv_word [10%N] None
| aw_tab : adv_word [9%N] None.

Definition starts (w t : text) : Prop := exists rest, t = w ++ rest.

(** The line and column after a text, from those before it. *)
Fixpoint place (t : text) (p : nat * nat) : nat * nat :=
  match t with
  | [] => p
  | c :: t' => place t' (if (c =? 10)%N then (fst p + 1, 1) else (fst p, snd p + 1))
  end.

(** [adv_reads p t tokens rest]: the text [t], which begins at line and column [p], is read up to
    [rest], taking each time the longest word.  A token has the line and column where it begins. *)
Inductive adv_reads : nat * nat -> text -> list (adv_token * (nat * nat)) -> text -> Prop :=
| ar_none : forall p t, adv_reads p t [] t
| ar_word : forall p w o t tokens rest, adv_word w o ->
    (forall w' o', adv_word w' o' -> starts w' (w ++ t) -> length w' <= length w) ->
    adv_reads (place w p) t tokens rest ->
    adv_reads p (w ++ t) (match o with Some x => (x, p) :: tokens | None => tokens end) rest.

(** No word begins a text. *)
Definition no_word (s : text) : Prop := forall w o, adv_word w o -> ~ starts w s.

(** [reads t tokens rest]: of the text [t], as much as possible is read, up to [rest]. *)
Definition reads (t : text) (tokens : list (adv_token * (nat * nat))) (rest : text) : Prop :=
  adv_reads (1, 1) t tokens rest /\ no_word rest.

(** Where the error is in the text, if [rest] at line and column [p] cannot be read: at the end of the
    text if a string is not closed, else at the beginning of [rest]. *)
Definition error_place (rest : text) (p : nat * nat) : option (nat * nat) :=
  match rest with
  | [] => None
  | c :: _ => Some (if (c =? 34)%N then place rest p else p)
  end.

(** * Files *)

(** A name, maybe repeated; a string; or a function applied to a string. *)
Inductive adv_fragment :=
| FName (x : string) (k : repetition)
| FString (s : text)
| FCall (f : string) (s : text).

(** Fragments and an action. *)
Definition adv_alternative : Type := list adv_fragment * option string.

(** A left-hand side, with nothing but an action, or with alternatives. *)
Inductive adv_statement :=
| SEmpty (l : string) (action : option string)
| SAlts (l : string) (alts : list adv_alternative).

(** A file is made of statements and lexer blocks. *)
Inductive declaration :=
| DStatement (s : adv_statement)
| DLexer (l : list adv_statement).

Definition frag_tokens (f : adv_fragment) : list adv_token :=
  match f with
  | FName x Once => [AIdent x]
  | FName x ZeroOrMore => [AIdent x; AMul]
  | FName x OneOrMore => [AIdent x; APlus]
  | FString s => [AString s]
  | FCall f s => [AIdent f; ALParen; AString s; ARParen]
  end.
Definition action_tokens (a : option string) : list adv_token :=
  match a with Some x => [AGt; AIdent x] | None => [] end.
Fixpoint joined (sep : adv_token) (l : list (list adv_token)) : list adv_token :=
  match l with
  | [] => []
  | [a] => a
  | a :: l' => a ++ sep :: joined sep l'
  end.
Definition alt_tokens (a : adv_alternative) : list adv_token :=
  joined ATilde (map frag_tokens (fst a)) ++ action_tokens (snd a).
Definition adv_statement_tokens (s : adv_statement) : list adv_token :=
  match s with
  | SEmpty l a => AIdent l :: AOp :: action_tokens a ++ [ASemicolon]
  | SAlts l alts => AIdent l :: AOp :: joined APipe (map alt_tokens alts) ++ [ASemicolon]
  end.
Definition declaration_tokens (d : declaration) : list adv_token :=
  match d with
  | DStatement s => adv_statement_tokens s
  | DLexer l => ALexer :: ALBrace :: flat_map adv_statement_tokens l ++ [ARBrace]
  end.
Definition adv_file_tokens (f : list declaration) : list adv_token := flat_map declaration_tokens f.

Definition ok_adv_statement (s : adv_statement) : Prop :=
  match s with
  | SEmpty _ _ => True
  | SAlts _ alts => alts <> [] /\ Forall (fun a => fst a <> []) alts
  end.
Definition ok_declaration (d : declaration) : Prop :=
  match d with
  | DStatement s => ok_adv_statement s
  | DLexer l => l <> [] /\ Forall ok_adv_statement l
  end.
(** Nothing is left out. *)
Definition adv_file (f : list declaration) : Prop := f <> [] /\ Forall ok_declaration f.

(** * Rules *)

(** A left-hand side, a right-hand side and an action. *)
Definition adv_rule : Type := string * list adv_fragment * option string.

Definition adv_statement_rules (s : adv_statement) : list adv_rule :=
  match s with
  | SEmpty l a => [(l, [], a)]
  | SAlts l alts => map (fun p => (l, fst p, snd p)) alts
  end.
Definition parser_rules (f : list declaration) : list adv_rule :=
  flat_map (fun d => match d with DStatement s => adv_statement_rules s | DLexer _ => [] end) f.
Definition lexer_rules (f : list declaration) : list adv_rule :=
  flat_map (fun d => match d with DStatement _ => [] | DLexer l => flat_map adv_statement_rules l end) f.

(** The rules of the parser come first. *)
Definition adv_file_rules (f : list declaration) : list adv_rule := parser_rules f ++ lexer_rules f.

Definition is_block (d : declaration) : bool := match d with DLexer _ => true | _ => false end.

(** A statement comes first, and there is at most one lexer block. *)
Definition one_lexer (f : list declaration) : Prop :=
  match f with
  | DStatement _ :: f' => length (filter is_block f') <= 1
  | _ => False
  end.

(** The names in rules. *)
Definition adv_named (rules : list adv_rule) (x : string) : Prop :=
  exists l fs a, In (l, fs, a) rules /\ (x = l \/ exists k, In (FName x k) fs).

Definition has_fragment (rules : list adv_rule) (f : adv_fragment) : Prop :=
  exists l fs a, In (l, fs, a) rules /\ In f fs.

(** * The grammar *)

Section Written.
(** The symbols of names, of the characters in strings and of the tokens of regular expressions;
    and the parser of regular expressions. *)
Context (sym : string -> nat) (of_char : N -> nat -> Prop) (of_token : token -> nat -> Prop) (rx : text -> option hir).

(** The strings of symbols that a fragment stands for. *)
Inductive stands_for : adv_fragment -> list nat -> Prop :=
| sf_once : forall x, stands_for (FName x Once) [sym x]
| sf_zero : forall x n, stands_for (FName x ZeroOrMore) (repeat (sym x) n)
| sf_one : forall x n, 1 <= n -> stands_for (FName x OneOrMore) (repeat (sym x) n)
| sf_string : forall s w, Forall2 of_char s w -> stands_for (FString s) w
| sf_call : forall f s h ts w, rx s = Some h -> matches h ts -> Forall2 of_token ts w -> stands_for (FCall f s) w.

Inductive stand_for : list adv_fragment -> list nat -> Prop :=
| sfs_nil : stand_for [] []
| sfs_cons : forall f fs u w, stands_for f u -> stand_for fs w -> stand_for (f :: fs) (u ++ w).

(** The productions that rules describe. *)
Definition described (rules : list adv_rule) : productions :=
  fun A r => exists l fs a, In (l, fs, a) rules /\ A = sym l /\ stand_for fs r.
End Written.

(** Tokens that some file begins with. *)
Definition viable (ts : list adv_token) : Prop := exists f rest, adv_file f /\ adv_file_tokens f = ts ++ rest.
