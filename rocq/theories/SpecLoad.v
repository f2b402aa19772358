(** Specification: the BNF notation, its words, its rules and the grammar they describe. *)

From Coq Require Import List Arith Ascii String Bool.
From Verif Require Import Spec.
Import ListNotations.

(** * Words *)

Definition between_chars (lo hi c : ascii) : bool :=
  (nat_of_ascii lo <=? nat_of_ascii c) && (nat_of_ascii c <=? nat_of_ascii hi).

(** [a-zA-Z_] *)
Definition starts_identifier (c : ascii) : bool :=
  between_chars "a" "z" c || between_chars "A" "Z" c || Ascii.eqb c "_".

(** [a-zA-Z_0-9] *)
Definition continues_identifier (c : ascii) : bool := starts_identifier c || between_chars "0" "9" c.

Fixpoint all_chars (p : ascii -> bool) (s : string) : bool :=
  match s with
  | EmptyString => true
  | String c s' => p c && all_chars p s'
  end.

Definition identifier (s : string) : Prop :=
  match s with
  | EmptyString => False
  | String c s' => starts_identifier c = true /\ all_chars continues_identifier s' = true
  end.

Inductive bnf_token :=
| BIdent (name : string)
| BOp
| BSemicolon
| BPipe
| BPlus
| BMul
| BLParen
| BRParen.

Definition newline_char : ascii := ascii_of_nat 10.
Definition tab_char : ascii := ascii_of_nat 9.
Definition one_char (c : ascii) : string := String c EmptyString.

(** The words of a text; white space is a word without a token. *)
Inductive word : string -> option bnf_token -> Prop :=
| w_ident : forall s, identifier s -> word s (Some (BIdent s))
| w_op : word "::=" (Some BOp)
| w_semicolon : word ";" (Some BSemicolon)
| w_pipe : word "|" (Some BPipe)
| w_plus : word "+" (Some BPlus)
| w_mul : word "*" (Some BMul)
| w_lparen : word "(" (Some BLParen)
| w_rparen : word ")" (Some BRParen)
| w_space : word " " None
| w_newline : word (one_char newline_char) None
| w_tab : word (one_char tab_char) None.

(** A text begins with a string. *)
Definition begins (s text : string) : Prop := exists rest, text = append s rest.

(** [reads text tokens rest]: the text is read up to [rest], taking each time the longest word. *)
Inductive reads : string -> list bnf_token -> string -> Prop :=
| reads_none : forall text, reads text [] text
| reads_word : forall w t text tokens rest, word w t ->
    (forall w' t', word w' t' -> begins w' (append w text) -> String.length w' <= String.length w) ->
    reads text tokens rest ->
    reads (append w text) (match t with Some x => x :: tokens | None => tokens end) rest.

(** The line and column after a text, from those before it. *)
Fixpoint position (text : string) (line col : nat) : nat * nat :=
  match text with
  | EmptyString => (line, col)
  | String c text' => if Ascii.eqb c newline_char then position text' (line + 1) 1 else position text' line (col + 1)
  end.

(** * Rules *)

Inductive repetition := Once | ZeroOrMore | OneOrMore.

(** A symbol, maybe repeated. *)
Definition fragment : Type := string * repetition.

(** A left-hand side and one right-hand side. *)
Definition bnf_rule : Type := string * list fragment.

(** A statement is a left-hand side and its alternatives.  An alternative is made of fragments and
    of pairs of parentheses, which are [None]. *)
Definition statement : Type := string * list (list (option fragment)).

Definition fragment_tokens (f : option fragment) : list bnf_token :=
  match f with
  | Some (x, Once) => [BIdent x]
  | Some (x, ZeroOrMore) => [BIdent x; BMul]
  | Some (x, OneOrMore) => [BIdent x; BPlus]
  | None => [BLParen; BRParen]
  end.

Definition alternative_tokens (a : list (option fragment)) : list bnf_token := flat_map fragment_tokens a.

Fixpoint alternatives_tokens (l : list (list (option fragment))) : list bnf_token :=
  match l with
  | [] => []
  | [a] => alternative_tokens a
  | a :: l' => alternative_tokens a ++ BPipe :: alternatives_tokens l'
  end.

Definition statement_tokens (s : statement) : list bnf_token :=
  BIdent (fst s) :: BOp :: alternatives_tokens (snd s) ++ [BSemicolon].

Definition file_tokens (f : list statement) : list bnf_token := flat_map statement_tokens f.

(** A file has at least one statement, and no alternative is left out; but a statement may have no
    alternatives at all. *)
Definition valid_file (f : list statement) : Prop :=
  f <> [] /\ Forall (fun s => Forall (fun a => a <> []) (snd s)) f.

Definition fragments (a : list (option fragment)) : list fragment :=
  flat_map (fun o => match o with Some x => [x] | None => [] end) a.

(** The rules that a statement stands for. *)
Definition statement_rules (s : statement) : list bnf_rule :=
  match snd s with
  | [] => [(fst s, [])]
  | l => map (fun a => (fst s, fragments a)) l
  end.

Definition file_rules (f : list statement) : list bnf_rule := flat_map statement_rules f.

(** * The grammar *)

(** The strings of names that a right-hand side stands for. *)
Inductive expands : list fragment -> list string -> Prop :=
| ex_nil : expands [] []
| ex_once : forall x l w, expands l w -> expands ((x, Once) :: l) (x :: w)
| ex_zero : forall x n l w, expands l w -> expands ((x, ZeroOrMore) :: l) (repeat x n ++ w)
| ex_one : forall x n l w, 1 <= n -> expands l w -> expands ((x, OneOrMore) :: l) (repeat x n ++ w).

(** The productions that rules describe, when [sym] gives the symbol of each name. *)
Definition written_prods (sym : string -> nat) (rules : list bnf_rule) : productions :=
  fun A r => exists l fs w, In (l, fs) rules /\ A = sym l /\ expands fs w /\ r = map sym w.

(** The names in rules. *)
Definition named (rules : list bnf_rule) (x : string) : Prop :=
  exists l fs, In (l, fs) rules /\ (x = l \/ In x (map fst fs)).
