(** Specification: grammars that are written as Rust tokens. *)

From Coq Require Import String List Arith NArith Bool.
From Verif Require Import SpecRegex SpecAdv AdvModel.
Import ListNotations.
Local Open Scope list_scope.

(** Where a token is: the bytes of the source text from [sp_start] up to [sp_end]. *)
Record span := mkSpan { sp_start : nat; sp_end : nat }.

Inductive delimiter := Parenthesis | Brace | Bracket | NoDelimiter.

(** Rust's token trees: groups, and leaves with their texts. *)
Inductive token_tree :=
| TGroup (d : delimiter) (opening closing : span) (l : list token_tree)
| TIdent (t : text) (s : span)
| TPunct (c : N) (s : span)
| TLiteral (t : text) (s : span).

(** The tokens of a stream in the order of the source text. *)
Inductive leaf := LText (t : text) (s : span) | LPunct (c : N) (s : span).
Definition leaf_text (l : leaf) : text := match l with LText t _ => t | LPunct c _ => [c] end.
Definition leaf_span (l : leaf) : span := match l with LText _ s => s | LPunct _ s => s end.

Definition delimited (d : delimiter) (opening closing : span) (l : list leaf) : list leaf :=
  match d with
  | Parenthesis => LText (of_string "(") opening :: l ++ [LText (of_string ")") closing]
  | Brace => LText (of_string "{") opening :: l ++ [LText (of_string "}") closing]
  | Bracket => LText (of_string "[") opening :: l ++ [LText (of_string "]") closing]
  | NoDelimiter => l
  end.
Fixpoint leaves (t : token_tree) : list leaf :=
  match t with
  | TGroup d o c l => delimited d o c (flat_map leaves l)
  | TIdent t s => [LText t s]
  | TPunct c s => [LPunct c s]
  | TLiteral t s => [LText t s]
  end.

(** The tokens are words of the rich notation, each on one line.  Rust splits the operator in three. *)
Inductive words : list leaf -> list (adv_token * span) -> Prop :=
| w_nil : words [] []
| w_word : forall x t l r, adv_word (leaf_text x) (Some t) -> ~ In 10%N (leaf_text x) -> words l r ->
    words (x :: l) ((t, leaf_span x) :: r)
| w_op : forall a b c l r, sp_end a = sp_start b -> sp_end b = sp_start c -> words l r ->
    words (LPunct 58%N a :: LPunct 58%N b :: LPunct 61%N c :: l) ((AOp, c) :: r).

(** No word begins with the first character of the text. *)
Definition foreign (t : text) : Prop := match t with [] => False | c :: _ => forall u o, ~ adv_word (c :: u) o end.

(** Tokens that end inside of a lexer block. *)
Definition in_block (ts : list adv_token) : Prop := exists a b, ts = a ++ ALexer :: ALBrace :: b /\ ~ In ARBrace b.

(** What an error of a rule is about: a left-hand side in the lexer that is one in the parser, too; a function that is
    unknown; or a regular expression that cannot be read. *)
Inductive blamed (rx : text -> option hir) (f : list declaration) (ws : list (adv_token * span)) : error_reason -> span -> Prop :=
| bl_shared : forall pre l s s' post, ws = pre ++ (AIdent l, s) :: (AOp, s') :: post -> in_block (map fst pre) ->
    (exists fs a, In (l, fs, a) (parser_rules f)) -> (exists fs a, In (l, fs, a) (lexer_rules f)) -> blamed rx f ws Shared s
| bl_function : forall pre g s s1 t s2 s3 post, ws = pre ++ (AIdent g, s) :: (ALParen, s1) :: (AString t, s2) :: (ARParen, s3) :: post ->
    g <> "Regexp"%string -> blamed rx f ws NotRegexp s
| bl_argument : forall pre s s1 t s2 s3 post,
    ws = pre ++ (AIdent "Regexp", s) :: (ALParen, s1) :: (AString t, s2) :: (ARParen, s3) :: post ->
    rx t = None -> blamed rx f ws BadRegexp s2.
