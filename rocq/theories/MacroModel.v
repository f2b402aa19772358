(** Model of cfg-regexp-macro: the procedural macro [cfg_regexp].  Of proc_macro there are token trees with texts and
    byte ranges.  The text around the parser that is generated is left out, and so are the texts of errors, which
    are assumed to be a string literal when they are put between quotes. *)

From Coq Require Import List Arith NArith Bool String.
From Verif Require Import Base SpecAdv SpecRegex BitSetModel AdvModel SerialModel SpecMacro.
Import ListNotations.
Local Open Scope list_scope.

(** cfg-regexp-macro/src/lib.rs 15-25: explicit_delimiters *)
Definition explicit_delimiters (d : delimiter) : option (N * N) :=
  match d with
  | Parenthesis => Some (40, 41)
  | Brace => Some (123, 125)
  | Bracket => Some (91, 93)
  | NoDelimiter => None
  end%N.

(** lib.rs 27-53: flatten; the elements of [out] are a text, a span and a flag *)
Fixpoint flatten_tree (t : token_tree) : list (text * span * bool) :=
  match t with
  | TGroup d o c l =>
      match explicit_delimiters d with
      | Some (a, b) => ([a], o, true) :: flat_map flatten_tree l ++ [([b], c, true)]
      | None => flat_map flatten_tree l
      end
  | TIdent t s => [(t, s, true)]
  | TPunct c s => [([c], s, negb (c =? 58)%N)]
  | TLiteral t s => [(t, s, true)]
  end.
Definition flatten (stream : list token_tree) : list (text * span * bool) := flat_map flatten_tree stream.

(** lib.rs 59-73: the text of the grammar and the spans of its lines *)
Fixpoint join_tokens (input : list (text * span * bool)) : text * list span :=
  match input with
  | [] => ([], [])
  | (s, sp, append) :: rest =>
      let is_lone_colon :=
        text_eqb s [58%N] &&
        negb (match rest with (_, sp', _) :: _ => sp_end sp =? sp_start sp' | [] => false end) in
      let (code, spans) := join_tokens rest in
      if append || is_lone_colon then (s ++ 10%N :: code, sp :: spans) else (s ++ code, spans)
  end.

(** process.rs 3-8: process, and the serialization of Info *)
Definition process_json (g : adv_grammar_loaded) : json := JObj [].

(** What the macro expands to: a parser made of the JSON text of a grammar, or an error, at a span of the source or at
    that of the macro call *)
Inductive expansion := Parser (grammar : json) | CompileError (reason : error_reason) (place : option span).

(** lib.rs 55-129: cfg_regexp *)
Definition cfg_regexp (debug : bool) (rx : text -> option hir) (stream : list token_tree) : res expansion :=
  let (code, spans) := join_tokens (flatten stream) in
  do r <- load_advanced debug rx code;
  match r with
  | inl g => if bs_is_empty (ag_sbs g) then Ok (Parser (process_json g)) else Panic
  | inr e =>
      if le_line e =? 0 then Ok (CompileError (le_reason e) None)
      else do sp <- get_ix spans (le_line e - 1); Ok (CompileError (le_reason e) (Some sp))
  end.
