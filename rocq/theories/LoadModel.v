(** Model of [cfg-load/src/basic.rs] and [cfg-load/src/string_interner.rs].  A text is given by its
    bytes: every character that is not ASCII ends the tokenizer with an error, as every byte of
    such a character does here. *)

From Coq Require Import List Arith NArith Ascii Bool String.
From Verif Require Import Base SymbolModel HistoryModel CfgModel SpecSeq SeqModel SpecLoad.
Import ListNotations.
Local Open Scope string_scope.

(** * Tokenizer *)

(** basic.rs 176-188: enum Token; tokens other than white space and errors are [SpecLoad.bnf_token] *)
Inductive lex_token := LTok (t : bnf_token) | LWhitespace | LError (line col : nat).

(** basic.rs 170-174: struct Lexer *)
Record lexer := mkLex { lx_chars : string; lx_line : nat; lx_col : nat }.

(** basic.rs 278-289: advance *)
Definition lex_advance (l : lexer) : lexer :=
  match lx_chars l with
  | EmptyString => l
  | String c s => if Ascii.eqb c newline_char then mkLex s (lx_line l + 1) 1 else mkLex s (lx_line l) (lx_col l + 1)
  end.

(** basic.rs 231-233: the while loop for identifiers, by recursion on the rest of the text [s]; the
    first component is the part of the text that was passed *)
Fixpoint lex_ident (s : string) (l : lexer) : string * lexer :=
  match s with
  | EmptyString => (EmptyString, l)
  | String c s' =>
      if between_chars "a" "z" c || between_chars "A" "Z" c || Ascii.eqb c "_" || between_chars "0" "9" c
      then let (w, l') := lex_ident s' (lex_advance l) in (String c w, l')
      else (EmptyString, l)
  end.

(** [self.chars.as_str().starts_with("::=")] *)
Definition starts_with (p s : string) : bool := String.prefix p s.

(** basic.rs 226-276: eat *)
Definition lex_eat (c : ascii) (l : lexer) : lex_token * lexer :=
  if between_chars "a" "z" c || between_chars "A" "Z" c || Ascii.eqb c "_" then
    let l1 := lex_advance l in
    let (w, l2) := lex_ident (lx_chars l1) l1 in
    (LTok (BIdent (String c w)), l2)
  else if Ascii.eqb c ":" then
    if starts_with "::=" (lx_chars l) then (LTok BOp, lex_advance (lex_advance (lex_advance l)))
    else (LError (lx_line l) (lx_col l), l)
  else if Ascii.eqb c ";" then (LTok BSemicolon, lex_advance l)
  else if Ascii.eqb c "|" then (LTok BPipe, lex_advance l)
  else if Ascii.eqb c "+" then (LTok BPlus, lex_advance l)
  else if Ascii.eqb c "*" then (LTok BMul, lex_advance l)
  else if Ascii.eqb c "(" then (LTok BLParen, lex_advance l)
  else if Ascii.eqb c ")" then (LTok BRParen, lex_advance l)
  else if Ascii.eqb c " " || Ascii.eqb c newline_char || Ascii.eqb c tab_char then (LWhitespace, lex_advance l)
  else (LError (lx_line l) (lx_col l), l).

(** basic.rs 219-224: eat_token; 291-293: peek *)
Definition eat_token (l : lexer) : option (lex_token * lexer) :=
  match lx_chars l with
  | EmptyString => None
  | String c _ => Some (lex_eat c l)
  end.

(** basic.rs 201-217: tokenize; one unit of fuel is one iteration.  [inr] is an error. *)
Fixpoint tokenize_loop (fuel : nat) (l : lexer) (result : list bnf_token) : res (list bnf_token + nat * nat) :=
  match eat_token l with
  | None => Ok (inl result)
  | Some (t, l') =>
      match fuel with
      | 0 => OutOfFuel
      | S fuel' =>
          match t with
          | LError line col => Ok (inr (line, col))
          | LWhitespace => tokenize_loop fuel' l' result
          | LTok x => tokenize_loop fuel' l' (result ++ [x])%list
          end
      end
  end.

(** Each iteration takes at least one byte, unless it is the last (proved). *)
Definition tokenize (text : string) : res (list bnf_token + nat * nat) :=
  tokenize_loop (String.length text) (mkLex text 1 1) [].

(** * Parser *)

(** basic.rs 42-50: enum Value; Rule, Fragment and Rep (23-40) are [SpecLoad.bnf_rule],
    [SpecLoad.fragment] and [SpecLoad.repetition] *)
Inductive bnf_value :=
| VIdent (x : string)
| VRules (l : list bnf_rule)
| VRhs (l : list (list fragment))
| VFragment (f : option fragment)
| VAlt (l : list fragment)
| VNone.

(** basic.rs 311: the symbols of the grammar of BNF *)
Inductive bnf_symbol :=
| YStart | YRule | YAlt | YRhs | YBnfOp | YIdent | YPipe | YOpMul | YOpPlus | YSemicolon | YFragment
| YLParen | YRParen.

(** basic.rs 312-325: its rules and their numbers *)
Definition bnf_grammar : list (nat * bnf_symbol * list bnf_symbol) :=
  [(2, YStart, [YStart; YRule]);
   (3, YStart, [YRule]);
   (4, YRule, [YIdent; YBnfOp; YSemicolon]);
   (5, YRule, [YIdent; YBnfOp; YRhs; YSemicolon]);
   (6, YRhs, [YRhs; YPipe; YAlt]);
   (7, YRhs, [YAlt]);
   (8, YAlt, [YAlt; YFragment]);
   (9, YAlt, [YFragment]);
   (10, YFragment, [YIdent; YOpPlus]);
   (11, YFragment, [YIdent; YOpMul]);
   (12, YFragment, [YIdent]);
   (13, YFragment, [YLParen; YRParen])].

(** basic.rs 347-355: the terminal of a token *)
Definition token_symbol (t : bnf_token) : bnf_symbol :=
  match t with
  | BOp => YBnfOp
  | BSemicolon => YSemicolon
  | BPipe => YPipe
  | BMul => YOpMul
  | BPlus => YOpPlus
  | BIdent _ => YIdent
  | BLParen => YLParen
  | BRParen => YRParen
  end.

(** basic.rs 60-82: leaf; 190-198: Token::ident *)
Definition eval_leaf (t : bnf_token) : bnf_value :=
  match t with
  | BIdent x => VIdent x
  | _ => VNone
  end.

(** basic.rs 84-167: product *)
Definition eval_product (action : nat) (args : list bnf_value) : res bnf_value :=
  match action, nth 0 args VNone, nth 1 args VNone, nth 2 args VNone with
  | 2, VRules rules, VRules rule, _ => Ok (VRules (rules ++ rule))
  | 3, VRules rule, _, _ => Ok (VRules rule)
  | 4, VIdent l, _, _ => Ok (VRules [(l, [])])
  | 5, VIdent l, _, VRhs rhs => Ok (VRules (map (fun r => (l, r)) rhs))
  | 6, VRhs rhs, _, VAlt alt => Ok (VRhs (rhs ++ [alt]))
  | 7, VAlt alt, _, _ => Ok (VRhs [alt])
  | 8, VAlt alt, VFragment f, _ => Ok (VAlt (alt ++ match f with Some x => [x] | None => [] end))
  | 9, VFragment f, _, _ => Ok (VAlt (match f with Some x => [x] | None => [] end))
  | 10, VIdent x, _, _ => Ok (VFragment (Some (x, OneOrMore)))
  | 11, VIdent x, _, _ => Ok (VFragment (Some (x, ZeroOrMore)))
  | 12, VIdent x, _, _ => Ok (VFragment (Some (x, Once)))
  | 13, _, _, _ => Ok (VFragment None)
  | _, _, _, _ => Panic
  end%list.

(** What the recognizer and the forest of tiny_earley (basic.rs 344-391) are trusted to do: a
    string of tokens is accepted if it has a parse tree, and the result is the value of a tree. *)
Inductive evaluates : bnf_symbol -> list bnf_token -> bnf_value -> Prop :=
| ev_leaf : forall t, evaluates (token_symbol t) [t] (eval_leaf t)
| ev_rule : forall action A r ts args v, In (action, A, r) bnf_grammar ->
    evaluate_all r ts args -> eval_product action args = Ok v -> evaluates A ts v
with evaluate_all : list bnf_symbol -> list bnf_token -> list bnf_value -> Prop :=
| ev_nil : evaluate_all [] [] []
| ev_cons : forall A r ts1 ts2 v args, evaluates A ts1 v -> evaluate_all r ts2 args ->
    evaluate_all (A :: r) (ts1 ++ ts2) (v :: args).

(** The value of a string of tokens, as a function: the parser reads the tokens from left to
    right.  [parse_evaluates] in the proofs shows that it gives the value of every parse tree, and
    nothing if there is none.  The state is what was read of the current statement. *)
Inductive parse_state :=
| PStart                                                              (* before a statement *)
| PLhs (l : string)                                                   (* after the identifier *)
| POp (l : string)                                                    (* after ::= *)
| PAlt (l : string) (alts : list (list fragment)) (alt : list fragment) (ident : option string)
                                                                      (* inside an alternative *)
| PPipe (l : string) (alts : list (list fragment))                    (* after | *)
| PParen (l : string) (alts : list (list fragment)) (alt : list fragment).   (* after ( *)

Definition with_ident (alt : list fragment) (i : option string) : list fragment :=
  match i with Some x => (alt ++ [(x, Once)])%list | None => alt end.

Definition parse_token (st : parse_state) (rules : list bnf_rule) (t : bnf_token) : option (parse_state * list bnf_rule) :=
  match st, t with
  | PStart, BIdent l => Some (PLhs l, rules)
  | PLhs l, BOp => Some (POp l, rules)
  | POp l, BSemicolon => Some (PStart, (rules ++ [(l, [])])%list)
  | POp l, BIdent x => Some (PAlt l [] [] (Some x), rules)
  | POp l, BLParen => Some (PParen l [] [], rules)
  | PAlt l alts alt i, BIdent x => Some (PAlt l alts (with_ident alt i) (Some x), rules)
  | PAlt l alts alt i, BLParen => Some (PParen l alts (with_ident alt i), rules)
  | PAlt l alts alt (Some x), BPlus => Some (PAlt l alts (alt ++ [(x, OneOrMore)]) None, rules)
  | PAlt l alts alt (Some x), BMul => Some (PAlt l alts (alt ++ [(x, ZeroOrMore)]) None, rules)
  | PAlt l alts alt i, BPipe => Some (PPipe l (alts ++ [with_ident alt i]), rules)
  | PAlt l alts alt i, BSemicolon =>
      Some (PStart, rules ++ map (fun r => (l, r)) (alts ++ [with_ident alt i]))
  | PPipe l alts, BIdent x => Some (PAlt l alts [] (Some x), rules)
  | PPipe l alts, BLParen => Some (PParen l alts [], rules)
  | PParen l alts alt, BRParen => Some (PAlt l alts alt None, rules)
  | _, _ => None
  end%list.

Fixpoint parse_loop (st : parse_state) (rules : list bnf_rule) (ts : list bnf_token) : option (list bnf_rule) :=
  match ts with
  | [] => match st, rules with
          | PStart, _ :: _ => Some rules
          | _, _ => None
          end
  | t :: ts' => match parse_token st rules t with
                | Some (st', rules') => parse_loop st' rules' ts'
                | None => None
                end
  end.
Definition parse_bnf (ts : list bnf_token) : option (list bnf_rule) := parse_loop PStart [] ts.

(** * String interner *)

(** string_interner.rs 6-8: struct StringInterner; the index set is a list *)
Definition interner := list string.

(** FrozenIndexSet::insert_full finds an equal string or appends *)
Fixpoint string_index (l : interner) (s : string) : option nat :=
  match l with
  | [] => None
  | x :: l' => if String.eqb x s then Some 0 else match string_index l' s with Some i => Some (S i) | None => None end
  end.

(** string_interner.rs 20-27: get_or_intern *)
Definition get_or_intern (l : interner) (s : string) : nat * interner :=
  match string_index l s with
  | Some i => (i, l)
  | None => (List.length l, (l ++ [s])%list)
  end.

(** string_interner.rs 36-38: resolve *)
Definition intern_resolve (l : interner) (i : nat) : option string := nth_error l i.

(** * Loader *)

(** basic.rs 393-395: the grammar, the interner and the map from interned strings to symbols *)
Record loader := mkLoader {
  ld_cfg : cfg;
  ld_intern : interner;
  ld_map : list (nat * nat)
}.

Fixpoint map_lookup (m : list (nat * nat)) (k : nat) : option nat :=
  match m with
  | [] => None
  | (k', v) :: m' => if Nat.eqb k' k then Some v else map_lookup m' k
  end.

(** basic.rs 398-401, 410-414: the symbol of a name; a new one has that name *)
Definition symbol_named (ld : loader) (x : string) : nat * loader :=
  let (id, it) := get_or_intern (ld_intern ld) x in
  match map_lookup (ld_map ld) id with
  | Some s => (s, mkLoader (ld_cfg ld) it (ld_map ld))
  | None => let (s, g) := next_sym (ld_cfg ld) (Some x) in (s, mkLoader g it ((id, s) :: ld_map ld))
  end.

(** basic.rs 419, 424: cfg.sequence(new_sym), inclusive(0, None) or range(1..), rhs(rhs_sym) *)
Definition add_sequence (debug : bool) (g : cfg) (l : nat) (c : seq_call) (x : nat) : res cfg :=
  do b1 <- seq_builder_call (add_to_cfg debug) (seq_builder_new g) (SSequence l);
  do b2 <- seq_builder_call (add_to_cfg debug) b1 c;
  do b3 <- seq_builder_call (add_to_cfg debug) b2 (SRhs x);
  Ok (sb_dest b3).

(** basic.rs 409-428: one fragment *)
Definition load_fragment (debug : bool) (p : list nat * loader) (f : fragment) : res (list nat * loader) :=
  let (s, ld) := symbol_named (snd p) (fst f) in
  match snd f with
  | Once => Ok ((fst p ++ [s])%list, ld)
  | ZeroOrMore =>
      let (z, g) := next_sym (ld_cfg ld) None in
      do g' <- add_sequence debug g z (SInclusive 0 None) s;
      Ok ((fst p ++ [z])%list, mkLoader g' (ld_intern ld) (ld_map ld))
  | OneOrMore =>
      let (z, g) := next_sym (ld_cfg ld) None in
      do g' <- add_sequence debug g z (SRange (Included 1) Unbounded) s;
      Ok ((fst p ++ [z])%list, mkLoader g' (ld_intern ld) (ld_map ld))
  end.

(** basic.rs 397-433: one rule, with its index *)
Definition load_rule (debug : bool) (p : nat * loader) (r : bnf_rule) : res (nat * loader) :=
  let (idx, ld) := p in
  let (l, ld1) := symbol_named ld (fst r) in
  let g1 := if Nat.eqb idx 0 then set_roots (ld_cfg ld1) [l] else ld_cfg ld1 in
  do (rs, ld2) <- fold_res (load_fragment debug) (snd r) ([], mkLoader g1 (ld_intern ld1) (ld_map ld1));
  do g3 <- rule_history_rhs (ld_cfg ld2) l (process_root (ROrigin (idx + 1))) rs;
  Ok (S idx, mkLoader g3 (ld_intern ld2) (ld_map ld2)).

(** basic.rs 392-434 *)
Definition load_rules (debug : bool) (rules : list bnf_rule) : res cfg :=
  do (_, ld) <- fold_res (load_rule debug) rules (0, mkLoader cfg_new [] []);
  Ok (ld_cfg ld).

(** Result<Cfg, LoadError>; the reason of an error is left out *)
Inductive load_result := Loaded (g : cfg) | LoadFailed.

(** basic.rs 308-443: load *)
Definition load (debug : bool) (text : string) : res load_result :=
  do r <- tokenize text;
  match r with
  | inr _ => Panic
  | inl tokens =>
      match parse_bnf tokens with
      | None => Ok LoadFailed
      | Some rules => do g <- load_rules debug rules; Ok (Loaded g)
      end
  end.

(** * Printing *)

(** char::is_whitespace, for ASCII characters only *)
Definition is_whitespace (c : ascii) : bool :=
  between_chars tab_char (ascii_of_nat 13) c || Ascii.eqb c " ".

Fixpoint trim_start (s : string) : string :=
  match s with
  | EmptyString => s
  | String c s' => if is_whitespace c then trim_start s' else s
  end.
Fixpoint all_whitespace (s : string) : bool :=
  match s with
  | EmptyString => true
  | String c s' => is_whitespace c && all_whitespace s'
  end.
Fixpoint trim_end (s : string) : string :=
  match s with
  | EmptyString => s
  | String c s' => if all_whitespace s then EmptyString else String c (trim_end s')
  end.
(** str::trim *)
Definition trim (s : string) : string := trim_end (trim_start s).

(** basic.rs 447-458: one rule *)
Definition bnf_line (g : cfg) (r : rule) : string :=
  let name := names_name_of (names (src g)) in
  let rhs_text := fold_left (fun acc s => append acc (append (name s) " ")) (rhs r) "" in
  append (name (lhs r)) (append " ::= " (append (trim rhs_text) (append ";" (one_char newline_char)))).

(** basic.rs 445-461: to_bnf *)
Definition to_bnf (g : cfg) : string :=
  fold_left (fun acc r => append acc (bnf_line g r)) (rules g) "".
