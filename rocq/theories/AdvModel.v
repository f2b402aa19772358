(** Model of [cfg-load/src/advanced.rs].  A text is given by its characters.  The parser of regular
    expressions (regex_syntax) is the parameter [rx]; None is a syntax error. *)

From Coq Require Import List Arith NArith Ascii Bool String.
From Verif Require Import Base SymbolModel HistoryModel CfgModel BitSetModel SpecSeq SeqModel SpecLoad LoadModel SpecRegex RegexModel
  RemapModel SpecAdv.
Import ListNotations.

(** * Tokenizer *)

(** advanced.rs 289-308: enum Token; tokens other than white space and errors are [SpecAdv.adv_token] *)
Inductive adv_lexeme := XTok (t : adv_token) | XWhitespace | XError (line col : nat).

(** advanced.rs 283-287: struct Lexer *)
Record adv_lexer := mkXLex { xl_chars : text; xl_line : nat; xl_col : nat }.

(** advanced.rs 460-471: advance *)
Definition x_advance (l : adv_lexer) : adv_lexer :=
  match xl_chars l with
  | [] => l
  | c :: s => if (c =? 10)%N then mkXLex s (xl_line l + 1) 1 else mkXLex s (xl_line l) (xl_col l + 1)
  end.

Definition in_range (lo hi c : N) : bool := ((lo <=? c) && (c <=? hi))%N.

(** advanced.rs 363-365: the while loop for identifiers, by recursion on the rest of the text [s];
    the first component is the part of the text that was passed *)
Fixpoint x_ident (s : text) (l : adv_lexer) : text * adv_lexer :=
  match s with
  | [] => ([], l)
  | c :: s' =>
      if in_range 97 122 c || in_range 65 90 c || (c =? 95)%N || in_range 48 57 c
      then let (w, l') := x_ident s' (x_advance l) in (c :: w, l')
      else ([], l)
  end.

(** advanced.rs 429-448: the while loop for strings, by recursion on the rest of the text [s] *)
Fixpoint x_string (s : text) (l : adv_lexer) : text * adv_lexer :=
  match s with
  | [] => ([], l)
  | c :: s' =>
      if (c =? 34)%N then ([], l)
      else if (c =? 92)%N then
        match s' with
        | [] => ([], x_advance l)
        | c' :: s'' => let (w, l') := x_string s'' (x_advance (x_advance l)) in (c' :: w, l')
        end
      else let (w, l') := x_string s' (x_advance l) in (c :: w, l')
  end.

(** advanced.rs 359-458: eat *)
Definition x_eat (c : N) (l : adv_lexer) : adv_lexeme * adv_lexer :=
  if in_range 97 122 c || in_range 65 90 c || (c =? 95)%N then
    let (w, l2) := x_ident (xl_chars l) l in
    let result := to_string w in
    ((if String.eqb result "lexer" then XTok ALexer else XTok (AIdent result)), l2)
  else if (c =? 58)%N then
    match xl_chars l with
    | (58 :: 58 :: 61 :: _)%N => (XTok AOp, x_advance (x_advance (x_advance l)))
    | _ => (XError (xl_line l) (xl_col l), l)
    end
  else if (c =? 59)%N then (XTok ASemicolon, x_advance l)
  else if (c =? 124)%N then (XTok APipe, x_advance l)
  else if (c =? 43)%N then (XTok APlus, x_advance l)
  else if (c =? 42)%N then (XTok AMul, x_advance l)
  else if (c =? 126)%N then (XTok ATilde, x_advance l)
  else if (c =? 40)%N then (XTok ALParen, x_advance l)
  else if (c =? 41)%N then (XTok ARParen, x_advance l)
  else if (c =? 123)%N then (XTok ALBrace, x_advance l)
  else if (c =? 125)%N then (XTok ARBrace, x_advance l)
  else if (c =? 62)%N then (XTok AGt, x_advance l)
  else if (c =? 32)%N || (c =? 10)%N || (c =? 9)%N then (XWhitespace, x_advance l)
  else if (c =? 34)%N then
    let l1 := x_advance l in
    let (result, l2) := x_string (xl_chars l1) l1 in
    match xl_chars l2 with
    | 34%N :: _ => (XTok (AString result), x_advance l2)
    | _ => (XError (xl_line l2) (xl_col l2), l2)
    end
  else (XError (xl_line l) (xl_col l), l).

(** advanced.rs 328-350: tokenize, as far as the loop of load_advanced (571-597) uses it: the tokens with
    their lines and columns, and the line and column of an error at the end, if any.  One unit of
    fuel is one iteration. *)
Fixpoint x_tokenize_loop (fuel : nat) (l : adv_lexer) (p : nat * nat) (result : list (adv_token * (nat * nat)))
    : res (list (adv_token * (nat * nat)) * option (nat * nat)) :=
  match xl_chars l with
  | [] => Ok (result, None)
  | c :: _ =>
      match fuel with
      | 0 => OutOfFuel
      | S fuel' =>
          let (t, l') := x_eat c l in
          let p' := (xl_line l', xl_col l') in
          match t with
          | XError line col => Ok (result, Some (line, col))
          | XWhitespace => x_tokenize_loop fuel' l' p' result
          | XTok x => x_tokenize_loop fuel' l' p' (result ++ [(x, p)])
          end
      end
  end.

(** Each iteration takes at least one character, unless it is the last (proved). *)
Definition x_tokenize (t : text) : res (list (adv_token * (nat * nat)) * option (nat * nat)) :=
  x_tokenize_loop (List.length t) (mkXLex t 1 1) (1, 1) [].

(** * Parser *)

(** advanced.rs 54-69: enum Fragment, with the parts of its spans that are used: the numbers (from
    1) of the tokens of a function and of its argument *)
Record xfragment := mkXFrag { xf_frag : adv_fragment; xf_span : nat; xf_arg : nat }.

(** advanced.rs 46-52: struct Rule, with the part of its span that is used: the number (from 1) of
    the token of its left-hand side *)
Record xrule := mkXRule { xr_lhs : string; xr_rhs : list xfragment; xr_action : option string; xr_span : nat }.

(** advanced.rs 78-90: enum Value; LexerVal (92-93) is the list of its rules *)
Inductive adv_value :=
| XVIdent (x : string) (i : nat)
| XVString (s : text) (i : nat)
| XVStart (l : list xrule) (lex : option (list xrule))
| XVRules (l : list xrule)
| XVLex (l : list xrule)
| XVRhs (l : list (list xfragment * option string))
| XVFragment (f : xfragment)
| XVAlt (l : list xfragment)
| XVAlt2 (l : list xfragment) (action : option string)
| XVNone (i : nat).

(** advanced.rs 516: the symbols of the grammar *)
Inductive adv_symbol :=
| ZStart | ZRule | ZAlt | ZRhs | ZBnfOp | ZIdent | ZPipe | ZOpMul | ZOpPlus | ZSemicolon | ZFragment | ZString
| ZDecl | ZAction | ZLexerKeyword | ZLexer | ZLBrace | ZRBrace | ZRules | ZGtOp | ZLParen | ZRParen | ZAlt2 | ZTildeOp.

(** advanced.rs 517-540: its rules and their numbers *)
Definition adv_grammar : list (nat * adv_symbol * list adv_symbol) :=
  [(2, ZStart, [ZStart; ZDecl]);
   (3, ZStart, [ZDecl]);
   (4, ZDecl, [ZRule]);
   (5, ZDecl, [ZLexer]);
   (6, ZRule, [ZIdent; ZBnfOp; ZSemicolon]);
   (7, ZRule, [ZIdent; ZBnfOp; ZAction; ZSemicolon]);
   (8, ZRule, [ZIdent; ZBnfOp; ZRhs; ZSemicolon]);
   (9, ZRhs, [ZRhs; ZPipe; ZAlt2]);
   (10, ZRhs, [ZAlt2]);
   (11, ZAlt2, [ZAlt]);
   (12, ZAlt2, [ZAlt; ZAction]);
   (13, ZAlt, [ZAlt; ZTildeOp; ZFragment]);
   (14, ZAlt, [ZFragment]);
   (15, ZFragment, [ZIdent; ZOpPlus]);
   (16, ZFragment, [ZIdent; ZOpMul]);
   (17, ZFragment, [ZIdent]);
   (18, ZFragment, [ZString]);
   (19, ZFragment, [ZIdent; ZLParen; ZString; ZRParen]);
   (20, ZLexer, [ZLexerKeyword; ZLBrace; ZRules; ZRBrace]);
   (21, ZAction, [ZGtOp; ZIdent]);
   (22, ZRules, [ZRule]);
   (23, ZRules, [ZRules; ZRule])].

(** advanced.rs 573-588: the terminal of a token *)
Definition adv_token_symbol (t : adv_token) : adv_symbol :=
  match t with
  | AOp => ZBnfOp
  | ASemicolon => ZSemicolon
  | APipe => ZPipe
  | AMul => ZOpMul
  | APlus => ZOpPlus
  | AIdent _ => ZIdent
  | AString _ => ZString
  | ALBrace => ZLBrace
  | ARBrace => ZRBrace
  | ALParen => ZLParen
  | ARParen => ZRParen
  | AGt => ZGtOp
  | ATilde => ZTildeOp
  | ALexer => ZLexerKeyword
  end.

(** advanced.rs 103-138: leaf, for the token with number [i] (from 0); 310-326: Token::ident, string *)
Definition adv_leaf (t : adv_token) (i : nat) : adv_value :=
  match t with
  | AIdent x => XVIdent x (i + 1)
  | AString s => XVString s (i + 1)
  | _ => XVNone (i + 1)
  end.

(** advanced.rs 140-280: product.  Missing arguments are Value::None(0). *)
Definition adv_product (action : nat) (args : list adv_value) : res adv_value :=
  match action, nth 0 args (XVNone 0), nth 1 args (XVNone 0), nth 2 args (XVNone 0), nth 3 args (XVNone 0) with
  | 2, XVStart rules lex, XVRules rule, _, _ => Ok (XVStart (rules ++ rule) lex)
  | 2, XVStart rules None, XVLex lex, _, _ => Ok (XVStart rules (Some lex))
  | 3, XVRules rule, _, _, _ => Ok (XVStart rule None)
  | 4, XVRules rules, _, _, _ => Ok (XVRules rules)
  | 5, XVLex lex, _, _, _ => Ok (XVLex lex)
  | 6, XVIdent l i, _, _, _ => Ok (XVRules [mkXRule l [] None i])
  | 7, XVIdent l i, _, XVIdent action j, _ => Ok (XVRules [mkXRule l [] (Some action) i])
  | 8, XVIdent l i, _, XVRhs rhs, XVNone j => Ok (XVRules (map (fun p => mkXRule l (fst p) (snd p) i) rhs))
  | 9, XVRhs rhs, _, XVAlt2 alt action, _ => Ok (XVRhs (rhs ++ [(alt, action)]))
  | 10, XVAlt2 alt action, _, _, _ => Ok (XVRhs [(alt, action)])
  | 11, XVAlt alt, _, _, _ => Ok (XVAlt2 alt None)
  | 12, XVAlt alt, XVIdent action _, _, _ => Ok (XVAlt2 alt (Some action))
  | 13, XVAlt alt, _, XVFragment f, _ => Ok (XVAlt (alt ++ [f]))
  | 14, XVFragment f, _, _, _ => Ok (XVAlt [f])
  | 15, XVIdent x _, _, _, _ => Ok (XVFragment (mkXFrag (FName x OneOrMore) 0 0))
  | 16, XVIdent x _, _, _, _ => Ok (XVFragment (mkXFrag (FName x ZeroOrMore) 0 0))
  | 17, XVIdent x _, _, _, _ => Ok (XVFragment (mkXFrag (FName x Once) 0 0))
  | 18, XVString s i, _, _, _ => Ok (XVFragment (mkXFrag (FString s) i 0))
  | 19, XVIdent x i, _, XVString s j, XVNone k => Ok (XVFragment (mkXFrag (FCall x s) i j))
  | 20, _, _, XVRules rules, _ => Ok (XVLex rules)
  | 21, _, XVIdent name i, _, _ => Ok (XVIdent name i)
  | 22, XVRules rules, _, _, _ => Ok (XVRules rules)
  | 23, XVRules rules, XVRules rules2, _, _ => Ok (XVRules (rules ++ rules2))
  | _, _, _, _, _ => Panic
  end%list.

(** What the recognizer and the forest of tiny_earley (advanced.rs 570-623) are trusted to do: a
    string of tokens (with their numbers) has the value of a parse tree; [Panic] is the value of a
    tree whose evaluation panics. *)
Inductive adv_evaluates : adv_symbol -> list (adv_token * nat) -> res adv_value -> Prop :=
| xe_leaf : forall t i, adv_evaluates (adv_token_symbol t) [(t, i)] (Ok (adv_leaf t i))
| xe_rule : forall action A r ts args, In (action, A, r) adv_grammar ->
    adv_evaluate_all r ts args -> adv_evaluates A ts (do l <- args; adv_product action l)
with adv_evaluate_all : list adv_symbol -> list (adv_token * nat) -> res (list adv_value) -> Prop :=
| xe_nil : adv_evaluate_all [] [] (Ok [])
| xe_cons : forall A r ts1 ts2 v args, adv_evaluates A ts1 v -> adv_evaluate_all r ts2 args ->
    adv_evaluate_all (A :: r) (ts1 ++ ts2) (do x <- v; do l <- args; Ok (x :: l)).

(** The value of a string of tokens, as a function: the parser reads the tokens from left to right.
    The proofs show that it gives the value of every parse tree ([parse_value]), and that it stops
    at the first token after which no parse tree is possible.  The state is what was read of the
    current statement. *)
Inductive adv_state :=
| QStart                                                        (* before a statement *)
| QLhs (l : string) (i : nat)                                   (* after the left-hand side *)
| QOp (l : string) (i : nat)                                    (* after ::= *)
| QGt0 (l : string) (i : nat)                                   (* after > without an alternative *)
| QAct0 (l : string) (i : nat) (a : string)                     (* after the action *)
| QBegin (l : string) (i : nat) (alts : list (list xfragment * option string)) (alt : list xfragment)
                                                                (* after | or ~ *)
| QIdent (l : string) (i : nat) (alts : list (list xfragment * option string)) (alt : list xfragment) (x : string) (k : nat)
                                                                (* after an identifier *)
| QParen (l : string) (i : nat) (alts : list (list xfragment * option string)) (alt : list xfragment) (x : string) (k : nat)
                                                                (* after ( *)
| QArg (l : string) (i : nat) (alts : list (list xfragment * option string)) (alt : list xfragment) (x : string) (k : nat)
       (s : text) (j : nat)                                     (* after the string *)
| QAlt (l : string) (i : nat) (alts : list (list xfragment * option string)) (alt : list xfragment)
                                                                (* after another fragment *)
| QGt (l : string) (i : nat) (alts : list (list xfragment * option string)) (alt : list xfragment)
                                                                (* after > *)
| QAct (l : string) (i : nat) (alts : list (list xfragment * option string)) (alt : list xfragment) (a : string).
                                                                (* after the action *)

Definition name_frag (x : string) (k : repetition) : xfragment := mkXFrag (FName x k) 0 0.

(** After a fragment; [alt] has it. *)
Definition after_fragment (l : string) (i : nat) (alts : list (list xfragment * option string)) (alt : list xfragment) (t : adv_token)
    : option (adv_state + list xrule) :=
  match t with
  | ATilde => Some (inl (QBegin l i alts alt))
  | AGt => Some (inl (QGt l i alts alt))
  | APipe => Some (inl (QBegin l i (alts ++ [(alt, None)]) []))
  | ASemicolon => Some (inr (map (fun p => mkXRule l (fst p) (snd p) i) (alts ++ [(alt, None)])))
  | _ => None
  end%list.

(** One token, with its number, inside of a statement; [inr] are the rules of a statement that
    ends *)
Definition statement_step (st : adv_state) (t : adv_token) (n : nat) : option (adv_state + list xrule) :=
  match st, t with
  | QStart, AIdent l => Some (inl (QLhs l (n + 1)))
  | QLhs l i, AOp => Some (inl (QOp l i))
  | QOp l i, ASemicolon => Some (inr [mkXRule l [] None i])
  | QOp l i, AGt => Some (inl (QGt0 l i))
  | QOp l i, AIdent x => Some (inl (QIdent l i [] [] x (n + 1)))
  | QOp l i, AString s => Some (inl (QAlt l i [] [mkXFrag (FString s) (n + 1) 0]))
  | QGt0 l i, AIdent a => Some (inl (QAct0 l i a))
  | QAct0 l i a, ASemicolon => Some (inr [mkXRule l [] (Some a) i])
  | QBegin l i alts alt, AIdent x => Some (inl (QIdent l i alts alt x (n + 1)))
  | QBegin l i alts alt, AString s => Some (inl (QAlt l i alts (alt ++ [mkXFrag (FString s) (n + 1) 0])))
  | QIdent l i alts alt x k, APlus => Some (inl (QAlt l i alts (alt ++ [name_frag x OneOrMore])))
  | QIdent l i alts alt x k, AMul => Some (inl (QAlt l i alts (alt ++ [name_frag x ZeroOrMore])))
  | QIdent l i alts alt x k, ALParen => Some (inl (QParen l i alts alt x k))
  | QIdent l i alts alt x k, _ => after_fragment l i alts (alt ++ [name_frag x Once]) t
  | QParen l i alts alt x k, AString s => Some (inl (QArg l i alts alt x k s (n + 1)))
  | QArg l i alts alt x k s j, ARParen => Some (inl (QAlt l i alts (alt ++ [mkXFrag (FCall x s) k j])))
  | QAlt l i alts alt, _ => after_fragment l i alts alt t
  | QGt l i alts alt, AIdent a => Some (inl (QAct l i alts alt a))
  | QAct l i alts alt a, APipe => Some (inl (QBegin l i (alts ++ [(alt, Some a)]) []))
  | QAct l i alts alt a, ASemicolon =>
      Some (inr (map (fun p => mkXRule l (fst p) (snd p) i) (alts ++ [(alt, Some a)])))
  | _, _ => None
  end%list.

(** Outside of a lexer block, after the keyword, or inside of a block with its rules *)
Inductive adv_context := CFile | CKeyword | CBlock (l : list xrule).

(** The value of Start so far; None before the first declaration *)
Definition add_rules (v : option (res adv_value)) (l : list xrule) : res adv_value :=
  match v with
  | None => adv_product 3 [XVRules l]
  | Some r => do x <- r; adv_product 2 [x; XVRules l]
  end.
Definition add_block (v : option (res adv_value)) (l : list xrule) : res adv_value :=
  match v with
  | None => adv_product 3 [XVLex l]
  | Some r => do x <- r; adv_product 2 [x; XVLex l]
  end.

Definition adv_parser : Type := adv_context * adv_state * option (res adv_value).

Definition adv_step (p : adv_parser) (t : adv_token) (n : nat) : option adv_parser :=
  match p with
  | (CFile, QStart, v) =>
      match t with
      | ALexer => Some (CKeyword, QStart, v)
      | AIdent l => Some (CFile, QLhs l (n + 1), v)
      | _ => None
      end
  | (CKeyword, _, v) => match t with ALBrace => Some (CBlock [], QStart, v) | _ => None end
  | (CBlock (r :: l), QStart, v) =>
      match t with
      | ARBrace => Some (CFile, QStart, Some (add_block v (r :: l)))
      | AIdent x => Some (CBlock (r :: l), QLhs x (n + 1), v)
      | _ => None
      end
  | (CFile, st, v) =>
      match statement_step st t n with
      | None => None
      | Some (inl st') => Some (CFile, st', v)
      | Some (inr rs) => Some (CFile, QStart, Some (add_rules v rs))
      end
  | (CBlock l, st, v) =>
      match statement_step st t n with
      | None => None
      | Some (inl st') => Some (CBlock l, st', v)
      | Some (inr rs) => Some (CBlock (l ++ rs), QStart, v)
      end
  end%list.

(** What comes of the tokens: [inr n] if the token with number [n] cannot follow those before it *)
Fixpoint adv_parse_loop (p : adv_parser) (n : nat) (ts : list adv_token) : adv_parser + nat :=
  match ts with
  | [] => inl p
  | t :: ts' => match adv_step p t n with
                | Some p' => adv_parse_loop p' (n + 1) ts'
                | None => inr n
                end
  end.

(** The value, if the tokens have a parse tree *)
Definition finished (p : adv_parser) : option (res adv_value) :=
  match p with
  | (CFile, QStart, v) => v
  | _ => None
  end.

(** * Loader *)

(** lib.rs 17-32: struct LoadError.  The text of the reason is left out; the casts to u32 are, too. *)
Inductive error_reason := Tokenize | ParseFailed | NoResult | Shared | NotRegexp | BadRegexp | NotStart.
Record load_error := mkErr { le_reason : error_reason; le_line : nat; le_col : nat; le_token : option adv_token }.

(** elsa's FrozenIndexSet of strings, for string_interner.rs 20-27: get_or_intern *)
Fixpoint text_eqb (a b : text) : bool :=
  match a, b with
  | [], [] => true
  | x :: a', y :: b' => (x =? y)%N && text_eqb a' b'
  | _, _ => false
  end.
Fixpoint text_index (l : list text) (s : text) : option nat :=
  match l with
  | [] => None
  | x :: l' => if text_eqb x s then Some 0 else match text_index l' s with Some i => Some (S i) | None => None end
  end.
Definition intern_text (l : list text) (s : text) : nat * list text :=
  match text_index l s with
  | Some i => (i, l)
  | None => (List.length l, l ++ [s])
  end.

(** advanced.rs 628-634: the grammar, the interner and the map of names ([LoadModel.loader]); the interner of
    strings; the classes; and the set of lexical symbols *)
Record adv_loader := mkAL {
  al_names : loader;
  al_strings : list text;
  al_classes : class_table;
  al_lexical : list nat
}.
Definition al_cfg (a : adv_loader) : cfg := ld_cfg (al_names a).
Definition set_ld_cfg (ld : loader) (g : cfg) : loader := mkLoader g (ld_intern ld) (ld_map ld).

(** advanced.rs 710-713, 746-749: lexer_classes.classes.entry(k).or_insert_with(|| cfg.next_sym(None)) *)
Definition class_entry (g : cfg) (t : class_table) (k : lexer_classes) : nat * cfg * class_table :=
  match table_get t k with
  | Some s => (s, g, t)
  | None => let (s, g') := next_sym g None in (s, g', table_put t k s)
  end.

(** advanced.rs 708-715: the classes of a regular expression; the map is a list *)
Definition map_classes (st : list (nat * nat) * cfg * class_table) (p : lexer_classes * nat)
    : list (nat * nat) * cfg * class_table :=
  let '(m, g, t) := st in
  let '(s, g', t') := class_entry g t (fst p) in
  ((snd p, s) :: m, g', t').

(** advanced.rs 716-718: the closure that is given to remap_symbols, as far as its state goes *)
Definition visit (st : list (nat * nat) * cfg) (s : nat) : list (nat * nat) * cfg :=
  match map_lookup (fst st) s with
  | Some _ => st
  | None => let (t, g') := next_sym (snd st) None in ((s, t) :: fst st, g')
  end.

(** remap_symbols.rs 79-97, 109-117 and source.rs 179-192: the symbols that are given to the closure, in
    order of the first time.  There are no wrapped roots. *)
Definition visited_symbols (g : cfg) : list nat :=
  flat_map (fun r => lhs r :: rhs r) (rules g) ++ roots g ++ seq 0 (List.length (names (src g))).

(** advanced.rs 699-722: a regular expression.  The state of the closure ends as [m2]; since an entry is
    not changed, the closure gives the values of [m2] from the start. *)
Definition embed_regexp (debug : bool) (h : hir) (g : cfg) (t : class_table) : res (nat * cfg * class_table) :=
  do (rg, lm) <- cfg_from_hir debug h;
  let '(m1, g1, t1) := fold_left map_classes (lm_classes lm) ([], g, t) in
  let (m2, g2) := fold_left visit (visited_symbols rg) (m1, g1) in
  do rg' <- remap_symbols (fun s => match map_lookup m2 s with Some x => Ok x | None => Panic end) rg;
  match roots rg' with
  | [r] => Ok (r, cfg_extend g2 rg', t1)
  | _ => Panic
  end.

(** advanced.rs 743-751: one character of a string *)
Definition add_char (p : list nat * cfg * class_table) (c : N) : res (list nat * cfg * class_table) :=
  let '(child, g, t) := p in
  do k <- classes_of_char c;
  let '(s, g', t') := class_entry g t k in
  Ok (child ++ [s], g', t').

(** The name of the string with number [id]: advanced.rs 738 *)
Definition lex_name (id : nat) : string := append "__lex" (string_of_nat id).

(** advanced.rs 736-755: a string *)
Definition load_string (a : adv_loader) (s : text) : res (nat * adv_loader) :=
  let (id, strings) := intern_text (al_strings a) s in
  let (x, ld) := symbol_named (al_names a) (lex_name id) in
  do (q, t) <- fold_res add_char s ([], ld_cfg ld, al_classes a);
  let (child, g) := q in
  do g' <- rule_rhs g x child;
  Ok (x, mkAL (set_ld_cfg ld g') strings t (x :: al_lexical a)).

(** advanced.rs 756-774: a name *)
Definition load_name (debug : bool) (a : adv_loader) (x : string) (k : repetition) : res (nat * adv_loader) :=
  do (l, ld) <- load_fragment debug ([], al_names a) (x, k);
  Ok (hd 0 l, mkAL ld (al_strings a) (al_classes a) (al_lexical a)).

Definition regexp_name : string := "Regexp".

(** advanced.rs 673-775: one fragment (683-734: the argument of a call is always a string) *)
Definition adv_load_fragment (debug : bool) (rx : text -> option hir) (a : adv_loader) (f : xfragment)
    : res (nat * adv_loader + load_error) :=
  match xf_frag f with
  | FCall func s =>
      if negb (String.eqb func regexp_name) then Ok (inr (mkErr NotRegexp (xf_span f) 1 None))
      else match rx s with
      | None => Ok (inr (mkErr BadRegexp (xf_arg f) 1 None))
      | Some h =>
          do (q, t) <- embed_regexp debug h (al_cfg a) (al_classes a);
          let (r, g) := q in
          Ok (inl (r, mkAL (set_ld_cfg (al_names a) g) (al_strings a) t (al_lexical a)))
      end
  | FString s => do p <- load_string a s; Ok (inl p)
  | FName x k => do p <- load_name debug a x k; Ok (inl p)
  end.

(** advanced.rs 670-776: the fragments; collecting stops at the first error *)
Fixpoint adv_load_fragments (debug : bool) (rx : text -> option hir) (l : list xfragment) (syms : list nat) (a : adv_loader)
    : res (list nat * adv_loader + load_error) :=
  match l with
  | [] => Ok (inl (syms, a))
  | f :: l' =>
      do r <- adv_load_fragment debug rx a f;
      match r with
      | inl (s, a') => adv_load_fragments debug rx l' (syms ++ [s]) a'
      | inr e => Ok (inr e)
      end
  end.

(** advanced.rs 633-638: the state of the loop over the rules: their number so far, the left-hand sides of the
    parser and the actions *)
Record adv_loop := mkLoop {
  lp_idx : nat;
  lp_parser : list nat;
  lp_loader : adv_loader;
  lp_actions : list (nat * option string)
}.

(** advanced.rs 650-783: one rule *)
Definition adv_load_rule (debug : bool) (rx : text -> option hir) (st : adv_loop) (p : xrule * bool)
    : res (adv_loop + load_error) :=
  let (r, is_lexer) := p in
  let a := lp_loader st in
  let id := fst (get_or_intern (ld_intern (al_names a)) (xr_lhs r)) in
  if is_lexer && existsb (Nat.eqb id) (lp_parser st) then Ok (inr (mkErr Shared (xr_span r) 1 None))
  else
    let parser := if is_lexer then lp_parser st else id :: lp_parser st in
    let (l, ld) := symbol_named (al_names a) (xr_lhs r) in
    let ld1 := if lp_idx st =? 0 then set_ld_cfg ld (set_roots (ld_cfg ld) [l]) else ld in
    do q <- adv_load_fragments debug rx (xr_rhs r) [] (mkAL ld1 (al_strings a) (al_classes a) (al_lexical a));
    match q with
    | inr e => Ok (inr e)
    | inl (rs, a2) =>
        let lexical := if is_lexer then l :: al_lexical a2 else al_lexical a2 in
        do g3 <- rule_history_rhs (al_cfg a2) l (process_root (ROrigin (lp_idx st + 1))) rs;
        Ok (inl (mkLoop (S (lp_idx st)) parser
                        (mkAL (set_ld_cfg (al_names a2) g3) (al_strings a2) (al_classes a2) lexical)
                        (lp_actions st ++ [(lp_idx st + 1, xr_action r)])))
    end.

(** advanced.rs 638-784: the rules *)
Fixpoint adv_load_rules (debug : bool) (rx : text -> option hir) (l : list (xrule * bool)) (st : adv_loop)
    : res (adv_loop + load_error) :=
  match l with
  | [] => Ok (inl st)
  | p :: l' =>
      do r <- adv_load_rule debug rx st p;
      match r with
      | inl st' => adv_load_rules debug rx l' st'
      | inr e => Ok (inr e)
      end
  end.

(** advanced.rs 498-510: struct AdvancedGrammar; the maps are association lists *)
Record adv_grammar_loaded := mkAG {
  ag_cfg : cfg;
  ag_lexer_map : lexer_map;
  ag_sbs : bitset;
  ag_actions : list (nat * option string);
  ag_sym_map : list (string * nat)
}.

(** advanced.rs 785-807: the result *)
Definition adv_result (st : adv_loop) : res adv_grammar_loaded :=
  let a := lp_loader st in
  do sbs <- fold_res (fun b s => bs_set b s true) (al_lexical a) (bs_reset (al_cfg a));
  do m <- map_res (fun p => match intern_resolve (ld_intern (al_names a)) (fst p) with
                            | Some x => Ok (x, snd p)
                            | None => Panic
                            end) (ld_map (al_names a));
  Ok (mkAG (al_cfg a) (mkLexer (al_classes a) [] []) sbs (lp_actions st) m).

(** advanced.rs 628-636 *)
Definition adv_loop_new : adv_loop := mkLoop 0 [] (mkAL (mkLoader cfg_new [] []) [] [] []) [].

(** Result<AdvancedGrammar, LoadError> *)
Definition adv_outcome : Type := adv_grammar_loaded + load_error.

(** advanced.rs 627-815: what is made of the value of the tokens *)
Definition load_value (debug : bool) (rx : text -> option hir) (v : adv_value) : res adv_outcome :=
  match v with
  | XVStart rules lex =>
      let lexer := match lex with Some l => l | None => [] end in
      do r <- adv_load_rules debug rx (map (fun x => (x, false)) rules ++ map (fun x => (x, true)) lexer) adv_loop_new;
      match r with
      | inl st => do a <- adv_result st; Ok (inl a)
      | inr e => Ok (inr e)
      end
  | _ => Ok (inr (mkErr NotStart 0 0 None))
  end%list.

(** advanced.rs 513-816: load_advanced.  The tokens are parsed before the error at their end, if any, is met. *)
Definition load_advanced (debug : bool) (rx : text -> option hir) (t : text) : res adv_outcome :=
  do (tokens, error) <- x_tokenize t;
  match adv_parse_loop (CFile, QStart, None) 0 (map fst tokens) with
  | inr n =>
      match nth_error tokens n with
      | Some (x, (line, col)) => Ok (inr (mkErr ParseFailed line col (Some x)))
      | None => Panic
      end
  | inl p =>
      match error with
      | Some (line, col) => Ok (inr (mkErr Tokenize line col None))
      | None =>
          match finished p with
          | None => Ok (inr (mkErr NoResult 0 0 None))
          | Some v => do x <- v; load_value debug rx x
          end
      end
  end.
