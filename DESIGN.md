# Formal model of pczarn/cfg in Rocq

## Layout

* `rocq/theories/Spec*.v` – small specifications, written from the English properties alone
  (textbook grammars, derivations, languages, sequences, operator expressions, regular expressions).
  They import nothing from the model.
* `rocq/theories/*Model.v` – the model: total Gallina functions, one per Rust function, each with a
  comment that cites the file and lines in `/repo`. Simplifications are stated in that comment.
  No proofs in these files.
* `rocq/theories/*Proof.v`, `*Facts.v` – lemmas and proofs.
* `rocq/theories/Props*.v` – the deliverable statements. Each theorem is closed by `exact`, followed by
  `Print Assumptions`, with an `Example` beside it which shows a non-trivial case that meets the hypotheses.

## Conventions of the model

* A symbol is a `nat`, its 0-based `Symbol::usize()` value. `SymbolModel.v` models the numeric
  representation (NonZero u8/u16/u32) separately; elsewhere the symbol counter is unbounded, i.e. the
  grammar is assumed to hold fewer than 2^32 - 1 symbols.
* A panic is the value `Panic`, an unbounded loop is run on fuel, and running out of fuel is `OutOfFuel`.
  Theorems either show that enough fuel exists (termination), or that no fuel is enough (divergence).
* `Vec` is `list`, `BTreeMap` is a list sorted by key, `BitVec` is `list bool` with panics on
  out-of-range access. `HashMap` is used by the code only through lookups (except where stated).
* Where the code violates the property, the theorem is the refutation (`..._refuted`, by a concrete
  witness that is computed by the model), together with the strongest positive part that holds
  (`..._partial` if it is weaker than the property).

## Trusted base

* Coq 8.16.1's kernel (and `coqchk`). `vm_compute` is used only for concrete examples and refutation witnesses.
* No axioms: `Print Assumptions` prints "Closed under the global context" for every theorem in `Props*.v`.
* Only Coq's standard library is imported.
* The correspondence between the Rust text and the Gallina functions is by reading; it is not checked mechanically.
  As evidence, `Conformance.v` replays the tests of the repository on the model (36 examples, with the outcomes that they
  expect of the Rust code): all of `cfg/tests`, `cfg-load/tests`, `cfg-examples/tests` and the tests inside
  `cfg-regexp-logic` and `cfg-generate` except for two of `mem::size_of` and one of `genetic.rs`. They include the two
  random sentences that `test_random_math.rs` fixes for a seed. These are checks on literals, not proofs.

## What is modelled and what is not

Modelled: see the table below; each property names the code.

Not modelled: memory layout and performance; JSON texts (trees instead), the `serde` feature; the external crates
(`bit-vec`, `bit-matrix`, `regex-syntax`, `tiny-earley`, `rand`, hash maps) except for the operations that are used,
which are modelled by their documented behaviour (`transitive_closure` is modelled by Warshall's algorithm);
`tiny-earley` is trusted to accept exactly the token strings that have a parse tree, to reject a token exactly if no
parse tree begins with the tokens up to it, and to evaluate one of the trees (`basic.rs`, `advanced.rs`);
`regex_syntax::parse` is an arbitrary function from texts to expressions (the parameter `rx` of `load_advanced`);
the texts of error messages are left out;
`elsa::FrozenIndexSet` is a list without repetitions; the payload of a NaN (the type f64 is modelled by the specification of IEEE 754 arithmetic in Coq's standard library, Coq.Floats.SpecFloat, without axioms: binary64, round to nearest even); Unicode text (characters are code points); `genetic.rs` (dead code);
the text around the parser that `cfg-regexp-macro` generates, and the Python scripts of the example crate.

## Tests of the theorems against wrong programs

`seeded/LOG.jsonl` has one line for each edit of the model that was tried in a scratch copy. The first lines
are edits made by hand, each with the claim that it breaks. Lines whose `edit` starts with "generated" come from
a systematic round that changes one operator, constant, branch or argument in each definition of the model and
rebuilds everything. There `first_failure` is the lemma or theorem at which the build stops, and
`theorems_failed` lists (up to twenty of) the theorems whose proofs use it. An edit after which everything
still builds is either listed with the theorems that were tightened because of it, or with the reason why it
changes no behaviour that can be observed.

## Properties: what is modelled and how it is proved

### C01 Every generated symbol is new

SymbolModel: source state = (next_symbol, names), width-parametric, panics explicit. Induction over the list of calls.

### C02 Symbol names stay attached to their symbols

Same model; invariant names.length = num_syms over histories of next_sym/truncate.

### C03 Serialized symbols read back unchanged

SymbolModel: serialize/deserialize on N; case analysis on the boundary.

### C04 Composing symbol mappings

SymbolModel: lists of optional symbols; pointwise lemma, inverse-pair lemma.

### C05 Symbol-set queries are exact

BitSetModel: list bool; characterisation lemmas by induction on the rule list.

### C06 RHS closure is the least closed set

ClosureModel: stack + occurrence lists on fuel; loop invariant (closed except for symbols on the stack; sound for the least closed set); measure for termination.

### C07 Weighted RHS closure gives minimal costs

ClosureModel: same loop with optional numbers; invariant (each value is the cost of a tree; relaxed except through stack symbols); overflow as panic.

### C08 is_empty of a symbol set

BitSetModel: refutation by computation; what is returned instead is proved for all sets.

### C09 Limiting the right-hand-side length preserves the language

CfgModel.add_rule with fuel; fresh symbols unfold to the prefix they stand for: homomorphism lemma on derivations (GrammarFacts).

### C10 Length limit is enforced with the fewest changes

Same model; induction on the remaining right-hand side.

### C11 limit_rhs_len always returns and never loses rules

Refuted: limits 0 and 1 make add_rule loop forever (no fuel suffices) or drop empty rules; termination for limits >= 2.

### C12 The grammar stays closed under every operation

Operations as a datatype, invariant by induction over operation lists.

### C13 Nulling elimination preserves the non-empty strings

ElimModel: binarize, nullable closure, rule rewriting, retain. Induction on derivations in both directions.

### C14 Nulling elimination splits off exactly the empty string

Same model; shape lemma and nullability lemma.

### C15 Nulling elimination invents no terminals

Refuted by computation; partial result on the original terminals.

### C16 Eliminated symbols are recorded in rule history

HistoryModel + ElimModel: shape of each produced rule's history.

### C17 Binarization history gives the original dot positions

HistoryModel: exact formula proved; property refuted.

### C18 wrap_input adds exactly the two end markers

CfgModel.wrap_input; homomorphism lemma.

### C19 is_empty of a grammar

CfgModel; refuted under a length limit, exact characterisation proved.

### C20 Reversing a grammar reverses its language

CfgModel.reverse; derivation reversal.

### C21 Sorting and deduplicating keep the language

CfgModel: insertion sort as the stable sort; permutation and sortedness lemmas.

### C22 Equivalence check

CfgModel.equivalent; refuted; partial for equal lengths.

### C23 Dotted positions of a column

CfgModel.column; direct.

### C24 Precedence builder: language

PrecModel: builder state and calls; set-valued substitution lemma; SpecPrec gives operator expressions independently of fresh symbols.

### C25 Precedence builder: soundness against the ambiguous grammar

Corollary of the previous one, by induction on operator expressions.

### C26 Precedence builder: associativity on every level

Refuted on the tightest level; proved for all others.

### C27 Sequence rules: language

SeqModel: work stack and memo table; set-valued substitution lemma; combinatorics of ranges; SpecSeq.

### C28 Sequence rewriting terminates and is local

SeqModel: decreasing weight of the stack; freshness invariant.

### C29 Sequence builder bounds

SeqModel range conversion on N with u32 wrap-around; refuted for empty ranges, proved for others.

### C30 Derivation matrices are exact

MatrixModel: list of rows; Warshall; path lemma.

### C31 Usefulness is exact

ClassifyModel.usefulness on top of closure and matrix.

### C32 Removing useless rules preserves root languages

Pruning of derivations from roots.

### C33 make_proper leaves no useless rule

Refuted by computation (unproductive rule removal can make others unreachable); proved: two passes suffice.

### C34 Cycle detection and removal

ClassifyModel.cycles; path argument.

### C35 rewrite_cycles preserves the language

Refuted for roots inside of a cycle; proved up to the representative of each cycle.

### C36 Recursion classification

ClassifyModel.recursion; refuted for left recursion in the textbook sense; exact reachability characterisation proved.

### C37 Reordering symbols is a renaming

RemapModel: stable sort of symbols; inverse permutation; renaming of derivations.

### C38 Removing unused symbols

RemapModel; panic and dangling-root refutations, otherwise proved.

### C39 Remap mapping is an inverse pair

RemapModel; invariant over operation lists.

### C40 FIRST sets are exact

SetsModel: sorted map of sets; fixpoint loop on fuel; soundness + completeness vs derivations; termination by cardinality.

### C41 LAST sets are exact

LAST = FIRST of the reversed grammar + reversal of derivations.

### C42 FOLLOW sets are exact

SetsModel.follow; lists proved exact; end marker refuted.

### C43 FIRST of a string

Refuted; partial for strings where only the last inspected symbol has a non-empty FIRST set.

### C44 LL(1) classification

LLModel; refuted by a grammar classified LL(1); exact table characterisation.

### C45 Minimal sentence lengths are exact

DistModel on top of weighted closure.

### C46 Minimal distances are realizable

DistModel; soundness of forward distances; refutations for backward distances and panics.

### C47 Random generation stays in the language

Modelled: Random::random with the random source as any pair of functions (generate, mutate_start) on any state type, rationals for f64. Proved by an invariant of the loop: result followed by work is derived from the start symbol, result is terminal.

### C48 Random generation always returns

Refuted for left recursion (the limit counts terminals only). Proved: without left recursion (negative symbols count as empty) the loop ends, by a measure on attempts left and on terminals, and an inner induction on symbols not yet left-reached.

### C49 Negative rules only restrict

Refuted: after going back, states of the abandoned text stay active. Proved when at most one negative symbol is in a sentence, and for many when the forbidden text ends before the next negative symbol; in all cases the output is terminal and within the limit.

### C50 Lexer map lookup

RegexModel models LexerMap::compute and get; proved for tables with distinct symbols by a filter of the events of one symbol; refuted for literal bytes (the stored range includes the next character), for shared symbols and before compute.

### C51 Regular expressions translate to equivalent grammars

walk_hir modelled on the HIR of regex_syntax (the parser itself is not modelled). Induction on the expression: alternatives returned for a subexpression derive the matched token strings. Uses C27 for repetitions. Counts above 2^31 panic (refuted).

### C52 Loading a BNF file gives the written grammar

Model of Cfg::load (LoadModel.v) with a declarative grammar of names and repetitions (SpecLoad.v). The proof keeps, rule by rule, equality of derivations between the loaded grammar and the written one on strings of named symbols; sequence rewriting enters through the C27 theorem, and the symbols it invents are eliminated by substitution.

### C53 Printing and loading a grammar

Model of to_bnf including trim; the printed line is shown to be read as the tokens of its rule, with maximal munch.

### C54 Tokenizer covers the input

Model of Lexer; specification: words and the longest-word reading of a text. Induction on the text.

### C55 String interning is injective

Model of StringInterner as a list without repetitions; induction on the history of calls.

### C56 LR(0) closure

LRModel, SpecLR; loop invariant with the set of expanded symbols; the full claim is refuted (kernel items are overwritten); exact when the textbook closure has one item per rule.

### C57 LR(0) automaton numbering

LRModel; BFS invariant (the cached sets are the finished nodes followed by the queue); termination by counting all item sets.

### C58 Rule origin survives rewriting

HistoryModel, PropsHistory: chains of history nodes; limiting to 2, nulling elimination, precedence and sequences, by induction over their loops; refuted for limit 3, sequences with a history, separators between elements.

### C59 Rule comparison is an equivalence

CfgModel; refuted transitivity; reflexive and symmetric proved.

### C60 Rule builder: which alternatives are declared

Builder model in CfgModel; an inductive relation from call lists to rules; induction over the calls.

### C61 Sequence builder calls

Builder model in SeqModel; an inductive relation from call lists to sequence rules; induction over the calls.

### C62 LR(0) automaton and viable prefixes

SpecLR rightmost derivations and valid items; soundness by induction on the path; completeness refuted.

### C63 Weights decide the choice of production

Weights, their sums and the random values are IEEE 754 numbers (FloatModel.v). FloatProof.v: rounding of sums, products and quotients; FloatProof2.v: the relative error of a sum of n weights is at most n / 2^52; GenProof3.v: the binary search on the computed sums. A value strictly inside an interval, by more than the rounding errors, picks its production, and the interval of the picked one contains the value up to these errors. Refuted: weight zero is picked for the value 0.

### C64 Every sentence can be generated

A source that returns given values and panics outside of the range asked for; induction on the derivation tree, choosing a floating-point number strictly inside each computed interval, which is longer than 2^-11.

### C65 The attempt limit for negative rules is respected

Refuted: the field is never read; outcome shown independent of it for all calls.

### C66 Random generation does not panic

Proved without negative rules and under the conditions of C49, for sources that neither panic nor return a NaN for the computed sums of weights; refuted in general (bt.attempt not found).

### C67 The lexer map can always be computed

Exact condition: compute panics iff a range starts in ASCII and ends at 256 or later, or its end is not followed by a character. Refuted for [^a].

### C68 Different bytes and classes have different symbols

Keys of the table are distinct and symbols are distinct; refuted for a byte and the class of it and the next character.

### C69 Grammar and lexer map together match the expression

C51 composed with C50, for expressions of classes; refuted for literals.

### C70 BNF texts have one parse

The grammar of BNF and the evaluator are modelled as an inductive set of parse trees with values; a left-to-right parser is proved equivalent to it. The recognizer crate tiny_earley is trusted to find a parse tree if there is one.

### C71 Loading reports errors

Refuted: tokenizer errors are unwrapped. Partial: these are the only panics.

### C72 Printing and loading gives back the grammar

Composition of C53, C70 and C52; refuted for roots, unnamed symbols, grammars without rules, and the other printer stringify_to_bnf.

### C73 Errors of notation are located

The tokenizer is modelled and shown to read longest words; the parser is a left-to-right automaton shown to accept exactly the beginnings of files, so that its first rejected token is the first one that no file has there. Refuted for incomplete files, whose error has line 0 and column 0.

### C74 Texts in the rich notation have one parse

The grammar of the notation and the evaluator are modelled as an inductive set of parse trees with values, as for C70; the tokens of a file determine the file. tiny_earley is trusted as for C70. Partial: files with no or several lexer blocks in the wrong place panic (C75).

### C75 Loading the rich notation never panics

The loop over the rules is shown to preserve an invariant of names, classes and symbols under which no step panics. Refuted for a lexer block that comes first or twice, and for strings with the last character before the surrogates or the last of all.

### C76 Rules of the rich notation are rejected for a reason

Induction over the rules: the first fault decides. The reason is proved; the line is refuted, since it is the number of a token.

### C77 The loaded grammar is the written one

The rules added for a fragment form a part of the grammar that only its symbol leads to; the language of that part is the meaning of the fragment (C51 for regular expressions, transported along the embedding). Partial: names like __lex0 are excluded, and refuted.

### C78 The set of lexemes

From the invariant of C77. Partial as C77.

### C79 Rules keep their number and action

From the invariant of C77: the rules are a permutation of the written ones, in order, and of helper rules, whose origin is no number of a rule. Partial: fewer than 2^32 - 2 rules, and as C77.

### C80 Names and symbols of a loaded grammar

From the invariants of C75 and C77. Partial: which names there are, as C77.

### C81 The lexer map of a loaded grammar

Every class comes from a string or an expression; then C50. Refuted before compute is called, and because a written character stands for the next one, too.

### C82 Looking up symbols by name

SymbolModel: the map is the list of pairs (name, symbol) collected in order, the last entry counts. Induction on the names.

### C83 Serialized symbol sources and mappings

SerialModel: JSON values as trees, what miniserde's derive makes of an object. Refuted: a source whose number of names differs from its number of symbols is accepted, and later names go to the wrong symbols.

### C84 Symbols as bytes

SerialModel: nanoserde's little-endian u32. Refuted: four zero bytes panic.

### C85 Positions of rules made from sequences

SequenceDetails and rewrite_sequence in HistoryModel.v; the table of the source's comment is an inductive relation `row` in PropsSeqHist.v. Proved: the function gives the six rows. Refuted for what a user gets: process_linked drops the function's result (mod.rs 164-169), so rules made from a sequence have the positions of the history that was given, unchanged (proved for all sequences).

### C86 Distances are minimal

DistModel.v; the shortest strings come from the derivation relation of the specification. Refuted three ways: distances are not propagated through predictions, and the loop stops after a round that only changes earlier rules. Proved: within the rule of a target, and from rules whose next symbol's rules hold a target, the reported distance is at most the length of any string that leads there (DistUpper.v, DistUpper2.v).

### C87 Distances of recursive rules

recursion_minimal_distances in DistModel.v. Proved: the rules listed are exactly the recursive ones, the distance from the start is that of the first recursion, the distance from the end is realized by a string. Refuted: the distance from the end is not always least.

### C88 Splitting rules keeps parse trees

Parse trees (SpecTree.v): a node holds the index of its rule. A map from the trees of the split rules to those of the whole rules, one to one and onto, keeping strings, built rule by rule (TreeProof.v, TreeLimit.v). Both directions of ambiguity follow. C88_trees_are_parses ties trees to the language of Spec.v.

### C89 Rearranging and pruning keeps parse trees

The same notion of trees. Reversing maps trees to mirrored trees, sorting permutes indices, renaming is by an injective map, removing rules is an increasing map of indices (TreeOps.v, TreeMap.v); useless rules are in no tree of a root.

### C90 Sequences are parsed in one way

The rules of the loop of rewrite.rs are computed exactly (SeqTree2.v: rewrite_rules) for a limit of at least three or none; every string has one alternative and one split that fit (SeqTree.v: alt_unique, split_unique). Refuted for an optional last separator from zero elements: the empty sequence has two parses.

### C91 The readable text of a grammar

stringify_to_bnf in CfgModel.v against an inductive reading of texts (PropsText.v). That texts determine rules and names is proved by reading symbol by symbol; refuted for names with an opening parenthesis.

### C92 Eliminating nulling rules adds no ambiguity

Every rule that is left has a tag: the rule it comes from and the symbol that was left out; tags are distinct (ElimTree2.v). Trees are mapped by putting a chosen tree of the empty string back (ElimTree.v); one to one because no tree that is left has an empty string; onto if there is only one choice.

### C93 Operator tables are read in one way

The built rules as a list, up to order (PrecTree2.build_rules): one rule per alternative, one per level to the next tighter one, one for the operand symbol. PrecTree.det_all: of two trees of a level whose strings are followed by something that is not an operator of this level or a tighter one, equal strings imply equal trees and equal rests; by induction on the size, an expression being split into what it begins with and a list of operators of the level. Parse trees as in C88.

### C94 The allowed range of lengths is the range of stored lengths

CfgModel.len_allowed (the half-open range) against add_rule_parts and limit_rhs_len; from the specification of add_rule (CfgProof.add_rule_spec) and C10. Refuted as stated: a limited grammar stores rules as long as the limit, which is the excluded end of the range.

### C95 Bytes as a deterministic source of values

GenModel.byte_source (IEEE 754 numbers, bytes as numbers): generate_step and induction over the limits; mutate_spec by induction over the number of mixed bytes; the mixture as a finite table on bytes (each value has at most two preimages). Refuted: two attempts may be equal in all that follows. Refuted too: for the byte 255 the value may be above the limit, by at most one part in 2^51.

### C96 What histories say where nothing was recorded

SpecHist: unknown and traced positions with literal values; case analysis of HistoryModel.process_linked and process_root, the parts of a split rule from C17.

### C97 Grammars that are written in Rust source

SpecMacro: token trees, their leaves, words with spans, what an error is about; MacroModel: flatten, joining of tokens and the cases of cfg_regexp; induction on words shows that the k-th word is on line k, then the outcome theorems of C74-C78 and C80 apply, with an invariant of parsed values that keeps the numbers of tokens. Four refutations: a grammar without lexical part panics, all parsers are of the empty object, literals on two lines and raw literals.

### C98 Rules that are written with names

NamedModel: NamedCfgRule::new and with_history over generate_fresh; induction shows the fresh symbols are 0, 1, ...; then the meaning of named equality from C59. Release builds do not panic on the empty list (refuted).

### C99 Origins, events, distances, dotted rules and symbol sets are read as they were written

SerialModel2: derived readers and writers over JSON trees and bytes, BitVec as blocks of 32 bits; arithmetic of bytes and bits, induction on blocks. A text with fewer blocks than bits is read and membership panics (refuted).

### C100 A grammar prepared for a parser accepts exactly the inputs of the original

PropsPipe: the API calls composed; each pass's theorem (C18, C13, C14, C34, C35, C32, C33) supplies the next one's hypotheses; PipeProof shows that wrapped roots stay in no right-hand side, hence on no cycle.

### C101 A prepared grammar can be renumbered without losing its wrapped roots

C100 followed by C39. False without more: a root on a cycle is in no rule afterwards, and removing unused symbols leaves the wrapped root outside of the grammar; a grammar without strings has no rules left and renumbering panics (both refuted). Proved when the wrapped roots occur in rules.

### C102 What is classified LL(1) is unambiguous

Spec-level theorem (LLTree.v): no LL(1) conflict and no two vanishing rules under A imply that two trees of A with one yield are equal, by induction on trees with the input that remains as context. Combined with C44 for the table of the code, and with C18 for wrapped roots, where the end marker stands for the end of input. Refuted without wrapping (two vanishing rules at the end of input) and with nullable symbols that derive other strings (FIRST sets).

### C103 Without cycles each string has finitely many parse trees

FiniteProof.v: without empty rules, unit cycles and rules A ::= A the height of a tree is bounded by the number of rules times the length of its yield (visited left-hand sides of a unit chain are distinct), and the trees up to a height are enumerated; a cycle makes trees of one yield of any height. Combined with C34 for the analysis of the code and C100 for the pipeline. Rules A ::= A are not cycles for the code (documented), and eliminating nulling rules makes them: refuted for prepared grammars, proved when no such rule is left.

### C104 Wrapping keeps parse trees

Correspondence of trees between the original root and its wrapper (`trees_match` in `SpecTree.v`), by induction over the roots (`TreeWrap.v`); `C104_wrap_input`. The proof covers any number of roots.

### C105 Chained declarations are separate declarations

The typestate of the builders as a state machine whose ill-typed calls have no successor (`ChainModel.v`). `C105_chained_partial`: equality with the fold of separate builders for chains whose last part is closed. `C105_dropped_refuted`: a chain that ends in operators without `finalize` loses the group alternatives and the rule of the symbol itself; `C105_unfinished`: then the symbol never has new alternatives.

### C106 A preparation step needs not be made twice

Each step applied to its own result, as an equation between grammars (`PropsTwice.v`), from the exact descriptions of the single steps. `make_proper` is refuted (C33: rules that only become unreachable by the first call) and proved when all symbols are productive; removing unused symbols is refuted for roots that occur in no rule (the second call panics) and proved otherwise.

### C107 Analyses depend on the set of rules only

Model: the functions of C05, C06, C30, C31, C34, C36, C40-C42, C44, C45 and C86 on two grammars. `same_rules` says that both issued equally many symbols and have the same productions. The equalities follow from the exact specifications of each analysis, which speak of the set of productions only. LL(1) classes are equal for permutations and refuted for repetitions; minimal lengths are equal when both are found, and whether an overflow panics depends on the order; minimal distances are refuted.

### C108 Analyses follow the renumbering of symbols

Model: `remap_run` of C39 followed by the functions of C107. `now r o s` says that the mapping returned by the renumbering takes the old symbol o to s. Proof: the mapping is injective on occurring symbols and the productions of the new grammar are the renamed ones (from C39), every derivation notion of the specifications is invariant under such a renaming, and each analysis is exact. Minimal lengths agree when both are found; whether an overflow panics depends on the numbering (`C108_overflow_depends`), so the claim is about returned lengths.

### C109 Analyses of a reversed grammar

Model: `cfg_reverse` followed by the functions of C107. Every derivation notion of the specifications is carried through `rev`; each analysis is exact, so the results are equal or exchanged. Whether an overflow of the lengths panics can depend on the order in a right-hand side (`C109_overflow_depends`), so the claim is about returned lengths.

### C110 Limiting the length of rules leaves the analyses of the symbols unchanged

Model: `limit_rhs_len` of C09 followed by the functions of C107. `limit_rhs_len` is a sequence of steps that replace one rule A ::= u v by F ::= u and A ::= F v with a new symbol F; the record `kept` lists the derivation notions, and one step keeps them for all symbols other than F. LL(1) classes are not part of the claim: C110_ll1_changes shows that they can change (a consequence of C43).

### C111 The analyses agree with each other

PropsAgree.v: no model code of its own. Each theorem relates the results of two or more modelled analyses directly (membership, marks, lengths, matrix entries), proved through the exact specifications of each (C05, C06, C31, C34, C40, C41, C45).

### C112 Rules for new symbols leave the earlier analyses unchanged

PropsExtend.v: no model code of its own. Derivations from earlier symbols are the same in both grammars; the exact specifications of the analyses give the rest. For wrap_input the FOLLOW set of the unsplit wrapper rule is calculated and carried through splitting (C110).

### C113 Elimination of nulling rules keeps sentential forms, prediction sets and reachability

Relate one rule application followed by a derivation of a non-empty form in the binarized grammar to the rules with dropped symbols; drop symbols that derive only the empty string from the context; then use the exactness theorems of the predictor and the matrix on both grammars.

### C114 Deciding infinite ambiguity with empty rules

Bound the height of trees by the length of the string when no symbol derives itself, with empty rules; pump trees otherwise; relate derivations of a symbol from itself to the remaining and the returned grammar by C113's lemmas.

### C115 The example grammars mean what they say

ExampleModel.v runs the same builder calls and loads the same text. The parse trees of ambiguous_math are enumerated by a recursive function that is shown sound, complete and without repetitions; its length is the Catalan recurrence. For the C grammar the analyses are computed on the loaded grammar, and the theorems C31 and C114 turn their results into statements about all derivations and all strings; the ambiguity is witnessed by two trees.

### C116 Names of the symbols of a translated regular expression

Invariant of the translator: names come from bytes, classes come from bytes that name them or from written classes; sequences and helper rules only add symbols without names. Induction on the expression.

### C117 Which regular expressions are translated

SpecRegex.v describes translatable and unusable expressions. SeqExact.v: an invalid range leads, through the sequences it is split into, to one whose arithmetic panics; the sequences that are still to be processed contain such a one until then. PropsRegexRefuse.v: induction on the expression.

### C118 Weights are kept in thousandths

FloatModel.f64_mul and f64_to_u32; SpecFloats.in_thousandths describes the result by the exact value. FloatProof2.milli_spec: rounding of the product and truncation. Weights of parts by the description of split rules (CfgProof.chain). Refuted: the number next to 1.001 is kept as 1000 thousandths.

### C119 Large bounds of a sequence rule cost few rules

SeqSize: a list of 5k + 11 sequences that is closed under the recursion of reduce (powers of two, and the remainders left by halving); the map has each sequence once, each sequence is reduced once and gives at most two rules, and at most three of all rules are longer than two symbols.

### C120 Elimination of nulling rules is linear in size

Induction over the rules of the binarized grammar: the grammar of rewritten rules grows by at most two, the returned one by at most one; the binarized grammar's size by CfgProof.chain_length.

### C121 Bytes choose productions in proportion to their weights

The value of a byte and the boundaries between productions are within small errors of the exact ones (GenProof7.bytes_value, GenProof3.from_near); a byte outside the errors is decided by GenProof3.pick_position; count the whole numbers in an interval.

### C122 Without useless rules, prediction sets speak of sentences

Every symbol is productive if all rules are useful, so the sentential forms in C40, C41 and C42 derive sentences; C32 and C33 for the two calls.

### C123 Regular expressions translate to small grammars

Induction over the expression with a potential: the rules so far and the alternatives that still need rules. For repetitions SeqSize.rewrite_size.

### C124 The prepared grammar is linear in size

wrap_input adds two pairs and four symbols for each root by induction over the roots; C120 for the elimination; rewritten rules are a rearrangement of a part of the rules, and fit in the limit, so that no symbol is added; make_proper is a filter.

### C125 The precedence builder adds one rule for each alternative

Induction over the calls: the rules in the grammar and those kept back are together as many as the alternatives and steps; add_rule keeps the number of pairs (CfgProof.chain).

### C126 From the text of a file to accepted and generated strings

SpecText.v defines sentences of names. By induction over derivations, the language of the written rules (C52) is the set of sentences, names being injective; then C100 and C47.

### C127 From a regular expression to accepted and generated texts

C69 composed with C100 and C47; the characters of the generated text are followed through the loop by an invariant (C47_chars).

### C128 From a file in the rich notation to accepted and generated strings

C77 composed with C100 and C47.

### C129 What is classified LL(1) is parsed with one symbol of lookahead

SpecTopDown.v is the machine with a stack; TopDownProof.v relates its runs to leftmost derivations and shows that deterministic runs end, by induction on the input and the stack; C44 excludes conflicts.

### C130 A retry after a forbidden text starts over from the negative symbol

PropsRetry.v: one iteration of the loop with the negative symbol behind it does the same as one without negative rules until the text is the forbidden one, and then returns to the state after the negative symbol; induction over the iterations of an attempt, then over the attempts.

### C131 Negative rules that matter for random generation

PropsNegAgree.v: show that only symbols reached from the start symbol are ever to be expanded, now or after going back, and that the two loop bodies agree on such states.

### C132 Rules that matter for random generation

PropsGenLocal.v: the weighted map and the set of terminals agree on reached symbols, hence so do the loop bodies on the states of C131's invariant.

### C133 The limit of random generation only cuts off

PropsGenLimit.v: one iteration with a smaller limit does the same or stops with LimitExceeded; induction over the iterations. For the last claim the number of generated terminals never falls without negative rules.

