(** Specification: which rules of the rich notation are rejected, and why. *)

From Coq Require Import String Ascii List Arith NArith Bool.
From Verif Require Import Spec SpecLoad SpecRegex SpecAdv AdvModel.
Import ListNotations.

(** The rules of a file, each with whether it belongs to the lexer. *)
Definition marked_rules (f : list declaration) : list (adv_rule * bool) :=
  map (fun r => (r, false)) (parser_rules f) ++ map (fun r => (r, true)) (lexer_rules f).

Section Faults.
Context (rx : text -> option hir).

(** Why a fragment is rejected. *)
Inductive fragment_fault : adv_fragment -> error_reason -> Prop :=
| ff_name : forall func s, func <> "Regexp"%string -> fragment_fault (FCall func s) NotRegexp
| ff_syntax : forall s, rx s = None -> fragment_fault (FCall "Regexp" s) BadRegexp.

(** The reason of the first fault in a list. *)
Definition first_fragment_fault (fs : list adv_fragment) (e : error_reason) : Prop :=
  exists pre f post, fs = pre ++ f :: post /\ (forall x e', In x pre -> ~ fragment_fault x e') /\ fragment_fault f e.

(** A name is the left-hand side of a rule of the parser. *)
Definition parser_side (rules : list (adv_rule * bool)) (x : string) : Prop :=
  exists fs act, In ((x, fs, act), false) rules.

(** Why a rule is rejected after the rules [before]. *)
Inductive rule_fault (before : list (adv_rule * bool)) : adv_rule * bool -> error_reason -> Prop :=
| rf_shared : forall l fs act, parser_side before l -> rule_fault before ((l, fs, act), true) Shared
| rf_fragment : forall l fs act b e, (b = true -> ~ parser_side before l) -> first_fragment_fault fs e ->
    rule_fault before ((l, fs, act), b) e.

(** The first rule that is rejected, and why. *)
Definition first_fault (rules : list (adv_rule * bool)) (e : error_reason) : Prop :=
  exists before p after, rules = before ++ p :: after /\
    (forall b0 q a0 e', before = b0 ++ q :: a0 -> ~ rule_fault b0 q e') /\ rule_fault before p e.
End Faults.

(** A text is written for a file. *)
Definition text_of (t : text) (f : list declaration) : Prop :=
  adv_file f /\ exists tokens, reads t tokens [] /\ adv_file_tokens f = map fst tokens.

(** One lexer block; strings without the last character before the surrogates and the last of all;
    and only expressions that can be loaded. *)
Definition loadable (rx : text -> option hir) (f : list declaration) : Prop :=
  one_lexer f /\
  (forall s, has_fragment (adv_file_rules f) (FString s) -> ~ In 55295%N s /\ ~ In 1114111%N s) /\
  (forall s h, has_fragment (adv_file_rules f) (FCall "Regexp" s) -> rx s = Some h -> supported h).
