(** Specification: characters, classes of characters, and what a regular expression matches. *)

From Coq Require Import List Arith NArith.
Import ListNotations.

(** A Unicode scalar value. *)
Definition is_char (c : N) : Prop := (c < 55296 \/ 57344 <= c <= 1114111)%N.

(** A class of characters is given by ranges, both ends included. *)
Definition in_ranges (l : list (N * N)) (c : N) : Prop :=
  exists lo hi, In (lo, hi) l /\ (lo <= c <= hi)%N.

(** Ranges of characters in increasing order that do not overlap. *)
Fixpoint canonical_from (least : N) (l : list (N * N)) : Prop :=
  match l with
  | [] => True
  | (lo, hi) :: l' => is_char lo /\ is_char hi /\ (least <= lo <= hi)%N /\ canonical_from (hi + 1) l'
  end.
Definition canonical (l : list (N * N)) : Prop := canonical_from 0 l.

(** A regular expression, as regex_syntax::hir::HirKind has them.  A class is given by its
    ranges. *)
Inductive hir :=
| HEmpty
| HLiteral (bytes : list N)
| HClass (ranges : list (N * N))
| HLook
| HRepetition (min : N) (max : option N) (sub : hir)
| HCapture (sub : hir)
| HConcat (l : list hir)
| HAlternation (l : list hir).

(** The input of an expression is a string of tokens: a byte or a class. *)
Inductive token := TByte (b : N) | TClass (ranges : list (N * N)).

(** What a regular expression matches.  Nothing is said about look-around. *)
Inductive matches : hir -> list token -> Prop :=
| m_empty : matches HEmpty []
| m_literal : forall bytes, matches (HLiteral bytes) (map TByte bytes)
| m_class : forall ranges, matches (HClass ranges) [TClass ranges]
| m_repetition : forall min max sub parts,
    (min <= N.of_nat (length parts))%N ->
    (forall m, max = Some m -> (N.of_nat (length parts) <= m)%N) ->
    Forall (matches sub) parts -> matches (HRepetition min max sub) (concat parts)
| m_capture : forall sub w, matches sub w -> matches (HCapture sub) w
| m_concat : forall l parts, Forall2 matches l parts -> matches (HConcat l) (concat parts)
| m_alternation : forall l h w, In h l -> matches h w -> matches (HAlternation l) w.

(** Numbers of repetitions up to about 2^31: at most [min..=max] = [2^31..=2^31], less than 2^31
    numbers after the first one (not counting 0), and at most [2^31 + 1..] without an upper
    bound. *)
Definition counts_fit (min : N) (max : option N) : Prop :=
  (min <= 2147483649)%N /\
  forall m, max = Some m -> (min <= m /\ m <= N.max 1 min + 2147483647 /\ (min = m -> m <= 2147483648))%N.

(** Expressions without look-around, with at least one branch in an alternation, without the
    byte 255, and with numbers of repetitions that fit. *)
Inductive supported : hir -> Prop :=
| s_empty : supported HEmpty
| s_literal : forall bytes, Forall (fun b => (b < 255)%N) bytes -> supported (HLiteral bytes)
| s_class : forall ranges, supported (HClass ranges)
| s_repetition : forall min max sub, counts_fit min max -> supported sub -> supported (HRepetition min max sub)
| s_capture : forall sub, supported sub -> supported (HCapture sub)
| s_concat : forall l, Forall supported l -> supported (HConcat l)
| s_alternation : forall l, l <> [] -> Forall supported l -> supported (HAlternation l).

(** A byte or class that is written in an expression. *)
Inductive written (t : token) : hir -> Prop :=
| w_literal : forall bytes b, In b bytes -> t = TByte b -> written t (HLiteral bytes)
| w_class : forall ranges, t = TClass ranges -> written t (HClass ranges)
| w_repetition : forall min max sub, written t sub -> written t (HRepetition min max sub)
| w_capture : forall sub, written t sub -> written t (HCapture sub)
| w_concat : forall l h, In h l -> written t h -> written t (HConcat l)
| w_alternation : forall l h, In h l -> written t h -> written t (HAlternation l).

(** The characters of a token; a byte stands for the character with its number. *)
Definition contains (t : token) (c : N) : Prop :=
  match t with
  | TByte b => c = b
  | TClass ranges => in_ranges ranges c
  end.

(** A text is matched if its characters are those of a matched string of tokens. *)
Definition matches_text (h : hir) (text : list N) : Prop :=
  exists ts, matches h ts /\ Forall2 contains ts text.

(** Expressions without any branch. *)
Inductive branchless : hir -> Prop :=
| b_capture : forall sub, branchless sub -> branchless (HCapture sub)
| b_alternation : forall l, Forall branchless l -> branchless (HAlternation l).

(** Expressions without look-around, without the byte 255, without a repetition of an expression
    that has no branch, and with numbers of repetitions that fit. *)
Inductive translatable : hir -> Prop :=
| t_empty : translatable HEmpty
| t_literal : forall bytes, ~ In 255%N bytes -> translatable (HLiteral bytes)
| t_class : forall ranges, translatable (HClass ranges)
| t_repetition : forall min max sub, counts_fit min max -> translatable sub -> ~ branchless sub -> translatable (HRepetition min max sub)
| t_capture : forall sub, translatable sub -> translatable (HCapture sub)
| t_concat : forall l, Forall translatable l -> translatable (HConcat l)
| t_alternation : forall l, Forall translatable l -> translatable (HAlternation l).

(** The numbers of repetitions are [u32]. *)
Inductive u32_counts : hir -> Prop :=
| u_empty : u32_counts HEmpty
| u_literal : forall bytes, u32_counts (HLiteral bytes)
| u_class : forall ranges, u32_counts (HClass ranges)
| u_look : u32_counts HLook
| u_repetition : forall min max sub, (min <= 4294967295)%N -> (forall m, max = Some m -> (m <= 4294967295)%N) ->
    u32_counts sub -> u32_counts (HRepetition min max sub)
| u_capture : forall sub, u32_counts sub -> u32_counts (HCapture sub)
| u_concat : forall l, Forall u32_counts l -> u32_counts (HConcat l)
| u_alternation : forall l, Forall u32_counts l -> u32_counts (HAlternation l).

(** Some part of an expression is a look-around, or a repetition of an expression without any
    branch. *)
Inductive unusable : hir -> Prop :=
| x_look : unusable HLook
| x_repeated : forall min max sub, branchless sub -> unusable (HRepetition min max sub)
| x_repetition : forall min max sub, unusable sub -> unusable (HRepetition min max sub)
| x_capture : forall sub, unusable sub -> unusable (HCapture sub)
| x_concat : forall l h, In h l -> unusable h -> unusable (HConcat l)
| x_alternation : forall l h, In h l -> unusable h -> unusable (HAlternation l).
