(** Specification of sequences: repetitions of an element with or without separators. *)

From Coq Require Import List Arith NArith.
Import ListNotations.

(** How the elements are separated: each is followed by the separator; the separator is
    between elements; one of both; not at all. *)
Inductive separator := Trailing (s : nat) | Proper (s : nat) | Liberal (s : nat) | Null.

(** [n] elements, each followed by the separator. *)
Definition followed (x s n : nat) : list nat := concat (repeat [x; s] n).

(** [n] elements with the separator in between. *)
Definition between (x s n : nat) : list nat :=
  match n with
  | 0 => []
  | S m => x :: concat (repeat [s; x] m)
  end.

(** [w] is a sequence of [n] elements [x]. *)
Definition repetition (x : nat) (sep : separator) (n : nat) (w : list nat) : Prop :=
  match sep with
  | Null => w = repeat x n
  | Proper s => w = between x s n
  | Trailing s => w = followed x s n
  | Liberal s => w = between x s n \/ w = followed x s n
  end.

(** A number of repetitions from [start] to [end_], both included; [None] is no upper bound. *)
Definition in_range (start : N) (end_ : option N) (n : nat) : Prop :=
  (start <= N.of_nat n)%N /\ (forall e, end_ = Some e -> (N.of_nat n <= e)%N).

(** The sequences of a rule [x{start..end_}]. *)
Definition sequences (x : nat) (start : N) (end_ : option N) (sep : separator) (w : list nat) : Prop :=
  exists n, in_range start end_ n /\ repetition x sep n w.
