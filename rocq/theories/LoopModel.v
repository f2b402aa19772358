(** Loops without a syntactic bound.

    [iter_pow step p s] runs a loop body for at most 2^p iterations.  The body either gives
    the next state or leaves the loop with a result.  The exponent makes huge bounds cheap to
    write down and, as the loop stops at the first result, cheap to compute with. *)

From Coq Require Import List Arith NArith.
From Verif Require Import Base.

Section Iter.
  Context {S R : Type} (step : S -> S + R).

  Fixpoint iter_pow (p : nat) (s : S) : S + R :=
    match p with
    | 0 => step s
    | Datatypes.S p' => match iter_pow p' s with
                        | inl s' => iter_pow p' s'
                        | inr r => inr r
                        end
    end.
End Iter.

Definition run_loop {S R : Type} (step : S -> S + res R) (p : nat) (s : S) : res R :=
  match iter_pow step p s with
  | inl _ => OutOfFuel
  | inr r => r
  end.
