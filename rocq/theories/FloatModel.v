(** The numbers of the type f64 and the operations on them that the code uses.

    A number is a binary floating-point number of the standard library's specification of IEEE 754 arithmetic
    (Coq.Floats.SpecFloat, without axioms): 53 bits of mantissa, the largest exponent below 1024, and rounding
    to nearest, ties to even.  The payload of a NaN is not modelled. *)

From Coq Require Import NArith ZArith SpecFloat.

(** The type f64 of Rust *)
Definition f64 := spec_float.

(** 0.0, the default value (weighted_rhs_by_lhs.rs 17: derive(Default)) *)
Definition f64_zero : f64 := S754_zero false.

(** a + b (weighted_rhs_by_lhs.rs 42) *)
Definition f64_add (a b : f64) : f64 := SFadd 53 1024 a b.

(** a * b (random.rs 116, cfg-history/src/earley/mod.rs 161) *)
Definition f64_mul (a b : f64) : f64 := SFmul 53 1024 a b.

(** a / b (weighted_rhs_by_lhs.rs 59, random.rs 116) *)
Definition f64_div (a b : f64) : f64 := SFdiv 53 1024 a b.

(** n as f64, for an unsigned integer (weighted_rhs_by_lhs.rs 59, random.rs 116); also the literals 1000f64 and
    255.0 *)
Definition f64_of (n : N) : f64 := binary_normalize 53 1024 (Z.of_N n) 0 false.

(** a.partial_cmp(&b) (weighted_rhs_by_lhs.rs 80-84): None if one is a NaN *)
Definition f64_cmp (a b : f64) : option comparison := SFcompare a b.

(** x as u32 (cfg-history/src/earley/mod.rs 161): rounds towards zero, saturates, and gives 0 for a NaN *)
Definition f64_to_u32 (x : f64) : N :=
  match x with
  | S754_zero _ => 0
  | S754_nan => 0
  | S754_infinity s => if s then 0 else 4294967295
  | S754_finite true _ _ => 0
  | S754_finite false m e => N.min 4294967295 (Z.to_N (Z.shiftl (Zpos m) e))
  end%N.
