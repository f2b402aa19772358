(** What a floating-point number stands for. *)

From Coq Require Import ZArith QArith Qpower SpecFloat.
From Verif Require Import FloatModel.

(** Two to the power of an integer *)
Definition p2 (e : Z) : Q := (2 ^ e)%Q.

(** The value of a finite number *)
Definition fval (x : f64) : Q :=
  match x with
  | S754_finite s m e => (inject_Z (if s then Zneg m else Zpos m) * p2 e)%Q
  | _ => 0%Q
  end.

(** The forms in which a number can be stored *)
Definition is_f64 (x : f64) : Prop := valid_binary 53 1024 x = true.

(** A finite number that is not negative, in the form in which it is stored *)
Definition num (x : f64) : Prop :=
  match x with
  | S754_zero s => s = false
  | S754_finite false m e => bounded 53 1024 m e = true
  | _ => False
  end.

(** Zero or a number that is neither very small nor very large *)
Definition moderate (x : f64) : Prop := num x /\ ((fval x == 0)%Q \/ (p2 (-100) <= fval x)%Q) /\ (fval x <= p2 100)%Q.

(** A weight and the whole number of thousandths that it is kept as *)
Definition in_thousandths (w : f64) (n : N) : Prop :=
  match w with
  | S754_infinity false => n = 4294967295%N
  | S754_finite false _ _ =>
      let x := (1000 * fval w)%Q in
      ((4294967295 <= x)%Q -> n = 4294967295%N) /\
      ((x < 4294967295)%Q -> (x - 1 < inject_Z (Z.of_N n))%Q /\ (inject_Z (Z.of_N n) < x + 1)%Q)
  | _ => n = 0%N
  end.
