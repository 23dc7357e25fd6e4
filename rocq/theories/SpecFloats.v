(** IEEE-754 double arithmetic, over the real numbers (binary64, round to nearest, ties to even).
    Only Flocq's rounding operator and the standard library are used. *)
From Coq Require Import ZArith Reals SpecFloat Bool.
From Flocq Require Import Core.
Open Scope R_scope.

(** The data: the two zeros, the two infinities, NaN, and the numbers (-1)^s m 2^e with
    m < 2^53, e <= 971 in the unique form with m >= 2^52 or e = -1074. *)
Definition double_datum (x : spec_float) : Prop :=
  match x with
  | S754_finite _ m e => (Zpos m < 2 ^ 53 /\ -1074 <= e <= 971 /\ (2 ^ 52 <= Zpos m \/ e = -1074))%Z
  | _ => True
  end.
Definition real (x : spec_float) : R :=
  match x with
  | S754_finite s m e => (if s then - IZR (Zpos m) else IZR (Zpos m)) * bpow radix2 e
  | _ => 0
  end.
Definition negative (x : spec_float) : bool :=
  match x with S754_zero s | S754_infinity s | S754_finite s _ _ => s | S754_nan => false end.
Definition finite (x : spec_float) : Prop := match x with S754_zero _ | S754_finite _ _ _ => True | _ => False end.
Definition zero (x : spec_float) : Prop := match x with S754_zero _ => True | _ => False end.
Definition infinite (x : spec_float) : Prop := match x with S754_infinity _ => True | _ => False end.

(** [r] is the exact value [z], correctly rounded; [s] is its sign. *)
Definition rounded (z : R) (s : bool) (r : spec_float) : Prop :=
  let q := round radix2 (FLT_exp (-1074) 53) ZnearestE z in
  (Rabs q < bpow radix2 1024 -> finite r /\ real r = q /\ negative r = s) /\
  (bpow radix2 1024 <= Rabs q -> r = S754_infinity s).
(** The sign of a sum; an exact zero is negative only if both summands are. *)
Definition sum_sign (z : R) (sx sy s : bool) : Prop :=
  (z < 0 -> s = true) /\ (0 < z -> s = false) /\ (z = 0 -> s = sx && sy).
Definition ieee_sum (x : spec_float) (y_negative : bool) (y : spec_float) (yv : R) (r : spec_float) : Prop :=
  (x = S754_nan \/ y = S754_nan -> r = S754_nan) /\
  (infinite x -> finite y -> r = x) /\
  (finite x -> infinite y -> r = S754_infinity y_negative) /\
  (infinite x -> infinite y -> r = if Bool.eqb (negative x) y_negative then x else S754_nan) /\
  (finite x -> finite y -> exists s, sum_sign (real x + yv) (negative x) y_negative s /\ rounded (real x + yv) s r).
Definition ieee_add (x y r : spec_float) : Prop := ieee_sum x (negative y) y (real y) r.
Definition ieee_sub (x y r : spec_float) : Prop := ieee_sum x (negb (negative y)) y (- real y) r.
Definition ieee_mul (x y r : spec_float) : Prop :=
  let s := xorb (negative x) (negative y) in
  (x = S754_nan \/ y = S754_nan -> r = S754_nan) /\
  ((infinite x /\ zero y) \/ (zero x /\ infinite y) -> r = S754_nan) /\
  ((infinite x /\ y <> S754_nan /\ ~ zero y) \/ (x <> S754_nan /\ ~ zero x /\ infinite y) -> r = S754_infinity s) /\
  (finite x -> finite y -> rounded (real x * real y) s r).
(** Division by anything but a zero. *)
Definition ieee_div (x y r : spec_float) : Prop :=
  let s := xorb (negative x) (negative y) in
  (x = S754_nan \/ y = S754_nan -> r = S754_nan) /\
  (infinite x -> infinite y -> r = S754_nan) /\
  (infinite x -> finite y -> ~ zero y -> r = S754_infinity s) /\
  (finite x -> infinite y -> r = S754_zero s) /\
  (finite x -> finite y -> ~ zero y -> rounded (real x / real y) s r).
