(** Specification for the conversions between words and float64. *)
From Coq Require Import Floats.SpecFloat.
From Verif Require Import Base.
Open Scope Z_scope.

(** n is a nearest integer of z * 2^e. *)
Definition near (z e n : Z) : Prop := if 0 <=? e then n = z * 2 ^ e else 2 * Z.abs (z - n * 2 ^ (- e)) <= 2 ^ (- e).
(** z * 2^e lies halfway between two integers. *)
Definition tie (z e : Z) : Prop := e < 0 /\ exists n, 2 * (z - n * 2 ^ (- e)) = 2 ^ (- e).
(** n is a nearest integer of the value of the float, and the even one at a tie. *)
Definition nearest_even (x : spec_float) (n : Z) : Prop :=
  match x with
  | S754_zero _ => n = 0
  | S754_finite s m e => let z := if s then Zneg m else Zpos m in near z e n /\ (tie z e -> Z.even n = true)
  | _ => False
  end.
(** The value is halfway between two integers. *)
Definition is_tie (x : spec_float) : Prop :=
  match x with S754_finite s m e => tie (if s then Zneg m else Zpos m) e | _ => False end.
(** Zero, or a normal float that is not smaller than 2^-748 in absolute value. *)
Definition normalF (x : spec_float) : Prop :=
  match x with
  | S754_zero _ => True
  | S754_finite _ m e => 2 ^ 52 <= Zpos m < 2 ^ 53 /\ -800 <= e <= 971
  | _ => False
  end.
(** The float has the integral value n. *)
Definition has_value (x : spec_float) (n : Z) : Prop :=
  match x with
  | S754_zero _ => n = 0
  | S754_finite s m e => let z := if s then Zneg m else Zpos m in if 0 <=? e then n = z * 2 ^ e else z = n * 2 ^ (- e)
  | _ => False
  end.
