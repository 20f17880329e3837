(** Specification for the cumulative table: which floats are probabilities, and which divisors are usable. *)
From Coq Require Import Floats.SpecFloat.
From Verif Require Import Base ModelF64.
Open Scope Z_scope.

(** A finite float; a positive finite float; zero or positive, infinity included. *)
Definition is_fin (x : f64) : Prop := match x with S754_zero _ => True | S754_finite _ _ _ => valid_binary 53 1024 x = true | _ => False end.
Definition is_pos (x : f64) : Prop := match x with S754_finite false _ _ => valid_binary 53 1024 x = true | _ => False end.
Definition is_nonneg (x : f64) : Prop :=
  match x with S754_zero false | S754_infinity false => True | S754_finite false _ _ => valid_binary 53 1024 x = true | _ => False end.
(** What is asked of math.Exp: a number that is not NaN has an exponential that is zero or positive. *)
Definition exp_ok (ex : f64 -> f64) : Prop := forall y, y <> S754_nan -> is_nonneg (ex y).
(** The rounded sum t lo + t (lo + 1) + ... of n terms, left to right; and the density at x of centre c and deviation sd, operation by
    operation: exp (- (x - c) (x - c) / (2 sd sd)) / (sqrt2pi sd). *)
Fixpoint rsum (t : Z -> f64) (lo : Z) (n : nat) : f64 :=
  match n with O => S754_zero false | S n => SFadd 53 1024 (rsum t lo n) (t (lo + Z.of_nat n)) end.
Definition density (ex : f64 -> f64) (sqrt2pi c sd : f64) (x : Z) : f64 :=
  let d := SFsub 53 1024 (binary_normalize 53 1024 x 0 false) c in
  SFdiv 53 1024 (ex (SFdiv 53 1024 (SFmul 53 1024 (SFopp d) d) (SFmul 53 1024 (SFmul 53 1024 (binary_normalize 53 1024 2 0 false) sd) sd)))
    (SFmul 53 1024 sqrt2pi sd).
