(** The real numbers as the arithmetic of the transforms: float64 without rounding. *)
From Coq Require Import Reals Rtrigo R_Ifp.
From Verif Require Import Base ModelNum ModelFFT SpecFFT.

(** math.Round: the nearest integer, halves away from zero. *)
Definition rround (x : R) : Z :=
  if Rle_dec 0 x then Int_part (x + /2)%R else - Int_part (- x + /2)%R.

Definition realArith : arith :=
  mkArith R 0%R 1%R Rplus Rmult Rminus Ropp (fun x n => (x / IZR n)%R) IZR rround
    (fun a b => (cos (2 * PI * IZR a / IZR b), sin (2 * PI * IZR a / IZR b))%R).

(** exp(2*pi*i*a/(2N)) *)
Definition zR (N : nat) (a : Z) : R * R :=
  (cos (PI * IZR a / IZR (Z.of_nat N)), sin (PI * IZR a / IZR (Z.of_nat N)))%R.
