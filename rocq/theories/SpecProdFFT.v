(** Specification: how far a product computed on binary64 transforms may be from the exact one. *)
From Coq Require Import Floats.SpecFloat.
From Verif Require Import Base ModelNum ModelPoly SpecNum SpecPoly.
From Coq Require Import Reals.
Import ListNotations.

(** The k+1 polynomials [a] are those of [b] up to D on every coefficient, modulo 2^w. *)
Definition close (w : Z) (N k : nat) (D : Z) (a b : list (list Z)) : Prop :=
  length a = S k /\ forall i, (i <= k)%nat -> wpoly w N (nth i a []) /\
    forall j, (j < N)%nat -> exists d, Z.abs d <= D /\ nthZ (nth i a []) j = wrap w (nthZ (nth i b []) j + d).

(** Bound for a sum of n products of polynomials with coefficients up to B and B', N = 2^logN, u = 2^-53. *)
Definition prodErr (logN : Z) (N n : nat) (B B' : Z) : R :=
  ((3 * IZR logN + INR n) * 29 * powerRZ 2 (-53) * (INR n * INR N * sqrt (INR N / 2) * IZR B * IZR B') + / 2)%R.

(** Integers of at most D are all those that are possible: D covers the error of a sum of n products of a key (coefficients up to 2^(w-1)) and gadget digits (up to 2^(b-1)). *)
Definition prodErr_le (w b logN : Z) (N n : nat) (D : Z) : Prop := (prodErr logN N n (2 ^ (w - 1)) (2 ^ (b - 1)) < IZR (D + 1))%R.

(** Vectors of N binary64 numbers, and a trigonometric oracle that returns such numbers. *)
Definition valid64 (N : nat) (v : list spec_float) : Prop := length v = N /\ Forall (fun x => valid_binary 53 1024 x = true) v.
Definition cexp_valid (cexp : Z -> Z -> spec_float * spec_float) : Prop := forall k n, valid_binary 53 1024 (fst (cexp k n)) = true /\ valid_binary 53 1024 (snd (cexp k n)) = true.
