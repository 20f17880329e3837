(** Specification: the standard model of floating point arithmetic, and binary64 values as real numbers. *)
From Coq Require Import Reals Floats.SpecFloat.
From Verif Require Import Base ModelFFT.
Open Scope R_scope.

(** The real value of a float; [finF]: neither infinite nor NaN. *)
Definition val (x : spec_float) : R :=
  match x with S754_finite s m e => IZR (cond_Zopp s (Zpos m)) * powerRZ 2 e | _ => 0 end.
Definition finF (x : spec_float) : Prop :=
  match x with S754_zero _ | S754_finite _ _ _ => True | _ => False end.

(** The arithmetic [A] follows the standard model: every number has a real value, and an operation whose exact result is
    at most [Om] in absolute value returns it with relative error [u] and absolute error [eta]. *)
Record stdmodel (A : arith) (fin : car A -> Prop) (vl : car A -> R) (u eta Om : R) : Prop := mkStd {
  sm_0 : fin (a0 A) /\ vl (a0 A) = 0;
  sm_add : forall x y, fin x -> fin y -> Rabs (vl x + vl y) <= Om ->
    fin (aadd A x y) /\ Rabs (vl (aadd A x y) - (vl x + vl y)) <= u * Rabs (vl x + vl y) + eta;
  sm_sub : forall x y, fin x -> fin y -> Rabs (vl x - vl y) <= Om ->
    fin (asub A x y) /\ Rabs (vl (asub A x y) - (vl x - vl y)) <= u * Rabs (vl x - vl y) + eta;
  sm_mul : forall x y, fin x -> fin y -> Rabs (vl x * vl y) <= Om ->
    fin (amul A x y) /\ Rabs (vl (amul A x y) - vl x * vl y) <= u * Rabs (vl x * vl y) + eta;
  sm_div : forall x n, fin x -> (0 < n <= 2 ^ 64)%Z -> (exists k : nat, n = 2 ^ Z.of_nat k)%Z -> Rabs (vl x / IZR n) <= Om ->
    fin (adivn A x n) /\ Rabs (vl (adivn A x n) - vl x / IZR n) <= u * Rabs (vl x / IZR n) + eta;
  sm_of : forall z, Rabs (IZR z) <= Om -> fin (aofZ A z) /\ Rabs (vl (aofZ A z) - IZR z) <= u * Rabs (IZR z) + eta;
  sm_ofp : forall k : nat, (k <= 64)%nat -> vl (aofZ A (2 ^ Z.of_nat k)) = IZR (2 ^ Z.of_nat k);
  sm_round : forall x, fin x -> Rabs (IZR (around A x) - vl x) <= / 2
}.

(** The complex exponential is accurate to [d]: for a power of two b <= 2^K and |a| <= b/2, acexp a b is within distance
    [d] of exp(2 pi i a / b).  These are the arguments the tables of twiddle factors are computed from. *)
Definition cexp_near (A : arith) (fin : car A -> Prop) (vl : car A -> R) (K : nat) (d : R) : Prop :=
  forall (a : Z) (k : nat), (k <= K)%nat -> (2 * Z.abs a <= 2 ^ Z.of_nat k)%Z ->
  let t := 2 * PI * IZR a / IZR (2 ^ Z.of_nat k) in let e := acexp A a (2 ^ Z.of_nat k) in
  fin (fst e) /\ fin (snd e) /\
  (vl (fst e) - cos t) * (vl (fst e) - cos t) + (vl (snd e) - sin t) * (vl (snd e) - sin t) <= d * d.
