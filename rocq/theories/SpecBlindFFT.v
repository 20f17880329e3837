(** Specification: blind rotation on binary64 transforms. *)
From Coq Require Import Floats.SpecFloat.
From Verif Require Import Base ModelFFT ModelBlindFFT SpecProdFFT.
From Coq Require Import Reals.
Open Scope R_scope.

(** As cexp_near (SpecRound.v), for |a| <= b: the table of monomials is computed from exp(-2 pi i j / 2N), j < 2N. *)
Definition cexp_near_full (A : arith) (fin : car A -> Prop) (vl : car A -> R) (K : nat) (d : R) : Prop :=
  forall (a : Z) (k : nat), (k <= K)%nat -> (Z.abs a <= 2 ^ Z.of_nat k)%Z ->
  let t := 2 * PI * IZR a / IZR (2 ^ Z.of_nat k) in let e := acexp A a (2 ^ Z.of_nat k) in
  fin (fst e) /\ fin (snd e) /\
  (vl (fst e) - cos t) * (vl (fst e) - cos t) + (vl (snd e) - sin t) * (vl (snd e) - sin t) <= d * d.

(** Bound for a block of bs sums of c products of a key (coefficients up to B) and digits (up to B'), each multiplied by X^a - 1. *)
Definition rotErr (logN : Z) (N c bs : nat) (B B' : Z) : R :=
  (3 * IZR logN + 1 + INR c + INR bs) * 29 * powerRZ 2 (-53) * (INR bs * INR c * (INR N * INR N) * IZR B * IZR B') + / 2.
(** D covers it for keys modulo 2^w and base 2^b. *)
Definition rotErr_le (w b logN : Z) (N c bs : nat) (D : Z) : Prop := rotErr logN N c bs (2 ^ (w - 1)) (2 ^ (b - 1)) < IZR (D + 1).
(** Buffers of the right lengths that hold binary64 numbers. *)
Definition rot_bufs (N k l : nat) (b : brBuf spec_float) : Prop :=
  (length (b_dcmp b) = S k /\ forall i j : nat, (i <= k)%nat -> (j < l)%nat -> valid64 N (nth j (nth i (b_dcmp b) []) [])) /\
  (forall i : nat, (i <= k)%nat -> valid64 N (nth i (b_blk b) [])) /\ valid64 N (b_mono b) /\ (forall i : nat, (i <= k)%nat -> valid64 N (nth i (b_acc b) [])).
