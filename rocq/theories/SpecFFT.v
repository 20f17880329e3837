(** Specification of the transforms: evaluation of an element of Z[X]/(X^N+1) at the N/2 points z^(1-4r). *)
From Coq Require Import Ring_theory.
From Verif Require Import Base NegaRing ModelNum ModelVec ModelFFT SpecVec SpecPoly.

Section SpecFFT.
Variable A : arith.
Notation F := (car A).
Notation C := (F * F)%type.

(** Complex numbers over [A]. *)
Definition c0 : C := (a0 A, a0 A).
Definition c1 : C := (a1 A, a0 A).
Definition cI : C := (a0 A, a1 A).
Definition cadd (x y : C) : C := (aadd A (fst x) (fst y), aadd A (snd x) (snd y)).
Definition cmul (x y : C) : C :=
  (asub A (amul A (fst x) (fst y)) (amul A (snd x) (snd y)), aadd A (amul A (fst x) (snd y)) (amul A (snd x) (fst y))).
Definition conj (x : C) : C := (fst x, aopp A (snd x)).
Definition cofF (x : F) : C := (x, a0 A).
Fixpoint csum (n : nat) (f : nat -> C) : C := match n with O => c0 | S n => cadd (csum n f) (f n) end.

(** The k-th complex number of a vector in float4 layout. *)
Definition cplx (v : list F) (k : nat) : C :=
  (nth (8 * (k / 4) + k mod 4) v (a0 A), nth (8 * (k / 4) + k mod 4 + 4) v (a0 A)).

(** [A] computes exactly and [z] is the group of the 2N-th roots of unity exp(2*pi*i*a/(2N)). *)
Record exact (N : nat) (z : Z -> C) : Prop := mkExact {
  ex_ring : ring_theory (a0 A) (a1 A) (aadd A) (amul A) (asub A) (aopp A) eq;
  ex_z0 : z 0 = c1;
  ex_zadd : forall a b, z (a + b) = cmul (z a) (z b);
  ex_zI : z (Z.of_nat N / 2) = cI;
  ex_zconj : forall a, z (- a) = conj (z a);
  ex_exp : forall a b c, 0 < b -> b * c = 2 * Z.of_nat N -> acexp A a b = z (a * c);
  ex_div : forall x, adivn A (amul A (aofZ A (Z.of_nat (N / 2))) x) (Z.of_nat (N / 2)) = x;
  ex_of0 : aofZ A 0 = a0 A;
  ex_of1 : aofZ A 1 = a1 A;
  ex_ofadd : forall a b, aofZ A (a + b) = aadd A (aofZ A a) (aofZ A b);
  ex_ofmul : forall a b, aofZ A (a * b) = amul A (aofZ A a) (aofZ A b)
}.

(** The value of a polynomial with coefficients in [A] (given by a list) at z^e. *)
Definition evalF (N : nat) (z : Z -> C) (p : list F) (e : Z) : C :=
  csum N (fun n => cmul (cofF (nth n p (a0 A))) (z (Z.of_nat n * e))).
(** The value of an element of Z[X]/(X^N+1) at z^e, e odd. *)
Definition evalZ (N : nat) (z : Z -> C) (p : npoly N) (e : Z) : C :=
  csum N (fun n => cmul (cofF (aofZ A (cf p (Z.of_nat n)))) (z (Z.of_nat n * e))).

(** [v] holds the transform of [p]: position k holds the value at z^(1-4r), r the bit reversal of k. *)
Definition transform (N : nat) (z : Z -> C) (v : list F) (p : npoly N) : Prop :=
  length v = N /\
  forall n k r, (N = 2 ^ n)%nat -> is_bitrev (n - 1) k r -> (k < N / 2)%nat -> cplx v k = evalZ N z p (1 - 4 * Z.of_nat r).

(** [v] is the folded form of the polynomial with coefficient list [p]: entry k is p[k] + i p[k+N/2]. *)
Definition folded (N : nat) (v p : list F) : Prop :=
  length v = N /\ length p = N /\
  forall k, (k < N / 2)%nat -> cplx v k = (nth k p (a0 A), nth (k + N / 2) p (a0 A)).
End SpecFFT.

(** The float vector [v] stands for the integer polynomial [f] (a list of N integers). *)
Definition holds (A : arith) (N : nat) (z : Z -> car A * car A) (v : list (car A)) (f : list Z) : Prop :=
  length f = N /\ transform A N z v (pol N f).
