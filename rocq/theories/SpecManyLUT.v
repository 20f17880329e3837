(** Specification of ManyLUT: tables interleaved with stride C. *)
From Verif Require Import Base NegaRing SpecNum SpecPoly SpecBoot.

(** Position j + i holds value i of message m, for every multiple j of C in the box around m. *)
Definition many_hold (N C : nat) (Q mm : Z) (lut : list Z) (F : nat -> Z -> Z) : Prop :=
  forall i j m, (i < C)%nat -> 0 <= m < mm -> (Z.of_nat C | j) ->
  - Z.of_nat N <= 2 * (mm * j - m * Z.of_nat N) < Z.of_nat N -> eqm Q (cf (pol N lut) (j + Z.of_nat i)) (F i m).

(** The i-th function; missing functions count as zero. *)
Definition funOf (f : list (Z -> Z)) (i : nat) : Z -> Z := nth i f (fun _ => 0).

(** Input noise e keeps the switched phase inside the box of m: switching to multiples of C moves the position by
    at most C(1+hw)/2. *)
Definition many_margin (Q L C mm scale m e hw : Z) : Prop :=
  2 * L * m * Z.abs (Q - 2 * mm * scale) + 4 * L * mm * e + mm * (C * Q) * (1 + hw) < L * Q.
