(** Specification of re-randomisation and sanitisation. *)
From Verif Require Import Base NegaRing SpecNum SpecPoly ModelGadget SpecGadget SpecLWE SpecGLWE SpecBoot.

(** The encryption of zero that re-randomisation adds has this error: the public key's error times the sampled
    polynomial, plus the sampled mask against the key. *)
Definition reRandErr (N : nat) (sk : list (list Z)) (e : npoly N) (D : nat -> Z) (d : nat) : npoly N :=
  padd (pmul e (noisep N D d)) (pmul (noisep N D (d + N)) (pol N (nth 0 sk []))).
(** Its bound for a binary key, public key errors of at most E and samples of at most Bd. *)
Definition reRandBound (N : nat) (E Bd : Z) : Z := Z.of_nat N * (E * Bd) + Z.of_nat N * Bd.

(** The uniform words that give entry x of a cumulative table of len words: from the entry before to the entry. *)
Definition cdtRange (table : list Z) (x : nat) (r : Z) : Prop :=
  (x <= length table)%nat /\ ((0 < x)%nat -> nthZ table (x - 1) <= r) /\ ((x < length table)%nat -> r < nthZ table x).

(** Noise of sanitisation: the noise of the blind rotation times the sampled polynomial 1 + 2mm x (coefficients of x at most
    Bl), the table's distance delta from multiples of Q / 2mm, and the final sample. *)
Definition sanitNoise (N : nat) (mm B Bl delta Br : Z) : Z := B * (1 + 2 * mm * Z.of_nat N * Bl) + Z.of_nat N * (Bl * delta) + Br.
(** 2mm times every coefficient of the table is within delta of 0 modulo Q. *)
Definition lut_steps (Q : Z) (N : nat) (mm delta : Z) (lut : list Z) : Prop := pdist_le Q (pscale (2 * mm) (pol N lut)) pzero delta.
