(** Specification: the Gaussian sampler. *)
From Coq Require Import Floats.SpecFloat ZArith.
From Verif Require Import Base SpecRound.
From Coq Require Import Reals.
Open Scope Z_scope.

(** The word with its lowest bit inverted. *)
Definition flip (h : Z) : Z := if Z.even h then h + 1 else h - 1.
(** What is assumed of math.Log: -Inf at 0, and a finite value in [-16, 0] on [2^-23, 1) (ln 2^-23 = -15.94...). *)
Definition log_ok (lg : spec_float -> spec_float) : Prop :=
  lg (S754_zero false) = S754_infinity true /\
  forall x, finF x -> (powerRZ 2 (-23) <= val x < 1)%R -> finF (lg x) /\ (-16 <= val (lg x) <= 0)%R.
(** uint32 words, no two neighbours of which give 0 as uniform numbers. *)
Definition good_words (s : nat -> Z) : Prop := forall n, 0 <= s n < 2 ^ 32 /\ (512 <= s n \/ 512 <= s (S n)).
(** The pair of words at q is accepted in the tail: with x = (-1/rn) ln u1 and y = - ln u2, the float comparison 2y >= x^2. *)
Definition tail_accept (lg : spec_float -> spec_float) (uni : Z -> spec_float) (c : spec_float) (s : nat -> Z) (q : nat) : Prop :=
  let x := SFmul 53 1024 c (lg (uni (s q))) in
  let y := SFopp (lg (uni (s (S q)))) in
  SFleb (SFmul 53 1024 x x) (SFadd 53 1024 y y) = true.
