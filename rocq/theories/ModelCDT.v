(** Model of NewCDTSampler, xtfhe/sanitization_sampler.go:33-62, on binary64 (SpecFloat, round to nearest even, one rounding
    per operation: no fused multiply-add, as on amd64).  math.Exp is the parameter ex.  No proofs in this file. *)
From Coq Require Import Floats.SpecFloat.
From Verif Require Import Base ModelNum ModelF64 ModelF64Arith ModelSampler.
Import ListNotations.
Open Scope Z_scope.

(** math.Floor and math.Ceil (Go standard library) as integers, for a finite argument. *)
Definition floorZ (x : f64) : Z :=
  match x with
  | S754_finite s m e => if 0 <=? e then cond_Zopp s (Zpos m) * 2 ^ e else cond_Zopp s (Zpos m) / 2 ^ (- e)
  | _ => 0
  end.
Definition ceilZ (x : f64) : Z := - floorZ (SFopp x).
(** int64(math.Floor(x)), int64(math.Ceil(x)) (amd64: NaN and out of range give the smallest integer). *)
Definition toI64 (x : f64) (n : Z) : Z :=
  match x with
  | S754_infinity _ | S754_nan => - 2 ^ 63
  | _ => if (- 2 ^ 63 <=? n) && (n <? 2 ^ 63) then n else - 2 ^ 63
  end.
Definition floorF (x : f64) : f64 := match x with S754_finite s _ _ => BN (floorZ x) 0 s | _ => x end.

(** uint64(x) for a float: truncation; out of range is implementation-dependent in Go, here 2^63. *)
Definition uint64Of (x : f64) : Z :=
  match x with
  | S754_zero _ => 0
  | S754_finite false m e => let n := roundZ upZero (Zpos m) e in if n <? 2 ^ 64 then n else 2 ^ 63
  | _ => 2 ^ 63
  end.

(** sanitization_sampler.go:17 GaussianTailCut, the literals 1 and 2, float64(math.MaxUint64) = 2^64, and math.Sqrt(2*math.Pi). *)
Definition tailCutF : f64 := BN 12 0 false.
Definition oneF : f64 := pow2F 0.
Definition twoF : f64 := pow2F 1.
Definition maxU64F : f64 := pow2F 64.
Definition sqrt2piF : f64 := S754_finite false 5644425081792261 (-51).

Section CDT.
Variable ex : f64 -> f64.
Notation mul := (SFmul 53 1024).
Notation add := (SFadd 53 1024).
Notation sub := (SFsub 53 1024).
Notation div := (SFdiv 53 1024).
(** :46, the two divisors. *)
Definition expDen (sd : f64) : f64 := mul (mul twoF sd) sd.
Definition normDen (sd : f64) : f64 := mul sqrt2piF sd.
(** :45-46, what is added to cdf at x. *)
Definition cdtTerm (cFrac sd : f64) (x : Z) : f64 :=
  let xf := BN x 0 false in
  div (ex (div (mul (SFopp (sub xf cFrac)) (sub xf cFrac)) (expDen sd))) (normDen sd).
(** :47-51. *)
Definition cdtWord (cdf : f64) : Z := if SFleb oneF cdf then 2 ^ 64 - 1 else uint64Of (mul cdf maxU64F).
(** :42-52, n turns of the loop from x. *)
Fixpoint cdtLoop (cFrac sd : f64) (n : nat) (x : Z) (cdf : f64) : list Z :=
  match n with
  | O => []
  | S n => let cdf := add cdf (cdtTerm cFrac sd x) in cdtWord cdf :: cdtLoop cFrac sd n (x + 1) cdf
  end.
(** :37-38. *)
Definition cdtTailLo (center sd : f64) : Z := let t := sub center (mul tailCutF sd) in toI64 t (floorZ t).
Definition cdtTailHi (center sd : f64) : Z := let t := add center (mul tailCutF sd) in toI64 t (ceilZ t).
(** :33-62, table and offset; make panics on a negative size (:41). *)
Definition NewCDTSampler (center sd : f64) : outcome (list Z * Z) :=
  let cFrac := sub center (floorF center) in
  let tailLo := cdtTailLo center sd in let tailHi := cdtTailHi center sd in
  let tableSize := swrap 64 (tailHi - tailLo + 1) in
  if tableSize <? 0 then Panic
  else Ret (cdtLoop cFrac sd (Z.to_nat tableSize) tailLo (S754_zero false), swrap 64 (tailLo + toI64 center (floorZ center))).
End CDT.
