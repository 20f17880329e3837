(** The transforms of ModelFFT.v on binary64: the arithmetic of Go's float64 and complex128 values.  The portable kernels
    are meant (asm_fft.go, asm_fold.go, asm_vec_cmplx.go), with one rounding per operation: on architectures where the Go
    compiler fuses x*y + z, and in the AVX2 kernels, two operations share a rounding.  No proofs in this file. *)
From Coq Require Import Floats.SpecFloat.
From Verif Require Import Base ModelNum ModelAsm ModelF64 ModelFFT.
Import ListNotations.
Open Scope Z_scope.

(** The integer of math.Round (ties away from zero): asm_fold.go:148, 174. *)
Definition roundGo (x : f64) : Z :=
  match x with S754_finite s m e => cond_Zopp s (roundZ upAway (Zpos m) e) | _ => 0 end.

(** float64 with round to nearest even; [cexp] is cmplx.Exp (math/cmplx, not modelled): poly_evaluator.go:97-150. *)
Definition f64Arith (cexp : Z -> Z -> f64 * f64) : arith :=
  mkArith f64 (S754_zero false) (BN 1 0 false) (SFadd 53 1024) (SFmul 53 1024) (SFsub 53 1024) SFopp
    (fun x n => SFdiv 53 1024 x (BN n 0 false)) (fun z => BN z 0 false) roundGo cexp.
