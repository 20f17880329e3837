(** The transforms of fft.go as they run with AVX2 and FMA on binary64: asm_fft_amd64.go, asm_fold_amd64.go and
    asm_vec_cmplx_amd64.go dispatch to the kernels of the .s files.  ModelFused.v has the operations of the FFT and vector
    kernels, the fold and unfold kernels are those of ModelAsmFold.v as functions on lists.  No proofs in this file. *)
From Coq Require Import Floats.SpecFloat.
From Verif Require Import Base ModelNum ModelAsm ModelF64 SpecAsmFold ModelFFT ModelF64Arith ModelFused ModelSplitFFT.
Import ListNotations.
Open Scope Z_scope.

(** asm_fold_amd64.s:97-118 floatModQInPlaceAVX2 on one float, with q = 2^w and qInv = 1/q (asm_fold_amd64.go:152-156). *)
Definition avxModQ (w : Z) (x : f64) : f64 :=
  let y := SFmul 53 1024 x (goInv (pow2F w)) in
  rndF upEven (SFmul 53 1024 (SFsub 53 1024 y (rndF upEven y)) (pow2F w)).
(** asm_fold_amd64.go:178-220: uint32 and uint64 have kernels ([int64part] is what the uint64 kernel extracts from the bits of
    the float), the other types are converted as T(int64(x)). *)
Definition avxConv (sg : bool) (w : Z) (x : f64) : Z :=
  if sg then cvt64 x else if w =? 32 then cvt32 x else if w =? 64 then int64part x else cvt64 x.
(** unfoldPolyTo, unfoldPolyAddTo, unfoldPolySubTo: asm_fold_amd64.go:178-330. *)
Definition unfoldAVX (acc : Z -> Z -> Z) (sg : bool) (w : Z) (pOut : list Z) (fp : list f64) : list Z :=
  let N := length fp in
  let get i := nth i fp (S754_zero false) in
  forN 0 ((N + 7) / 8) (fun b o =>
    forN 0 4 (fun c o =>
      let o := upd o (4 * b + c) (acc (nthZ o (4 * b + c)) (twrap sg w (avxConv sg w (get (8 * b + c)%nat)))) in
      upd o (4 * b + N / 2 + c)
        (acc (nthZ o (4 * b + N / 2 + c)) (twrap sg w (avxConv sg w (get (8 * b + c + 4)%nat))))) o) pOut.

Section Avx.
Variable cexp : Z -> Z -> f64 * f64.
Notation A := (f64Arith cexp).
Variable e : evaluator A.
(** fft.go:18-23 FwdFFTTo.  The fold kernels give the floats of the portable loop (C65_fold32, C65_fold64). *)
Definition avxFwd (sg : bool) (w : Z) (fpOut : list f64) (p : list Z) : list f64 :=
  fwdFFTFused A F64 (foldPolyTo A sg w fpOut p) (e_tw A e).
(** asm_fft_amd64.go:105-109: scale = 2/float64(len(coeffs)). *)
Definition avxScale (N : nat) : f64 := SFdiv 53 1024 (BN 2 0 false) (BN (Z.of_nat N) 0 false).
(** fft.go:141-207 InvFFTTo, InvFFTAddTo, InvFFTSubTo and the Unsafe variants. *)
Definition avxInvv (w : Z) (fp : list f64) : list f64 :=
  map (avxModQ w) (invFFTFused A F64 (avxScale (length fp)) fp (e_twInv A e)).
Definition avxAcc (k : option bool) (sg : bool) (w : Z) : Z -> Z -> Z :=
  match k with None => fun _ x => x | Some false => fun o x => twrap sg w (o + x) | Some true => fun o x => twrap sg w (o - x) end.
Definition avxInv (k : option bool) (sg : bool) (w : Z) (pOut : list Z) (fp : list f64) : list Z :=
  unfoldAVX (avxAcc k sg w) sg w pOut (avxInvv w fp).
Definition avxKern : kern (car A) :=
  mkKern (car A) (zeroFFT A e) avxFwd (mulCmplxFused A F64) (mulAddCmplxFused A F64) avxInv.
End Avx.
