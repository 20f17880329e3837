(** Model of the transforms in math/poly: poly_evaluator.go, fft.go, fft_ops.go and the portable kernels
    asm_fft.go, asm_fold.go, asm_vec_cmplx.go (build tag !(amd64 && !purego)).  The AVX2 versions are in ModelAsmFlt.v.

    float64 arithmetic is replaced by the operations of an arbitrary structure [arith]; the theorems assume that
    it is a commutative ring with exact roots of unity (no rounding error).  Vectors keep the memory layout of the
    code: 4 real parts, then 4 imaginary parts.  Unsafe pointer accesses are plain indexing; the code only reaches
    them with slices whose length [checkLength] has compared with the rank. *)
From Verif Require Import Base ModelNum ModelVec ModelPoly.

(** The arithmetic used in place of float64 / complex128.  [acexp a b] stands for cmplx.Exp(2*pi*i*a/b),
    [around] for math.Round, [adivn x n] for division by the float of an integer. *)
Record arith := mkArith {
  car : Type;
  a0 : car; a1 : car;
  aadd : car -> car -> car;
  amul : car -> car -> car;
  asub : car -> car -> car;
  aopp : car -> car;
  adivn : car -> Z -> car;
  aofZ : Z -> car;
  around : car -> Z;
  acexp : Z -> Z -> car * car
}.

Section FFT.
Variable A : arith.
Notation F := (car A).
Notation C := (F * F)%type.
Notation "x +! y" := (aadd A x y) (at level 50, left associativity).
Notation "x -! y" := (asub A x y) (at level 50, left associativity).
Notation "x *! y" := (amul A x y) (at level 40, left associativity).
Notation get v i := (nth i v (a0 A)).

(** The product of complex128 values. *)
Definition cmulG (x y : C) : C := (fst x *! fst y -! snd x *! snd y, fst x *! snd y +! snd x *! fst y).

(* ------------------------------------------------------------------ *)
(** ** poly_evaluator.go *)

(** poly_evaluator.go:134-143: for m, t := 1, N/2; m <= N/2; m, t = m<<1, t>>1. [fuel] bounds the iterations. *)
Fixpoint twLoop (fuel N m t : nat) (twFFT : list C) (tw : list C) : list C :=
  match fuel with
  | O => tw
  | S f => if Nat.leb m (N / 2) then
             let twFold := acexp A (Z.of_nat t) (4 * Z.of_nat N) in
             twLoop f N (2 * m) (t / 2) twFFT
               (forN 0 m (fun i tw => tw ++ [cmulG (nth i twFFT (a0 A, a0 A)) twFold]) tw)
           else tw
  end.

(** poly_evaluator.go:145-150: for m, t := N/2, 1; m >= 1; m, t = m>>1, t<<1. *)
Fixpoint twInvLoop (fuel N m t : nat) (twFFT : list C) (tw : list C) : list C :=
  match fuel with
  | O => tw
  | S f => if Nat.leb 1 m then
             let twFold := acexp A (- Z.of_nat t) (4 * Z.of_nat N) in
             twInvLoop f N (m / 2) (2 * t) twFFT
               (forN 0 m (fun i tw => tw ++ [cmulG (nth i twFFT (a0 A, a0 A)) twFold]) tw)
           else tw
  end.

(** poly_evaluator.go:123-153 genTwiddleFactors. *)
Definition genTwiddleFactors (N : nat) : res (list C * list C) :=
  let twFFT := tab (N / 2) (fun i => acexp A (- Z.of_nat i) (Z.of_nat N)) in
  let twInvFFT := tab (N / 2) (fun i => acexp A (Z.of_nat i) (Z.of_nat N)) in
  match BitReverseInPlace (a0 A, a0 A) twFFT, BitReverseInPlace (a0 A, a0 A) twInvFFT with
  | Ok twFFT, Ok twInvFFT => Ok (twLoop N N 1 (N / 2) twFFT [], twInvLoop N N (N / 2) 1 twInvFFT [])
  | _, _ => OutOfFuel
  end.

(** poly_evaluator.go:40-62 the tables of an Evaluator. *)
Record evaluator := mkEval {
  e_rank : nat;
  e_tw : list C;
  e_twInv : list C;
  e_twMono : list C;
  e_twMonoIdx : list Z
}.

(** poly_evaluator.go:84-120 NewEvaluator (tables; MinRank = 16). *)
Definition NewEvaluator (N : nat) : res evaluator :=
  if negb (IsPowerOfTwo (Z.of_nat N)) then Panic
  else if Nat.ltb N 16 then Panic
  else
    match genTwiddleFactors (N / 2) with
    | Ok (tw, twInv) =>
        let twMono := tab (2 * N) (fun i => acexp A (- Z.of_nat i) (2 * Z.of_nat N)) in
        let idx := upd (repeat 0 (N / 2)) 0 (2 * Z.of_nat N - 1) in
        let idx := forN 1 (N / 2 - 1) (fun i o => upd o i (4 * Z.of_nat i - 1)) idx in
        match BitReverseInPlace 0 idx with
        | Ok idx => Ok (mkEval N tw twInv twMono idx)
        | _ => OutOfFuel
        end
    | _ => OutOfFuel
    end.

(* ------------------------------------------------------------------ *)
(** ** asm_fft.go *)

(** asm_fft.go:7-11 fwdButterfly. *)
Definition fwdButterfly (uR uI vR vI wR wI : F) : F * F * F * F :=
  let vwR := vR *! wR -! vI *! wI in
  let vwI := vR *! wI +! vI *! wR in
  (uR +! vwR, uI +! vwI, uR -! vwR, uI -! vwI).

(** asm_fft.go:87-92 invButterfly. *)
Definition invButterfly (uR uI vR vI wR wI : F) : F * F * F * F :=
  let '(uR, uI, vR, vI) := (uR +! vR, uI +! vI, uR -! vR, uI -! vI) in
  let vwR := vR *! wR -! vI *! wI in
  let vwI := vR *! wI +! vI *! wR in
  (uR, uI, vwR, vwI).

(** v[p], v[q], v[r], v[s] = butterfly(v[p], v[q], v[r], v[s], w). *)
Definition bfly (bf : F -> F -> F -> F -> F -> F -> F * F * F * F) (w : C) (p q r s : nat) (v : list F) : list F :=
  let '(x, y, z, t) := bf (get v p) (get v q) (get v r) (get v s) (fst w) (snd w) in
  upd (upd (upd (upd v p x) q y) r z) s t.

(** asm_fft.go:32-35, 53-56, 150-153: four butterflies between the blocks at j and j+t. *)
Definition block bf (w : C) (j t : nat) (v : list F) : list F :=
  forN 0 4 (fun c v => bfly bf w (j + c) (j + c + 4) (j + t + c) (j + t + c + 4) v) v.

(** asm_fft.go:42-58 / 137-155: the body of the loop over i; blocks j1 <= j < j2 in steps of 8. *)
Definition node bf (w : C) (j1 t : nat) (v : list F) : list F :=
  forN 0 ((t + 7) / 8) (fun b v => block bf w (j1 + 8 * b) t v) v.

(** asm_fft.go:42-59 / 137-156: for i := 0; i < m; i++, one factor per node. *)
Definition level bf (tw : list C) (wIdx m t : nat) (v : list F) : list F :=
  forN 0 m (fun i v => node bf (nth (wIdx + i) tw (a0 A, a0 A)) (2 * i * t) t v) v.

(** asm_fft.go:39-60: t := N/2; for m := 2; m <= N/16; m <<= 1 { t >>= 1; ... }. *)
Fixpoint fwdMid (fuel N m t wIdx : nat) (tw : list C) (v : list F) : list F * nat :=
  match fuel with
  | O => (v, wIdx)
  | S f => if Nat.leb m (N / 16) then
             let t := (t / 2)%nat in
             fwdMid f N (2 * m) t (wIdx + m) tw (level fwdButterfly tw wIdx m t v)
           else (v, wIdx)
  end.

(** asm_fft.go:62-72 / 121-131: butterflies between lanes 0,1 and lanes 2,3 of a block. *)
Definition half2 bf (w : C) (j : nat) (v : list F) : list F :=
  bfly bf w (j + 1) (j + 5) (j + 3) (j + 7) (bfly bf w (j + 0) (j + 4) (j + 2) (j + 6) v).

(** asm_fft.go:74-84 / 106-118: butterflies between lanes 0 and 1, and lanes 2 and 3. *)
Definition half1 bf (w0 w1 : C) (j : nat) (v : list F) : list F :=
  bfly bf w1 (j + 2) (j + 6) (j + 3) (j + 7) (bfly bf w0 (j + 0) (j + 4) (j + 1) (j + 5) v).

(** asm_fft.go:15-85 fwdFFTInPlace. *)
Definition fwdFFTInPlace (v : list F) (tw : list C) : list F :=
  let N := length v in
  let W i := nth i tw (a0 A, a0 A) in
  let v := node fwdButterfly (W 0%nat) 0 (N / 2) v in
  let '(v, wIdx) := fwdMid N N 2 (N / 2) 1 tw v in
  let v := forN 0 ((N + 7) / 8) (fun b v => half2 fwdButterfly (W (wIdx + b)%nat) (8 * b) v) v in
  let wIdx := (wIdx + (N + 7) / 8)%nat in
  forN 0 ((N + 7) / 8) (fun b v => half1 fwdButterfly (W (wIdx + 2 * b)%nat) (W (wIdx + 2 * b + 1)%nat) (8 * b) v) v.

(** asm_fft.go:133-157: t := 8; for m := N/16; m >= 2; m >>= 1 { ...; t <<= 1 }. *)
Fixpoint invMid (fuel m t wIdx : nat) (tw : list C) (v : list F) : list F * nat :=
  match fuel with
  | O => (v, wIdx)
  | S f => if Nat.leb 2 m then
             invMid f (m / 2) (2 * t) (wIdx + m) tw (level invButterfly tw wIdx m t v)
           else (v, wIdx)
  end.

(** asm_fft.go:96-186 invFFTInPlace.  The last loop divides the 16 entries of its two blocks right after the
    butterflies; here the division is a second loop over the same entries. *)
Definition invFFTInPlace (v : list F) (twInv : list C) : list F :=
  let N := length v in
  let W i := nth i twInv (a0 A, a0 A) in
  let v := forN 0 ((N + 7) / 8) (fun b v => half1 invButterfly (W (2 * b)%nat) (W (2 * b + 1)%nat) (8 * b) v) v in
  let wIdx := (2 * ((N + 7) / 8))%nat in
  let v := forN 0 ((N + 7) / 8) (fun b v => half2 invButterfly (W (wIdx + b)%nat) (8 * b) v) v in
  let wIdx := (wIdx + (N + 7) / 8)%nat in
  let '(v, wIdx) := invMid N (N / 16) 8 wIdx twInv v in
  let scale := Z.of_nat (N / 2) in
  map (fun x => adivn A x scale) (node invButterfly (W wIdx) 0 (N / 2) v).

(* ------------------------------------------------------------------ *)
(** ** asm_fold.go *)

(** asm_fold.go:13-136 foldPolyTo: unsigned coefficients are converted through the signed type of the same size. *)
Definition foldConv (sg : bool) (w x : Z) : F := aofZ A (if sg then x else swrap w x).
Definition foldPolyTo (sg : bool) (w : Z) (fpOut : list F) (p : list Z) : list F :=
  let N := length fpOut in
  forN 0 ((N + 7) / 8) (fun b o =>
    forN 0 4 (fun c o => upd (upd o (8 * b + c) (foldConv sg w (nthZ p (4 * b + c))))
                             (8 * b + c + 4) (foldConv sg w (nthZ p (4 * b + N / 2 + c)))) o) fpOut.

(** asm_fold.go:139-158 floatModQInPlace with q = 2^w. *)
Definition floatModQ (w : Z) (c : F) : F :=
  aofZ A (around A (c -! aofZ A (2 ^ w) *! aofZ A (around A (adivn A c (2 ^ w))))).
Definition floatModQInPlace (w : Z) (v : list F) : list F := map (floatModQ w) v.

(** asm_fold.go:161-236 unfoldPolyTo, unfoldPolyAddTo, unfoldPolySubTo: T(int64(x)); [acc] is =, += or -=.
    The conversion of the (integral) value to int64 and T is the reduction mod 2^w. *)
Definition unfoldPoly (acc : Z -> Z -> Z) (sg : bool) (w : Z) (pOut : list Z) (fp : list F) : list Z :=
  let N := length fp in
  forN 0 ((N + 7) / 8) (fun b o =>
    forN 0 4 (fun c o =>
      let o := upd o (4 * b + c) (acc (nthZ o (4 * b + c)) (twrap sg w (around A (get fp (8 * b + c))))) in
      upd o (4 * b + N / 2 + c)
        (acc (nthZ o (4 * b + N / 2 + c)) (twrap sg w (around A (get fp (8 * b + c + 4)))))) o) pOut.
Definition unfoldPolyTo sg w := unfoldPoly (fun _ x => x) sg w.
Definition unfoldPolyAddTo sg w := unfoldPoly (fun o x => twrap sg w (o + x)) sg w.
Definition unfoldPolySubTo sg w := unfoldPoly (fun o x => twrap sg w (o - x)) sg w.

(* ------------------------------------------------------------------ *)
(** ** asm_vec_cmplx.go *)

(** The loop shared by the kernels of asm_vec_cmplx.go: lane by lane, [f] gives the two parts written from the old
    output, v0 and v1 at the lane.  A lane is read before it is written, so vOut may be v0 or v1. *)
Definition cmplxLoop (f : C -> C -> C -> C) (vOut v0 v1 : list F) : list F :=
  forN 0 ((length vOut + 7) / 8) (fun b o =>
    forN 0 4 (fun c o =>
      let i := (8 * b + c)%nat in
      let at_ v := (get v i, get v (i + 4)%nat) in
      let '(x, y) := f (at_ o) (at_ v0) (at_ v1) in
      upd (upd o i x) (i + 4) y) o) vOut.
Definition cadd2 (a b : C) : C := (fst a +! fst b, snd a +! snd b).
Definition csub2 (a b : C) : C := (fst a -! fst b, snd a -! snd b).
(** asm_vec_cmplx.go:10-32 *)
Definition addCmplxTo := cmplxLoop (fun _ a b => cadd2 a b).
(** asm_vec_cmplx.go:35-57 *)
Definition subCmplxTo := cmplxLoop (fun _ a b => csub2 a b).
(** asm_vec_cmplx.go:60-80 *)
Definition negCmplxTo vOut v := cmplxLoop (fun _ a _ => (aopp A (fst a), aopp A (snd a))) vOut v v.
(** asm_vec_cmplx.go:83-149 *)
Definition floatMulCmplxTo vOut v (c : F) := cmplxLoop (fun _ a _ => (c *! fst a, c *! snd a)) vOut v v.
Definition floatMulAddCmplxTo vOut v (c : F) :=
  cmplxLoop (fun o a _ => (fst o +! c *! fst a, snd o +! c *! snd a)) vOut v v.
Definition floatMulSubCmplxTo vOut v (c : F) :=
  cmplxLoop (fun o a _ => (fst o -! c *! fst a, snd o -! c *! snd a)) vOut v v.
(** asm_vec_cmplx.go:152-242 *)
Definition cmplxMulCmplxTo vOut v (c : C) := cmplxLoop (fun _ a _ => cmulG a c) vOut v v.
Definition cmplxMulAddCmplxTo vOut v (c : C) := cmplxLoop (fun o a _ => cadd2 o (cmulG a c)) vOut v v.
Definition cmplxMulSubCmplxTo vOut v (c : C) := cmplxLoop (fun o a _ => csub2 o (cmulG a c)) vOut v v.
(** asm_vec_cmplx.go:245-335 *)
Definition mulCmplxTo := cmplxLoop (fun _ a b => cmulG a b).
Definition mulAddCmplxTo := cmplxLoop (fun o a b => cadd2 o (cmulG a b)).
Definition mulSubCmplxTo := cmplxLoop (fun o a b => csub2 o (cmulG a b)).

(* ------------------------------------------------------------------ *)
(** ** fft.go *)

(** fft.go:18-23 FwdFFTTo. *)
Definition FwdFFTTo (e : evaluator) (sg : bool) (w : Z) (fpOut : list F) (p : list Z) : list F :=
  fwdFFTInPlace (foldPolyTo sg w fpOut p) (e_tw e).
(** fft.go:26-32, 35-41 FwdFFTAddTo, FwdFFTSubTo; [buf] is e.buf.fp. *)
Definition FwdFFTAddTo (e : evaluator) (sg : bool) (w : Z) (buf fpOut : list F) (p : list Z) : list F :=
  addCmplxTo fpOut (FwdFFTTo e sg w buf p) fpOut.
Definition FwdFFTSubTo (e : evaluator) (sg : bool) (w : Z) (buf fpOut : list F) (p : list Z) : list F :=
  subCmplxTo fpOut fpOut (FwdFFTTo e sg w buf p).

(** fft.go:51-84, 98-131 MonomialFwdFFTTo, MonomialSubOneFwdFFTTo; [g] post-processes the table entry. *)
Definition monoFFT (g : C -> C) (e : evaluator) (fpOut : list F) (d : Z) : list F :=
  let mask := 2 * Z.of_nat (e_rank e) - 1 in
  let d := Z.land d mask in
  forN 0 ((e_rank e + 7) / 8) (fun b o =>
    forN 0 4 (fun c o =>
      let ii := nthZ (e_twMonoIdx e) (4 * b + c) in
      let '(x, y) := g (nth (Z.to_nat (Z.land (ii * d) mask)) (e_twMono e) (a0 A, a0 A)) in
      upd (upd o (8 * b + c) x) (8 * b + c + 4) y) o) fpOut.
Definition MonomialFwdFFTTo := monoFFT (fun c => c).
Definition MonomialSubOneFwdFFTTo := monoFFT (fun c => (fst c -! a1 A, snd c)).

(** fft.go:141-168 InvFFTTo, InvFFTAddTo, InvFFTSubTo (on the copy e.buf.fpInv) and 174-207 the Unsafe variants
    (in place: the same result). *)
Definition invFFTv (e : evaluator) (w : Z) (fp : list F) : list F :=
  floatModQInPlace w (invFFTInPlace fp (e_twInv e)).
Definition InvFFTTo (e : evaluator) (sg : bool) (w : Z) (pOut : list Z) (fp : list F) : list Z :=
  unfoldPolyTo sg w pOut (invFFTv e w fp).
Definition InvFFTAddTo (e : evaluator) (sg : bool) (w : Z) (pOut : list Z) (fp : list F) : list Z :=
  unfoldPolyAddTo sg w pOut (invFFTv e w fp).
Definition InvFFTSubTo (e : evaluator) (sg : bool) (w : Z) (pOut : list Z) (fp : list F) : list Z :=
  unfoldPolySubTo sg w pOut (invFFTv e w fp).

(* ------------------------------------------------------------------ *)
(** ** fft_ops.go *)

(** bits.Reverse64. *)
Definition Reverse64 (x : Z) : Z :=
  forN 0 64 (fun i r => Z.lor (Z.shiftl r 1) (Z.land (Z.shiftr x (Z.of_nat i)) 1)) 0.

(** fft_ops.go:183-228, 247-292, 295-340 PermuteFFTPolyTo, PermuteAddFFTPolyTo, PermuteSubFFTPolyTo: [acc] is
    =, += or -= on one float.  None = panic (d even).  The Add variant writes + for |, equal on disjoint bits. *)
Definition permuteFFT (acc : F -> F -> F) (rank : nat) (fpOut fp : list F) (d : Z) : option (list F) :=
  if Z.land d 1 =? 0 then None
  else
    let NZ := Z.of_nat rank in
    let sh := 64 - (Len64 NZ - 1 - 1) in
    let d := Z.land d (2 * NZ - 1) in
    let src (i : nat) (cjOf : Z -> Z) : nat :=
      let ci := Z.lor (Z.shiftl (Z.shiftr (Z.of_nat i) 3) 2) (Z.land (Z.of_nat i) 3) in
      let ci := Z.shiftr (Reverse64 ci) sh in
      let cj := Z.land (cjOf ci) (Z.shiftr NZ 1 - 1) in
      let cj := Z.shiftr (Reverse64 cj) sh in
      Z.to_nat (Z.lor (Z.shiftl (Z.shiftr cj 2) 3) (Z.land cj 3)) in
    let run (cjOf : Z -> Z) (sgn : F -> F) :=
      Some (forN 0 ((rank + 7) / 8) (fun b o =>
        forN (8 * b) 4 (fun i o =>
          let j := src i cjOf in
          let o := upd o i (acc (get o i) (get fp j)) in
          upd o (i + 4) (acc (get o (i + 4)%nat) (sgn (get fp (j + 4)%nat)))) o) fpOut) in
    if Z.rem d 4 =? 1 then
      let k := Z.shiftr (d - 1) 2 in run (fun ci => d * ci - k) (fun x => x)
    else
      let k := Z.shiftr (d - 3) 2 in run (fun ci => - d * ci + k + 1) (aopp A).
Definition PermuteFFTPolyTo := permuteFFT (fun _ x => x).
Definition PermuteAddFFTPolyTo := permuteFFT (fun o x => o +! x).
Definition PermuteSubFFTPolyTo := permuteFFT (fun o x => o -! x).
(** fft_ops.go:234-241 PermuteFFTPolyInPlace: through e.buf.fpOut. *)
Definition PermuteFFTPolyInPlace (rank : nat) (buf fp : list F) (d : Z) : option (list F) :=
  PermuteFFTPolyTo rank buf fp d.
End FFT.
