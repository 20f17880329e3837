(** What the AVX2 transforms compute, operation by operation: the loops of asm_fft.go with the butterflies of
    asm_fft_amd64.s, which fuse a multiplication with the following addition.  No law of arithmetic is assumed. *)
From Verif Require Import Base ModelNum ModelAsm ModelFFT.
Import ListNotations.

Section Net.
Variable A : arith.
Notation T := (car A).
Notation bfT := (T -> T -> T -> T -> T -> T -> T * T * T * T).
(** [bA] is the butterfly of all levels but the one between neighbouring lanes, [bB] the butterfly of that level. *)
Variables bA bB : bfT.

(** asm_fft_amd64.s:46-98 m_loop, asm_fft.go:39-60. *)
Fixpoint fwdMidB (fuel N m t wIdx : nat) (tw : list (T * T)) (v : list T) : list T * nat :=
  match fuel with
  | O => (v, wIdx)
  | S f => if Nat.leb m (N / 16) then
             let t := (t / 2)%nat in
             fwdMidB f N (2 * m) t (wIdx + m) tw (level A bA tw wIdx m t v)
           else (v, wIdx)
  end.

(** asm_fft_amd64.s fwdFFTInPlaceAVX2: first_loop, m_loop, last_loop_2, last_loop_1. *)
Definition fwdFFTB (v : list T) (tw : list (T * T)) : list T :=
  let N := length v in
  let W i := nth i tw (a0 A, a0 A) in
  let v := node A bA (W 0%nat) 0 (N / 2) v in
  let '(v, wIdx) := fwdMidB N N 2 (N / 2) 1 tw v in
  let v := forN 0 ((N + 7) / 8) (fun b v => half2 A bA (W (wIdx + b)%nat) (8 * b) v) v in
  let wIdx := (wIdx + (N + 7) / 8)%nat in
  forN 0 ((N + 7) / 8) (fun b v => half1 A bB (W (wIdx + 2 * b)%nat) (W (wIdx + 2 * b + 1)%nat) (8 * b) v) v.

Fixpoint invMidB (fuel m t wIdx : nat) (tw : list (T * T)) (v : list T) : list T * nat :=
  match fuel with
  | O => (v, wIdx)
  | S f => if Nat.leb 2 m then
             invMidB f (m / 2) (2 * t) (wIdx + m) tw (level A bA tw wIdx m t v)
           else (v, wIdx)
  end.

(** asm_fft_amd64.s invFFTInPlaceAVX2: first_loop_1, first_loop_2, m_loop, last_loop; [post] is applied to every result. *)
Definition invFFTB (post : T -> T) (v : list T) (twInv : list (T * T)) : list T :=
  let N := length v in
  let W i := nth i twInv (a0 A, a0 A) in
  let v := forN 0 ((N + 7) / 8) (fun b v => half1 A bB (W (2 * b)%nat) (W (2 * b + 1)%nat) (8 * b) v) v in
  let wIdx := (2 * ((N + 7) / 8))%nat in
  let v := forN 0 ((N + 7) / 8) (fun b v => half2 A bA (W (wIdx + b)%nat) (8 * b) v) v in
  let wIdx := (wIdx + (N + 7) / 8)%nat in
  let '(v, wIdx) := invMidB N (N / 16) 8 wIdx twInv v in
  map post (node A bA (W wIdx) 0 (N / 2) v).
End Net.

Section Fused.
Context {T : Type}.
Variable F : fops T.
(** VMULPD, VFNMADD231PD and VMULPD, VFMADD231PD: v w as vR wR - vI wI and vR wI + vI wR, the second product not rounded. *)
Definition cmA (vR vI wR wI : T) : T * T :=
  (ffnma F vI wI (fmul F vR wR), ffma F vI wR (fmul F vR wI)).
(** VMULPD, VFMADDSUB231PD: the first product not rounded. *)
Definition cmB (vR vI wR wI : T) : T * T :=
  (ffms F vR wR (fmul F vI wI), ffma F vR wI (fmul F vI wR)).
(** The forward butterfly of first_loop, j_loop and last_loop_2. *)
Definition fwdA (uR uI vR vI wR wI : T) : T * T * T * T :=
  let '(x, y) := cmA vR vI wR wI in (fadd F uR x, fadd F uI y, fsub F uR x, fsub F uI y).
(** The forward butterfly of last_loop_1: u - (0 - vw) and u + (0 - vw). *)
Definition fwdB (uR uI vR vI wR wI : T) : T * T * T * T :=
  let '(x, y) := cmB vR vI wR wI in
  let x := fsub F (fofbits F 0) x in let y := fsub F (fofbits F 0) y in
  (fsub F uR x, fsub F uI y, fadd F uR x, fadd F uI y).
(** The inverse butterfly of first_loop_2, j_loop and last_loop. *)
Definition invA (uR uI vR vI wR wI : T) : T * T * T * T :=
  let '(x, y) := cmA (fsub F uR vR) (fsub F uI vI) wR wI in (fadd F uR vR, fadd F uI vI, x, y).
(** The inverse butterfly of first_loop_1. *)
Definition invB (uR uI vR vI wR wI : T) : T * T * T * T :=
  let '(x, y) := cmB (fsub F uR vR) (fsub F uI vI) wR wI in (fadd F uR vR, fadd F uI vI, x, y).
End Fused.

(** asm_fft_amd64.s fwdFFTInPlaceAVX2 and invFFTInPlaceAVX2. *)
Definition fwdFFTFused (A : arith) (F : fops (car A)) : list (car A) -> list (car A * car A) -> list (car A) :=
  fwdFFTB A (fwdA F) (fwdB F).
Definition invFFTFused (A : arith) (F : fops (car A)) (sc : car A) : list (car A) -> list (car A * car A) -> list (car A) :=
  invFFTB A (invA F) (invB F) (fun x => fmul F x sc).

(** asm_vec_cmplx_amd64.s:224-308 mulCmplxToAVX2, mulAddCmplxToAVX2, mulSubCmplxToAVX2 on one pair. *)
Section Pair.
Context {T : Type}.
Variable F : fops T.
Definition mulF (a b : T * T) : T * T :=
  (ffnma F (snd b) (snd a) (fmul F (fst b) (fst a)), ffma F (fst b) (snd a) (fmul F (snd b) (fst a))).
Definition mulAddF (o a b : T * T) : T * T :=
  (ffnma F (snd b) (snd a) (ffma F (fst b) (fst a) (fst o)), ffma F (fst b) (snd a) (ffma F (snd b) (fst a) (snd o))).
Definition mulSubF (o a b : T * T) : T * T :=
  (ffma F (snd b) (snd a) (ffnma F (fst b) (fst a) (fst o)), ffnma F (fst b) (snd a) (ffnma F (snd b) (fst a) (snd o))).
End Pair.
Definition mulCmplxFused (A : arith) (F : fops (car A)) := cmplxLoop A (fun _ a b => mulF F a b).
Definition mulAddCmplxFused (A : arith) (F : fops (car A)) := cmplxLoop A (mulAddF F).
Definition mulSubCmplxFused (A : arith) (F : fops (car A)) := cmplxLoop A (mulSubF F).
