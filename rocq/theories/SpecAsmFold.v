(** Specifications for the kernels of math/poly/asm_fold_amd64.s. *)
From Coq Require Import Floats.SpecFloat.
From Verif Require Import Base ModelNum ModelAsm ModelAsmInt SpecAsm ModelF64 ModelAsmFold SpecF64.
Open Scope Z_scope.

(** The i-th float of a slice in memory. *)
Definition fat (m : mem f64) (g : gslice) (i : Z) : f64 :=
  match getm m (gb g) (go g + i) with Some (WF x) => x | _ => S754_nan end.
(** A []float64 inside an allocation of the memory; its elements are binary64 numbers. *)
Definition fslice64 (m : mem f64) (g : gslice) : Prop :=
  esz m (gb g) = 8 /\ 0 <= go g /\ 0 <= gn g /\ go g + gn g < 2 ^ 59 /\
  forall i, 0 <= i < gn g -> exists x, getm m (gb g) (go g + i) = Some (WF x) /\ valid_binary 53 1024 x = true.

(** The layout: 4 coefficients of the lower half, then the 4 coefficients at the same place of the upper half.  Coefficient
    [foldIdx n i] of the polynomial is the i-th float; [unfoldIdx n j] is the place of coefficient j. *)
Definition foldIdx (n i : Z) : Z := 4 * (i / 8) + i mod 4 + (if i mod 8 <? 4 then 0 else n / 2).
Definition unfoldIdx (n j : Z) : Z := if j <? n / 2 then 8 * (j / 4) + j mod 4 else 8 * ((j - n / 2) / 4) + 4 + (j - n / 2) mod 4.

(** A call with a []T of n integers of e bytes and a []float64 of n floats, n a multiple of 8, in different allocations. *)
Definition fold_call (s : state f64) (fp p : gslice) (e : Z) : Prop :=
  fslice64 (mm s) fp /\ islice (mm s) e p /\ gn p = gn fp /\ gn fp mod 8 = 0 /\ gb p <> gb fp.
(** fpOut receives conv of the coefficients, nothing else is touched. *)
Definition folds (e : Z) (k : prog) (conv : Z -> f64) : Prop :=
  forall (s : state f64) (fp p : gslice), fold_call s fp p e ->
    terminates F64 (mkEnv (frameTU fp 8 p e) foldData) k s
      (window fp (fun i => WF (conv (ival (mm s) p (foldIdx (gn fp) i)))) (mm s)).
(** pOut receives acc (old value) (conv float) modulo 2^(8e), nothing else is touched. *)
Definition unfolds (e : Z) (k : prog) (conv : f64 -> Z) (acc : Z -> Z -> Z) : Prop :=
  forall (s : state f64) (fp p : gslice), fold_call s fp p e ->
    terminates F64 (mkEnv (frameTU p e fp 8) foldData) k s
      (window p (fun j => WI (acc (ival (mm s) p j) (conv (fat (mm s) fp (unfoldIdx (gn fp) j))) mod 2 ^ (8 * e))) (mm s)).
(** The integer part of a float modulo 2^64; 0 beyond 2^64. *)
Definition int64part (x : f64) : Z :=
  match x with
  | S754_finite s m e =>
      let t := if 0 <=? e then Zpos m * 2 ^ e else Zpos m / 2 ^ (- e) in if t <? 2 ^ 64 then (if s then - t else t) mod 2 ^ 64 else 0
  | _ => 0
  end.

(** The conversion back to the torus of w bits (InvFFTTo, InvFFTAddTo, InvFFTSubTo, math/poly/fft.go:136-200, after invFFTInPlace):
    floatModQInPlace with q = 2^w, then an unfold kernel k on the memory it leaves.  Every coefficient of p becomes
    acc (old value) N modulo 2^w, where N is the nearest integer of the float in its place, the even one at a tie.  The first
    kernel writes only the floats, the second only the coefficients. *)
Definition to_torus (w : Z) (k : prog) (acc : Z -> Z -> Z) : Prop :=
  forall (s : state f64) (fp p : gslice), fold_call s fp p (w / 8) ->
    (forall i, 0 <= i < gn fp -> normalF (fat (mm s) fp i)) ->
    terminates F64 (mkEnv (frameQ fp (pow2F w) (goInv (pow2F w))) foldData) floatModQInPlaceAVX2 s (fun m1 =>
      (exists g, window fp g (mm s) m1) /\
      forall s1, mm s1 = m1 -> terminates F64 (mkEnv (frameTU p (w / 8) fp 8) foldData) k s1 (fun m2 =>
        exists r, window p (fun j => WI (r j)) m1 m2 /\
          forall j, 0 <= j < gn p -> exists N, nearest_even (fat (mm s) fp (unfoldIdx (gn fp) j)) N /\ r j = acc (ival (mm s) p j) N mod 2 ^ w)).
