(** Model of math/poly: polynomials over Z_Q[X]/(X^N+1), Q = 2^w.  No proofs in this file.

    A Poly is the list of its N coefficients (words in [0,2^w)).  Output arguments that are
    completely overwritten are dropped; accumulating variants take the old output.
    An FFTPoly is represented by the integer polynomial it stands for (exact arithmetic; the
    rounding error of complex128 arithmetic is not modelled, see DESIGN.md).  ModelFFT.v has the
    butterfly networks. *)
From Verif Require Import Base ModelNum ModelVec.

(** poly_ops.go:8-75 Add/Sub/Neg/ScalarMul (pointwise; kernels are in ModelVec). *)
Definition vadd (w : Z) (a b : list Z) : list Z := map2 (fun x y => wrap w (x + y)) a b.
Definition vsub (w : Z) (a b : list Z) : list Z := map2 (fun x y => wrap w (x - y)) a b.
Definition vneg (w : Z) (a : list Z) : list Z := map (fun x => wrap w (- x)) a.
Definition vscale (w : Z) (c : Z) (a : list Z) : list Z := map (fun x => wrap w (c * x)) a.

(** The two kinds of assignment in the monomial loops. *)
Definition accSet (w o v : Z) : Z := v.
Definition accAdd (w o v : Z) : Z := wrap w (o + v).
Definition accSub (w o v : Z) : Z := wrap w (o - v).

(** [for i, ii := i0, ii0; ...; i, ii = i+1, ii+1 { out[i] acc= f(p[ii]) }], n iterations. *)
Definition seg (acc : Z -> Z -> Z) (f : Z -> Z) (p : list Z) (i0 ii0 n : nat) (out : list Z) : list Z :=
  forN 0 n (fun t o => upd o (i0 + t) (acc (nthZ o (i0 + t)) (f (nthZ p (ii0 + t))))) out.

(** poly_ops.go:122-155 (acc = set), 187-220 (add), 225-258 (sub).
    Loop bounds: [ii < N] resp. [i < N] give N - start iterations. *)
Definition MonomialMul (acc : Z -> Z -> Z) (w : Z) (N : nat) (out p : list Z) (d : Z) : list Z :=
  let NZ := Z.of_nat N in
  let k := Z.land d (2 * NZ - 1) in
  let neg x := wrap w (- x) in
  let run f1 i1 ii1 f2 i2 ii2 :=
    seg acc f2 p (Z.to_nat i2) (Z.to_nat ii2) (Z.to_nat (NZ - i2))
      (seg acc f1 p (Z.to_nat i1) (Z.to_nat ii1) (Z.to_nat (NZ - ii1)) out) in
  let id x := x in
  if NZ <=? k then run id 0 (- k + 2 * NZ) neg (k - NZ) 0
  else if (0 <=? k) && (k <? NZ) then run neg 0 (- k + NZ) id k 0
  else if (- NZ <=? k) && (k <? 0) then run id 0 (- k) neg (k + NZ) 0
  else run neg 0 (- k - NZ) id (k + 2 * NZ) 0.

Definition MonomialMulPolyTo w := MonomialMul (accSet w) w.
Definition MonomialMulAddPolyTo w := MonomialMul (accAdd w) w.
Definition MonomialMulSubPolyTo w := MonomialMul (accSub w) w.

(** [for i := lo; i < hi; i++ { p[i] = -p[i] }] *)
Definition negRange (w lo hi : Z) (p : list Z) : list Z :=
  forN (Z.to_nat lo) (Z.to_nat (hi - lo)) (fun i o => upd o i (wrap w (- nthZ o i))) p.

(** poly_ops.go:158-182 MonomialMulPolyInPlace.  None = panic (rank 0 only). *)
Definition MonomialMulPolyInPlace (w : Z) (N : nat) (p : list Z) (d : Z) : option (list Z) :=
  let NZ := Z.of_nat N in
  let kk := Z.land d (NZ - 1) in
  match RotateInPlace 0 p kk with
  | None => None
  | Some p1 =>
    let k := Z.land d (2 * NZ - 1) in
    Some (if NZ <=? k then negRange w kk NZ p1
          else if (0 <=? k) && (k <? NZ) then negRange w 0 kk p1
          else if (- NZ <=? k) && (k <? 0) then negRange w (NZ + kk) NZ p1
          else negRange w 0 (NZ + kk) p1)
  end.

(** poly_ops.go:277-292 PermutePolyTo, 311-329 Add, 334-352 Sub; d*i is computed in int (64 bits). *)
Definition PermutePolyTo (w : Z) (N : nat) (out p : list Z) (d : Z) : option (list Z) :=
  if Z.land d 1 =? 0 then None
  else Some (forN 0 N (fun i o =>
    let j := Z.land (swrap 64 (d * Z.of_nat i)) (2 * Z.of_nat N - 1) in
    if j <? Z.of_nat N then upd o (Z.to_nat j) (nthZ p i)
    else upd o (Z.to_nat (j - Z.of_nat N)) (wrap w (- nthZ p i))) out).
Definition PermuteAddPolyTo (w : Z) (N : nat) (out p : list Z) (d : Z) : option (list Z) :=
  if Z.land d 1 =? 0 then None
  else Some (forN 0 N (fun i o =>
    let j := Z.land (swrap 64 (d * Z.of_nat i)) (2 * Z.of_nat N - 1) in
    if j <? Z.of_nat N then upd o (Z.to_nat j) (wrap w (nthZ o (Z.to_nat j) + nthZ p i))
    else let jj := Z.to_nat (j - Z.of_nat N) in upd o jj (wrap w (nthZ o jj - nthZ p i))) out).
Definition PermuteSubPolyTo (w : Z) (N : nat) (out p : list Z) (d : Z) : option (list Z) :=
  if Z.land d 1 =? 0 then None
  else Some (forN 0 N (fun i o =>
    let j := Z.land (swrap 64 (d * Z.of_nat i)) (2 * Z.of_nat N - 1) in
    if j <? Z.of_nat N then upd o (Z.to_nat j) (wrap w (nthZ o (Z.to_nat j) - nthZ p i))
    else let jj := Z.to_nat (j - Z.of_nat N) in upd o jj (wrap w (nthZ o jj + nthZ p i))) out).
(** poly_ops.go:298-303 PermutePolyInPlace: through the buffer e.buf.pOut (content [buf]). *)
Definition PermutePolyInPlace (w : Z) (N : nat) (buf p : list Z) (d : Z) : option (list Z) :=
  PermutePolyTo w N buf p d.

(* ------------------------------------------------------------------ *)
(** ** Transform domain (exact integer representation) *)

(** The product of two integer polynomials modulo X^N + 1 (schoolbook). *)
Definition nmul (N : nat) (a b : list Z) : list Z :=
  tab N (fun k => zsum N (fun i =>
    nthZ a i * (if Nat.leb i k then nthZ b (k - i) else - nthZ b (k + N - i)))).

(** fft.go:13-18 FwdFFTTo: asm_fold.go:13-136 foldPolyTo converts each coefficient through the
    signed type of the same size; a transform stands for that integer polynomial. *)
Definition fwdFFT (w : Z) (p : list Z) : list Z := map (swrap w) p.

(** fft.go:136-143 InvFFTTo: asm_fold.go:139-158 (c - q*round(c/q)) then T(int64(c)) = reduction mod 2^w. *)
Definition invFFT (w : Z) (f : list Z) : list Z := map (wrap w) f.
(** fft.go:146-163 InvFFTAddTo / InvFFTSubTo. *)
Definition invFFTAdd (w : Z) (out f : list Z) : list Z := vadd w out (invFFT w f).
Definition invFFTSub (w : Z) (out f : list Z) : list Z := vsub w out (invFFT w f).

(** fft_ops.go:10-135: linear operations and products in the transform domain. *)
Definition fadd (f g : list Z) : list Z := map2 Z.add f g.
Definition fsub (f g : list Z) : list Z := map2 Z.sub f g.
Definition fneg (f : list Z) : list Z := map Z.opp f.
Definition fmul (N : nat) (f g : list Z) : list Z := nmul N f g.
Definition fmulAdd (N : nat) (out f g : list Z) : list Z := fadd out (nmul N f g).
Definition fmulSub (N : nat) (out f g : list Z) : list Z := fsub out (nmul N f g).

(** fft_ops.go:136-167 PolyMulFFTPoly(Add/Sub)To: transform p, then multiply. *)
Definition PolyMulFFTPolyTo (w : Z) (N : nat) (fp p : list Z) := fmul N (fwdFFT w p) fp.
Definition PolyMulAddFFTPolyTo (w : Z) (N : nat) (out fp p : list Z) := fmulAdd N out (fwdFFT w p) fp.
Definition PolyMulSubFFTPolyTo (w : Z) (N : nat) (out fp p : list Z) := fmulSub N out (fwdFFT w p) fp.

(** poly_ops.go:85-109 FFTPolyMul(Add/Sub)PolyTo. *)
Definition FFTPolyMulPolyTo (w : Z) (N : nat) (p fp : list Z) := invFFT w (fmul N (fwdFFT w p) fp).
Definition FFTPolyMulAddPolyTo (w : Z) (N : nat) (out p fp : list Z) := invFFTAdd w out (fmul N (fwdFFT w p) fp).
Definition FFTPolyMulSubPolyTo (w : Z) (N : nat) (out p fp : list Z) := invFFTSub w out (fmul N (fwdFFT w p) fp).

(** fft.go:46-79 / 93-126: the transforms of X^d and X^d - 1 (d any int). ModelFFT.v models the index
    computation; here the polynomial the result stands for. *)
Definition monomial (N : nat) (d : Z) : list Z :=
  let k := d mod (2 * Z.of_nat N) in
  tab N (fun i => if Z.of_nat i =? k then 1 else if Z.of_nat i + Z.of_nat N =? k then -1 else 0).
Definition monomialSubOne (N : nat) (d : Z) : list Z :=
  tab N (fun i => nthZ (monomial N d) i - (if Nat.eqb i 0 then 1 else 0)).

(* ------------------------------------------------------------------ *)
(** ** Split multiplication *)

(** poly_evaluator.go:19-24. *)
Definition ShortLogBound : Z := 8.
Definition splitLogBound : Z := 48.
(** math.Ceil(float64(a)/float64(b)) for the small integers that occur (exact, see DESIGN.md). *)
Definition ceilDiv (a b : Z) : Z := (a + b - 1) / b.
(** poly_evaluator.go:155-159 and 162-166 (N = 2^logN). *)
Definition splitBits (logN : Z) : Z := (splitLogBound - logN) / 4.
Definition splitBitsShort (logN : Z) : Z := (splitLogBound - 2 * ShortLogBound - logN) / 2.
Definition splitCount (w sb : Z) : nat := Z.to_nat (ceilDiv w sb).

(** One digit: poly_mul.go:51-61 (unsigned) and 36-47 (signed; [1 << (i*sb)] wraps in T). *)
Definition digitU (w sb : Z) (i : nat) (x : Z) : Z := Z.land (Z.shiftr x (Z.of_nat i * sb)) (2 ^ sb - 1).
Definition digitS (w sb : Z) (i : nat) (x : Z) : Z :=
  Z.rem (swrap w (Z.quot x (swrap w (2 ^ (Z.of_nat i * sb))))) (swrap w (2 ^ sb)).
Definition digit (signed : bool) := if signed then digitS else digitU.

(** Values of type T in the two cases. *)
Definition invFFTs (signed : bool) (w : Z) (f : list Z) : list Z := map (twrap signed w) f.

(** The fpOutSplit accumulators, poly_mul.go:64-68: [out[i+j] += f0[i]*f1[j]] for j < cnt - i. *)
Definition splitAcc (N cnt : nat) (f0 f1 : list (list Z)) : list (list Z) :=
  forN 0 cnt (fun i o =>
    forN 0 (cnt - i) (fun j o =>
      upd o (i + j) (fmulAdd N (nth (i + j) o []) (nth i f0 []) (nth j f1 []))) o)
    (repeat (repeat 0 N) cnt).

(** poly_mul.go:70-77: [out = Inv(s[0]); out[j] += Inv(s[i])[j] << (i*sb)] ([acc] is the initial combination). *)
Definition recombine (signed : bool) (w sb : Z) (cnt : nat) (acc : list Z -> list Z) (s : list (list Z)) : list Z :=
  forN 1 (cnt - 1) (fun i o =>
    map2 (fun a b => twrap signed w (a + twrap signed w (Z.shiftl b (Z.of_nat i * sb)))) o
         (invFFTs signed w (nth i s []))) (acc (invFFTs signed w (nth 0 s []))).
Definition recombineSub (signed : bool) (w sb : Z) (cnt : nat) (acc : list Z -> list Z) (s : list (list Z)) : list Z :=
  forN 1 (cnt - 1) (fun i o =>
    map2 (fun a b => twrap signed w (a - twrap signed w (Z.shiftl b (Z.of_nat i * sb)))) o
         (invFFTs signed w (nth i s []))) (acc (invFFTs signed w (nth 0 s []))).

Definition splitPoly (signed : bool) (w sb : Z) (cnt : nat) (p : list Z) : list (list Z) :=
  tab cnt (fun i => fwdFFT w (map (digit signed w sb i) p)).

Definition taddv (signed : bool) (w : Z) (a b : list Z) : list Z := map2 (fun x y => twrap signed w (x + y)) a b.
Definition tsubv (signed : bool) (w : Z) (a b : list Z) : list Z := map2 (fun x y => twrap signed w (x - y)) a b.

(** poly_mul.go:13-79, 82-148, 151-217. *)
Definition MulPolyTo (signed : bool) (w logN : Z) (N : nat) (p0 p1 : list Z) : list Z :=
  let sb := splitBits logN in let cnt := splitCount w sb in
  if Nat.eqb cnt 1 then invFFTs signed w (fmul N (fwdFFT w p0) (fwdFFT w p1))
  else recombine signed w sb cnt (fun x => x)
         (splitAcc N cnt (splitPoly signed w sb cnt p0) (splitPoly signed w sb cnt p1)).
Definition MulAddPolyTo (signed : bool) (w logN : Z) (N : nat) (out p0 p1 : list Z) : list Z :=
  let sb := splitBits logN in let cnt := splitCount w sb in
  if Nat.eqb cnt 1 then taddv signed w out (invFFTs signed w (fmul N (fwdFFT w p0) (fwdFFT w p1)))
  else recombine signed w sb cnt (taddv signed w out)
         (splitAcc N cnt (splitPoly signed w sb cnt p0) (splitPoly signed w sb cnt p1)).
Definition MulSubPolyTo (signed : bool) (w logN : Z) (N : nat) (out p0 p1 : list Z) : list Z :=
  let sb := splitBits logN in let cnt := splitCount w sb in
  if Nat.eqb cnt 1 then tsubv signed w out (invFFTs signed w (fmul N (fwdFFT w p0) (fwdFFT w p1)))
  else recombineSub signed w sb cnt (tsubv signed w out)
         (splitAcc N cnt (splitPoly signed w sb cnt p0) (splitPoly signed w sb cnt p1)).

(** poly_mul.go:231-273, 278-320, 325-367: one operand is already transformed and short. *)
Definition shortProds (signed : bool) (w sb : Z) (N cnt : nat) (p fpShort : list Z) : list (list Z) :=
  map (fun f => fmul N f fpShort) (splitPoly signed w sb cnt p).
Definition ShortFFTPolyMulPolyTo (signed : bool) (w logN : Z) (N : nat) (p fpShort : list Z) : list Z :=
  let sb := splitBitsShort logN in let cnt := splitCount w sb in
  if Nat.eqb cnt 1 then invFFTs signed w (fmul N (fwdFFT w p) fpShort)
  else recombine signed w sb cnt (fun x => x) (shortProds signed w sb N cnt p fpShort).
Definition ShortFFTPolyMulAddPolyTo (signed : bool) (w logN : Z) (N : nat) (out p fpShort : list Z) : list Z :=
  let sb := splitBitsShort logN in let cnt := splitCount w sb in
  if Nat.eqb cnt 1 then taddv signed w out (invFFTs signed w (fmul N (fwdFFT w p) fpShort))
  else recombine signed w sb cnt (taddv signed w out) (shortProds signed w sb N cnt p fpShort).
Definition ShortFFTPolyMulSubPolyTo (signed : bool) (w logN : Z) (N : nat) (out p fpShort : list Z) : list Z :=
  let sb := splitBitsShort logN in let cnt := splitCount w sb in
  if Nat.eqb cnt 1 then tsubv signed w out (invFFTs signed w (fmul N (fwdFFT w p) fpShort))
  else recombineSub signed w sb cnt (tsubv signed w out) (shortProds signed w sb N cnt p fpShort).
