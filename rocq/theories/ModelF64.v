(** float64: the IEEE 754 binary64 operations of Coq's standard library (Floats.SpecFloat, precision 53, emax 1024,
    round to nearest even), the conversions of the AVX2 unit, and the Go operations on float64 that
    math/poly/asm_fold.go uses.  No proofs in this file. *)
From Coq Require Import Floats.SpecFloat.
From Verif Require Import Base ModelNum ModelAsm.
Import ListNotations.
Open Scope Z_scope.

Notation f64 := spec_float.
Notation BN := (binary_normalize 53 1024).

(** The value of a finite float is cond_Zopp s m * 2^e; its integer part rounded by a rule on (quotient, remainder, divisor). *)
Definition roundZ (up : Z -> Z -> Z -> bool) (m e : Z) : Z :=
  if 0 <=? e then m * 2 ^ e
  else let k := 2 ^ (- e) in let q := m / k in let r := m mod k in if up q r k then q + 1 else q.
Definition upEven (q r k : Z) : bool := (k <? 2 * r) || ((k =? 2 * r) && Z.odd q).
Definition upAway (q r k : Z) : bool := (k <=? 2 * r).
Definition upZero (q r k : Z) : bool := false.

(** Rounding to an integral float: VROUNDPD $0 (ties to even), math.Round of Go (ties away from zero). *)
Definition rndF (up : Z -> Z -> Z -> bool) (x : f64) : f64 :=
  match x with
  | S754_finite s m e =>
      if 0 <=? e then x
      else match roundZ up (Zpos m) e with Z0 => S754_zero s | n => BN (cond_Zopp s n) 0 s end
  | _ => x
  end.

(** Bit patterns. *)
Definition signbit (s : bool) : Z := if s then 2 ^ 63 else 0.
Definition bits64 (x : f64) : Z :=
  match x with
  | S754_zero s => signbit s
  | S754_infinity s => signbit s + 2047 * 2 ^ 52
  | S754_nan => 2047 * 2 ^ 52 + 2 ^ 51
  | S754_finite s m e => signbit s + (if Zpos m <? 2 ^ 52 then Zpos m else (e + 1075) * 2 ^ 52 + (Zpos m - 2 ^ 52))
  end.
Definition ofbits64 (z : Z) : f64 :=
  let s := 2 ^ 63 <=? z in
  let E := (z / 2 ^ 52) mod 2 ^ 11 in
  let M := z mod 2 ^ 52 in
  if E =? 2047 then (if M =? 0 then S754_infinity s else S754_nan)
  else if E =? 0 then match M with Zpos m => S754_finite s m (-1074) | _ => S754_zero s end
  else match 2 ^ 52 + M with Zpos m => S754_finite s m (E - 1075) | _ => S754_nan end.

(** VCVTPD2DQ: round to nearest even; 0x80000000 outside of the signed 32-bit integers. *)
Definition cvt32 (x : f64) : Z :=
  match x with
  | S754_zero _ => 0
  | S754_finite s m e => let n := cond_Zopp s (roundZ upEven (Zpos m) e) in if (- 2 ^ 31 <=? n) && (n <? 2 ^ 31) then n mod 2 ^ 32 else 2 ^ 31
  | _ => 2 ^ 31
  end.
(** Go's int64(x), a word: truncation; 0x8000000000000000 outside of int64 (the Go specification leaves that case to the
    implementation, this is CVTTSD2SQ on amd64). *)
Definition cvt64 (x : f64) : Z :=
  match x with
  | S754_zero _ => 0
  | S754_finite s m e => let n := cond_Zopp s (roundZ upZero (Zpos m) e) in if (- 2 ^ 63 <=? n) && (n <? 2 ^ 63) then n mod 2 ^ 64 else 2 ^ 63
  | _ => 2 ^ 63
  end.

(** a * b + c with one rounding. *)
Definition fma64 (x y z : f64) : f64 :=
  match x, y, z with
  | S754_finite sx mx ex, S754_finite sy my ey, S754_finite sz mz ez =>
      let e := Z.min (ex + ey) ez in
      BN (cond_Zopp (xorb sx sy) (Zpos (mx * my) * 2 ^ (ex + ey - e)) + cond_Zopp sz (Zpos mz * 2 ^ (ez - e))) e false
  | _, _, _ => SFadd 53 1024 (SFmul 53 1024 x y) z
  end.

(** The floating point unit on binary64. *)
Definition F64 : fops f64 :=
  mkFops f64 (SFadd 53 1024) (SFsub 53 1024) (SFmul 53 1024) fma64
    (fun x y z => fma64 x y (SFopp z)) (fun x y z => fma64 (SFopp x) y z)
    (rndF upEven) bits64 ofbits64 (fun z => BN z 0 false) cvt32.

(** The float 2^k, and what Go computes for 1/q at q = 2^k (asm_fold_amd64.go:154). *)
Definition pow2F (k : Z) : f64 := S754_finite false (2 ^ 52) (k - 52).

(** ** asm_fold.go on float64 *)
(** float64(int64(x)), float64(int32(x)): asm_fold.go:87-118. *)
Definition goOfInt (w x : Z) : f64 := BN (swrap w x) 0 false.
(** asm_fold.go:148, math.Round(c - q*math.Round(c/q)). *)
Definition goModQ (q : f64) (c : f64) : f64 :=
  rndF upAway (SFsub 53 1024 c (SFmul 53 1024 q (rndF upAway (SFdiv 53 1024 c q)))).
(** The reciprocal passed to the AVX2 kernel, 1/q: asm_fold_amd64.go:154. *)
Definition goInv (q : f64) : f64 := SFdiv 53 1024 (pow2F 0) q.
(** T(int64(w)): asm_fold.go:174. *)
Definition goToT (w : Z) (x : f64) : Z := wrap w (cvt64 x).

