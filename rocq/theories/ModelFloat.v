(** Integer model of the IEEE-754 binary64 operations used by math/num/num.go:128-130 (DivRound)
    and tfhe/bootstrap.go:41-43 (ModSwitch).  A non-negative finite float is represented by the
    rational it denotes, a pair (numerator, denominator) with positive denominator.
    Simplification: the exponent range is unbounded (no overflow to infinity, no subnormals); all
    values that occur have binary exponents between -128 and 128.  Only non-negative operands are
    modelled (all uses in /repo have them).  No proofs in this file. *)
From Verif Require Import Base ModelNum.

Definition rat : Type := (Z * Z)%type.

(** Round-to-nearest, ties to even, of n/d (n >= 0, d > 0). *)
Definition rne (n d : Z) : Z :=
  let q := n / d in
  let r := n mod d in
  if 2 * r <? d then q
  else if d <? 2 * r then q + 1
  else if Z.even q then q else q + 1.

(** [n/d * 2^(-e)] as a fraction. *)
Definition scale2 (n d e : Z) : rat := if 0 <=? e then (n, d * 2 ^ e) else (n * 2 ^ (- e), d).

(** The exponent e with 2^52 <= (n/d) / 2^e < 2^53. *)
Definition flexp (n d : Z) : Z :=
  let e0 := Z.log2 n - Z.log2 d - 52 in
  let '(a, b) := scale2 n d e0 in
  if a <? 2 ^ 52 * b then e0 - 1 else e0.

(** Round the rational n/d >= 0 to the nearest binary64 value. *)
Definition fl (x : rat) : rat :=
  let '(n, d) := x in
  if n =? 0 then (0, 1)
  else
    let e := flexp n d in
    let '(a, b) := scale2 n d e in
    let m := rne a b in
    if 0 <=? e then (m * 2 ^ e, 1) else (m, 2 ^ (- e)).

(** float64(x) for a non-negative integer x. *)
Definition fl_of_int (x : Z) : rat := fl (x, 1).

(** float64 multiplication and division (divisor > 0). *)
Definition fl_mul (x y : rat) : rat := fl (fst x * fst y, snd x * snd y).
Definition fl_div (x y : rat) : rat := fl (fst x * snd y, snd x * fst y).

(** math.Round for a non-negative argument: half away from zero = floor(x + 1/2) (exact). *)
Definition math_Round (x : rat) : Z := (2 * fst x + snd x) / (2 * snd x).

(** math/num/num.go:128-130 DivRound for 0 <= x, 0 < y: T(math.Round(float64(x)/float64(y))).
    The final conversion to T is exact when the value is in range (Go leaves out-of-range
    conversions implementation-defined; theorems show the value is in range). *)
Definition DivRound (x y : Z) : Z := math_Round (fl_div (fl_of_int x) (fl_of_int y)).
