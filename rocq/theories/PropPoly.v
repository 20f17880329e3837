(** Properties C09-C11: monomial multiplication, permutation, split multiplication (math/poly). *)
From Verif Require Import Base NegaRing ModelNum ModelVec ModelPoly SpecNum SpecPoly PfNum PfPoly PfPerm PfSplit.

(** C09. Multiplication by X^d for every int d; N any power of two. *)
Theorem C09_MonomialMulPolyTo : forall N, (0 < N)%nat -> forall w n out p d,
  0 <= n -> 0 <= w -> Z.of_nat N = 2 ^ n -> length out = N -> wpoly w N p ->
  wpoly w N (MonomialMulPolyTo w N out p d) /\
  peq (2 ^ w) (pol N (MonomialMulPolyTo w N out p d)) (pmul (pmono d) (pol N p)).
Proof. exact MonomialMulPolyTo_spec. Qed.
Print Assumptions C09_MonomialMulPolyTo.
Theorem C09_MonomialMulAddPolyTo : forall N, (0 < N)%nat -> forall w n out p d,
  0 <= n -> 0 <= w -> Z.of_nat N = 2 ^ n -> length out = N -> wpoly w N p ->
  wpoly w N (MonomialMulAddPolyTo w N out p d) /\
  peq (2 ^ w) (pol N (MonomialMulAddPolyTo w N out p d)) (padd (pol N out) (pmul (pmono d) (pol N p))).
Proof. exact MonomialMulAddPolyTo_spec. Qed.
Print Assumptions C09_MonomialMulAddPolyTo.
Theorem C09_MonomialMulSubPolyTo : forall N, (0 < N)%nat -> forall w n out p d,
  0 <= n -> 0 <= w -> Z.of_nat N = 2 ^ n -> length out = N -> wpoly w N p ->
  wpoly w N (MonomialMulSubPolyTo w N out p d) /\
  peq (2 ^ w) (pol N (MonomialMulSubPolyTo w N out p d)) (psub (pol N out) (pmul (pmono d) (pol N p))).
Proof. exact MonomialMulSubPolyTo_spec. Qed.
Print Assumptions C09_MonomialMulSubPolyTo.
Theorem C09_InPlace : forall N, (0 < N)%nat -> forall w n out p d,
  0 <= n -> 0 <= w -> Z.of_nat N = 2 ^ n -> length out = N -> wpoly w N p ->
  MonomialMulPolyInPlace w N p d = Some (MonomialMulPolyTo w N out p d).
Proof. exact MonomialMulPolyInPlace_eq. Qed.
Print Assumptions C09_InPlace.
(** d then e is d + e. *)
Theorem C09_compose : forall N, (0 < N)%nat -> forall w n o1 o2 o3 p d e,
  0 <= n -> 0 <= w -> Z.of_nat N = 2 ^ n ->
  length o1 = N -> length o2 = N -> length o3 = N -> wpoly w N p ->
  MonomialMulPolyTo w N o2 (MonomialMulPolyTo w N o1 p d) e = MonomialMulPolyTo w N o3 p (d + e).
Proof. exact MonomialMul_compose. Qed.
Print Assumptions C09_compose.
(** d and -d are inverse (with C09_compose), X^2N = 1. *)
Theorem C09_period : forall N, (0 < N)%nat -> forall w n o p d,
  0 <= n -> 0 <= w -> Z.of_nat N = 2 ^ n -> length o = N -> wpoly w N p ->
  (2 * Z.of_nat N | d) -> MonomialMulPolyTo w N o p d = p.
Proof. exact MonomialMul_zero. Qed.
Print Assumptions C09_period.

Definition p16 : list Z := [1; 2; 3; 4; 5; 6; 7; 8; 9; 10; 11; 12; 13; 14; 15; 4294967295].
Example C09_ex_hyps : wpoly 32 16 p16 /\ Z.of_nat 16 = 2 ^ 4.
Proof. repeat split; repeat constructor; cbv; discriminate. Qed.
Example C09_ex : MonomialMulPolyTo 32 16 (repeat 77 16) p16 (-35) =
  [4; 5; 6; 7; 8; 9; 10; 11; 12; 13; 14; 15; 4294967295; 4294967295; 4294967294; 4294967293].
Proof. vm_compute. reflexivity. Qed.
Example C09_ex_acc :
  MonomialMulSubPolyTo 32 16 (MonomialMulAddPolyTo 32 16 p16 p16 19) p16 19 = p16 /\
  MonomialMulPolyInPlace 32 16 p16 (-35) = Some (MonomialMulPolyTo 32 16 p16 p16 29).
Proof. vm_compute. split; reflexivity. Qed.

(** C10. Odd d: the substitution X -> X^d; ranks up to 2^62. *)
Theorem C10_PermutePolyTo : forall N n, 0 <= n <= 62 -> Z.of_nat N = 2 ^ n -> forall w out p d,
  0 <= w -> Z.odd d = true -> length out = N -> wpoly w N p ->
  exists r, PermutePolyTo w N out p d = Some r /\ wpoly w N r /\ peq (2 ^ w) (pol N r) (psubst d (pol N p)).
Proof. exact PermutePolyTo_spec. Qed.
Print Assumptions C10_PermutePolyTo.
Theorem C10_PermuteAddPolyTo : forall N n, 0 <= n <= 62 -> Z.of_nat N = 2 ^ n -> forall w out p d,
  0 <= w -> Z.odd d = true -> length out = N -> wpoly w N p ->
  exists r, PermuteAddPolyTo w N out p d = Some r /\ wpoly w N r /\
    peq (2 ^ w) (pol N r) (padd (pol N out) (psubst d (pol N p))).
Proof. exact PermuteAddPolyTo_spec. Qed.
Print Assumptions C10_PermuteAddPolyTo.
Theorem C10_PermuteSubPolyTo : forall N n, 0 <= n <= 62 -> Z.of_nat N = 2 ^ n -> forall w out p d,
  0 <= w -> Z.odd d = true -> length out = N -> wpoly w N p ->
  exists r, PermuteSubPolyTo w N out p d = Some r /\ wpoly w N r /\
    peq (2 ^ w) (pol N r) (psub (pol N out) (psubst d (pol N p))).
Proof. exact PermuteSubPolyTo_spec. Qed.
Print Assumptions C10_PermuteSubPolyTo.
(** Every output coefficient is written: the old content is irrelevant. *)
Theorem C10_overwrites : forall N n, 0 <= n <= 62 -> Z.of_nat N = 2 ^ n -> forall w out out' p d,
  Z.odd d = true -> length out = N -> length out' = N ->
  PermutePolyTo w N out p d = PermutePolyTo w N out' p d.
Proof. exact PermutePolyTo_indep. Qed.
Print Assumptions C10_overwrites.
Theorem C10_even_panics : forall N w out p d, Z.odd d = false ->
  PermutePolyTo w N out p d = None /\ PermuteAddPolyTo w N out p d = None /\ PermuteSubPolyTo w N out p d = None.
Proof. exact Permute_even. Qed.
Print Assumptions C10_even_panics.
(** The substitution is additive, multiplicative, sends X^k to X^(dk). *)
Theorem C10_multiplicative : forall N n, 0 <= n <= 62 -> Z.of_nat N = 2 ^ n -> forall Q d (p q : npoly N),
  Z.odd d = true -> peq Q (psubst d (pmul p q)) (pmul (psubst d p) (psubst d q)).
Proof. exact psubst_mul. Qed.
Print Assumptions C10_multiplicative.
Theorem C10_additive : forall N n, 0 <= n <= 62 -> Z.of_nat N = 2 ^ n -> forall Q d (p q : npoly N),
  Z.odd d = true -> peq Q (psubst d (padd p q)) (padd (psubst d p) (psubst d q)).
Proof. exact psubst_add. Qed.
Print Assumptions C10_additive.
Theorem C10_monomials : forall N n, 0 <= n <= 62 -> Z.of_nat N = 2 ^ n -> forall Q d k,
  Z.odd d = true -> peq Q (psubst d (@pmono N k)) (pmono (d * k)).
Proof. exact psubst_mono. Qed.
Print Assumptions C10_monomials.
Theorem C10_compose : forall N n, 0 <= n <= 62 -> Z.of_nat N = 2 ^ n -> forall w o1 o2 o3 p d e r1 r2,
  0 <= w -> Z.odd d = true -> Z.odd e = true ->
  length o1 = N -> length o2 = N -> length o3 = N -> wpoly w N p ->
  PermutePolyTo w N o1 p d = Some r1 -> PermutePolyTo w N o2 r1 e = Some r2 ->
  PermutePolyTo w N o3 p (d * e) = Some r2.
Proof. exact Permute_compose. Qed.
Print Assumptions C10_compose.
Theorem C10_inverse : forall N n, 0 <= n <= 62 -> Z.of_nat N = 2 ^ n -> forall w o1 o2 p d e r1,
  0 <= w -> Z.odd d = true -> Z.odd e = true -> eqm (2 * Z.of_nat N) (d * e) 1 ->
  length o1 = N -> length o2 = N -> wpoly w N p ->
  PermutePolyTo w N o1 p d = Some r1 -> PermutePolyTo w N o2 r1 e = Some p.
Proof. exact Permute_inverse. Qed.
Print Assumptions C10_inverse.

Example C10_ex : PermutePolyTo 32 16 (repeat 9 16) p16 (-5) =
  Some [1; 4294967292; 7; 4294967286; 13; 1; 4294967293; 6; 4294967287; 12; 4294967281; 4294967294; 5;
        4294967288; 11; 4294967282].
Proof. vm_compute. reflexivity. Qed.
Example C10_ex_inverse : eqm 32 ((-5) * 19) 1 /\
  (match PermutePolyTo 32 16 (repeat 9 16) p16 (-5) with
   | Some r => PermutePolyTo 32 16 (repeat 3 16) r 19 | None => None end) = Some p16.
Proof. split; [exists (-3); reflexivity|vm_compute; reflexivity]. Qed.
Example C10_ex_even : PermutePolyTo 32 16 p16 p16 6 = None.
Proof. reflexivity. Qed.

(** C11. Split multiplication, for signed and unsigned coefficient types and every word size. *)
Theorem C11_MulPolyTo : forall N, (0 < N)%nat -> forall sg w logN p0 p1,
  0 < w -> 0 < splitBits logN -> tpoly sg w N p0 -> tpoly sg w N p1 ->
  tpoly sg w N (MulPolyTo sg w logN N p0 p1) /\
  peq (2 ^ w) (pol N (MulPolyTo sg w logN N p0 p1)) (pmul (pol N p0) (pol N p1)).
Proof. exact MulPolyTo_spec. Qed.
Print Assumptions C11_MulPolyTo.
Theorem C11_MulAddPolyTo : forall N, (0 < N)%nat -> forall sg w logN out p0 p1,
  0 < w -> 0 < splitBits logN -> length out = N -> tpoly sg w N p0 -> tpoly sg w N p1 ->
  tpoly sg w N (MulAddPolyTo sg w logN N out p0 p1) /\
  peq (2 ^ w) (pol N (MulAddPolyTo sg w logN N out p0 p1)) (padd (pol N out) (pmul (pol N p0) (pol N p1))).
Proof. exact MulAddPolyTo_spec. Qed.
Print Assumptions C11_MulAddPolyTo.
Theorem C11_MulSubPolyTo : forall N, (0 < N)%nat -> forall sg w logN out p0 p1,
  0 < w -> 0 < splitBits logN -> length out = N -> tpoly sg w N p0 -> tpoly sg w N p1 ->
  tpoly sg w N (MulSubPolyTo sg w logN N out p0 p1) /\
  peq (2 ^ w) (pol N (MulSubPolyTo sg w logN N out p0 p1)) (psub (pol N out) (pmul (pol N p0) (pol N p1))).
Proof. exact MulSubPolyTo_spec. Qed.
Print Assumptions C11_MulSubPolyTo.
Theorem C11_ShortMul : forall N, (0 < N)%nat -> forall sg w logN p fp,
  0 < w -> 0 < splitBitsShort logN -> tpoly sg w N p ->
  tpoly sg w N (ShortFFTPolyMulPolyTo sg w logN N p fp) /\
  peq (2 ^ w) (pol N (ShortFFTPolyMulPolyTo sg w logN N p fp)) (pmul (pol N p) (pol N fp)).
Proof. exact ShortMul_spec. Qed.
Print Assumptions C11_ShortMul.
Theorem C11_ShortMulAdd : forall N, (0 < N)%nat -> forall sg w logN out p fp,
  0 < w -> 0 < splitBitsShort logN -> length out = N -> tpoly sg w N p ->
  tpoly sg w N (ShortFFTPolyMulAddPolyTo sg w logN N out p fp) /\
  peq (2 ^ w) (pol N (ShortFFTPolyMulAddPolyTo sg w logN N out p fp)) (padd (pol N out) (pmul (pol N p) (pol N fp))).
Proof. exact ShortMulAdd_spec. Qed.
Print Assumptions C11_ShortMulAdd.
Theorem C11_ShortMulSub : forall N, (0 < N)%nat -> forall sg w logN out p fp,
  0 < w -> 0 < splitBitsShort logN -> length out = N -> tpoly sg w N p ->
  tpoly sg w N (ShortFFTPolyMulSubPolyTo sg w logN N out p fp) /\
  peq (2 ^ w) (pol N (ShortFFTPolyMulSubPolyTo sg w logN N out p fp)) (psub (pol N out) (pmul (pol N p) (pol N fp))).
Proof. exact ShortMulSub_spec. Qed.
Print Assumptions C11_ShortMulSub.
(** The accumulated digit products stay within the 2^48 the transform is designed for. *)
Theorem C11_bound : forall N, (0 < N)%nat -> forall sg w logN p0 p1 k,
  0 < w <= 64 -> 0 <= logN <= 32 -> Z.of_nat N = 2 ^ logN -> length p0 = N -> length p1 = N ->
  let sb := splitBits logN in let cnt := splitCount w sb in
  (1 < cnt)%nat -> (k < cnt)%nat ->
  pbound (2 ^ splitLogBound) (pol N (nth k (splitAcc N cnt (splitPoly sg w sb cnt p0) (splitPoly sg w sb cnt p1)) [])).
Proof. exact split_bound. Qed.
Print Assumptions C11_bound.
Theorem C11_short_bound : forall N, (0 < N)%nat -> forall sg w logN p fp k,
  0 < w -> 0 <= logN <= 30 -> Z.of_nat N = 2 ^ logN -> length p = N -> pbound (2 ^ ShortLogBound) (pol N fp) ->
  let sb := splitBitsShort logN in let cnt := splitCount w sb in
  (1 < cnt)%nat -> (k < cnt)%nat ->
  pbound (2 ^ splitLogBound) (pol N (nth k (shortProds sg w sb N cnt p fp) [])).
Proof. exact short_bound. Qed.
Print Assumptions C11_short_bound.

(** Rank 16, uint64: 6 digits of 11 bits; all pairs with i + j >= 6 are skipped. *)
Definition q16 : list Z := [18446744073709551615; 0; 12345678901234567890; 1; 2; 3; 4; 5; 6; 7; 8; 9; 10; 11; 12; 9223372036854775808].
Example C11_ex : splitBits 4 = 11 /\ splitCount 64 11 = 6%nat /\
  MulPolyTo false 64 4 16 q16 q16 = map (wrap 64) (nmul 16 q16 q16) /\
  MulSubPolyTo false 64 4 16 q16 q16 q16 = vsub 64 q16 (map (wrap 64) (nmul 16 q16 q16)).
Proof. vm_compute. repeat split; reflexivity. Qed.
(** int64 digits of the minimum: 1 << 63 is negative, the top digit still stands for 2^63 modulo 2^64. *)
Example C11_ex_signed : splitBits 40 = 2 /\
  map (fun i => digitS 64 7 i (-(2 ^ 63))) [0; 1; 8; 9]%nat = [0; 0; 0; 1].
Proof. vm_compute. split; reflexivity. Qed.
Example C11_ex_short : splitBitsShort 4 = 14 /\
  ShortFFTPolyMulPolyTo false 64 4 16 q16 [1; -1; 0; 3] = map (wrap 64) (nmul 16 q16 [1; -1; 0; 3]).
Proof. vm_compute. repeat split; reflexivity. Qed.
