(** C66: rounding of the transforms and products of math/poly in binary64. *)
From Verif Require Import Base NegaRing ModelNum ModelVec ModelPoly ModelFFT ModelF64Arith ModelSplitFFT SpecNum SpecVec SpecPoly SpecFFT SpecRound
  PfRound PfNetGen2 PfSplitFFT PfSplitF64 PfSplitF64b PfErrSum PfRoundEx.
From Coq Require Import Reals Lra Lia.
Import ListNotations.
Open Scope R_scope.

(** ** C66 *)
(** The binary64 operations of the model follow the standard model with unit roundoff 2^-53. *)
Theorem C66_binary64 : forall cexp, stdmodel (f64Arith cexp) finF val (powerRZ 2 (-53)) (powerRZ 2 (-1075)) (powerRZ 2 970).
Proof. exact f64_std. Qed.
Print Assumptions C66_binary64.

Theorem C66_NewEvaluator : forall cexp N logN, Z.of_nat N = (2 ^ logN)%Z -> (4 <= logN <= 15)%Z ->
  exists e, NewEvaluator (f64Arith cexp) N = Ok e /\ e_rank _ e = N.
Proof. exact NewEvaluator64. Qed.
Print Assumptions C66_NewEvaluator.

(** Split multiplication in binary64 returns the exact negacyclic product modulo 2^w. *)
Theorem C66_MulPolyTo : forall cexp, cexp_near (f64Arith cexp) finF val 17 (5 * powerRZ 2 (-52)) ->
  forall N logN, Z.of_nat N = (2 ^ logN)%Z -> (4 <= logN <= 15)%Z -> forall e, NewEvaluator (f64Arith cexp) N = Ok e ->
  forall (sg : bool) w buf out p0 p1, (0 < w <= 64)%Z -> length buf = N -> length out = N -> tpoly sg w N p0 -> tpoly sg w N p1 ->
  tpoly sg w N (MulPolyFFTTo _ e sg w logN buf out p0 p1) /\
  peq (2 ^ w) (pol N (MulPolyFFTTo _ e sg w logN buf out p0 p1)) (pmul (pol N p0) (pol N p1)).
Proof. exact mul64_spec. Qed.
Print Assumptions C66_MulPolyTo.
Theorem C66_MulAddPolyTo : forall cexp, cexp_near (f64Arith cexp) finF val 17 (5 * powerRZ 2 (-52)) ->
  forall N logN, Z.of_nat N = (2 ^ logN)%Z -> (4 <= logN <= 15)%Z -> forall e, NewEvaluator (f64Arith cexp) N = Ok e ->
  forall (sg : bool) w buf out p0 p1, (0 < w <= 64)%Z -> length buf = N -> length out = N -> tpoly sg w N p0 -> tpoly sg w N p1 ->
  tpoly sg w N (MulAddPolyFFTTo _ e sg w logN buf out p0 p1) /\
  peq (2 ^ w) (pol N (MulAddPolyFFTTo _ e sg w logN buf out p0 p1)) (padd (pol N out) (pmul (pol N p0) (pol N p1))).
Proof. exact muladd64_spec. Qed.
Print Assumptions C66_MulAddPolyTo.
Theorem C66_MulSubPolyTo : forall cexp, cexp_near (f64Arith cexp) finF val 17 (5 * powerRZ 2 (-52)) ->
  forall N logN, Z.of_nat N = (2 ^ logN)%Z -> (4 <= logN <= 15)%Z -> forall e, NewEvaluator (f64Arith cexp) N = Ok e ->
  forall (sg : bool) w buf out p0 p1, (0 < w <= 64)%Z -> length buf = N -> length out = N -> tpoly sg w N p0 -> tpoly sg w N p1 ->
  tpoly sg w N (MulSubPolyFFTTo _ e sg w logN buf out p0 p1) /\
  peq (2 ^ w) (pol N (MulSubPolyFFTTo _ e sg w logN buf out p0 p1)) (psub (pol N out) (pmul (pol N p0) (pol N p1))).
Proof. exact mulsub64_spec. Qed.
Print Assumptions C66_MulSubPolyTo.
(** The short products, for a transformed polynomial with centred coefficients of at most 2^8. *)
Theorem C66_ShortMul : forall cexp, cexp_near (f64Arith cexp) finF val 17 (5 * powerRZ 2 (-52)) ->
  forall N logN, Z.of_nat N = (2 ^ logN)%Z -> (4 <= logN <= 15)%Z -> forall e, NewEvaluator (f64Arith cexp) N = Ok e ->
  forall (sg : bool) w buf out p ps o, (0 < w <= 64)%Z -> length buf = N -> length out = N -> length o = N -> tpoly sg w N p -> tpoly sg w N ps ->
  (forall i, (i < N)%nat -> (Z.abs (swrap w (nthZ ps i)) <= 2 ^ 8)%Z) -> let fps := FwdFFTTo _ e sg w o ps in
  (tpoly sg w N (ShortMulFFTTo _ e sg w logN buf out p fps) /\
   peq (2 ^ w) (pol N (ShortMulFFTTo _ e sg w logN buf out p fps)) (pmul (pol N p) (pol N ps))) /\
  (tpoly sg w N (ShortMulAddFFTTo _ e sg w logN buf out p fps) /\
   peq (2 ^ w) (pol N (ShortMulAddFFTTo _ e sg w logN buf out p fps)) (padd (pol N out) (pmul (pol N p) (pol N ps)))) /\
  (tpoly sg w N (ShortMulSubFFTTo _ e sg w logN buf out p fps) /\
   peq (2 ^ w) (pol N (ShortMulSubFFTTo _ e sg w logN buf out p fps)) (psub (pol N out) (pmul (pol N p) (pol N ps)))).
Proof. exact short64_spec. Qed.
Print Assumptions C66_ShortMul.
(** Transforming forth and back is the identity on words of at most 32 bits. *)
Theorem C66_roundtrip : forall cexp, cexp_near (f64Arith cexp) finF val 17 (5 * powerRZ 2 (-52)) ->
  forall N logN, Z.of_nat N = (2 ^ logN)%Z -> (4 <= logN <= 15)%Z -> forall e, NewEvaluator (f64Arith cexp) N = Ok e ->
  forall (sg : bool) w out o p, (0 < w <= 32)%Z -> length out = N -> length o = N -> tpoly sg w N p ->
  InvFFTTo _ e sg w out (FwdFFTTo _ e sg w o p) = p.
Proof. exact round64_spec. Qed.
Print Assumptions C66_roundtrip.
(** A sum of n products accumulated on transforms, as in gadget and external products: every coefficient before the
    reduction modulo 2^w is within (3 logN + n) 29 2^-53 n N sqrt(N/2) B B' of the exact one. *)
Theorem C66_sum_error : forall cexp, cexp_near (f64Arith cexp) finF val 17 (5 * powerRZ 2 (-52)) ->
  forall N logN, Z.of_nat N = (2 ^ logN)%Z -> (4 <= logN <= 15)%Z -> forall e, NewEvaluator (f64Arith cexp) N = Ok e ->
  forall (sg : bool) w o B B' p q l, (0 < w <= 64)%Z -> length o = N -> (1 <= B <= 2 ^ 64)%Z -> (1 <= B' <= 2 ^ 64)%Z ->
  (forall x, In x ((p, q) :: l) -> tpoly sg w N (fst x) /\ tpoly sg w N (snd x) /\
    forall i, (i < N)%nat -> (Z.abs (swrap w (nthZ (fst x) i)) <= B)%Z /\ (Z.abs (swrap w (nthZ (snd x) i)) <= B')%Z) ->
  (Z.of_nat (S (length l)) <= 1000000)%Z ->
  let F a := FwdFFTTo _ e sg w o a in let c a := pol N (map (swrap w) a) in
  let v := invFFTInPlace _ (fold_left (fun a x => mulAddCmplxTo _ a (F (fst x)) (F (snd x))) l (mulCmplxTo _ o (F p) (F q))) (e_twInv _ e) in
  let P := fold_left (fun s x => padd s (pmul (c (fst x)) (c (snd x)))) l (pmul (c p) (c q)) in
  let n := INR (S (length l)) in let E := (3 * IZR logN + n) * 29 * powerRZ 2 (-53) * (n * INR N * sqrt (INR N / 2) * IZR B * IZR B') in
  length v = N /\ forall k, (2 * k < N)%nat -> finF (fst (cplx (f64Arith cexp) v k)) /\ finF (snd (cplx (f64Arith cexp) v k)) /\
  Rabs (val (fst (cplx (f64Arith cexp) v k)) - IZR (cf P (Z.of_nat k))) <= E /\
  Rabs (val (snd (cplx (f64Arith cexp) v k)) - IZR (cf P (Z.of_nat (k + N / 2)))) <= E.
Proof. exact sum_error. Qed.
Print Assumptions C66_sum_error.

(** A complex exponential of the required accuracy exists. *)
Example C66_ex_cexp : cexp_near (f64Arith cexpT) finF val 17 (5 * powerRZ 2 (-52)).
Proof. exact (cexpT_near 17). Qed.
(** Rank 16, uint64: (2^63 + 5) X^15 times (2^64 - 1) X + 3, whose exact product has 128 bits. *)
Definition p16 : list Z := repeat 0%Z 15 ++ [9223372036854775813%Z].
Definition q16 : list Z := [3%Z; 18446744073709551615%Z] ++ repeat 0%Z 14.
Example C66_ex_mul : exists e, NewEvaluator (f64Arith cexpT) 16 = Ok e /\
  MulPolyFFTTo _ e false 64 4 p16 p16 p16 q16 = [9223372036854775813%Z] ++ repeat 0%Z 14 ++ [9223372036854775823%Z].
Proof.
  destruct (NewEvaluator64 cexpT 16 4 eq_refl ltac:(lia)) as (e & He & _). exists e. split; [exact He|].
  change (MulPolyFFTTo _ e false 64 4 p16 p16 p16 q16) with (mulFFT (goKern _ e) None false 64 (Z.of_nat 4) p16 p16 p16 q16).
  rewrite (mulK64 cexpT 16 3 ltac:(lia) ltac:(lia) eq_refl _ _ (go64 cexpT (cexpT_near 17) 16 3 ltac:(lia) ltac:(lia) eq_refl e He)); [vm_compute; reflexivity|exact Logic.I|lia|reflexivity|reflexivity| |];
    (split; [reflexivity|]; repeat constructor; cbn; lia).
Qed.
(** Rank 1024, six products of 7-bit digits and 64-bit words: the error is below 2^45. *)
Example C66_ex_error : (3 * 10 + 6) * 29 * powerRZ 2 (-53) * (6 * 1024 * sqrt (1024 / 2) * 128 * 9223372036854775808) <= 35184372088832.
Proof.
  assert (S : 0 <= sqrt (1024 / 2) <= 23) by (split; [apply sqrt_pos|]; replace 23 with (sqrt (23 * 23)) by (apply sqrt_square; lra); apply sqrt_le_1; lra).
  rewrite pw_m53. lra.
Qed.
