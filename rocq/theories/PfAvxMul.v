(** Lemmas: the split multiplication with the AVX2 kernels is exact. *)
From Verif Require Import Base NegaRing ModelNum ModelVec ModelPoly ModelFFT ModelF64Arith ModelSplitFFT ModelFusedMul SpecNum SpecVec SpecPoly SpecFFT SpecRound
  PfRound PfNetGen2 PfSplitFFT PfSplitF64 PfSplitF64b PfAvxKern.
From Coq Require Import Reals Lra Lia.
Open Scope R_scope.

Section Avx64.
Variable cexp : Z -> Z -> SpecFloat.spec_float * SpecFloat.spec_float.
Notation A := (f64Arith cexp).
Hypothesis Hexp : cexp_near A finF val 17 (5 * powerRZ 2 (-52)).
Variables (N : nat) (logN : Z).
Hypothesis HN : Z.of_nat N = (2 ^ logN)%Z.
Hypothesis HlogN : (4 <= logN <= 15)%Z.
Variable e : evaluator A.
Hypothesis Hev : NewEvaluator A N = Ok e.
Notation K := (avxKern cexp e).
Lemma avx64K lm : (3 <= lm)%nat -> (lm <= 14)%nat -> N = (2 ^ S lm)%nat -> kernOK A finF val u64 eta64 (pw 970) del64 N lm (fun _ _ => True) K.
Proof. intros L3 L14 EN. exact (avx64 cexp Hexp N lm L3 L14 EN e Hev). Qed.
Lemma mulA_spec : forall (sg : bool) w buf out p0 p1, (0 < w <= 64)%Z -> length buf = N -> length out = N -> tpoly sg w N p0 -> tpoly sg w N p1 ->
  tpoly sg w N (mulFFT K None sg w logN buf out p0 p1) /\
  peq (2 ^ w) (pol N (mulFFT K None sg w logN buf out p0 p1)) (pmul (pol N p0) (pol N p1)).
Proof. intros; now apply (mulK64_spec cexp N logN HN HlogN (fun _ _ => True) K avx64K). Qed.
Lemma muladdA_spec : forall (sg : bool) w buf out p0 p1, (0 < w <= 64)%Z -> length buf = N -> length out = N -> tpoly sg w N p0 -> tpoly sg w N p1 ->
  tpoly sg w N (mulFFT K (Some false) sg w logN buf out p0 p1) /\
  peq (2 ^ w) (pol N (mulFFT K (Some false) sg w logN buf out p0 p1)) (padd (pol N out) (pmul (pol N p0) (pol N p1))).
Proof. intros; now apply (muladdK64_spec cexp N logN HN HlogN (fun _ _ => True) K avx64K). Qed.
Lemma mulsubA_spec : forall (sg : bool) w buf out p0 p1, (0 < w <= 64)%Z -> length buf = N -> length out = N -> tpoly sg w N p0 -> tpoly sg w N p1 ->
  tpoly sg w N (mulFFT K (Some true) sg w logN buf out p0 p1) /\
  peq (2 ^ w) (pol N (mulFFT K (Some true) sg w logN buf out p0 p1)) (psub (pol N out) (pmul (pol N p0) (pol N p1))).
Proof. intros; now apply (mulsubK64_spec cexp N logN HN HlogN (fun _ _ => True) K avx64K). Qed.
Lemma shortA_spec : forall (sg : bool) w buf out p ps o, (0 < w <= 64)%Z -> length buf = N -> length out = N -> length o = N -> tpoly sg w N p -> tpoly sg w N ps ->
  (forall i, (i < N)%nat -> (Z.abs (swrap w (nthZ ps i)) <= 2 ^ 8)%Z) -> let fps := avxFwd cexp e sg w o ps in
  (tpoly sg w N (shortMulFFT K None sg w logN buf out p fps) /\
   peq (2 ^ w) (pol N (shortMulFFT K None sg w logN buf out p fps)) (pmul (pol N p) (pol N ps))) /\
  (tpoly sg w N (shortMulFFT K (Some false) sg w logN buf out p fps) /\
   peq (2 ^ w) (pol N (shortMulFFT K (Some false) sg w logN buf out p fps)) (padd (pol N out) (pmul (pol N p) (pol N ps)))) /\
  (tpoly sg w N (shortMulFFT K (Some true) sg w logN buf out p fps) /\
   peq (2 ^ w) (pol N (shortMulFFT K (Some true) sg w logN buf out p fps)) (psub (pol N out) (pmul (pol N p) (pol N ps)))).
Proof. intros; now apply (shortK64_spec cexp N logN HN HlogN (fun _ _ => True) K avx64K). Qed.
Lemma roundA_spec : forall (sg : bool) w out o p, (0 < w <= 32)%Z -> length out = N -> length o = N -> tpoly sg w N p ->
  avxInv cexp e None sg w out (avxFwd cexp e sg w o p) = p.
Proof. intros; now apply (roundK64_spec cexp N logN HN HlogN (fun _ _ => True) K avx64K). Qed.
End Avx64.
