(** C67: the AVX2 and FMA code path of math/poly, operation by operation, and its rounding. *)
From Coq Require Import Floats.SpecFloat.
From Verif Require Import Base NegaRing ModelNum ModelVec ModelPoly ModelAsm ModelAsmInt ModelAsmFlt ModelF64 ModelAsmFold SpecAsm SpecF64 SpecAsmFold
  ModelFFT ModelF64Arith ModelFused ModelSplitFFT ModelFusedMul SpecNum SpecVec SpecPoly SpecFFT SpecAsmFlt SpecRound SpecFused
  PfAsmFFT6 PfAsmFused PfRound PfNetGen2 PfSplitFFT PfSplitF64 PfSplitF64b PfRoundEx PfF64Fused PfAvxKern PfAvxMem PfAvxMul SpecAvx PfAvxInv.
From Coq Require Import Reals Lra Lia.
Import ListNotations.
Open Scope Z_scope.

(** ** C67 *)
(** What the kernels compute when no law of arithmetic holds (floating point): the butterflies of ModelFused.v, for every
    meaning of the floating point operations, every size and every table. *)
Theorem C67_fwdFFT : forall A F s o tw k, fft_call A s o tw k ->
  terminates F (mkEnv (frame2 o tw) noData) fwdFFTInPlaceAVX2 s (becomes A o (fwdFFTFused A F (fvals A (mm s) o) (cvals A (mm s) tw)) (mm s)).
Proof. exact (fun A F s o tw k => k_fwdB A F _ _ s o tw k (fwdF_OK A F)). Qed.
Print Assumptions C67_fwdFFT.
Theorem C67_invFFT : forall A F s o tw k sc, fft_call A s o tw k ->
  terminates F (mkEnv (frame2c o tw 8 (ModelAsm.WF sc)) noData) invFFTInPlaceAVX2 s (becomes A o (invFFTFused A F sc (fvals A (mm s) o) (cvals A (mm s) tw)) (mm s)).
Proof. exact (fun A F s o tw k sc => k_invB A F _ _ s o tw k sc (invF_OK A F)). Qed.
Print Assumptions C67_invFFT.
Theorem C67_mul : forall A F s o v0 v1, fslice A (mm s) o -> fslice A (mm s) v0 -> fslice A (mm s) v1 ->
  gn v0 = gn o -> gn v1 = gn o -> gn o mod 8 = 0 -> no_fwd o v0 -> no_fwd o v1 ->
  let V g := fvals A (mm s) g in let E := mkEnv (frame3 o v0 v1 8) noData in
  terminates F E mulCmplxToAVX2 s (becomes A o (mulCmplxFused A F (V o) (V v0) (V v1)) (mm s)) /\
  terminates F E mulAddCmplxToAVX2 s (becomes A o (mulAddCmplxFused A F (V o) (V v0) (V v1)) (mm s)) /\
  terminates F E mulSubCmplxToAVX2 s (becomes A o (mulSubCmplxFused A F (V o) (V v0) (V v1)) (mm s)).
Proof. exact (fun A F s o v0 v1 a b c d e f g h => Logic.conj (kf_mul A F s o v0 v1 a b c d e f g h) (Logic.conj (kf_mulAdd A F s o v0 v1 a b c d e f g h) (kf_mulSub A F s o v0 v1 a b c d e f g h))). Qed.
Print Assumptions C67_mul.
(** FwdFFTTo on uint32 and uint64: the fold kernel, then the FFT kernel on the memory it leaves, is [avxFwd]. *)
Theorem C67_FwdFFTTo : avx_forward 32 foldPolyToUint32AVX2 /\ avx_forward 64 foldPolyToUint64AVX2.
Proof. exact (Logic.conj fwd32 fwd64). Qed.
Print Assumptions C67_FwdFFTTo.
(** InvFFTTo, InvFFTAddTo, InvFFTSubTo: the inverse FFT kernel, the reduction kernel and the unfold kernel, each on the memory that
    the previous one leaves, are [avxInv]. *)
Theorem C67_InvFFTTo : avx_inverse 32 unfoldPolyToUint32AVX2 None /\ avx_inverse 64 unfoldPolyToUint64AVX2 None.
Proof. exact (Logic.conj inv32 inv64). Qed.
Print Assumptions C67_InvFFTTo.
Theorem C67_InvFFTAddTo : avx_inverse 32 unfoldPolyAddToUint32AVX2 (Some false) /\ avx_inverse 64 unfoldPolyAddToUint64AVX2 (Some false).
Proof. exact (Logic.conj invAdd32 invAdd64). Qed.
Print Assumptions C67_InvFFTAddTo.
Theorem C67_InvFFTSubTo : avx_inverse 32 unfoldPolySubToUint32AVX2 (Some true) /\ avx_inverse 64 unfoldPolySubToUint64AVX2 (Some true).
Proof. exact (Logic.conj invSub32 invSub64). Qed.
Print Assumptions C67_InvFFTSubTo.
(** The two loops behind InvFFTTo: floatModQInPlace is [avxModQ] on every float, and [unfoldAVX] puts in place j what C65_unfold32
    and C65_unfold64 say the unfold kernels put there. *)
Theorem C67_modQ : forall w s c, fslice64 (mm s) c -> gn c mod 4 = 0 ->
  terminates F64 (mkEnv (frameQ c (pow2F w) (goInv (pow2F w))) foldData) floatModQInPlaceAVX2 s (window c (fun i => ModelAsm.WF (avxModQ w (fat (mm s) c i))) (mm s)).
Proof. exact k_modQ64. Qed.
Print Assumptions C67_modQ.
Theorem C67_unfold : forall N lm, (3 <= lm)%nat -> N = (2 ^ S lm)%nat -> forall acc (sg : bool) w out fp j, length fp = N -> length out = N -> (j < N)%nat ->
  nthZ (unfoldAVX acc sg w out fp) j = acc (nthZ out j) (twrap sg w (avxConv sg w (nth (Z.to_nat (unfoldIdx (Z.of_nat N) (Z.of_nat j))) fp (S754_zero false)))).
Proof. exact (unfold_at (fun _ _ => (S754_zero false, S754_zero false))). Qed.
Print Assumptions C67_unfold.

Open Scope R_scope.
(** The fused operations of the kernels on binary64 round once. *)
Theorem C67_binary64 : forall cexp, fusedmodel (f64Arith cexp) F64 finF val (powerRZ 2 (-53)) (powerRZ 2 (-1075)) (powerRZ 2 970).
Proof. exact f64_fused. Qed.
Print Assumptions C67_binary64.
(** Split multiplication on the AVX2 path returns the exact negacyclic product modulo 2^w. *)
Theorem C67_MulPolyTo : forall cexp, cexp_near (f64Arith cexp) finF val 17 (5 * powerRZ 2 (-52)) ->
  forall N logN, Z.of_nat N = (2 ^ logN)%Z -> (4 <= logN <= 15)%Z -> forall e, NewEvaluator (f64Arith cexp) N = Ok e ->
  forall (sg : bool) w buf out p0 p1, (0 < w <= 64)%Z -> length buf = N -> length out = N -> tpoly sg w N p0 -> tpoly sg w N p1 ->
  tpoly sg w N (mulFFT (avxKern cexp e) None sg w logN buf out p0 p1) /\
  peq (2 ^ w) (pol N (mulFFT (avxKern cexp e) None sg w logN buf out p0 p1)) (pmul (pol N p0) (pol N p1)).
Proof. exact mulA_spec. Qed.
Print Assumptions C67_MulPolyTo.
Theorem C67_MulAddPolyTo : forall cexp, cexp_near (f64Arith cexp) finF val 17 (5 * powerRZ 2 (-52)) ->
  forall N logN, Z.of_nat N = (2 ^ logN)%Z -> (4 <= logN <= 15)%Z -> forall e, NewEvaluator (f64Arith cexp) N = Ok e ->
  forall (sg : bool) w buf out p0 p1, (0 < w <= 64)%Z -> length buf = N -> length out = N -> tpoly sg w N p0 -> tpoly sg w N p1 ->
  tpoly sg w N (mulFFT (avxKern cexp e) (Some false) sg w logN buf out p0 p1) /\
  peq (2 ^ w) (pol N (mulFFT (avxKern cexp e) (Some false) sg w logN buf out p0 p1)) (padd (pol N out) (pmul (pol N p0) (pol N p1))).
Proof. exact muladdA_spec. Qed.
Print Assumptions C67_MulAddPolyTo.
Theorem C67_MulSubPolyTo : forall cexp, cexp_near (f64Arith cexp) finF val 17 (5 * powerRZ 2 (-52)) ->
  forall N logN, Z.of_nat N = (2 ^ logN)%Z -> (4 <= logN <= 15)%Z -> forall e, NewEvaluator (f64Arith cexp) N = Ok e ->
  forall (sg : bool) w buf out p0 p1, (0 < w <= 64)%Z -> length buf = N -> length out = N -> tpoly sg w N p0 -> tpoly sg w N p1 ->
  tpoly sg w N (mulFFT (avxKern cexp e) (Some true) sg w logN buf out p0 p1) /\
  peq (2 ^ w) (pol N (mulFFT (avxKern cexp e) (Some true) sg w logN buf out p0 p1)) (psub (pol N out) (pmul (pol N p0) (pol N p1))).
Proof. exact mulsubA_spec. Qed.
Print Assumptions C67_MulSubPolyTo.
(** The short products, for a transformed polynomial with centred coefficients of at most 2^8. *)
Theorem C67_ShortMul : forall cexp, cexp_near (f64Arith cexp) finF val 17 (5 * powerRZ 2 (-52)) ->
  forall N logN, Z.of_nat N = (2 ^ logN)%Z -> (4 <= logN <= 15)%Z -> forall e, NewEvaluator (f64Arith cexp) N = Ok e ->
  forall (sg : bool) w buf out p ps o, (0 < w <= 64)%Z -> length buf = N -> length out = N -> length o = N -> tpoly sg w N p -> tpoly sg w N ps ->
  (forall i, (i < N)%nat -> (Z.abs (swrap w (nthZ ps i)) <= 2 ^ 8)%Z) -> let fps := avxFwd cexp e sg w o ps in
  (tpoly sg w N (shortMulFFT (avxKern cexp e) None sg w logN buf out p fps) /\
   peq (2 ^ w) (pol N (shortMulFFT (avxKern cexp e) None sg w logN buf out p fps)) (pmul (pol N p) (pol N ps))) /\
  (tpoly sg w N (shortMulFFT (avxKern cexp e) (Some false) sg w logN buf out p fps) /\
   peq (2 ^ w) (pol N (shortMulFFT (avxKern cexp e) (Some false) sg w logN buf out p fps)) (padd (pol N out) (pmul (pol N p) (pol N ps)))) /\
  (tpoly sg w N (shortMulFFT (avxKern cexp e) (Some true) sg w logN buf out p fps) /\
   peq (2 ^ w) (pol N (shortMulFFT (avxKern cexp e) (Some true) sg w logN buf out p fps)) (psub (pol N out) (pmul (pol N p) (pol N ps)))).
Proof. exact shortA_spec. Qed.
Print Assumptions C67_ShortMul.
(** Transforming forth and back is the identity on words of at most 32 bits. *)
Theorem C67_roundtrip : forall cexp, cexp_near (f64Arith cexp) finF val 17 (5 * powerRZ 2 (-52)) ->
  forall N logN, Z.of_nat N = (2 ^ logN)%Z -> (4 <= logN <= 15)%Z -> forall e, NewEvaluator (f64Arith cexp) N = Ok e ->
  forall (sg : bool) w out o p, (0 < w <= 32)%Z -> length out = N -> length o = N -> tpoly sg w N p ->
  avxInv cexp e None sg w out (avxFwd cexp e sg w o p) = p.
Proof. exact roundA_spec. Qed.
Print Assumptions C67_roundtrip.

(** Rank 16, uint64: (2^63 + 5) X^15 times (2^64 - 1) X + 3. *)
Definition p16 : list Z := repeat 0%Z 15 ++ [9223372036854775813%Z].
Definition q16 : list Z := [3%Z; 18446744073709551615%Z] ++ repeat 0%Z 14.
Example C67_ex_mul : exists e, NewEvaluator (f64Arith cexpT) 16 = Ok e /\
  mulFFT (avxKern cexpT e) None false 64 4 p16 p16 p16 q16 = [9223372036854775813%Z] ++ repeat 0%Z 14 ++ [9223372036854775823%Z].
Proof.
  destruct (NewEvaluator64 cexpT 16 4 eq_refl ltac:(lia)) as (e & He & _). exists e. split; [exact He|]. change 4%Z with (Z.of_nat 4).
  rewrite (mulK64 cexpT 16 3 ltac:(lia) ltac:(lia) eq_refl _ _ (avx64 cexpT (cexpT_near 17) 16 3 ltac:(lia) ltac:(lia) eq_refl e He)); [vm_compute; reflexivity|exact Logic.I|lia|reflexivity|reflexivity| |];
    (split; [reflexivity|]; repeat constructor; cbn; lia).
Qed.
(** One pair: (3/2 + 2 i) (1 - i) on binary64, and the distance of 2^-1 from 1 modulo 2. *)
Definition half (z : Z) : f64 := BN z (-1) false.
Example C67_ex_pair : mulF F64 (half 3, half 4) (half 2, half (-2)) = (half 7, half 1).
Proof. vm_compute. reflexivity. Qed.
Example C67_ex_modQ : avxModQ 32 (half (2 ^ 33 + 3)) = half 4 /\ avxConv false 64 (half (-4)) = (2 ^ 64 - 2)%Z.
Proof. vm_compute. split; reflexivity. Qed.
(** A memory that meets the hypotheses of C67_FwdFFTTo and C67_InvFFTTo, for every table and every words: floats in block 0, the tables of
    an Evaluator in blocks 1 and 2, the polynomial in block 3. *)
Open Scope Z_scope.
Example C67_ex_hyp : forall cexp k b p, (4 <= k <= 15)%nat -> (b = 4 \/ b = 8) -> length p = (2 ^ k)%nat -> Forall (fun x => 0 <= x < 2 ^ (8 * b)) p ->
  exists e s, let fp := mkG 0 0 (2 ^ Z.of_nat k) 0 in let gp := mkG 3 0 (2 ^ Z.of_nat k) 0 in let tw := mkG 1 0 (Z.of_nat (length (e_tw (f64Arith cexp) e))) 0 in
  let twi := mkG 2 0 (Z.of_nat (length (e_twInv (f64Arith cexp) e))) 0 in
  NewEvaluator (f64Arith cexp) (2 ^ k) = Ok e /\ fold_call s fp gp b /\ fft_call (f64Arith cexp) s fp tw (Z.of_nat k) /\
  cvals (f64Arith cexp) (mm s) tw = e_tw (f64Arith cexp) e /\ fft_call (f64Arith cexp) s fp twi (Z.of_nat k) /\ cvals (f64Arith cexp) (mm s) twi = e_twInv (f64Arith cexp) e /\ ivals (mm s) gp = p.
Proof. exact fwd_hyp. Qed.
Definition cexp1 (a b : Z) : f64 * f64 := (half 2, half (-1)).
Example C67_ex_table : exists e, NewEvaluator (f64Arith cexp1) 16 = Ok e /\
  Forall (fun c => valid_binary 53 1024 (fst c) = true /\ valid_binary 53 1024 (snd c) = true) (e_twInv (f64Arith cexp1) e).
Proof.
  destruct (NewEvaluator64 cexp1 16 4 eq_refl ltac:(lia)) as (e & He & _). exists e. split; [exact He|].
  assert (Q : match NewEvaluator (f64Arith cexp1) 16 with Ok e => forallb (fun c => valid_binary 53 1024 (fst c) && valid_binary 53 1024 (snd c))%bool (e_twInv (f64Arith cexp1) e) | _ => false end = true) by (vm_compute; reflexivity).
  rewrite He in Q. rewrite forallb_forall in Q. apply Forall_forall. intros c Hc. now apply andb_prop, Q.
Qed.
