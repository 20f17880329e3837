(** C64: the AVX2 transforms compute the portable Go transforms. *)
From Coq Require Import String Ring_theory Lia Reals.
From Verif Require Import Base ModelNum ModelAsm ModelAsmInt ModelAsmFlt SpecVec SpecAsm SpecFFT SpecFFTReal SpecAsmFlt PfFFT PfAsmFFT6 PropFFT PropAsmFlt ModelFFT.
Import ListNotations.
Open Scope Z_scope.

(** For every size N = 2^k >= 16, every coefficients and every table of at least N/2 - 1 factors: the kernel ends without fault,
    the coefficients become those that the Go loop fwdFFTInPlace computes, and nothing else in memory changes. *)
Theorem C64_fwdFFT : forall A F s o tw k, exactF A F -> fft_call A s o tw k ->
  terminates F (mkEnv (frame2 o tw) noData) fwdFFTInPlaceAVX2 s (becomes A o (fwdFFTInPlace A (fvals A (mm s) o) (cvals A (mm s) tw)) (mm s)).
Proof. exact k_fwd. Qed.
Print Assumptions C64_fwdFFT.

Theorem C64_invFFT : forall A F s o tw k sc, exactF A F -> fft_call A s o tw k -> is_scale A o sc ->
  terminates F (mkEnv (frame2c o tw 8 (WF sc)) noData) invFFTInPlaceAVX2 s (becomes A o (invFFTInPlace A (fvals A (mm s) o) (cvals A (mm s) tw)) (mm s)).
Proof. exact k_inv. Qed.
Print Assumptions C64_invFFT.

(** The tables of an Evaluator of rank 2^k are long enough: the kernels read exactly all of them. *)
Theorem C64_table_lengths : forall A k e, (4 <= k)%nat -> NewEvaluator A (2 ^ k) = Ok e ->
  length (e_tw A e) = (2 ^ (k - 1) - 1)%nat /\ length (e_twInv A e) = (2 ^ (k - 1) - 1)%nat.
Proof. exact table_lengths. Qed.
Print Assumptions C64_table_lengths.

(** With the tables of an Evaluator, the forward kernel evaluates the folded polynomial at the odd powers of the root ... *)
Theorem C64_forward_values : forall A F s o tw k z e p, exactF A F -> exact A (Z.to_nat (gn o)) z -> NewEvaluator A (Z.to_nat (gn o)) = Ok e ->
  fft_call A s o tw k -> cvals A (mm s) tw = e_tw A e -> folded A (Z.to_nat (gn o)) (fvals A (mm s) o) p ->
  terminates F (mkEnv (frame2 o tw) noData) fwdFFTInPlaceAVX2 s (fun m => exists v, becomes A o v (mm s) m /\
    forall i r, is_bitrev (Z.to_nat k - 1) i r -> (i < Z.to_nat (gn o) / 2)%nat -> cplx A v i = evalF A (Z.to_nat (gn o)) z p (1 - 4 * Z.of_nat r)).
Proof. exact k_values. Qed.
Print Assumptions C64_forward_values.

(** ... and the inverse kernel, called on the memory the forward kernel left, restores the coefficients. *)
Theorem C64_roundtrip : forall A F s o tw twi k sc z e, exactF A F -> exact A (Z.to_nat (gn o)) z -> NewEvaluator A (Z.to_nat (gn o)) = Ok e ->
  fft_call A s o tw k -> fft_call A s o twi k -> is_scale A o sc -> cvals A (mm s) tw = e_tw A e -> cvals A (mm s) twi = e_twInv A e ->
  terminates F (mkEnv (frame2 o tw) noData) fwdFFTInPlaceAVX2 s (fun m1 => forall s1, mm s1 = m1 ->
    terminates F (mkEnv (frame2c o twi 8 (WF sc)) noData) invFFTInPlaceAVX2 s1 (becomes A o (fvals A (mm s) o) (mm s))).
Proof. exact k_round. Qed.
Print Assumptions C64_roundtrip.

(** Witness: exact arithmetic on the integers ("division" is multiplication by 3), 16 floats at offset 1, 7 factors. *)
Definition zArith3 : arith := mkArith Z 0 1 Z.add Z.mul Z.sub Z.opp (fun x _ => x * 3) (fun z => z) (fun z => z) (fun _ _ => (1, 0)).
Definition zC := [77; 1; 2; 3; 4; 5; 6; 7; 8; 0; 1; 0; -1; 2; 0; 0; 1; 88].
Definition zT := [1; 1; 0; 2; -1; 1; 2; 0; 1; -1; 0; 1; 3; 1].
Lemma zC_ok : fslice zArith3 (mm (zSt zC zT)) (mkG 0 1 16 16).
Proof.
  split; [reflexivity|split; [cbn; lia|split; [cbn; lia|split; [cbn; lia|]]]]. cbn [gb go gn]; intros i Hi; cbn [getm mm zSt];
    eexists; apply zBlock_ok; cbn [List.length zC]; lia.
Qed.
Example C64_ex_hyp : exactF zArith3 zF /\ fft_call zArith3 (zSt zC zT) (mkG 0 1 16 16) (mkG 1 0 7 7) 4 /\ is_scale zArith3 (mkG 0 1 16 16) 3.
Proof.
  split; [constructor; try reflexivity; constructor; cbn; intros; ring|]. split; [|intros x; reflexivity].
  split; [exact zC_ok|]. split; [|split; [lia|split; [reflexivity|split; [cbn; lia|left; discriminate]]]].
  split; [reflexivity|split; [cbn; lia|split; [cbn; lia|split; [cbn; lia|]]]]. cbn [gb go gn]; intros i Hi; cbn [getm mm zSt];
    eexists; apply zBlock_ok; cbn [List.length zT]; lia.
Qed.
Example C64_ex_fwd : zDump (run zF (mkEnv (frame2 (mkG 0 1 16 16) (mkG 1 0 7 7)) noData) 60 fwdFFTInPlaceAVX2 fwdFFTInPlaceAVX2 (zSt zC zT)) 18
  = [77; -41; 11; 35; -9; 35; -9; -15; 17; -10; -4; 51; -25; -14; 12; 43; -29; 88].
Proof. vm_compute. reflexivity. Qed.
Example C64_ex_inv : zDump (run zF (mkEnv (frame2c (mkG 0 1 16 16) (mkG 1 0 7 7) 8 (WF 3)) noData) 60 invFFTInPlaceAVX2 invFFTInPlaceAVX2 (zSt zC zT)) 18
  = [77; 30; 9; -27; -3; 87; -27; 6; -3; 21; 6; -57; -42; 237; 12; -39; 36; 88].
Proof. vm_compute. reflexivity. Qed.

(** The real numbers meet the hypotheses of C64_roundtrip and C64_forward_values, for every 2^k coefficients. *)
Definition rF : fops Rdefinitions.R := mkFops Rdefinitions.R Rplus Rminus Rmult (fun x y z => x * y + z)%R (fun x y z => x * y - z)%R (fun x y z => z - x * y)%R
  (fun x => x) (fun _ => 0) (fun _ => 0%R) IZR rround.
Example C64_ex_real : forall k (c : list Rdefinitions.R), (4 <= k < 50)%nat -> length c = (2 ^ k)%nat ->
  exists e s, let o := mkG 0 0 (Z.of_nat (length c)) 0 in let tw := mkG 1 0 (Z.of_nat (length (e_tw realArith e))) 0 in let twi := mkG 2 0 (Z.of_nat (length (e_twInv realArith e))) 0 in
  exactF realArith rF /\ exact realArith (2 ^ k) (zR (2 ^ k)) /\ NewEvaluator realArith (2 ^ k) = Ok e /\
  fft_call realArith s o tw (Z.of_nat k) /\ fft_call realArith s o twi (Z.of_nat k) /\ is_scale realArith o (/ IZR (2 ^ Z.of_nat k / 2))%R /\
  cvals realArith (mm s) tw = e_tw realArith e /\ cvals realArith (mm s) twi = e_twInv realArith e /\ fvals realArith (mm s) o = c.
Proof.
  intros k c Hk Hc. destruct (C12_real_instance (2 ^ k) k eq_refl (proj1 Hk)) as (Ex & _ & e & He). exists e, (lay realArith c (e_tw realArith e) (e_twInv realArith e)).
  destruct (C64_table_lengths realArith k e (proj1 Hk) He) as [L1 L2]. cbv zeta.
  assert (P : Z.of_nat (length c) = 2 ^ Z.of_nat k) by (rewrite Hc, Nat2Z.inj_pow; reflexivity).
  assert (P2 : Z.of_nat (2 ^ (k - 1) - 1) = 2 ^ (Z.of_nat k - 1) - 1).
  { pose proof (Nat.pow_nonzero 2 (k - 1)). rewrite Nat2Z.inj_sub by lia. rewrite Nat2Z.inj_pow. do 2 f_equal. lia. }
  split; [constructor; try reflexivity; cbn; constructor; intros; cbn; ring|]. split; [exact Ex|]. split; [exact He|].
  split; [rewrite P at 1; eapply (lay_call realArith) with (t := e_tw realArith e); try (rewrite L1); auto; lia|].
  split; [rewrite P at 1; eapply (lay_call realArith) with (t := e_twInv realArith e); try (rewrite L2); auto; lia|].
  split; [intros x; cbn [amul adivn realArith gn]; rewrite P; reflexivity|].
  split; [apply lay_cvals; auto|]. split; [apply lay_cvals; auto|]. apply lay_fvals. reflexivity.
Qed.
