(** Lemmas: the AVX2 kernels satisfy what the split multiplication needs. *)
From Coq Require Import Floats.SpecFloat.
From Verif Require Import Base NegaRing ModelNum ModelVec ModelPoly ModelAsm ModelF64 ModelFFT ModelF64Arith ModelSplitFFT ModelFused ModelFusedMul SpecNum SpecVec SpecPoly SpecFFT SpecFFTReal SpecRound SpecFused
  PfNum PfVec PfPoly PfSplit PfFFT PfFFT2 PfFFT3 PfFFT4 PfFFT6 PfFFTReal PfNetGen PfNetGen2 PfNetB PfRound PfNorm PfErr PfErr2 PfRoundQ PfErr3 PfErr4 PfErrF PfF64Fused PfAvxQ PfSplitFFT PfSplitF64.
From Coq Require Import Reals Lra Lia.
Open Scope R_scope.

Section AvxOK.
Variable cexp : Z -> Z -> spec_float * spec_float.
Notation A := (f64Arith cexp).
Hypothesis Hexp : cexp_near A finF val 17 d64.
Variables (N lm : nat).
Hypothesis Hlm : (3 <= lm)%nat.
Hypothesis Hlm14 : (lm <= 14)%nat.
Hypothesis HN : N = (2 ^ S lm)%nat.
Variable e : evaluator A.
Hypothesis Hev : NewEvaluator A N = Ok e.
Notation M := (2 ^ lm)%nat.

Lemma scale_val : finF (avxScale N) /\ val (avxScale N) = / INR M.
Proof.
  assert (H : avxScale N = pow2F (- Z.of_nat lm)).
  { rewrite HN. clear - Hlm Hlm14. assert (C : (lm = 3 \/ lm = 4 \/ lm = 5 \/ lm = 6 \/ lm = 7 \/ lm = 8 \/ lm = 9 \/ lm = 10 \/ lm = 11 \/ lm = 12 \/ lm = 13 \/ lm = 14)%nat) by lia.
    unfold avxScale. rewrite Nat2Z.inj_pow. repeat (destruct C as [-> | C]); try rewrite C; vm_compute; reflexivity. }
  rewrite H, pow2F_val. split; [exact Logic.I|]. rewrite powerRZ_neg', <- pw_IZR by lia. rewrite INR_IZR_INZ, Nat2Z.inj_pow. reflexivity.
Qed.
Lemma post_OK : dvOK A finF val u64 eta64 (pw 970) lm (fun x => fmul F64 x (avxScale N)).
Proof.
  intros b Fb HO. destruct scale_val as [Fs Vs]. pose proof (mul_rok b (avxScale N) Fb Fs) as H. rewrite Vs in H. exact (H HO).
Qed.
(** The unfold loop with another conversion to integers. *)
Definition withRound (r : spec_float -> Z) : arith :=
  mkArith spec_float (a0 A) (a1 A) (aadd A) (amul A) (asub A) (aopp A) (adivn A) (aofZ A) r (acexp A).
Lemma unfold_eq acc sg w out fp : unfoldAVX acc sg w out fp = unfoldPoly (withRound (avxConv sg w)) acc sg w out fp.
Proof. reflexivity. Qed.

Lemma avx64 : kernOK A finF val u64 eta64 (pw 970) del64 N lm (fun _ _ => True) (avxKern cexp e).
Proof.
  destruct (bounds64 lm Hlm14) as (B1 & B2 & B3 & B4 & B5 & B6). destruct (tables64 cexp N lm Hlm HN e Hev) as (HF & HI & Hr). destruct (goods64 cexp Hexp N lm Hlm Hlm14 HN) as [GF GI].
  destruct (real_tables N lm Hlm HN) as (er & Er & RF & RI). pose proof (f64_std cexp) as HS. pose proof (f64_fused cexp) as HM.
  assert (LF : forall s, locOK A finF val u64 eta64 (pw 970) del64 true (stF A lm (fwdA F64) (fwdB F64) s)).
  { intros s. unfold stF. destruct (Nat.eqb _ _); [apply (fwdB_OK A F64)|apply (fwdA_OK A F64)]; assumption. }
  assert (LI : forall s, locOK A finF val u64 eta64 (pw 970) del64 false (stI A (invA F64) (invB F64) s)).
  { intros s. unfold stI. destruct (Nat.eqb _ _); [apply (invB_OK A F64)|apply (invA_OK A F64)]; assumption. }
  constructor; cbn [kzero kfwd kmul kacc kinv avxKern].
  - unfold zeroFFT. rewrite repeat_length. exact Hr.
  - intros n. unfold zeroFFT. rewrite Hr. apply (rep_zero A finF val u64 eta64 (pw 970) HS del64 N lm Hlm HN).
  - intros sg w out p B _ Ho Hp HB HB1 BO HO. unfold avxFwd, fwdFFTFused.
    eapply (rep_fwdB A finF val u64 eta64 (pw 970)) with (fw := fun v => fwdFFTB A (fwdA F64) (fwdB F64) v (e_tw A e)); try eassumption.
    apply bfwdFFT_computes; assumption.
  - intros n n' X X' o f f' P P' Ho X1 X1' H1 H2 HO. eapply (rep_mulB A finF val u64 eta64 (pw 970)); try eassumption. now apply (mulF_OK A F64).
  - intros m n n' X X' Y o f f' R0 P P' X1 X1' Y0 Hm H0 H1 H2 HO. eapply (rep_accB A finF val u64 eta64 (pw 970)) with (n := n) (n' := n'); try eassumption. now apply (mulAddF_OK A F64).
  - intros k sg w n Y f g out _ HY HR Lg Hw Ho HV E1 E2.
    assert (Lf : length f = N) by apply HR.
    assert (HI2 : forall v, length v = N -> exists v', invFFTB A (invA F64) (invB F64) (fun x => fmul F64 x (avxScale N)) v (e_twInv A e) = map (fun x => fmul F64 x (avxScale N)) v' /\
      length v' = N /\ forall k, (k < M)%nat -> cplx A v' k = netI A (stI A (invA F64) (invB F64)) lm lm (cplx A v) k) by (intros v Lv; exact (binvFFT_computes A N lm Hlm HN (invA F64) (invB F64) (e_twInv A e) HI (fun x => fmul F64 x (avxScale N)) v Lv)).
    assert (HX : length (invFFTFused A F64 (avxScale N) f (e_twInv A e)) = N /\ forall k, (k < M)%nat -> let c := cplx A (invFFTFused A F64 (avxScale N) f (e_twInv A e)) k in
      finF (fst c) /\ finF (snd c) /\ Rabs (val (fst c) - IZR (cf (pol N g) (Z.of_nat k))) <= 3 / 8 /\ Rabs (val (snd c) - IZR (cf (pol N g) (Z.of_nat (k + M)))) <= 3 / 8 /\
      Rabs (IZR (cf (pol N g) (Z.of_nat k))) <= 2199023255552 /\ Rabs (IZR (cf (pol N g) (Z.of_nat (k + M)))) <= 2199023255552).
    { edestruct (rep_invB A finF val u64 eta64 (pw 970)) with (iv := fun v => invFFTB A (invA F64) (invB F64) (fun x => fmul F64 x (avxScale N)) v (e_twInv A e)) as [L H]; try eassumption; [exact post_OK|].
      split; [exact L|]. intros k0 Hk0. destruct (H k0 Hk0) as ([F1 F2] & X1 & X2 & X3 & X4). cbv zeta. repeat split; try assumption; eapply Rle_trans; eassumption. }
    destruct HX as [LX HX]. unfold avxInv, avxInvv. change (@length spec_float f) with (@length (car A) f). rewrite Lf. set (v := invFFTFused A F64 (avxScale N) f (e_twInv A e)) in *.
    rewrite unfold_eq.
    rewrite (gunfold_spec (withRound (avxConv sg w)) N lm Hlm HN (avxAcc k sg w) sg w _ (fun i => cf (pol N g) (Z.of_nat i)));
      [|rewrite map_length; exact LX|exact Ho|].
    2:{ intros k0 Hk0. change (cplx (withRound (avxConv sg w)) (map (avxModQ w) v) k0) with (cplx A (map (avxModQ w) v) k0). rewrite (cplx_map A N lm Hlm HN) by assumption. cbn [fst snd around withRound].
      destruct (HX k0 Hk0) as (F1 & F2 & X1 & X2 & X3 & X4). split; apply avx_conv; assumption. }
    assert (L : length (invFFTs sg w g) = N) by (unfold invFFTs; rewrite map_length; exact Lg). assert (N1 : (0 < N)%nat) by (rewrite (NM N lm HN); pose proof (Mpos lm); lia).
    transitivity (map2 (avxAcc k sg w) out (invFFTs sg w g)).
    + apply nthZ_ext; [rewrite tab_length, map2_length; lia|]. intros i Hi. rewrite tab_length in Hi. rewrite nthZ_tab by exact Hi.
      rewrite nthZ_map2 by lia. rewrite cf_pol_at by (exact N1 || exact Hi). unfold invFFTs. rewrite nthZ_map by lia. reflexivity.
    + destruct k as [[|]|]; cbn [avxAcc invZ]; try reflexivity. apply (map2_snd A N lm Hlm HN e Hr Hlm14). lia.
Qed.
End AvxOK.
