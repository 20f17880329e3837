(** Lemmas: blind rotation on both kernels. *)
From Coq Require Import Floats.SpecFloat.
From Verif Require Import Base NegaRing ModelNum ModelVec ModelPoly ModelAsm ModelF64 ModelFFT ModelF64Arith ModelSplitFFT ModelFused ModelFusedMul ModelGadget ModelLWE ModelGLWE ModelBoot ModelProdFFT ModelBlindFFT SpecNum SpecVec SpecPoly SpecFFT SpecFFTReal SpecRound SpecFused SpecGadget SpecLWE SpecGLWE SpecBoot SpecProdFFT SpecBlindFFT
  PfNum PfVec PfPoly PfSplit PfFFT6 PfRound PfNorm PfErr4 PfErrF PfF64Fused PfSplitFFT PfSplitF64 PfSplitF64b PfRoundEx PfValid PfSumK PfGadget PfGLWE PfGLWE2 PfGLWE3 PfGLWE4 PfBoot2 PfProdFFT PfProdFFT2 PfMonoF PfBlindFFT2 PfBlindFFT3 PfBlindFFT4.
From Coq Require Import Reals Lra Lia.
Open Scope Z_scope.

Lemma cexpT_full K : cexp_near_full (f64Arith cexpT) finF val K (5 * powerRZ 2 (-52)).
Proof.
  intros a k _ _ t e. unfold e. cbn [acexp f64Arith]. unfold cexpT. cbn [fst snd]. fold t. change (powerRZ 2 (-52)) with (pw (-52)).
  destruct (trunc52_near (cos t) (COS_bound t)) as [F1 E1]. destruct (trunc52_near (sin t) (SIN_bound t)) as [F2 E2]. split; [exact F1|]. split; [exact F2|].
  pose proof (pw_pos (-52)) as p. set (q := pw (-52)) in *.
  assert (S : forall x, (Rabs x <= 3 * q -> x * x <= 9 * (q * q))%R).
  { intros x Hx. replace (x * x)%R with (Rabs x * Rabs x)%R by (rewrite <- Rabs_mult; apply Rabs_pos_eq; nra). pose proof (Rabs_pos x). apply Rle_trans with (3 * q * (3 * q))%R; [apply Rmult_le_compat; lra|lra]. }
  pose proof (S _ E1). pose proof (S _ E2). nra.
Qed.
Section Both.
Variable cexp : Z -> Z -> spec_float * spec_float.
Notation A := (f64Arith cexp).
Hypothesis Hexp : cexp_near_full A finF val 17 (5 * powerRZ 2 (-52)).
Hypothesis Hval : cexp_valid cexp.
Variables (N : nat) (logN : Z).
Hypothesis HN : Z.of_nat N = 2 ^ logN.
Hypothesis HlogN : 4 <= logN <= 15.
Variable e : evaluator A.
Hypothesis Hev : NewEvaluator A N = Ok e.
Variable K : kern (car A).
Hypothesis HK : K = goKern A e \/ K = avxKern cexp e.
Variable left : list (car A) -> list (car A).
Hypothesis Hleft : forall v, valid64 N v -> valid64 N (left v).
Variables (w : Z) (k : nat) (sk : list (list Z)) (p : gadget) (s : list Z) (bk : list (list (list (list (list Z))))) (Ek : Z) (bs bc : nat).
Hypothesis Hw : w <= 64.
Hypothesis Hbr : br_setting w N k sk p s (map (map (map (map (fwdFFT w)))) bk) Ek bs bc.
Hypothesis Hkey : forall j r l i, (j < length s)%nat -> (r <= k)%nat -> (l < g_level p)%nat -> (i <= k)%nat -> wpoly w N (nth i (nth l (nth r (nth j bk []) []) []) []).
Variable D : Z.
Hypothesis Hcn : Z.of_nat (S k * g_level p + bs) <= 1000000.
Hypothesis HD : rotErr_le w (g_logBase p) logN N (S k * g_level p) bs D.

Lemma block_main : forall ms b ctOut ct lut0, gshape N k ctOut -> wpoly w N lut0 -> rot_bufs N k (g_level p) b ->
  let r := blindRotateBlockToK K w N k (MonomialSubOneFwdFFTTo A e) left ms p (map (toFFTGGSW K w) bk) bs bc b ctOut ct lut0 in
  glwe_ct w N k r /\
  pdist_le (2 ^ w) (gphase N k sk r) (pshift (- rotSum ms s ct) (pol N lut0)) (brNoise w N k p bc (length s) Ek + Z.of_nat bc * (D * (1 + Z.of_nat k * Z.of_nat N))).
Proof.
  intros ms b ctOut ct lut0 Ho Hlut (B1 & B2 & B3 & B4). cbv zeta.
  destruct (pow2_lm N logN HN HlogN) as (lm & L3 & L14 & EN & EL).
  pose proof (both_near cexp (near_of_full _ _ _ _ _ Hexp) Hval N e Hev K HK lm L3 L14 EN) as KN.
  destruct Hbr as (W0 & N0 & (n0 & Hn0 & HNn) & Hsk & Hok & (er & Hbrk & Her) & HEk & Hbs & Hbc & Hlen & Hblk).
  unfold blindRotateBlockToK.
  assert (HM : forall o d, length o = N -> Forall (fun x : f64 => vb x = true) o -> rep A finF val (pw (-53)) (pw (-1075)) del64 N lm 1 (XM lm) (MonomialSubOneFwdFFTTo A e o d) (pol N (fmonoSubOne N d)) /\ Forall (fun x : f64 => vb x = true) (MonomialSubOneFwdFFTTo A e o d)).
  { intros o d Lo Vo. split; [now apply (mono_rep cexp N lm Hexp Hval L3 L14 EN e Hev)|now apply (mono_valid cexp N Hval e Hev)]. }
  apply (loop_spec w W0 N N0 n0 Hn0 HNn k sk Hsk p Hok ms s bk er Ek Hbrk HEk Her bs bc Hbs Hbc Hlen Hblk ct lut0 Hlut
    (firstBlockK K w k (MonomialSubOneFwdFFTTo A e) left ms p (map (toFFTGGSW K w) bk) bs ct)
    (fun i st => laterBlockK K w k (MonomialSubOneFwdFFTTo A e) left ms p (map (toFFTGGSW K w) bk) bs ct i st) (bufs cexp N k p) D); [| |exact Ho|].
  - intros out b' Hb' Lo. apply (first_close cexp N lm L3 L14 EN K KN w k p ltac:(lia) Hok (MonomialSubOneFwdFFTTo A e) HM left (fun v L V => Hleft v (Logic.conj L V)) bk (length s) bs Hkey ms ct logN D EL Hbs Hcn HD out b'); [nia|exact Hb'|exact Lo].
  - intros i out b' Hi Hb' Lo. apply (later_close cexp N lm L3 L14 EN K KN w k p ltac:(lia) Hok (MonomialSubOneFwdFFTTo A e) HM left (fun v L V => Hleft v (Logic.conj L V)) bk (length s) bs Hkey ms ct logN D EL Hbs Hcn HD i out b'); [nia|exact Hb'|exact Lo].
  - split; [split; [apply B1|intros i Hi j Hj; now apply B1]|]. split; [intros i Hi; apply B2; lia|]. split; [exact B3|]. intros i Hi. apply B4. lia.
Qed.
End Both.
Lemma original_eqK {F} (K : kern F) w N k mono left ms p bk n b ctOut ct lut0 : blindRotateOriginalToK K w N k mono left ms p bk n b ctOut ct lut0 = blindRotateBlockToK K w N k mono left ms p bk 1 n b ctOut ct lut0.
Proof.
  unfold blindRotateOriginalToK, blindRotateBlockToK. cbv zeta. f_equal. apply forN_ext. intros i [out b'] Hi. unfold laterBlockK, rotTerms. cbn [Nat.sub forN]. rewrite Nat.mul_1_r. reflexivity.
Qed.
Lemma original_main : forall cexp, cexp_near_full (f64Arith cexp) finF val 17 (5 * powerRZ 2 (-52)) -> cexp_valid cexp ->
  forall N logN, Z.of_nat N = 2 ^ logN -> 4 <= logN <= 15 -> forall e, NewEvaluator (f64Arith cexp) N = Ok e ->
  forall K, K = goKern (f64Arith cexp) e \/ K = avxKern cexp e -> forall left, (forall v, valid64 N v -> valid64 N (left v)) ->
  forall w k sk p s bk Ek n, w <= 64 -> br_setting w N k sk p s (map (map (map (map (fwdFFT w)))) bk) Ek 1 n ->
  (forall j r l i, (j < length s)%nat -> (r <= k)%nat -> (l < g_level p)%nat -> (i <= k)%nat -> wpoly w N (nth i (nth l (nth r (nth j bk []) []) []) [])) ->
  forall D, Z.of_nat (S k * g_level p + 1) <= 1000000 -> rotErr_le w (g_logBase p) logN N (S k * g_level p) 1 D ->
  forall ms b ctOut ct lut0, gshape N k ctOut -> wpoly w N lut0 -> rot_bufs N k (g_level p) b ->
  let r := blindRotateOriginalToK K w N k (MonomialSubOneFwdFFTTo (f64Arith cexp) e) left ms p (map (toFFTGGSW K w) bk) n b ctOut ct lut0 in
  glwe_ct w N k r /\
  pdist_le (2 ^ w) (gphase N k sk r) (pshift (- rotSum ms s ct) (pol N lut0)) (brNoise w N k p n (length s) Ek + Z.of_nat n * (D * (1 + Z.of_nat k * Z.of_nat N))).
Proof.
  intros cexp H1 H2 N logN H3 H4 e H5 K H6 left H7 w k sk p s bk Ek n H8 H9 H10 D H11 H12 ms b ctOut ct lut0 H13 H14 H15. cbv zeta. rewrite original_eqK.
  exact (block_main cexp H1 H2 N logN H3 H4 e H5 K H6 left H7 w k sk p s bk Ek 1%nat n H8 H9 H10 D H11 H12 ms b ctOut ct lut0 H13 H14 H15).
Qed.
