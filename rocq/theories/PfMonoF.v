(** Lemmas: the transforms of X^d - 1 read from the table of monomials, on binary64. *)
From Coq Require Import Floats.SpecFloat.
From Verif Require Import Base NegaRing ModelNum ModelVec ModelPoly ModelAsm ModelF64 ModelFFT ModelF64Arith ModelSplitFFT ModelGadget ModelGLWE ModelProdFFT ModelBoot SpecNum SpecVec SpecPoly SpecFFT SpecFFTReal SpecRound SpecFused SpecProdFFT SpecBlindFFT
  PfNum PfVec PfPoly PfSplit PfFFT PfFFT2 PfFFT3 PfFFT4 PfFFT6 PfFFTReal PfNetGen PfNetGen2 PfNetB PfRound PfNorm PfErr PfErr2 PfRoundQ PfErr3 PfErr4 PfErrF PfF64Fused PfAvxQ PfSplitFFT PfSplitF64 PfSplitF64b PfErrSum PfAvxKern PfValid PfAvxInv PfNear PfKeep PfSumK PfBoot2.
From Coq Require Import Reals Lra Lia.
Open Scope R_scope.

(** The table lookups, for every arithmetic. *)
Definition monoTab (N : nat) : list Z :=
  match BitReverseInPlace 0%Z (forN 1 (N / 2 - 1) (fun i o => upd o i (4 * Z.of_nat i - 1)%Z) (upd (repeat 0%Z (N / 2)) 0 (2 * Z.of_nat N - 1)%Z)) with Ok i => i | _ => [] end.
Definition monoI (N : nat) (d : Z) (k : nat) : Z := ((nthZ (monoTab N) k * (d mod (2 * Z.of_nat N))) mod (2 * Z.of_nat N))%Z.
Lemma ev_mono A N e : NewEvaluator A N = Ok e ->
  e_rank A e = N /\ e_twMono A e = tab (2 * N) (fun i => acexp A (- Z.of_nat i) (2 * Z.of_nat N)) /\ e_twMonoIdx A e = monoTab N.
Proof.
  unfold NewEvaluator, monoTab. destruct (negb _); [discriminate|]. destruct (Nat.ltb N 16); [discriminate|]. destruct (genTwiddleFactors A (N / 2)) as [[tw tv]| |]; try discriminate.
  cbv zeta. match goal with |- context [BitReverseInPlace 0%Z ?t] => destruct (BitReverseInPlace 0%Z t) as [i| |] end; try discriminate.
  intros H. injection H as <-. repeat split.
Qed.
Lemma mono_at A N lm (Hlm : (3 <= lm)%nat) (HN : N = (2 ^ S lm)%nat) e g out d : NewEvaluator A N = Ok e -> length out = N ->
  length (monoFFT A g e out d) = N /\ forall k, (k < 2 ^ lm)%nat -> cplx A (monoFFT A g e out d) k = g (acexp A (- monoI N d k) (2 * Z.of_nat N)).
Proof.
  intros He Ho. destruct (ev_mono A N e He) as (Hr & HM & HI). unfold monoFFT. rewrite Hr, HM, HI. pose proof (NM N lm HN) as ENM. pose proof (Nat.pow_nonzero 2 lm ltac:(lia)) as HN0.
  assert (Epow : Z.of_nat N = (2 ^ Z.of_nat (S lm))%Z) by (rewrite HN, Nat2Z.inj_pow; reflexivity).
  assert (HL : length out = (2 * 2 ^ lm)%nat) by lia. set (mask := (2 * Z.of_nat N - 1)%Z).
  assert (Hm : forall x, Z.land x mask = (x mod (2 * Z.of_nat N))%Z).
  { intros x. apply (land_mask N ltac:(lia) x (Z.of_nat (S lm))); [lia|exact Epow]. }
  destruct (lanes_spec A (2 ^ lm) (M4 N lm Hlm HN) ((N + 7) / 8)
    (fun k _ => g (nth (Z.to_nat (Z.land (nthZ (monoTab N) k * Z.land d mask) mask)) (tab (2 * N) (fun i => acexp A (- Z.of_nat i) (2 * Z.of_nat N))) (a0 A, a0 A)))
    (fun b c o => let ii := nthZ (monoTab N) (4 * b + c) in
      let '(x, y) := g (nth (Z.to_nat (Z.land (ii * Z.land d mask) mask)) (tab (2 * N) (fun i => acexp A (- Z.of_nat i) (2 * Z.of_nat N))) (a0 A, a0 A)) in
      upd (upd o (8 * b + c) x) (8 * b + c + 4) y) out) as [H1 H2].
  - destruct (M8 N lm Hlm HN) as (q & EM & _ & _). rewrite ENM, EM. replace ((2 * (8 * q) + 7) / 8)%nat with (2 * q)%nat by (apply (Nat.div_unique _ _ _ 7); lia). lia.
  - reflexivity.
  - exact HL.
  - split; [etransitivity; [exact H1|lia]|]. intros k Hk. etransitivity; [exact (H2 k Hk)|]. cbv beta. f_equal. rewrite !Hm. fold (monoI N d k).
    pose proof (Z.mod_pos_bound (nthZ (monoTab N) k * (d mod (2 * Z.of_nat N))) (2 * Z.of_nat N) ltac:(lia)) as Hx. fold (monoI N d k) in Hx.
    rewrite nth_tab by lia. now rewrite Z2Nat.id by lia.
Qed.
Lemma monoI_range N d k : (0 < N)%nat -> (0 <= monoI N d k < 2 * Z.of_nat N)%Z.
Proof. intros H. apply Z.mod_pos_bound. lia. Qed.

Lemma near_of_full A fin vl K d : cexp_near_full A fin vl K d -> cexp_near A fin vl K d.
Proof. intros H a k Hk Ha. apply H; [exact Hk|lia]. Qed.
Lemma full_nm A fin vl K d a k : cexp_near_full A fin vl K d -> 0 <= d -> (k <= K)%nat -> (Z.abs a <= 2 ^ Z.of_nat k)%Z ->
  finC A fin (acexp A a (2 ^ Z.of_nat k)) /\ nm (Csub (vC A vl (acexp A a (2 ^ Z.of_nat k))) (acexp realArith a (2 ^ Z.of_nat k))) <= d.
Proof.
  intros H Hd Hk Ha. destruct (H a k Hk Ha) as (F1 & F2 & E). split; [now split|]. apply le_of_sq; [exact Hd|]. rewrite nm_sq. unfold Csub, vC. cbn [fst snd acexp realArith]. exact E.
Qed.

Section MonoF.
Variable cexp : Z -> Z -> spec_float * spec_float.
Notation A := (f64Arith cexp).
Notation Vs := (@List.Forall f64 (fun x : f64 => vb x = true)).
Variables (N lm : nat).
Hypothesis Hexp : cexp_near_full A finF val 17 d64.
Hypothesis Hval : forall k n, vb (fst (cexp k n)) = true /\ vb (snd (cexp k n)) = true.
Hypothesis Hlm : (3 <= lm)%nat.
Hypothesis Hlm14 : (lm <= 14)%nat.
Hypothesis HN : N = (2 ^ S lm)%nat.
Variable e : evaluator A.
Hypothesis Hev : NewEvaluator A N = Ok e.
Notation rep64 := (rep A finF val u64 eta64 del64 N lm).
Notation M := (2 ^ lm)%nat.
Definition XM : R := 2 * sqrt 2 ^ lm.
Lemma XMb : 1 <= XM <= 256.
Proof.
  unfold XM. assert (1 <= sqrt 2 ^ lm <= 128); [|lra].
  split; [apply pow_ge1, sqrt2_ge1|]. apply Rle_trans with (sqrt 2 ^ 14); [apply pow_le_mono; [apply sqrt2_ge1|exact Hlm14]|]. rewrite <- sqrt2_pow. apply le_of_sq; [lra|]. rewrite sqrt_sqrt by apply pos_INR. rewrite INR_IZR_INZ. change (Z.of_nat (2 ^ 14)) with 16384%Z. lra.
Qed.
Lemma E2N : (2 * Z.of_nat N = 2 ^ Z.of_nat (S (S lm)))%Z.
Proof. rewrite HN, Nat2Z.inj_pow, (Nat2Z.inj_succ (S lm)), Z.pow_succ_r by lia. reflexivity. Qed.
Lemma one64 : finF (a1 A) /\ val (a1 A) = 1.
Proof.
  pose proof (f64_std cexp) as S. pose proof Om_big as O. split.
  - apply (sm_of _ _ _ _ _ _ S 1). rewrite Rabs_pos_eq by lra. lra.
  - apply (sm_ofp _ _ _ _ _ _ S 0%nat). lia.
Qed.
Lemma sub1_near (c : f64 * f64) (r : Cx) : finC A finF c -> nm r = 1 -> nm (Csub (vC A val c) r) <= d64 ->
  finC A finF (asub A (fst c) (a1 A), snd c) /\ nm (Csub (vC A val (asub A (fst c) (a1 A), snd c)) (fst r - 1, snd r)) <= 14 * u64.
Proof.
  intros [F1 F2] R1 HD. destruct one64 as [O1 O2]. pose proof Om_big as OB. pose proof eta_small as ES.
  assert (D64 : d64 = 10 * u64) by (unfold d64; rewrite pw_m52, pw_m53; lra). pose proof pw_m53 as U.
  assert (B : Rabs (val (fst c) - 1) <= 3).
  { pose proof (nm_le_dist (vC A val c) r) as H. assert (Rabs (val (fst c)) <= nm (vC A val c)) by (apply hyp_fst).
    pose proof (Rabs_triang (val (fst c)) (Ropp 1)) as T. rewrite Rabs_Ropp, Rabs_R1 in T. unfold Rminus. rewrite U in D64. lra. }
  destruct (sm_sub _ _ _ _ _ _ (f64_std cexp) (fst c) (a1 A) F1 O1) as [F3 E3]; [rewrite O2; lra|]. rewrite O2 in E3. split; [now split|].
  eapply Rle_trans; [apply (nm_dist _ (val (fst c) - 1, val (snd c)))|].
  assert (H1 : nm (Csub (vC A val (asub A (fst c) (a1 A), snd c)) (val (fst c) - 1, val (snd c))) <= 3 * u64 + eta64).
  { unfold nm, Csub, vC. cbn [fst snd]. eapply Rle_trans; [apply hyp_sum|]. replace (val (snd c) - val (snd c)) with 0 by ring. rewrite Rabs_R0, Rplus_0_r. eapply Rle_trans; [exact E3|]. pose proof (pw_pos (-53)). nra. }
  assert (H2 : nm (Csub (val (fst c) - 1, val (snd c)) (fst r - 1, snd r)) <= d64).
  { eapply Rle_trans; [|exact HD]. right. unfold nm, Csub, vC. cbn [fst snd]. replace (val (fst c) - 1 - (fst r - 1)) with (val (fst c) - fst r) by ring. reflexivity. }
  assert (eta64 <= u64) by (rewrite U; eapply Rle_trans; [apply ES|]; apply Rinv_le_contravar; lra). lra.
Qed.
Lemma kw_big : 10 * u64 <= kw u64 eta64 del64 lm.
Proof.
  destruct (bounds64 lm Hlm14) as (B1 & B2 & B3 & B4 & B5 & B6). assert (D64 : d64 = 10 * u64) by (unfold d64; rewrite pw_m52, pw_m53; lra).
  pose proof (gam_nn u64 B1) as G. assert (d64 <= del64) by (unfold del64; nra).
  assert (0 <= om eta64 lm) by (apply om_nn, B2). set (de := del64) in *. assert (de <= tet u64 de) by (unfold tet; clear - G B5; nra). assert (tet u64 de <= kap u64 de) by (unfold kap; set (t := tet u64 de) in *; clear - H1 B1 B5; nra). unfold kw. lra.
Qed.
Lemma mono_rep o d : length o = N -> rep64 1 XM (MonomialSubOneFwdFFTTo A e o d) (pol N (fmonoSubOne N d)).
Proof.
  intros Lo. assert (N0 : (0 < N)%nat) by (rewrite HN; pose proof (Nat.pow_nonzero 2 (S lm)); lia).
  destruct (real_tables N lm Hlm HN) as (er & Her & HrF & HrI).
  destruct (mono_at A N lm Hlm HN e (fun c => (asub A (fst c) (a1 A), snd c)) o d Hev Lo) as [L1 L2]. fold (MonomialSubOneFwdFFTTo A) in L1, L2.
  set (v := MonomialSubOneFwdFFTTo realArith er (repeat 0 N) d).
  destruct (mono_at realArith N lm Hlm HN er (fun c => (asub realArith (fst c) (a1 realArith), snd c)) (repeat 0 N) d Her (repeat_length _ _)) as [L3 L4].
  assert (T : forall k, (k < M)%nat -> finC A finF (cplx A (MonomialSubOneFwdFFTTo A e o d) k) /\ nm (Csub (vC A val (cplx A (MonomialSubOneFwdFFTTo A e o d) k)) (cplx realArith v k)) <= 14 * u64 /\ nm (cplx realArith v k) <= 2).
  { intros k Hk. rewrite (L2 k Hk). unfold v, MonomialSubOneFwdFFTTo. rewrite (L4 k Hk). pose proof (monoI_range N d k N0) as RI. rewrite E2N in *.
    assert (UN : nm (acexp realArith (- monoI N d k) (2 ^ Z.of_nat (S (S lm)))) = 1) by apply rexp_unit.
    destruct (full_nm A finF val 17 d64 (- monoI N d k) (S (S lm)) Hexp) as [F D]; [destruct (bounds64 lm Hlm14) as (_ & _ & _ & B & _); lra|lia|lia|].
    destruct (sub1_near _ _ F UN D) as [F' D']. split; [exact F'|]. split; [exact D'|].
    set (r := acexp realArith (- monoI N d k) (2 ^ Z.of_nat (S (S lm)))) in *. cbn [asub a1 realArith].
    eapply Rle_trans; [|apply Rle_trans with (nm r + nm (1, 0)); [apply (nm_sub_tri r (1, 0))|]].
    - right. unfold nm, Csub. cbn [fst snd]. now rewrite Rminus_0_r.
    - rewrite UN. assert (nm (1, 0) <= 1); [|lra]. apply le_of_sq; [lra|]. rewrite nm_sq. cbn [fst snd]. lra. }
  split; [exact L1|]. exists v. assert (S0 : 0 <= sqrt (INR M)) by apply sqrt_pos. pose proof (pw_pos (-53)) as UP. split; [|split].
  - apply (transform_peq realArith N (zR N) v (psub (pmono d) pone)); [symmetry; now apply pol_fmonoSubOne|]. apply (MonomialSubOneFwdFFTTo_spec realArith N (zR N) er (real_exact N lm Hlm HN) Her). apply repeat_length.
  - split; [intros k Hk; apply T, Hk|]. apply Rle_trans with (l2 M (fun _ => 14 * u64)).
    + apply l2_le. intros k Hk. rewrite Rabs_pos_eq by apply nm_nn. apply T, Hk.
    + rewrite l2_const_sqrt by lra. unfold XM. rewrite <- sqrt2_pow, pow_1. pose proof kw_big. nra.
  - apply Rle_trans with (l2 M (fun _ => 2)).
    + apply l2_le. intros k Hk. rewrite Rabs_pos_eq by apply nm_nn. apply T, Hk.
    + rewrite l2_const_sqrt by lra. unfold XM. rewrite <- sqrt2_pow. lra.
Qed.
Lemma mono_valid o d : Vs o -> Vs (MonomialSubOneFwdFFTTo A e o d).
Proof.
  intros Ho. unfold MonomialSubOneFwdFFTTo, monoFFT. destruct (ev_mono A N e Hev) as (_ & HM & _).
  assert (HT : forall i, vb (fst (nth i (e_twMono A e) (a0 A, a0 A))) = true /\ vb (snd (nth i (e_twMono A e) (a0 A, a0 A))) = true).
  { intros i. rewrite HM. destruct (Nat.lt_ge_cases i (2 * N)) as [C|C]; [rewrite nth_tab by exact C; apply Hval|rewrite nth_overflow by (rewrite tab_length; exact C); split; reflexivity]. }
  apply (forN_ind (fun _ => Vs)); [exact Ho|]. intros i s _ Hs. apply (forN_ind (fun _ => Vs)); [exact Hs|]. intros j s' _ Hs'.
  cbv beta zeta. destruct (HT (Z.to_nat (Z.land (nthZ (e_twMonoIdx A e) (4 * (0 + i) + (0 + j)) * Z.land d (2 * Z.of_nat (e_rank A e) - 1)) (2 * Z.of_nat (e_rank A e) - 1)))) as [V1 V2].
  apply upd_keep'; [apply upd_keep'; [exact Hs'|]|exact V2]. cbn [asub f64Arith]. apply sub_valid; [exact V1|reflexivity].
Qed.
End MonoF.
