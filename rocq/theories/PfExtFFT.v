(** Lemmas: differences of float vectors that represent transforms, and the transforms of monomials. *)
From Coq Require Import Floats.SpecFloat.
From Verif Require Import Base NegaRing ModelNum ModelVec ModelPoly ModelAsm ModelF64 ModelFFT ModelF64Arith ModelSplitFFT ModelGadget ModelGLWE ModelProdFFT ModelBoot SpecNum SpecVec SpecPoly SpecFFT SpecFFTReal SpecRound SpecFused SpecProdFFT SpecBlindFFT
  PfNum PfVec PfPoly PfSplit PfFFT PfFFT2 PfFFT3 PfFFT4 PfFFT6 PfFFTReal PfNetGen PfNetGen2 PfNetB PfRound PfNorm PfErr PfErr2 PfRoundQ PfErr3 PfErr4 PfErrF PfF64Fused PfAvxQ PfSplitFFT PfSplitF64 PfSplitF64b PfErrSum PfAvxKern PfValid PfAvxInv PfNear PfKeep PfSumK PfBoot2 PfMonoF.
From Coq Require Import Reals Lra Lia.
Open Scope R_scope.

Section Sub.
Variable A : arith.
Variable fin : car A -> Prop.
Variable vl : car A -> R.
Variables u eta Om : R.
Hypothesis Hstd : stdmodel A fin vl u eta Om.
Hypothesis Hu : 0 <= u <= / 8.
Hypothesis He : 0 <= eta <= / 32.
Variable del : R.
Hypothesis Hdel : 0 <= del <= / 4.
Variables (N lm : nat).
Hypothesis Hlm : (3 <= lm)%nat.
Hypothesis HN : N = (2 ^ S lm)%nat.
Notation M := (2 ^ lm)%nat.
Notation vC := (vC A vl).
Notation kap := (kap u del).
Notation om := (om eta lm).
Notation Q := (1 + kw u eta del lm).
Notation rep := (rep A fin vl u eta del N lm).

Lemma rep_sub m n X Y b o f R0 P : length b = N -> 1 <= X -> 0 <= Y -> (n <= m)%nat -> rep m Y o R0 -> rep n X f P -> Q ^ m * (Y + X) <= Om -> rep (S m) (Y + X) (subCmplxTo A b o f) (psub R0 P).
Proof.
  intros Lb X1 Y0 Hn (Lo & t & To & Ho & Ht) (Lf & v & Tv & Hv & HB) HO.
  destruct (real_tables N lm Hlm HN) as (er & Her & _). pose proof (real_exact N lm Hlm HN) as Hex.
  destruct (gloop_spec A N lm Hlm HN (fun _ a b => csub2 A a b) b o f Lb) as [LA EA].
  pose proof (repeat_length (0 : car RA) N) as LR. destruct (gloop_spec RA N lm Hlm HN (fun _ a b => csub2 RA a b) _ t v LR) as [_ ER].
  split; [exact LA|]. exists (subCmplxTo RA (repeat (0 : car RA) N) t v). split.
  { now apply (pointwise RA N (zR N) er Hex Her _ t v R0 P 0%Z). }
  pose proof (apv_norm A fin vl M _ _ _ Y Ho Ht) as No. pose proof (apv_norm A fin vl M _ _ _ X Hv HB) as Nv.
  replace (Y + (Q ^ m - 1) * Y) with (Q ^ m * Y) in No by ring. replace (X + (Q ^ n - 1) * X) with (Q ^ n * X) in Nv by ring.
  destruct Ho as [Fo Eo]. destruct Hv as [Fv Ev].
  assert (ET : forall k, (k < M)%nat -> cplx RA (subCmplxTo RA (repeat (0 : car RA) N) t v) k = Csub (cplx RA t k) (cplx RA v k)) by (intros k Hk; unfold subCmplxTo; rewrite ER by exact Hk; reflexivity).
  assert (EF : forall k, (k < M)%nat -> cplx A (subCmplxTo A b o f) k = csub2 A (cplx A o k) (cplx A f k)) by (intros k Hk; unfold subCmplxTo; now rewrite EA by exact Hk).
  pose proof (Qn u eta Hu He del Hdel lm m) as Qm. pose proof (Qn u eta Hu He del Hdel lm n) as Qk. pose proof (pow_le_mono Q n m (Q1 u eta Hu He del Hdel lm) Hn) as Qmn.
  set (q := Q ^ m) in *. set (q' := Q ^ n) in *.
  set (g := fun k => nm (vC (cplx A o k))) in *. set (h := fun k => nm (vC (cplx A f k))) in *.
  assert (XQ : q' * X <= q * X) by (apply Rmult_le_compat_r; lra).
  assert (Ek : forall k, (k < M)%nat -> finC A fin (csub2 A (cplx A o k) (cplx A f k)) /\ nm (Csub (vC (csub2 A (cplx A o k) (cplx A f k))) (Csub (vC (cplx A o k)) (vC (cplx A f k)))) <= u * (g k + h k) + 22 * eta).
  { intros k Hk. pose proof (nm_sub_tri (vC (cplx A o k)) (vC (cplx A f k))) as T. fold (g k) (h k) in T.
    destruct (csub_err A fin vl u eta Om Hstd Hu He (cplx A o k) (cplx A f k) (Fo k Hk) (Fv k Hk)) as [F1 F2].
    - eapply Rle_trans; [exact T|]. eapply Rle_trans; [|exact HO]. pose proof (l2_at M g k Hk) as H1. pose proof (l2_at M h k Hk) as H2. rewrite Rabs_pos_eq in H1, H2 by apply nm_nn. lra.
    - split; [exact F1|]. eapply Rle_trans; [exact F2|]. assert (u * nm (Csub (vC (cplx A o k)) (vC (cplx A f k))) <= u * (g k + h k)) by (apply Rmult_le_compat_l; lra). lra. }
  split.
  2:{ eapply Rle_trans; [apply (l2_le M _ (fun k => nm (cplx RA t k) + nm (cplx RA v k)))|eapply Rle_trans; [apply l2_tri|lra]].
      intros k Hk. rewrite Rabs_pos_eq by apply nm_nn. rewrite ET by exact Hk. apply nm_sub_tri. }
  split; [intros k Hk; rewrite EF by exact Hk; now apply Ek|].
  set (c := fun k => nm (Csub (vC (cplx A o k)) (cplx RA t k))) in *. set (d := fun k => nm (Csub (vC (cplx A f k)) (cplx RA v k))) in *.
  eapply Rle_trans; [apply (l2_le M _ (fun k => (u * (g k + h k) + 22 * eta) + (c k + d k)))|].
  { intros k Hk. rewrite Rabs_pos_eq by apply nm_nn. rewrite ET, EF by exact Hk. eapply Rle_trans; [apply (nm_dist _ (Csub (vC (cplx A o k)) (vC (cplx A f k))))|].
    destruct (Ek k Hk) as [_ E1].
    assert (D : nm (Csub (Csub (vC (cplx A o k)) (vC (cplx A f k))) (Csub (cplx RA t k) (cplx RA v k))) <= c k + d k).
    { replace (Csub (Csub (vC (cplx A o k)) (vC (cplx A f k))) (Csub (cplx RA t k) (cplx RA v k))) with (Csub (Csub (vC (cplx A o k)) (cplx RA t k)) (Csub (vC (cplx A f k)) (cplx RA v k))) by (unfold Csub; cbn [fst snd]; f_equal; ring).
      apply nm_sub_tri. }
    lra. }
  eapply Rle_trans; [apply l2_tri|]. eapply Rle_trans; [apply Rplus_le_compat; apply l2_tri|].
  pose proof (l2_const M (22 * eta) ltac:(lra)) as HC. change (INR M * (22 * eta)) with om in HC. rewrite l2_scale by apply Hu. pose proof (l2_tri M g h) as Tg. cbv beta in Tg.
  destruct (u_kap u eta Hu He del Hdel) as [UK _]. pose proof (om_nn eta He lm) as O. change (Q ^ S m) with (Q * q).
  assert (B1 : u * l2 M (fun k => g k + h k) <= kap * (q * (Y + X))) by (apply Rmult_le_compat; [lra|apply l2_nn|lra|lra]).
  assert (B2 : om <= om * (q * (Y + X))) by (assert (1 <= q * (Y + X)) by nra; nra).
  assert (B3 : (q' - 1) * X <= (q - 1) * X) by (apply Rmult_le_compat_r; lra).
  unfold kw. fold om. replace (((1 + (kap + om)) * q - 1) * (Y + X)) with ((q - 1) * Y + (q - 1) * X + kap * (q * (Y + X)) + om * (q * (Y + X))) by ring. lra.
Qed.
End Sub.

Section MonoM.
Variable cexp : Z -> Z -> spec_float * spec_float.
Notation A := (f64Arith cexp).
Notation Vs := (@List.Forall f64 (fun x : f64 => vb x = true)).
Variables (N lm : nat).
Hypothesis Hexp : cexp_near_full A finF val 17 d64.
Hypothesis Hval : forall k n, vb (fst (cexp k n)) = true /\ vb (snd (cexp k n)) = true.
Hypothesis Hlm : (3 <= lm)%nat.
Hypothesis Hlm14 : (lm <= 14)%nat.
Hypothesis HN : N = (2 ^ S lm)%nat.
Variable e : evaluator A.
Hypothesis Hev : NewEvaluator A N = Ok e.
Notation rep64 := (rep A finF val u64 eta64 del64 N lm).
Notation M := (2 ^ lm)%nat.
Lemma monoM_rep o d : length o = N -> rep64 1 (XM lm) (MonomialFwdFFTTo A e o d) (pol N (fmono N d)).
Proof.
  intros Lo. assert (N0 : (0 < N)%nat) by (rewrite HN; pose proof (Nat.pow_nonzero 2 (S lm)); lia).
  destruct (real_tables N lm Hlm HN) as (er & Her & HrF & HrI).
  destruct (mono_at A N lm Hlm HN e (fun c => c) o d Hev Lo) as [L1 L2]. fold (MonomialFwdFFTTo A) in L1, L2.
  set (v := MonomialFwdFFTTo realArith er (repeat 0 N) d).
  destruct (mono_at realArith N lm Hlm HN er (fun c => c) (repeat 0 N) d Her (repeat_length _ _)) as [L3 L4].
  assert (D64 : d64 = 10 * u64) by (unfold d64; rewrite pw_m52, pw_m53; lra). 
  assert (T : forall k, (k < M)%nat -> finC A finF (cplx A (MonomialFwdFFTTo A e o d) k) /\ nm (Csub (vC A val (cplx A (MonomialFwdFFTTo A e o d) k)) (cplx realArith v k)) <= 10 * u64 /\ nm (cplx realArith v k) <= 1).
  { intros k Hk. rewrite (L2 k Hk). unfold v, MonomialFwdFFTTo. rewrite (L4 k Hk). pose proof (monoI_range N d k N0) as RI. rewrite (E2N N lm Hlm Hlm14 HN) in *.
    destruct (full_nm A finF val 17 d64 (- monoI N d k) (S (S lm)) Hexp) as [F D]; [destruct (bounds64 lm Hlm14) as (_ & _ & _ & B & _); lra|lia|lia|].
    split; [exact F|]. split; [rewrite <- D64; exact D|]. right. apply rexp_unit. }
  split; [exact L1|]. exists v. assert (S0 : 0 <= sqrt (INR M)) by apply sqrt_pos. pose proof (pw_pos (-53)) as UP. split; [|split].
  - apply (transform_peq realArith N (zR N) v (pmono d)); [symmetry; now apply pol_fmono|]. apply (MonomialFwdFFTTo_spec realArith N (zR N) er (real_exact N lm Hlm HN) Her). apply repeat_length.
  - split; [intros k Hk; apply T, Hk|]. apply Rle_trans with (l2 M (fun _ => 10 * u64)).
    + apply l2_le. intros k Hk. rewrite Rabs_pos_eq by apply nm_nn. apply T, Hk.
    + rewrite l2_const_sqrt by lra. unfold XM. rewrite <- sqrt2_pow, pow_1. pose proof (kw_big lm Hlm14). nra.
  - apply Rle_trans with (l2 M (fun _ => 1)).
    + apply l2_le. intros k Hk. rewrite Rabs_pos_eq by apply nm_nn. apply T, Hk.
    + rewrite l2_const_sqrt by lra. unfold XM. rewrite <- sqrt2_pow. lra.
Qed.
Lemma monoM_valid o d : Vs o -> Vs (MonomialFwdFFTTo A e o d).
Proof.
  intros Ho. unfold MonomialFwdFFTTo, monoFFT. destruct (ev_mono A N e Hev) as (_ & HM & _).
  assert (HT : forall i, vb (fst (nth i (e_twMono A e) (a0 A, a0 A))) = true /\ vb (snd (nth i (e_twMono A e) (a0 A, a0 A))) = true).
  { intros i. rewrite HM. destruct (Nat.lt_ge_cases i (2 * N)) as [C|C]; [rewrite nth_tab by exact C; apply Hval|rewrite nth_overflow by (rewrite tab_length; exact C); split; reflexivity]. }
  apply (forN_ind (fun _ => Vs)); [exact Ho|]. intros i s _ Hs. apply (forN_ind (fun _ => Vs)); [exact Hs|]. intros j s' _ Hs'.
  cbv beta zeta. destruct (HT (Z.to_nat (Z.land (nthZ (e_twMonoIdx A e) (4 * (0 + i) + (0 + j)) * Z.land d (2 * Z.of_nat (e_rank A e) - 1)) (2 * Z.of_nat (e_rank A e) - 1)))) as [V1 V2].
  destruct (nth _ _ _) as [x y]. apply upd_keep'; [apply upd_keep'; [exact Hs'|]|]; assumption.
Qed.
Lemma sub_keep b f g : Vs b -> Vs f -> Vs g -> Vs (subCmplxTo A b f g).
Proof.
  intros Hb Hf Hg. apply (cmplxLoop_keep A (fun x : f64 => vb x = true)); try assumption; [reflexivity|].
  intros [a a'] [c c'] [d d'] [H1 H2] [H3 H4] [H5 H6]. split; cbn in *; apply sub_valid; assumption.
Qed.
End MonoM.
