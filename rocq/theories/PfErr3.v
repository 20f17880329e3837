(** Lemmas: accuracy of the tables, error of folding, pointwise products and the inverse transform. *)
From Verif Require Import Base NegaRing ModelNum ModelVec ModelPoly ModelFFT SpecNum SpecVec SpecPoly SpecFFT SpecFFTReal SpecRound
  PfNum PfVec PfPoly PfFFT PfFFT2 PfFFT3 PfFFT4 PfFFT6 PfFFTReal PfNetGen PfNetGen2 PfNorm PfErr PfErr2.
From Coq Require Import Reals Lra Lia.
Open Scope R_scope.

Section Err3.
Variable A : arith.
Variable fin : car A -> Prop.
Variable vl : car A -> R.
Variables u eta Om : R.
Hypothesis Hstd : stdmodel A fin vl u eta Om.
Hypothesis Hu : 0 <= u <= / 8.
Hypothesis He : 0 <= eta <= / 32.
Hypothesis HOm : 16 <= Om.
Variable del : R.
Hypothesis Hdel : 0 <= del <= / 4.
Variables (N lm : nat).
Hypothesis Hlm : (3 <= lm)%nat.
Hypothesis HN : N = (2 ^ S lm)%nat.
Notation M := (2 ^ lm)%nat.
Notation C := (car A * car A)%type.
Notation vC := (vC A vl).
Notation finC := (finC A fin).
Notation gam := (gam u).
Notation kw := (kw u eta del lm).
Notation om := (om eta lm).
Notation apv := (apv A fin vl).
Notation good := (good A fin vl del lm).

(** ** Tables *)
Variable d0 : R.
Hypothesis Hd0 : 0 <= d0 <= 1.
Variable K : nat.
Hypothesis HK : (lm + 2 <= K)%nat.
Hypothesis Hexp : cexp_near A fin vl K d0.
Hypothesis Hdel0 : (1 + d0) * (1 + d0) * (1 + gam) - 1 + 10 * eta <= del.

Lemma nm_unit a b : nm (cos a, sin b) * nm (cos a, sin b) = cos a * cos a + sin b * sin b. Proof. apply nm_sq. Qed.
Lemma rexp_unit a b : nm (acexp RA a b) = 1.
Proof.
  cbn [acexp realArith]. set (t := 2 * PI * IZR a / IZR b). pose proof (sin2_cos2 t) as H. unfold Rsqr in H.
  unfold nm, hyp. cbn [fst snd]. replace (cos t * cos t + sin t * sin t) with 1 by lra. apply sqrt_1.
Qed.
Lemma exp_near a k : (k <= K)%nat -> (2 * Z.abs a <= 2 ^ Z.of_nat k)%Z -> finC (acexp A a (2 ^ Z.of_nat k)) /\
  nm (Csub (vC (acexp A a (2 ^ Z.of_nat k))) (acexp RA a (2 ^ Z.of_nat k))) <= d0.
Proof.
  intros Hk Ha. destruct (Hexp a k Hk Ha) as (F1 & F2 & E). split; [split; assumption|]. apply le_of_sq; [lra|]. rewrite nm_sq.
  unfold Csub, PfErr.vC. cbn [fst snd acexp realArith]. exact E.
Qed.
Lemma mulG_good p q (r s : Cx) : finC p -> finC q -> nm (Csub (vC p) r) <= d0 -> nm (Csub (vC q) s) <= d0 -> nm r = 1 -> nm s = 1 ->
  finC (cmulG A p q) /\ nm (Csub (vC (cmulG A p q)) (Cmul r s)) <= del /\ nm (Cmul r s) = 1.
Proof.
  intros Fp Fq Ep Eq Er Es. pose proof (nm_le_dist (vC p) r) as Bp. pose proof (nm_le_dist (vC q) s) as Bq.
  assert (B : nm (vC p) * nm (vC q) <= (1 + d0) * (1 + d0)) by (apply Rmult_le_compat; try apply nm_nn; lra).
  destruct (cmul_err A fin vl u eta Om Hstd Hu He HOm p q Fp Fq) as [F E]; [nra|]. split; [exact F|]. split; [|rewrite nm_mul, Er, Es; ring].
  eapply Rle_trans; [apply (nm_dist _ (Cmul (vC p) (vC q)))|].
  assert (D : nm (Csub (Cmul (vC p) (vC q)) (Cmul r s)) <= d0 * (1 + d0) + d0).
  { replace (Csub (Cmul (vC p) (vC q)) (Cmul r s)) with (Cadd (Cmul (Csub (vC p) r) (vC q)) (Cmul r (Csub (vC q) s)))
      by (unfold Csub, Cadd, Cmul; cbn [fst snd]; f_equal; ring).
    eapply Rle_trans; [apply nm_tri|]. rewrite !nm_mul, Er.
    assert (nm (Csub (vC p) r) * nm (vC q) <= d0 * (1 + d0)) by (apply Rmult_le_compat; try apply nm_nn; lra). lra. }
  assert (G : gam * (nm (vC p) * nm (vC q)) <= gam * ((1 + d0) * (1 + d0))) by (apply Rmult_le_compat_l; [apply gam_nn; exact Hu|exact B]).
  lra.
Qed.
Lemma br_half i : (2 * Z.abs (Z.of_nat (bitrev (lm - 1) i)) <= 2 ^ Z.of_nat lm)%Z.
Proof.
  pose proof (bitrev_lt (lm - 1) i) as H. assert (E : (2 ^ lm = 2 * 2 ^ (lm - 1))%nat) by (replace lm with (S (lm - 1)) at 1 by lia; cbn [Nat.pow]; lia).
  replace (2 ^ Z.of_nat lm)%Z with (Z.of_nat (2 ^ lm)) by (rewrite Nat2Z.inj_pow; reflexivity). lia.
Qed.
Lemma fold_half s : (2 * Z.abs (Z.of_nat (2 ^ (lm - 1 - s))) <= 2 ^ Z.of_nat (lm + 2))%Z.
Proof.
  assert (H : (2 ^ (lm - 1 - s) <= 2 ^ lm)%nat) by (apply Nat.pow_le_mono_r; lia).
  replace (2 ^ Z.of_nat (lm + 2))%Z with (Z.of_nat (2 ^ lm) * 4)%Z by (rewrite Nat2Z.inj_add, Z.pow_add_r, Nat2Z.inj_pow by lia; reflexivity). lia.
Qed.
Lemma Zpow_M : Z.of_nat M = (2 ^ Z.of_nat lm)%Z. Proof. rewrite Nat2Z.inj_pow. reflexivity. Qed.
Lemma Zpow_4M : (4 * Z.of_nat M)%Z = (2 ^ Z.of_nat (lm + 2))%Z.
Proof. rewrite Nat2Z.inj_add, Z.pow_add_r, Nat2Z.inj_pow by lia. change (Z.of_nat 2) with 2%Z. change (2 ^ 2)%Z with 4%Z. lia. Qed.
Lemma good_F : good (gF A lm) (gF RA lm).
Proof.
  intros s i Hs Hi. unfold gF. rewrite Zpow_4M, Zpow_M.
  destruct (exp_near (- Z.of_nat (bitrev (lm - 1) i)) lm ltac:(lia)) as [F1 E1]; [rewrite Z.abs_opp; apply br_half|].
  destruct (exp_near (Z.of_nat (2 ^ (lm - 1 - s))) (lm + 2) HK (fold_half s)) as [F2 E2].
  apply mulG_good; try assumption; apply rexp_unit.
Qed.
Lemma good_I : good (gI A lm) (gI RA lm).
Proof.
  intros s i Hs Hi. unfold gI. rewrite Zpow_4M, Zpow_M.
  destruct (exp_near (Z.of_nat (bitrev (lm - 1) i)) lm ltac:(lia) (br_half i)) as [F1 E1].
  destruct (exp_near (- Z.of_nat (2 ^ (lm - 1 - s))) (lm + 2) HK) as [F2 E2]; [rewrite Z.abs_opp; apply fold_half|].
  apply mulG_good; try assumption; apply rexp_unit.
Qed.
End Err3.
