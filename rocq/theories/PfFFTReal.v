(** Lemmas: the real numbers satisfy the requirements on the arithmetic of the transforms. *)
From Coq Require Import Reals Rtrigo R_Ifp Lra.
From Verif Require Import Base ModelNum ModelFFT SpecFFT SpecFFTReal PfFFT2.

Lemma real_exact N n : (3 <= n)%nat -> N = (2 ^ S n)%nat -> exact realArith N (zR N).
Proof.
  intros Hn3 HN. pose proof (NM N n HN) as ENM. pose proof (Mpos n) as HM.
  assert (HN0 : (IZR (Z.of_nat N) <> 0)%R) by (apply not_0_IZR; lia).
  assert (HM0 : (IZR (Z.of_nat (2 ^ n)) <> 0)%R) by (apply not_0_IZR; lia).
  assert (EZ : Z.of_nat N = 2 * Z.of_nat (2 ^ n)) by lia.
  constructor; unfold zR, c1, cI, conj, cmul; cbn [car a0 a1 aadd amul asub aopp adivn aofZ acexp realArith fst snd].
  - constructor; intros; try ring; reflexivity.
  - replace (PI * IZR 0 / IZR (Z.of_nat N))%R with 0%R by (field; exact HN0). rewrite cos_0, sin_0. reflexivity.
  - intros a b. replace (PI * IZR (a + b) / IZR (Z.of_nat N))%R with (PI * IZR a / IZR (Z.of_nat N) + PI * IZR b / IZR (Z.of_nat N))%R
      by (rewrite plus_IZR; field; exact HN0). rewrite cos_plus, sin_plus. f_equal. ring.
  - rewrite (Zhalf N n Hn3 HN). replace (PI * IZR (Z.of_nat (2 ^ n)) / IZR (Z.of_nat N))%R with (PI / 2)%R.
    + rewrite cos_PI2, sin_PI2. reflexivity.
    + rewrite EZ, mult_IZR. field. exact HM0.
  - intros a. rewrite opp_IZR. replace (PI * - IZR a / IZR (Z.of_nat N))%R with (- (PI * IZR a / IZR (Z.of_nat N)))%R by (field; exact HN0).
    rewrite cos_neg, sin_neg. reflexivity.
  - intros a b c Hb Hc. assert (Hb0 : (IZR b <> 0)%R) by (apply not_0_IZR; lia).
    assert (E : (2 * PI * IZR a / IZR b)%R = (PI * IZR (a * c) / IZR (Z.of_nat N))%R).
    { rewrite mult_IZR. apply (f_equal IZR) in Hc. rewrite !mult_IZR in Hc.
      assert (Hn : IZR (Z.of_nat N) = (IZR b * IZR c / 2)%R) by lra.
      assert (Hc0 : (IZR c <> 0)%R) by (intros E; rewrite E in Hc; lra).
      rewrite Hn. field. split; assumption. }
    rewrite E. reflexivity.
  - intros x. rewrite (NhalfM N n HN). field. exact HM0.
  - reflexivity.
  - reflexivity.
  - apply plus_IZR.
  - apply mult_IZR.
Qed.

Lemma real_round x : around realArith (aofZ realArith x) = x.
Proof.
  cbn [around aofZ realArith]. unfold rround.
  assert (H : forall y, Int_part (IZR y + / 2) = y).
  { intros y. destruct (base_Int_part (IZR y + / 2)) as [H1 H2]. set (i := Int_part (IZR y + / 2)) in *. clearbody i.
    assert (IZR i < IZR (y + 1))%R as A1 by (rewrite plus_IZR; lra). assert (IZR y < IZR (i + 1))%R as A2 by (rewrite plus_IZR; lra).
    apply lt_IZR in A1, A2. lia. }
  destruct (Rle_dec 0 (IZR x)); [apply H|]. rewrite <- opp_IZR, H. lia.
Qed.
