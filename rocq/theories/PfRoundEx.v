(** Lemmas: a complex exponential with the accuracy that the error bounds ask for. *)
From Verif Require Import Base ModelNum ModelAsm ModelF64 ModelFFT ModelF64Arith PfRound SpecRound PfSplitF64.
From Coq Require Import Reals Lra Lia.
Open Scope R_scope.

(** cos and sin truncated to 52 bits behind the point. *)
Definition trunc52 (r : R) : SpecFloat.spec_float := BN (Int_part (r * IZR (2 ^ 52))) (-52) false.
Definition cexpT (a b : Z) : SpecFloat.spec_float * SpecFloat.spec_float :=
  let t := 2 * PI * IZR a / IZR b in (trunc52 (cos t), trunc52 (sin t)).

Lemma trunc52_near r : -1 <= r <= 1 -> finF (trunc52 r) /\ Rabs (val (trunc52 r) - r) <= 3 * pw (-52).
Proof.
  intros Hr. unfold trunc52. set (z := Int_part _). assert (Hz : IZR z <= r * IZR (2 ^ 52) < IZR z + 1) by (unfold z; destruct (base_Int_part (r * IZR (2 ^ 52))); lra).
  assert (P : pw (-52) = / IZR (2 ^ 52)) by (apply (pw_neg 52); lia). change (2 ^ 52)%Z with 4503599627370496%Z in *.
  assert (Hv : IZR z * pw (-52) <= r < IZR z * pw (-52) + pw (-52)) by (rewrite P; lra).
  assert (p52 : 0 < pw (-52) <= / 4) by (rewrite P; lra).
  assert (O : Rabs (IZR z * pw (-52)) <= pw 970) by (pose proof Om_big2; apply Rabs_le; lra).
  destruct (BN_rok z (-52) false O) as [F E]. split; [exact F|]. pose proof eta_small as [e1 e2].
  assert (Rabs (IZR z * pw (-52)) <= 2) by (apply Rabs_le; lra).
  assert (p53 : pw (-53) = pw (-52) / 2) by (rewrite P, pw_m53; lra).
  assert (pw (-53) * Rabs (IZR z * pw (-52)) <= pw (-53) * 2) by (apply Rmult_le_compat_l; lra).
  assert (He : pw (-1075) <= pw (-52)) by (apply Rle_trans with (1 := e2); rewrite P; apply Rinv_le_contravar; lra).
  set (x := val _) in *. set (y := IZR z * pw (-52)) in *. assert (E' : Rabs (x - y) <= 2 * pw (-52)) by lra.
  apply Rabs_le. pose proof (Rle_abs (x - y)). pose proof (Rle_abs (- (x - y))). rewrite Rabs_Ropp in *. lra.
Qed.
Lemma cexpT_near K : cexp_near (f64Arith cexpT) finF val K (5 * pw (-52)).
Proof.
  intros a k _ _ t e. unfold e. cbn [acexp f64Arith]. unfold cexpT. cbn [fst snd]. fold t.
  destruct (trunc52_near (cos t) (COS_bound t)) as [F1 E1]. destruct (trunc52_near (sin t) (SIN_bound t)) as [F2 E2]. split; [exact F1|]. split; [exact F2|].
  pose proof (pw_pos (-52)) as p. set (q := pw (-52)) in *.
  assert (S : forall x, Rabs x <= 3 * q -> x * x <= 9 * (q * q)).
  { intros x Hx. replace (x * x) with (Rabs x * Rabs x) by (rewrite <- Rabs_mult; apply Rabs_pos_eq; nra). pose proof (Rabs_pos x). apply Rle_trans with (3 * q * (3 * q)); [apply Rmult_le_compat; lra|lra]. }
  pose proof (S _ E1). pose proof (S _ E2). nra.
Qed.
