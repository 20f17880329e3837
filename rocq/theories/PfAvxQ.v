(** Lemmas: the reduction and rounding of the AVX2 kernels recover the integer when the error is below 3/8. *)
From Coq Require Import Floats.SpecFloat.
From Verif Require Import Base ModelNum ModelAsm ModelF64 SpecF64 SpecAsmFold PfF64 PfF64b PfF64c PfF64d ModelFFT ModelF64Arith ModelFused ModelFusedMul SpecRound SpecFused PfNum PfFFT3 PfAsmFold5 PfRound PfRoundQ PfF64Fused.
From Coq Require Import Reals Lra Lia.
Open Scope R_scope.

Lemma pow2F_val k : val (pow2F k) = pw k.
Proof. unfold pow2F. rewrite val_sg. cbn [cond_Zopp]. change (Zpos (2 ^ 52)) with (2 ^ 52)%Z. rewrite pw_IZR by lia. rewrite <- pw_add. f_equal. lia. Qed.
Lemma goInv_pow2 w : (0 <= w <= 64)%Z -> goInv (pow2F w) = pow2F (- w).
Proof.
  intros Hw. unfold goInv. change (pow2F 0) with (S754_finite false (2 ^ 52) (-52)). rewrite div_pow2; [unfold pow2F; f_equal; lia| |lia|exact Hw].
  unfold normal. lia.
Qed.
Lemma pw53 : pw (-53) <= / 4503599627370496 / 2.
Proof. rewrite (powerRZ_neg' 2 53 : pw (-53) = _). rewrite <- (pw_IZR 53) by lia. change (2 ^ 53)%Z with 9007199254740992%Z. lra. Qed.
Lemma pw1075 : 0 <= pw (-1075) <= / 1267650600228229401496703205376.
Proof.
  split; [apply Rlt_le, pw_pos|]. apply Rle_trans with (pw (-100)); [apply pw_le; lia|]. rewrite (powerRZ_neg' 2 100 : pw (-100) = _). rewrite <- (pw_IZR 100) by lia.
  change (2 ^ 100)%Z with 1267650600228229401496703205376%Z. lra.
Qed.
Lemma Rabs_le_sum a b c d e : Rabs (a - b) <= d -> Rabs (b - c) <= e -> Rabs (a - c) <= d + e.
Proof. intros. replace (a - c) with ((a - b) + (b - c)) by ring. eapply Rle_trans; [apply Rabs_triang|]. lra. Qed.

Lemma avx_round w x c : finF x -> (0 < w <= 64)%Z -> Rabs (val x - IZR c) <= 3 / 8 -> Rabs (IZR c) <= 2199023255552 ->
  exists n, has_value (avxModQ w x) (c - 2 ^ w * n) /\ (Z.abs (c - 2 ^ w * n) <= 2 ^ (w - 1))%Z.
Proof.
  intros Fx Hw Ex Bc. set (q := IZR (2 ^ w)). pose proof pw53 as U1. pose proof pw1075 as [N0 N1]. assert (U0 : 0 <= pw (-53)) by (apply Rlt_le, pw_pos).
  assert (Hq : 1 <= q <= 18446744073709551616).
  { unfold q. split; apply IZR_le; [pose proof (Z.pow_pos_nonneg 2 w); lia|]. change 18446744073709551616%Z with (2 ^ 64)%Z. apply Z.pow_le_mono_r; lia. }
  assert (Iq : 0 < / q <= 1) by (split; [apply Rinv_0_lt_compat; lra|rewrite <- Rinv_1; apply Rinv_le_contravar; lra]).
  assert (O70 : 1180591620717411303424 <= pw 970). { change 1180591620717411303424%Z with (2 ^ 70)%Z. rewrite pw_IZR by lia. apply pw_le. lia. }
  assert (Vq : val (pow2F w) = q) by (rewrite pow2F_val; unfold q; now rewrite pw_IZR by lia).
  assert (Vi : val (goInv (pow2F w)) = / q). { rewrite goInv_pow2 by lia. rewrite pow2F_val. unfold q. rewrite pw_IZR by lia. apply powerRZ_neg'. }
  assert (Fi : finF (goInv (pow2F w))) by (rewrite goInv_pow2 by lia; exact Logic.I).
  set (u := pw (-53)) in *. set (eta := pw (-1075)) in *.
  assert (Heq : eta * q <= / 4096). { apply Rle_trans with (/ 1267650600228229401496703205376 * 18446744073709551616); [apply Rmult_le_compat; lra|lra]. }
  assert (Bx : Rabs (val x) <= 2199023255553) by (pose proof (Rabs_le_add _ _ _ _ Ex Bc); lra).
  pose proof (Rabs_pos (val x)) as Px.
  assert (Bxq : Rabs (val x * / q) = Rabs (val x) * / q) by (rewrite Rabs_mult, (Rabs_pos_eq (/ q)) by lra; reflexivity).
  assert (Bxq' : Rabs (val x) * / q <= Rabs (val x)) by nra.
  unfold avxModQ. cbv zeta. set (y := SFmul 53 1024 x (goInv (pow2F w))).
  destruct (mul_rok x (goInv (pow2F w)) Fx Fi) as [Fy Ey]; [rewrite Vi; lra|]. fold y u eta in Fy, Ey. rewrite Vi, Bxq in Ey.
  assert (Eqy : Rabs (q * val y - val x) <= / 1024).
  { replace (q * val y - val x) with (q * (val y - val x * / q)) by (field; lra). rewrite Rabs_mult, (Rabs_pos_eq q) by lra.
    apply Rle_trans with (q * (u * (Rabs (val x) * / q) + eta)); [apply Rmult_le_compat_l; lra|].
    replace (q * (u * (Rabs (val x) * / q) + eta)) with (u * Rabs (val x) + eta * q) by (field; lra).
    assert (u * Rabs (val x) <= / 4503599627370496 / 2 * 2199023255553) by (apply Rmult_le_compat; lra). lra. }
  assert (Bqy : Rabs (q * val y) <= 2199023255554) by (pose proof (Rabs_le_add _ _ _ _ Eqy Bx); lra).
  assert (By : Rabs (val y) <= 2199023255554). { rewrite Rabs_mult, (Rabs_pos_eq q) in Bqy by lra. pose proof (Rabs_pos (val y)). nra. }
  destruct (rndF_val y Fy ltac:(lra)) as (n & Fn & Vn & En). set (nf := rndF upEven y) in *.
  (* the difference *)
  assert (D : finF (SFsub 53 1024 y nf) /\ Rabs (q * val (SFsub 53 1024 y nf) - q * (val y - IZR n)) <= / 1024 /\ Rabs (q * (val y - IZR n)) <= 4398046511104 /\
    ((w < 43)%Z -> Rabs (q * (val y - IZR n)) <= q / 2) /\ ((43 <= w)%Z -> n = 0%Z)).
  { destruct (Z_lt_dec w 43) as [C|C].
    - assert (Q43 : q <= 4398046511104). { unfold q. change 4398046511104%Z with (2 ^ 42)%Z. apply IZR_le, Z.pow_le_mono_r; lia. }
      rewrite Rabs_minus_sym in En. destruct (sub_rok y nf Fy Fn) as [Fd Ed]; [rewrite Vn; lra|]. fold u eta in Ed. rewrite Vn in Ed.
      assert (H1 : Rabs (q * (val y - IZR n)) <= q / 2) by (rewrite Rabs_mult, (Rabs_pos_eq q) by lra; unfold Rdiv; apply Rmult_le_compat_l; lra).
      split; [exact Fd|]. split; [|split; [lra|split; [intros _; exact H1|lia]]].
      replace (q * val (SFsub 53 1024 y nf) - q * (val y - IZR n)) with (q * (val (SFsub 53 1024 y nf) - (val y - IZR n))) by ring. rewrite Rabs_mult, (Rabs_pos_eq q) by lra.
      apply Rle_trans with (q * (u * / 2 + eta)). { apply Rmult_le_compat_l; [lra|]. eapply Rle_trans; [exact Ed|]. apply Rplus_le_compat_r, Rmult_le_compat_l; lra. }
      replace (q * (u * / 2 + eta)) with (u * (q * / 2) + eta * q) by ring.
      assert (u * (q * / 2) <= / 4503599627370496 / 2 * (4398046511104 * / 2)) by (apply Rmult_le_compat; lra). lra.
    - assert (Q43 : 8796093022208 <= q). { unfold q. change 8796093022208%Z with (2 ^ 43)%Z. apply IZR_le, Z.pow_le_mono_r; lia. }
      assert (n = 0%Z).
      { apply IZR_near. rewrite Rminus_0_r. rewrite Rabs_mult, (Rabs_pos_eq q) in Bqy by lra. pose proof (Rabs_pos (val y)).
        assert (Rabs (val y) <= / 3) by nra. pose proof (Rabs_le_add _ _ _ _ En H0). lra. }
      assert (Z0 : val (SFsub 53 1024 y nf) = val y /\ finF (SFsub 53 1024 y nf)).
      { subst n. clear - Vn Fn Fy. destruct nf as [s|s| |s m e]; try contradiction.
        - destruct y as [s'|s'| |s' m' e']; try contradiction; [|split; [reflexivity|exact Logic.I]]. destruct s', s; (split; [reflexivity|exact Logic.I]).
        - exfalso. cbn [val] in Vn. pose proof (pw_pos e) as P. apply Rmult_integral in Vn. destruct Vn as [V|V]; [|lra]. apply eq_IZR in V. destruct s; discriminate V. }
      destruct Z0 as [Vd Fd]. rewrite H, Vd, Rminus_0_r. split; [exact Fd|]. split; [replace (_ - _) with 0 by ring; rewrite Rabs_R0; lra|]. split; [lra|]. split; [lia|reflexivity]. }
  destruct D as (Fd & Ed & Bd & Bd1 & Bd2). set (d := SFsub 53 1024 y nf) in *.
  pose proof (Rabs_le_add _ _ _ _ Ed Bd) as Bqd.
  destruct (mul_rok d (pow2F w) Fd Logic.I) as [Fm Em]; [rewrite Vq, Rmult_comm; lra|]. fold u eta in Em. rewrite Vq, (Rmult_comm (val d)) in Em. set (m := SFmul 53 1024 d (pow2F w)) in *.
  assert (Em' : Rabs (val m - q * val d) <= / 512).
  { assert (u * Rabs (q * val d) <= / 4503599627370496 / 2 * 4398046511105) by (apply Rmult_le_compat; try apply Rabs_pos; lra). lra. }
  assert (Em2 : Rabs (val m - q * (val y - IZR n)) <= 3 / 1024) by (pose proof (Rabs_le_sum _ _ _ _ _ Em' Ed); lra).
  assert (Em3 : Rabs (val m - (val x - q * IZR n)) <= 4 / 1024).
  { assert (H : Rabs (q * (val y - IZR n) - (val x - q * IZR n)) <= / 1024) by (replace (q * (val y - IZR n) - (val x - q * IZR n)) with (q * val y - val x) by ring; exact Eqy).
    pose proof (Rabs_le_sum _ _ _ _ _ Em2 H). lra. }
  assert (Em4 : Rabs (val m - (IZR c - q * IZR n)) <= 3 / 8 + 4 / 1024).
  { assert (H : Rabs ((val x - q * IZR n) - (IZR c - q * IZR n)) <= 3 / 8) by (replace ((val x - q * IZR n) - (IZR c - q * IZR n)) with (val x - IZR c) by ring; exact Ex).
    pose proof (Rabs_le_sum _ _ _ _ _ Em3 H). lra. }
  pose proof (Rabs_le_add _ _ _ _ Em2 Bd) as Bm.
  destruct (rndF_val m Fm ltac:(lra)) as (r & Fr & Vr & Er).
  assert (Hr : r = (c - 2 ^ w * n)%Z).
  { apply IZR_near. rewrite minus_IZR, mult_IZR. fold q. pose proof (Rabs_le_sum _ _ _ _ _ Er Em4). lra. }
  exists n. rewrite <- Hr. split; [apply val_has; assumption|].
  destruct (Z_lt_dec w 43) as [C|C].
  - pose proof (Rabs_le_add _ _ _ _ Em2 (Bd1 C)) as B. pose proof (Rabs_le_add _ _ _ _ Er B) as B2.
    assert (EQ : q = 2 * IZR (2 ^ (w - 1))) by (unfold q; rewrite <- mult_IZR; f_equal; rewrite <- (Z.pow_succ_r 2 (w - 1)) by lia; f_equal; lia).
    assert (IZR (Z.abs r) < IZR (2 ^ (w - 1) + 1)) by (rewrite abs_IZR, plus_IZR; lra). apply lt_IZR in H. lia.
  - rewrite Hr, (Bd2 ltac:(lia)). replace (c - 2 ^ w * 0)%Z with c by ring. apply le_IZR. rewrite abs_IZR. apply Rle_trans with (IZR (2 ^ 42)); [change (2 ^ 42)%Z with 4398046511104%Z; lra|]. apply IZR_le, Z.pow_le_mono_r; lia.
Qed.
Lemma avx_conv sg w x c : finF x -> (0 < w <= 64)%Z -> Rabs (val x - IZR c) <= 3 / 8 -> Rabs (IZR c) <= 2199023255552 ->
  twrap sg w (avxConv sg w (avxModQ w x)) = twrap sg w c.
Proof.
  intros Fx Hw Ex Bc. destruct (avx_round w x c Fx Hw Ex Bc) as (n & V & B). set (r := (c - 2 ^ w * n)%Z) in *.
  assert (E64 : forall k, (w <= k)%Z -> eqm (2 ^ w) (r mod 2 ^ k) c).
  { intros k Hk. exists (- n - 2 ^ (k - w) * (r / 2 ^ k))%Z. pose proof (Z.pow_pos_nonneg 2 k). rewrite Z.mod_eq by lia.
    replace (2 ^ k * (r / 2 ^ k))%Z with (2 ^ w * 2 ^ (k - w) * (r / 2 ^ k))%Z by (rewrite <- Z.pow_add_r by lia; replace (w + (k - w))%Z with k by lia; reflexivity). set (t := (r / 2 ^ k)%Z). unfold r. ring. }
  assert (B63 : (2 ^ (w - 1) <= 2 ^ 63)%Z) by (apply Z.pow_le_mono_r; lia).
  apply twrap_cong. unfold avxConv.
  assert (C64 : eqm (2 ^ w) (cvt64 (avxModQ w x)) c) by (rewrite (cvt64_value _ _ V) by lia; apply E64; lia).
  destruct sg; [exact C64|]. destruct (Z.eqb_spec w 32) as [-> |]; [rewrite (cvt32_value _ _ V) by (change (32 - 1)%Z with 31%Z in B; lia); apply E64; lia|].
  destruct (Z.eqb_spec w 64) as [-> |]; [|exact C64]. rewrite int64part_truncW, (truncW_value _ _ V) by (change (64 - 1)%Z with 63%Z in B; lia). apply E64; lia.
Qed.
