(** Lemmas: the reduction modulo 2^w and rounding of a binary64 number, in the Go loops and in the AVX2 kernels, give an integer
    within 1/2 of the number, modulo 2^w. *)
From Coq Require Import Floats.SpecFloat.
From Verif Require Import Base ModelNum ModelAsm ModelF64 SpecF64 SpecAsmFold PfF64 PfF64b PfF64c PfF64d ModelFFT ModelF64Arith ModelFused ModelFusedMul SpecRound SpecFused PfNum PfFFT3 PfAsmFold5 PfRound PfRoundQ PfF64Fused PfValid PfAvxQ PfAvxMem PfAvxInv PfSplitF64.
From Coq Require Import Reals Lra Lia.
Open Scope R_scope.

Lemma pw2m : pw (-2) = / 4.
Proof. rewrite (powerRZ_neg' 2 2 : pw (-2) = _). rewrite <- (pw_IZR 2) by lia. reflexivity. Qed.
Lemma big_normal x : vb x = true -> finF x -> / 4 < Rabs (val x) -> exists s m e, x = S754_finite s m e /\ normal (Zpos m) e /\ (-60 <= e)%Z.
Proof.
  intros Hv Fx Hb. destruct x as [s|s| |s m e]; try contradiction; [cbn in Hb; rewrite Rabs_R0 in Hb; lra|]. exists s, m, e. split; [reflexivity|].
  rewrite val_fin, sgR_abs, Rabs_pos_eq in Hb by (apply Rmult_le_pos; [apply IZR_le; lia|apply Rlt_le, pw_pos]).
  assert (G : (Zpos m < 2 ^ 53)%Z -> (-60 <= e)%Z).
  { intros Hm. assert (H : pw (-2) < pw (53 + e)).
    { rewrite pw2m, pw_add. eapply Rlt_le_trans; [exact Hb|]. apply Rmult_le_compat_r; [apply Rlt_le, pw_pos|]. rewrite <- pw_IZR by lia. apply IZR_le. lia. }
    apply pw_lt_inv in H. lia. }
  destruct (valid_cases s m e Hv) as [Nm|[M1 ->]].
  - split; [exact Nm|]. apply G. destruct Nm as (H & _). lia.
  - exfalso. specialize (G ltac:(lia)). lia.
Qed.
(** Large enough to be a normal number with the last bit above 2^-100. *)
Definition nice (x : spec_float) : Prop := finF x -> / 4 < Rabs (val x) -> exists s m e, x = S754_finite s m e /\ normal (Zpos m) e /\ (-100 <= e)%Z.
Lemma nice_vb x : vb x = true -> nice x.
Proof. intros Hv Fx Hb. destruct (big_normal x Hv Fx Hb) as (s & m & e & E & Nm & He). exists s, m, e. split; [exact E|]. split; [exact Nm|lia]. Qed.
Lemma normal_vb s m e : normal (Zpos m) e -> vb (S754_finite s m e) = true.
Proof. intros H. rewrite (normal_BN s m e false H). apply BN_valid. Qed.
Lemma near_val s m e n : near (sg s (Zpos m)) e n -> Rabs (IZR n - val (S754_finite s m e)) <= / 2.
Proof.
  rewrite val_sg. unfold sg. set (z := cond_Zopp s (Zpos m)). unfold near. destruct (Z.leb_spec 0 e) as [C|C].
  - intros ->. rewrite mult_IZR, pw_IZR by exact C. replace (_ - _) with 0 by ring. rewrite Rabs_R0. lra.
  - intros H. assert (P : 0 < IZR (2 ^ (- e))) by (apply IZR_lt, Z.pow_pos_nonneg; lia).
    replace (pw e) with (/ IZR (2 ^ (- e))) by (rewrite pw_IZR by lia; rewrite <- powerRZ_neg'; now rewrite Z.opp_involutive).
    apply IZR_le in H. rewrite mult_IZR, abs_IZR, minus_IZR, mult_IZR in H. set (k := IZR (2 ^ (- e))) in *. clearbody k.
    replace (IZR n - IZR z * / k) with (- ((IZR z - IZR n * k) * / k)) by (field; lra). rewrite Rabs_Ropp, Rabs_mult, (Rabs_pos_eq (/ k)) by (apply Rlt_le, Rinv_0_lt_compat, P).
    apply Rmult_le_reg_r with k; [exact P|]. rewrite Rmult_assoc, Rinv_l, Rmult_1_r by lra. lra.
Qed.
Lemma exact_away : exactRule upAway.
Proof. intros q k H. unfold upAway. destruct (Z.leb_spec k (2 * 0)); [lia|reflexivity]. Qed.
Lemma round_has y n : has_value y n -> roundGo y = n.
Proof. destruct y as [s|s| |s m e]; try contradiction; [cbn; congruence|]. intros H. exact (round_value upAway s m e n exact_away H). Qed.
Lemma has_mod (w n N : Z) : (0 <= w)%Z -> (n mod 2 ^ w = N mod 2 ^ w)%Z -> eqm (2 ^ w) n N.
Proof.
  intros Hw H. assert (0 < 2 ^ w)%Z by (apply Z.pow_pos_nonneg; lia). exists (n / 2 ^ w - N / 2 ^ w)%Z. pose proof (Z.div_mod n (2 ^ w) ltac:(lia)). pose proof (Z.div_mod N (2 ^ w) ltac:(lia)). lia.
Qed.
Lemma cZ_roundZ (s : bool) m e : (Zpos m < 2 ^ 53)%Z -> (e < 0)%Z -> (Z.abs (cond_Zopp s (roundZ upAway (Zpos m) e)) < 2 ^ 53)%Z.
Proof. intros Hm He. destruct (roundZ_near upAway (Zpos m) e away_rule ltac:(lia) He) as [_ H]. destruct s; cbn [cond_Zopp]; lia. Qed.
(** Rounding to an integer and converting back: the float is that integer. *)
Lemma vb_small s m e : vb (S754_finite s m e) = true -> (Zpos m < 2 ^ 53)%Z.
Proof. intros H. destruct (valid_cases s m e H) as [((_ & H1) & _)|[H1 _]]; lia. Qed.
Lemma BN_has z b : (Z.abs z < 2 ^ 53)%Z -> has_value (BN z 0 b) z.
Proof.
  intros H. destruct (Z.eq_dec z 0) as [-> |Hz]; [reflexivity|]. destruct (BN_val z 0 b H ltac:(lia) Hz) as (p & j & F & V).
  apply val_has; [rewrite F; exact Logic.I|]. rewrite V, pw_0. ring.
Qed.
Lemma round_ofZ t : vb t = true -> finF t -> has_value (rndF upAway t) (roundGo t) /\ roundGo (BN (roundGo t) 0 false) = roundGo t.
Proof.
  intros Hv Ft. destruct t as [s|s| |s m e]; try contradiction; [split; reflexivity|]. pose proof (vb_small _ _ _ Hv) as Hm. cbn [rndF]. destruct (Z.leb_spec 0 e) as [C|C].
  - destruct (valid_cases s m e Hv) as [Nm|[_ ->]]; [|lia].
    assert (E : roundGo (S754_finite s m e) = (sg s (Zpos m) * 2 ^ e)%Z) by (cbn [roundGo]; unfold roundZ; rewrite (proj2 (Z.leb_le 0 e) C); apply sg_mul).
    rewrite E. split.
    + cbn [has_value]. rewrite (proj2 (Z.leb_le 0 e) C), <- cz. reflexivity.
    + rewrite BN_scale by exact C. rewrite Z.add_0_l, <- (normal_BN s m e false Nm). exact E.
  - pose proof (cZ_roundZ s m e Hm C) as Hz. cbn [roundGo]. set (n := roundZ upAway (Zpos m) e) in *. split; [|apply round_has, BN_has, Hz].
    destruct n as [|p|p]; [destruct s; reflexivity|apply BN_has, Hz|apply BN_has, Hz].
Qed.
Lemma sub_zero x b : finF x -> (match x with S754_finite _ _ _ => True | _ => False end) -> SFsub 53 1024 x (S754_zero b) = x.
Proof. destruct x; try contradiction. reflexivity. Qed.
Lemma BN_pow2F w : (0 <= w <= 64)%Z -> BN (2 ^ w) 0 false = pow2F w.
Proof.
  intros Hw. unfold pow2F. rewrite (normal_BN false (2 ^ 52) (w - 52) false) by (unfold normal; lia). cbn [sg cond_Zopp]. change (Zpos (2 ^ 52)) with (1 * 2 ^ 52)%Z.
  rewrite BN_scale by lia. rewrite <- (Z.mul_1_l (2 ^ w)), BN_scale by lia. f_equal. lia.
Qed.

Section Near.
Variable cexp : Z -> Z -> spec_float * spec_float.
Notation A := (f64Arith cexp).
(** The floats computed by asm_fold.go:139-158 are those of [goModQ] up to the sign of a zero. *)
Lemma go_core w s m e : (1 <= w <= 64)%Z -> normal (Zpos m) e -> (-100 <= e)%Z -> let x := S754_finite s m e in
  let q := pow2F w in asub A x (amul A (aofZ A (2 ^ w)) (aofZ A (around A (adivn A x (2 ^ w))))) = SFsub 53 1024 x (SFmul 53 1024 q (rndF upAway (SFdiv 53 1024 x q))).
Proof.
  intros Hw Nm He x q. cbn [asub amul aofZ around adivn f64Arith]. rewrite BN_pow2F by lia. fold q. unfold x, q. rewrite div_pow2 by (try assumption; lia).
  set (y := S754_finite s m (e - w)). assert (Ny : normal (Zpos m) (e - w)) by (destruct Nm as (N1 & N2); split; [exact N1|lia]).
  destruct (Z.leb_spec 0 (e - w)) as [C|C].
  - replace (rndF upAway y) with y by (unfold y; cbn [rndF]; rewrite (proj2 (Z.leb_le 0 (e - w)) C); reflexivity). do 2 f_equal.
    unfold y at 1. cbn [roundGo]. unfold roundZ. rewrite (proj2 (Z.leb_le 0 (e - w)) C). change (cond_Zopp s (Zpos m * 2 ^ (e - w))) with (sg s (Zpos m * 2 ^ (e - w))). rewrite sg_mul, BN_scale by exact C.
    rewrite Z.add_0_l. symmetry. apply normal_BN. exact Ny.
  - unfold y. cbn [roundGo rndF]. rewrite (proj2 (Z.leb_gt 0 (e - w)) C). set (n := roundZ upAway (Zpos m) (e - w)).
    destruct n as [|p|p]; [destruct s; reflexivity|destruct s; reflexivity|destruct s; reflexivity].
Qed.
Lemma go_near sg w x : nice x -> finF x -> (1 <= w <= 64)%Z -> exists n, Rabs (IZR n - val x) <= / 2 /\ twrap sg w (around A (floatModQ A w x)) = twrap sg w n.
Proof.
  intros Hv Fx Hw. destruct (Rle_lt_dec (Rabs (val x)) (3 / 8)) as [C|C].
  { exists 0%Z. split; [rewrite Rminus_0_l, Rabs_Ropp; lra|].
    apply (modQ_round A finF val u64 eta64 (pw 970) (f64_std cexp)); try assumption; try lia; [split; [apply Rlt_le, pw_pos|exact u_small2]|split; [apply Rlt_le, pw_pos|exact eta_small2]|pose proof Om_big2; lra|now rewrite Rminus_0_r|rewrite Rabs_R0; lra]. }
  destruct (Hv Fx ltac:(lra)) as (s & m & e & -> & Nm & He).
  destruct (go_lane w s m e ltac:(lia) Nm ltac:(lia)) as (b & e0 & EQ & HE & HR).
  destruct (finish upAway w s m e b e0 away_rule ltac:(lia) Nm ltac:(lia) HE HR) as (n & k & F1 & F2 & F3 & F4 & F5 & F6). rewrite <- EQ in F1, F2.
  exists k. split; [apply near_val, F4|]. unfold floatModQ. rewrite (go_core w s m e Hw Nm He).
  set (t := SFsub 53 1024 (S754_finite s m e) (SFmul 53 1024 (pow2F w) (rndF upAway (SFdiv 53 1024 (S754_finite s m e) (pow2F w))))).
  assert (Ht : goModQ (pow2F w) (S754_finite s m e) = rndF upAway t) by reflexivity. rewrite Ht in F1, F2.
  assert (Vt : vb t = true).
  { apply sub_valid; [now apply normal_vb|]. apply mul_valid; [apply (pow2F_valid w); lia|]. apply rnd_valid. rewrite div_pow2 by (try assumption; lia).
    rewrite (normal_BN s m (e - w) false) by (destruct Nm as (N1 & N2); split; [exact N1|lia]). apply BN_valid. }
  assert (Ft : finF t) by (destruct t; try exact Logic.I; exact F1). destruct (round_ofZ t Vt Ft) as [R1 R2]. cbn [aofZ around f64Arith]. rewrite R2.
  assert (roundGo t = n) as ->. { clear - F1 R1. destruct (rndF upAway t) as [s0|s0| |s0 m0 e1]; try contradiction; [cbn in *; congruence|]. rewrite <- (round_value upAway s0 m0 e1 n exact_away F1). symmetry. now apply (round_value upAway s0 m0 e1 _ exact_away). }
  apply twrap_cong, has_mod; [lia|exact F5].
Qed.
Lemma conv_value (sg : bool) w y n : (1 <= w <= 64)%Z -> has_value y n -> (2 * Z.abs n <= 2 ^ w)%Z -> twrap sg w (avxConv sg w y) = twrap sg w n.
Proof.
  intros Hw V B.
  assert (E64 : forall k, (w <= k)%Z -> eqm (2 ^ w) (n mod 2 ^ k) n).
  { intros k Hk. exists (- (2 ^ (k - w) * (n / 2 ^ k)))%Z. pose proof (Z.pow_pos_nonneg 2 k). rewrite Z.mod_eq by lia.
    replace (2 ^ k * (n / 2 ^ k))%Z with (2 ^ w * 2 ^ (k - w) * (n / 2 ^ k))%Z by (rewrite <- Z.pow_add_r by lia; replace (w + (k - w))%Z with k by lia; reflexivity). ring. }
  assert (B63 : (2 ^ w <= 2 ^ 64)%Z) by (apply Z.pow_le_mono_r; lia). change (2 ^ 64)%Z with (2 * 2 ^ 63)%Z in B63.
  apply twrap_cong. unfold avxConv.
  assert (C64 : eqm (2 ^ w) (cvt64 y) n) by (rewrite (cvt64_value _ _ V) by lia; apply E64; lia).
  destruct sg; [exact C64|]. destruct (Z.eqb_spec w 32) as [-> |]; [rewrite (cvt32_value _ _ V) by (change (2 ^ 32)%Z with (2 * 2 ^ 31)%Z in B; lia); apply E64; lia|].
  destruct (Z.eqb_spec w 64) as [-> |]; [|exact C64]. rewrite int64part_truncW, (truncW_value _ _ V) by (change (2 ^ 64)%Z with (2 * 2 ^ 63)%Z in *; lia). apply E64; lia.
Qed.
Lemma avx_near sg w x : nice x -> finF x -> (1 <= w <= 64)%Z -> exists n, Rabs (IZR n - val x) <= / 2 /\ twrap sg w (avxConv sg w (avxModQ w x)) = twrap sg w n.
Proof.
  intros Hv Fx Hw. destruct (Rle_lt_dec (Rabs (val x)) (3 / 8)) as [C|C].
  { exists 0%Z. split; [rewrite Rminus_0_l, Rabs_Ropp; lra|]. apply avx_conv; try assumption; [lia|now rewrite Rminus_0_r|rewrite Rabs_R0; lra]. }
  destruct (Hv Fx ltac:(lra)) as (s & m & e & -> & Nm & He).
  destruct (avx_lane w s m e ltac:(lia) Nm ltac:(lia)) as (b & e0 & EQ & HE & HR).
  destruct (finish upEven w s m e b e0 even_rule ltac:(lia) Nm ltac:(lia) HE HR) as (n & k & F1 & F2 & F3 & F4 & F5 & F6).
  exists k. split; [apply near_val, F4|]. cbn [F64 fround fmul fsub] in EQ. unfold avxModQ. cbv zeta. rewrite goInv_pow2 by lia. rewrite EQ.
  rewrite (conv_value sg w _ n Hw F1 F3). apply twrap_cong, has_mod; [lia|exact F5].
Qed.
(** The division by the number of points. *)
Lemma nice_div y k : vb y = true -> (1 <= k <= 40)%nat -> nice (adivn A y (2 ^ Z.of_nat k)).
Proof.
  intros Hv Hk Fx Hb.
  assert (Fy : finF y). { cbn [adivn f64Arith] in Fx. rewrite BN_pow2F in Fx by lia. destruct y as [s|s| |s m e]; [exact Logic.I|destruct Fx|destruct Fx|exact Logic.I]. }
  assert (Hy : / 4 < Rabs (val y)).
  { apply Rnot_le_lt. intros C. set (q := IZR (2 ^ Z.of_nat k)).
    assert (Hq : 2 <= q). { apply IZR_le. change 2%Z with (2 ^ 1)%Z at 1. apply Z.pow_le_mono_r; lia. }
    assert (Iq : 0 < / q <= / 2) by (split; [apply Rinv_0_lt_compat; lra|apply Rinv_le_contravar; lra]).
    assert (B : Rabs (val y / q) <= / 8) by (unfold Rdiv; rewrite Rabs_mult, (Rabs_pos_eq (/ q)) by lra; pose proof (Rabs_pos (val y)); nra).
    pose proof Om_big2. pose proof u_small2. pose proof eta_small2. assert (0 <= u64) by (apply Rlt_le, pw_pos).
    destruct (sm_div _ _ _ _ _ _ (f64_std cexp) y (2 ^ Z.of_nat k)%Z Fy) as [Fa Ea].
    { split; [apply Z.pow_pos_nonneg; lia|apply Z.pow_le_mono_r; lia]. } { exists k. reflexivity. } { fold q. change (Rabs (val y / q) <= pw 970). lra. }
    fold q in Ea. change (Rabs (val (adivn A y (2 ^ Z.of_nat k)) - val y / q) <= u64 * Rabs (val y / q) + eta64) in Ea.
    pose proof (Rabs_le_add _ _ _ _ Ea B) as D. assert (u64 * Rabs (val y / q) <= / 4503599627370496 * / 8) by (apply Rmult_le_compat; try apply Rabs_pos; lra). lra. }
  cbn [adivn f64Arith]. rewrite BN_pow2F by lia.
  destruct (big_normal y Hv Fy Hy) as (s & m & e & -> & Nm & He). rewrite div_pow2 by (try assumption; lia). exists s, m, (e - Z.of_nat k)%Z.
  split; [reflexivity|]. destruct Nm as (N1 & N2). split; [split; [exact N1|lia]|lia].
Qed.
End Near.
