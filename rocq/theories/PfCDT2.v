(** Lemmas: the words of the cumulative table and the terms added to it. *)
From Coq Require Import Lia Floats.SpecFloat.
From Verif Require Import Base ModelNum ModelAsm ModelF64 ModelFFT ModelF64Arith PfF64 PfF64b PfF64d SpecRound PfRound PfValid ModelSampler SpecSampler ModelCDT SpecCDT PfCDT.
From Coq Require Import Reals Lra.
Open Scope Z_scope.

Lemma BRA_fits s q e k : 0 < q -> 0 <= k -> fexp64 (Zdigits2 q + (e + k)) = e + k -> e + k <= 971 ->
  exists p, q = Zpos p /\ BRA s (q * 2 ^ k) e loc_Exact = S754_finite s p (e + k).
Proof.
  intros Hq Hk Hf Hu. unfold binary_round_aux. rewrite shr_fexp_exact, Zdigits_shift by lia.
  replace (Zdigits2 q + k + e) with (Zdigits2 q + (e + k)) by lia. rewrite Hf. replace (e + k - e) with k by lia.
  rewrite (shr_zeros q e k k) by lia. rewrite shr_neg by lia. cbn [shr_m loc_of_shr_record round_nearest_even].
  rewrite shr_fexp_exact, Hf. rewrite shr_neg by lia. cbn [shr_m].
  destruct q as [|p|p]; try lia. exists p. split; [reflexivity|]. change (1024 - 53) with 971. change Zle_bool with Z.leb. rewrite (proj2 (Z.leb_le _ _) Hu). reflexivity.
Qed.

(** A valid float below 2^900 times 2^64 is exact. *)
Lemma mul_2_64 m e : vb (S754_finite false m e) = true -> e <= 800 ->
  exists p f, SFmul 53 1024 (S754_finite false m e) maxU64F = S754_finite false p f /\ (IZR (Zpos p) * pw f = IZR (Zpos m) * pw e * pw 64)%R.
Proof.
  intros Hv He. unfold maxU64F, pow2F. cbn [SFmul xorb]. change (64 - 52) with 12.
  destruct (valid_cases _ _ _ Hv) as [[Hm He2]|[Hm He2]]; apply vb_elim in Hv.
  all: destruct (Zdigits_bound (Zpos m) ltac:(lia)) as ((D1 & D2) & D3); set (d := Zdigits2 (Zpos m)) in *.
  all: assert (Hd : d <= 53) by (assert (2 ^ (d - 1) < 2 ^ 53) by lia; apply (Z.pow_lt_mono_r_iff 2) in H; lia).
  all: set (f := fexp64 (d + e + 64)); assert (Ef : f = d + e + 11) by (unfold f; rewrite fexp_def in *; lia);
    assert (P : 0 < 2 ^ (53 - d)) by (apply Z.pow_pos_nonneg; lia); set (q := Zpos m * 2 ^ (53 - d));
    assert (Hq : 0 < q) by (unfold q; nia);
    assert (Eq : Zpos (m * 2 ^ 52) = q * 2 ^ (d - 1)) by (unfold q; rewrite <- Z.mul_assoc, <- Z.pow_add_r by lia; replace (53 - d + (d - 1)) with 52 by lia; reflexivity);
    rewrite Eq;
    destruct (BRA_fits false q (e + 12) (d - 1) Hq ltac:(lia)) as (p & Ep & EB);
    [ unfold q; rewrite Zdigits_shift by lia; fold d; rewrite fexp_def; lia | lia | ];
    exists p, (e + 12 + (d - 1)); split; [exact EB|]; rewrite <- Ep; unfold q; rewrite mult_IZR, pw_IZR, !Rmult_assoc, <- !pw_add by lia; do 2 f_equal; lia.
Qed.

Lemma trunc_spec m e : 0 <= m -> (IZR (roundZ upZero m e) <= IZR m * pw e < IZR (roundZ upZero m e) + 1)%R /\ 0 <= roundZ upZero m e.
Proof.
  intros Hm. unfold roundZ, upZero. destruct (Z.leb_spec 0 e) as [C|C].
  - rewrite mult_IZR, pw_IZR by lia. split; [lra|]. apply Z.mul_nonneg_nonneg; [lia|apply Z.pow_nonneg; lia].
  - assert (P : 0 < 2 ^ (- e)) by (apply Z.pow_pos_nonneg; lia). pose proof (Z.div_mod m (2 ^ (- e)) ltac:(lia)) as E. pose proof (Z.mod_pos_bound m (2 ^ (- e)) P) as B.
    split; [|apply Z.div_pos; lia]. set (n := m / 2 ^ (- e)) in *.
    assert (E1 : (pw (- e) * pw e = 1)%R) by (rewrite <- pw_add; replace (- e + e) with 0 by lia; apply pw_0). pose proof (pw_pos e) as Pe. pose proof (pw_pos (- e)) as Pn.
    assert (L1 : (IZR (n * 2 ^ (- e)) <= IZR m)%R) by (apply IZR_le; lia). assert (L2 : (IZR m < IZR ((n + 1) * 2 ^ (- e)))%R) by (apply IZR_lt; lia).
    rewrite mult_IZR, pw_IZR in L1, L2 by lia. rewrite plus_IZR in L2. split.
    + apply Rle_trans with (IZR n * pw (- e) * pw e)%R; [rewrite Rmult_assoc, E1; lra|apply Rmult_le_compat_r; lra].
    + apply Rlt_le_trans with ((IZR n + 1) * pw (- e) * pw e)%R; [apply Rmult_lt_compat_r; lra|rewrite Rmult_assoc, E1; lra].
Qed.

Lemma one_leb m e : vb (S754_finite false m e) = true -> SFleb oneF (S754_finite false m e) = (-52 <=? e) /\ (-52 <= e <-> (1 <= IZR (Zpos m) * pw e)%R).
Proof.
  intros Hv. destruct (valid_cases _ _ _ Hv) as [[Hm He]|[Hm He]].
  - split.
    + unfold SFleb, oneF, pow2F. cbn [SFcompare]. change (0 - 52) with (-52). destruct (Z.compare_spec (-52) e) as [C|C|C]; destruct (Z.leb_spec (-52) e); try lia; try reflexivity.
      rewrite Pos.compare_cont_spec. change (Pos.compare (2 ^ 52) m) with (Z.compare (2 ^ 52) (Zpos m)). cbn [Pos.switch_Eq].
      destruct (Z.compare_spec (2 ^ 52) (Zpos m)); try reflexivity. lia.
    + split; intros C.
      * apply Rle_trans with (pw 52 * pw e)%R; [rewrite <- pw_add, <- pw_0; apply pw_le; lia|]. apply Rmult_le_compat_r; [apply Rlt_le, pw_pos|]. rewrite <- pw_IZR by lia. apply IZR_le. lia.
      * assert (pw 0 < pw (53 + e))%R; [|apply pw_lt_inv in H; lia]. rewrite pw_0. eapply Rle_lt_trans; [exact C|]. rewrite pw_add. apply Rmult_lt_compat_r; [apply pw_pos|].
        rewrite <- pw_IZR by lia. apply IZR_lt. lia.
  - subst e. split; [reflexivity|]. split; [lia|]. intros C. exfalso.
    assert (pw 0 < pw (52 + -1074))%R; [|apply pw_lt_inv in H; lia]. rewrite pw_0. eapply Rle_lt_trans; [exact C|]. rewrite pw_add. apply Rmult_lt_compat_r; [apply pw_pos|].
    rewrite <- pw_IZR by lia. apply IZR_lt. lia.
Qed.

(** The word of a cumulative probability. *)
Lemma word_spec x : is_nonneg x -> (0 <= cdtWord x < 2 ^ 64) /\
  ((x = S754_infinity false \/ (1 <= val x)%R) /\ cdtWord x = 2 ^ 64 - 1 \/ x <> S754_infinity false /\ (val x < 1)%R /\ (IZR (cdtWord x) <= val x * pw 64 < IZR (cdtWord x) + 1)%R).
Proof.
  intros Hx. destruct x as [[]|[]| |[] m e]; try (exfalso; exact Hx).
  - split; [vm_compute; split; congruence|]. right. split; [discriminate|]. replace (cdtWord (S754_zero false)) with 0 by reflexivity. cbn [val]. pose proof (pw_pos 64). split; lra.
  - split; [vm_compute; split; congruence|]. left. split; [left; reflexivity|]. reflexivity.
  - destruct (one_leb m e Hx) as [E1 E2]. unfold cdtWord. rewrite E1, val_fin. cbn [sgR]. rewrite Rmult_1_l. destruct (Z.leb_spec (-52) e) as [C|C].
    + split; [lia|]. left. split; [right; apply E2; exact C|reflexivity].
    + destruct (mul_2_64 m e Hx ltac:(lia)) as (p & f & EM & EV). rewrite EM. cbn [uint64Of]. cbv zeta.
      assert (V1 : (IZR (Zpos m) * pw e < 1)%R) by (apply Rnot_le_lt; intros H; apply E2 in H; lia).
      destruct (trunc_spec (Zpos p) f ltac:(lia)) as [T1 T2]. set (n := roundZ upZero (Zpos p) f) in *. rewrite EV in T1.
      assert (n < 2 ^ 64). { apply lt_IZR. rewrite pw_IZR by lia. eapply Rle_lt_trans; [apply T1|]. rewrite <- (Rmult_1_l (pw 64)) at 2. apply Rmult_lt_compat_r; [apply pw_pos|exact V1]. }
      rewrite (proj2 (Z.ltb_lt _ _) H). split; [lia|]. right. split; [discriminate|]. split; [exact V1|exact T1].
Qed.
Lemma word_mono x y : lef x y -> cdtWord x <= cdtWord y.
Proof.
  intros (Hx & Hy & H). destruct (word_spec x Hx) as [Bx Wx]. destruct (word_spec y Hy) as [By Wy].
  destruct Wy as [[_ ->] | (Ny & Ly & Wy)]; [lia|]. destruct H as [H|[Nx H]]; [contradiction|].
  destruct Wx as [[[C|C] _] | (_ & _ & Wx)]; [contradiction|lra|]. apply Z.lt_succ_r. apply lt_IZR. rewrite succ_IZR.
  eapply Rle_lt_trans; [apply Wx|]. eapply Rle_lt_trans; [|apply Wy]. apply Rmult_le_compat_r; [apply Rlt_le, pw_pos|exact H].
Qed.
