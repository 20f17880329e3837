(** Lemmas: binary64 follows the standard model with fused operations; the final rounding of the AVX2 kernels. *)
From Coq Require Import Floats.SpecFloat.
From Verif Require Import Base ModelNum ModelAsm ModelF64 SpecF64 PfF64 PfF64b PfF64c PfF64d ModelFFT ModelF64Arith ModelFused SpecRound SpecFused PfRound PfRoundQ.
From Coq Require Import Reals Lra Lia.
Open Scope R_scope.
Notation pw := (powerRZ 2).
Notation f64 := spec_float.

Lemma SFadd_0r x z : finF x -> val (SFadd 53 1024 x (S754_zero z)) = val x /\ finF (SFadd 53 1024 x (S754_zero z)).
Proof. destruct x as [s|s| |s m e]; cbn; try tauto. destruct (eqb s z); cbn; tauto. Qed.
Lemma pw_split a b m : (m <= a)%Z -> b = pw m -> IZR (2 ^ (a - m)) * b = pw a.
Proof. intros H ->. rewrite pw_IZR by lia. rewrite <- pw_add. f_equal. lia. Qed.
Lemma fma_rok x y z : finF x -> finF y -> finF z -> Rabs (val x * val y + val z) <= pw 970 -> rok (fma64 x y z) (val x * val y + val z).
Proof.
  intros Fx Fy Fz HO.
  assert (Z0 : forall a, a = S754_zero true \/ a = S754_zero false -> val x * val y = 0 -> SFmul 53 1024 x y = a -> rok (SFadd 53 1024 (SFmul 53 1024 x y) z) (val x * val y + val z)).
  { intros a Ha E ->. rewrite E in *. assert (Va : val a = 0) by (destruct Ha as [-> | ->]; reflexivity). rewrite <- Va in HO |- *. apply add_rok; [destruct Ha as [-> | ->]; exact Logic.I|exact Fz|exact HO]. }
  assert (ZZ : forall b, S754_zero b = S754_zero true \/ S754_zero b = S754_zero false) by (intros [|]; [now left|now right]).
  destruct x as [sx|sx| |sx mx ex]; try contradiction.
  { destruct y as [sy|sy| |sy my ey]; try contradiction; (eapply Z0; [|cbn [val]; ring|reflexivity]; apply ZZ). }
  destruct y as [sy|sy| |sy my ey]; try contradiction.
  { eapply Z0; [|cbn [val]; ring|reflexivity]; apply ZZ. }
  destruct z as [sz|sz| |sz mz ez]; try contradiction.
  - cbn [val] in HO |- *. fold (val (S754_finite sx mx ex)) (val (S754_finite sy my ey)) in *. rewrite Rplus_0_r in *. cbn [fma64].
    destruct (mul_rok (S754_finite sx mx ex) (S754_finite sy my ey) Fx Fy HO) as [F1 E1].
    destruct (SFadd_0r _ sz F1) as [E2 F2]. split; [exact F2|]. rewrite E2. exact E1.
  - cbn [fma64]. cbv zeta. set (e := Z.min (ex + ey) ez) in *.
    assert (E : IZR (cond_Zopp (xorb sx sy) (Zpos (mx * my) * 2 ^ (ex + ey - e)) + cond_Zopp sz (Zpos mz * 2 ^ (ez - e))) * pw e
      = val (S754_finite sx mx ex) * val (S754_finite sy my ey) + val (S754_finite sz mz ez)).
    { rewrite plus_IZR, Rmult_plus_distr_r. f_equal.
      - cbn [val]. replace (cond_Zopp (xorb sx sy) (Zpos (mx * my) * 2 ^ (ex + ey - e))) with (cond_Zopp sx (Zpos mx) * cond_Zopp sy (Zpos my) * 2 ^ (ex + ey - e))%Z
          by (rewrite Pos2Z.inj_mul; destruct sx, sy; cbn [xorb cond_Zopp]; ring).
        rewrite mult_IZR, Rmult_assoc, (pw_split (ex + ey) (pw e) e) by (reflexivity || lia). rewrite mult_IZR, pw_add. ring.
      - cbn [val]. replace (cond_Zopp sz (Zpos mz * 2 ^ (ez - e))) with (cond_Zopp sz (Zpos mz) * 2 ^ (ez - e))%Z by (destruct sz; cbn [cond_Zopp]; ring).
        rewrite mult_IZR, Rmult_assoc, (pw_split ez (pw e) e) by (reflexivity || lia). reflexivity. }
    rewrite <- E in HO |- *. now apply BN_rok.
Qed.
Lemma neg0 x : finF x -> finF (SFsub 53 1024 (ofbits64 0) x) /\ val (SFsub 53 1024 (ofbits64 0) x) = - val x.
Proof.
  intros Fx. change (ofbits64 0) with (S754_zero false). destruct x as [s|s| |s m e]; try contradiction.
  - destruct s; (split; [exact Logic.I|cbn; ring]).
  - cbn [SFsub]. split; [exact Logic.I|]. cbn [val]. replace (cond_Zopp (negb s) (Zpos m)) with (- cond_Zopp s (Zpos m))%Z by (destruct s; cbn [negb cond_Zopp]; lia). rewrite opp_IZR. ring.
Qed.
Lemma f64_fused cexp : fusedmodel (f64Arith cexp) F64 finF val (pw (-53)) (pw (-1075)) (pw 970).
Proof.
  constructor; try reflexivity.
  - exact fma_rok.
  - intros x y z Fx Fy Fz HO. cbn [ffms F64]. pose proof (fma_rok x y (SFopp z) Fx Fy (fin_opp z Fz)) as H. rewrite val_opp in H. exact (H HO).
  - intros x y z Fx Fy Fz HO. cbn [ffnma F64]. pose proof (fma_rok (SFopp x) y z (fin_opp x Fx) Fy Fz) as H. rewrite val_opp in H.
    replace (- val x * val y + val z) with (val z - val x * val y) in H by ring. exact (H HO).
  - exact neg0.
Qed.

(** A float whose value is an integer. *)
Lemma val_has x n : finF x -> val x = IZR n -> has_value x n.
Proof.
  destruct x as [s|s| |s m e]; try contradiction; intros _ E.
  - cbn in *. symmetry. apply eq_IZR. rewrite <- E. reflexivity.
  - cbn [has_value]. cbv zeta. rewrite <- cz. cbn [val] in E. destruct (Z.leb_spec 0 e) as [C|C].
    + apply eq_IZR. rewrite <- E, mult_IZR, pw_IZR by exact C. reflexivity.
    + apply eq_IZR. rewrite mult_IZR, pw_IZR by lia. rewrite <- E, Rmult_assoc, <- pw_add. replace (e + - e)%Z with 0%Z by lia. rewrite pw_0. ring.
Qed.
Lemma rndF_val x : finF x -> Rabs (val x) <= 1125899906842624 -> exists n, finF (rndF upEven x) /\ val (rndF upEven x) = IZR n /\ Rabs (IZR n - val x) <= / 2.
Proof.
  destruct x as [s|s| |s m e]; try contradiction; intros _ B.
  - exists 0%Z. cbn. repeat split. replace (0 - 0) with 0 by ring. rewrite Rabs_R0. lra.
  - cbn [rndF]. destruct (Z.leb_spec 0 e) as [C|C].
    + exists (cond_Zopp s (Zpos m) * 2 ^ e)%Z. split; [exact Logic.I|]. assert (E : val (S754_finite s m e) = IZR (cond_Zopp s (Zpos m) * 2 ^ e)) by (cbn [val]; rewrite mult_IZR, pw_IZR by exact C; reflexivity).
      split; [exact E|]. rewrite E. replace (_ - _) with 0 by ring. rewrite Rabs_R0. lra.
    + destruct (roundZ_near upEven (Zpos m) e even_rule ltac:(lia) C) as [R1 R2]. set (n := roundZ upEven (Zpos m) e) in *.
      pose proof (pw_pos e) as P. assert (K : IZR (2 ^ (- e)) * pw e = 1) by (rewrite pw_IZR by lia; rewrite <- pw_add; replace (- e + e)%Z with 0%Z by lia; apply pw_0).
      assert (D : Rabs (IZR (cond_Zopp s n) - val (S754_finite s m e)) <= / 2).
      { rewrite val_sg. replace (IZR (cond_Zopp s n) - IZR (cond_Zopp s (Zpos m)) * pw e) with (IZR (cond_Zopp s n * 2 ^ (- e) - cond_Zopp s (Zpos m)) * pw e)
          by (rewrite minus_IZR, mult_IZR; replace ((IZR (cond_Zopp s n) * IZR (2 ^ (- e)) - IZR (cond_Zopp s (Zpos m))) * pw e) with (IZR (cond_Zopp s n) * (IZR (2 ^ (- e)) * pw e) - IZR (cond_Zopp s (Zpos m)) * pw e) by ring; rewrite K; ring).
        rewrite Rabs_mult, (Rabs_pos_eq (pw e)) by lra. rewrite <- abs_IZR.
        replace (/ 2) with (/ 2 * IZR (2 ^ (- e)) * pw e) by (rewrite Rmult_assoc, K; ring). apply Rmult_le_compat_r; [lra|].
        assert (2 * Z.abs (cond_Zopp s n * 2 ^ (- e) - cond_Zopp s (Zpos m)) <= 2 ^ (- e))%Z by (destruct s; cbn [cond_Zopp]; lia).
        assert (2 * IZR (Z.abs (cond_Zopp s n * 2 ^ (- e) - cond_Zopp s (Zpos m))) <= IZR (2 ^ (- e))) by (rewrite <- mult_IZR; apply IZR_le; assumption). lra. }
      assert (Bn : (Z.abs (cond_Zopp s n) < 2 ^ 53)%Z).
      { apply lt_IZR. rewrite abs_IZR. pose proof (Rabs_le_add _ _ _ _ D B). apply Rle_lt_trans with (1125899906842624 + / 2); [assumption|]. change (2 ^ 53)%Z with 9007199254740992%Z. lra. }
      exists (cond_Zopp s n). destruct (Z.eq_dec n 0) as [E|E].
      * rewrite E in *. split; [exact Logic.I|]. split; [destruct s; reflexivity|exact D].
      * assert (NZ : cond_Zopp s n <> 0%Z) by (destruct s; cbn [cond_Zopp]; lia).
        destruct (BN_rok (cond_Zopp s n) 0 s) as [F1 _]. { rewrite pw_0, Rmult_1_r, <- abs_IZR. apply Rle_trans with (IZR (2 ^ 53)); [apply IZR_le; lia|]. rewrite pw_IZR by lia. apply pw_le. lia. }
        destruct (BN_val (cond_Zopp s n) 0 s Bn ltac:(lia) NZ) as (p & j & _ & V). rewrite pw_0, Rmult_1_r in V.
        destruct n; [contradiction| |]; (split; [exact F1|]; split; [exact V|exact D]).
Qed.
