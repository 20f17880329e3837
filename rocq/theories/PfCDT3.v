(** Lemmas: the terms of the cumulative sum are zero or positive; the table. *)
From Coq Require Import Lia Floats.SpecFloat.
From Verif Require Import Base ModelNum ModelAsm ModelF64 ModelFFT ModelF64Arith PfF64 PfF64b PfF64d SpecRound PfRound PfValid ModelSampler SpecSampler PfSampler ModelCDT SpecCDT PfCDT PfCDT2.
From Coq Require Import Reals Lra.
Import ListNotations.
Open Scope Z_scope.

Lemma div_shape sx mx ex sy my ey : exists y f, shape (xorb sx sy) (SFdiv 53 1024 (S754_finite sx mx ex) (S754_finite sy my ey)) y f.
Proof.
  cbn [SFdiv]. unfold SFdiv_core_binary. set (m1 := Zpos mx) in *. set (m2 := Zpos my) in *.
  assert (P1 : (0 < m1)%Z) by (unfold m1; lia). assert (P2 : (0 < m2)%Z) by (unfold m2; lia).
  destruct (Zdigits_bound m1 P1) as ((A1 & A2) & A3). destruct (Zdigits_bound m2 P2) as ((B1 & B2) & B3).
  set (d1 := Zdigits2 m1) in *. set (d2 := Zdigits2 m2) in *. set (D := (d1 + ex - (d2 + ey))%Z).
  set (e' := Z.min (fexp64 D) (ex - ey)). cbv zeta. set (s := (ex - ey - e')%Z). assert (Hs : (0 <= s)%Z) by (unfold s, e'; lia).
  replace (match s with Z0 => m1 | Zpos _ => Z.shiftl m1 s | Zneg _ => 0%Z end) with (m1 * 2 ^ s)%Z.
  2: { destruct s as [|p|p] eqn:Es; [lia| |lia]. rewrite Z.shiftl_mul_pow2 by lia. reflexivity. }
  assert (Ps : (0 < 2 ^ s)%Z) by (apply Z.pow_pos_nonneg; lia).
  pose proof (Z_div_mod (m1 * 2 ^ s) m2 ltac:(lia)) as DM. destruct (Z.div_eucl (m1 * 2 ^ s) m2) as [q r]. destruct DM as [EM Hr].
  assert (Hq : (0 <= q)%Z) by nia.
  pose proof (newloc m2 q r P2 Hr Hq) as HI. eexists _, _. apply (BRA_shape _ _ _ _ _ HI).
  destruct (Z.le_gt_cases 0 (d1 + s - 1 - d2)) as [C|C].
  - assert (2 ^ (d1 + s - 1 - d2) <= q)%Z.
    { assert (m2 * 2 ^ (d1 + s - 1 - d2) <= m1 * 2 ^ s)%Z.
      { apply Z.le_trans with (2 ^ d2 * 2 ^ (d1 + s - 1 - d2))%Z; [apply Z.mul_le_mono_nonneg_r; [apply Z.pow_nonneg; lia|lia]|].
        rewrite <- Z.pow_add_r by lia. replace (d2 + (d1 + s - 1 - d2))%Z with (d1 - 1 + s)%Z by lia. rewrite Z.pow_add_r by lia. nia. }
      nia. }
    assert (0 < q)%Z by (assert (0 < 2 ^ (d1 + s - 1 - d2))%Z by (apply Z.pow_pos_nonneg; lia); lia).
    destruct (Zdigits_bound q ltac:(lia)) as ((Q1 & Q2) & Q3).
    assert (2 ^ (d1 + s - 1 - d2) < 2 ^ Zdigits2 q)%Z by lia. apply (Z.pow_lt_mono_r_iff 2) in H1; [|lia|lia].
    assert (D <= Zdigits2 q + e')%Z by (unfold D, s in *; lia). unfold e' at 1. rewrite !fexp_def. lia.
  - assert (e' <= -1074)%Z; [|rewrite fexp_def; lia].
    assert (D <= e')%Z by (unfold D, s in *; lia). assert (e' <= fexp64 D)%Z by (unfold e'; lia). rewrite fexp_def in H0. lia.
Qed.
Lemma div_nonneg x y : is_nonneg x -> is_pos y -> is_nonneg (SFdiv 53 1024 x y).
Proof.
  intros Hx Hy. destruct y as [[]|[]| |[] my ey]; try (exfalso; exact Hy). destruct x as [[]|[]| |[] mx ex]; try (exfalso; exact Hx); [exact Logic.I|exact Logic.I|].
  destruct (div_shape false mx ex false my ey) as (y & f & H). apply (shape_nonneg _ _ _ H).
Qed.
Lemma div_nonan x y : x <> S754_nan -> is_pos y -> SFdiv 53 1024 x y <> S754_nan.
Proof.
  intros Hx Hy. destruct y as [[]|[]| |[] my ey]; try (exfalso; exact Hy). destruct x as [sx|sx| |sx mx ex]; [discriminate|discriminate|congruence|].
  destruct (div_shape sx mx ex false my ey) as (y & f & H). apply (shape_nonan _ _ _ _ H).
Qed.
Lemma BN_nonan z e s : BN z e s <> S754_nan.
Proof.
  rewrite BN_BR. destruct (Z.eqb_spec z 0) as [|Hz]; [discriminate|]. pose proof (BR_shape (z <? 0) (Z.abs z) e ltac:(lia)) as H. cbv zeta in H. apply (shape_nonan _ _ _ _ H).
Qed.
Definition finite (x : f64) : Prop := match x with S754_zero _ | S754_finite _ _ _ => True | _ => False end.
Lemma sub_nonan x y : finite x -> finite y -> SFsub 53 1024 x y <> S754_nan.
Proof.
  intros Hx Hy. destruct x as [sx|sx| |sx mx ex]; try (exfalso; exact Hx); destruct y as [sy|sy| |sy my ey]; try (exfalso; exact Hy); cbn [SFsub]; try discriminate.
  - destruct (Bool.eqb sx (negb sy)); discriminate.
  - apply BN_nonan.
Qed.
Lemma sq_nonan x : x <> S754_nan -> SFmul 53 1024 (SFopp x) x <> S754_nan.
Proof.
  intros Hx. destruct x as [s|s| |s m e]; [discriminate|discriminate|congruence|]. cbn [SFopp SFmul].
  assert (E : forall p e, 0 < p -> BRA (xorb (negb s) s) p e loc_Exact <> S754_nan); [|apply E; lia].
  clear. intros p e Hp. unfold binary_round_aux. rewrite shr_fexp_exact.
  assert (N : forall q k e2, 0 <= shr_m q -> 0 <= shr_m (fst (shr q k e2))).
  { intros q k e2 Hq. destruct (Z.le_gt_cases e2 0) as [C|C]; [rewrite shr_neg by lia; exact Hq|]. rewrite shr_nat by lia. cbn [fst].
    generalize (Z.to_nat e2) as n. intros n. induction n as [|n IH]; [exact Hq|]. change (Nat.iter (S n) shr_1 q) with (shr_1 (Nat.iter n shr_1 q)).
    destruct (Nat.iter n shr_1 q) as [a b c]. cbn [shr_m] in IH. destruct a as [|[a|a|]|a]; [cbn; lia|cbn; lia|cbn; lia|cbn; lia|lia]. }
  pose proof (N (rec0 p) e (fexp64 (Zdigits2 p + e) - e) ltac:(cbn [shr_m]; lia)) as N1. destruct (shr (rec0 p) e (fexp64 (Zdigits2 p + e) - e)) as [mr e1]. cbn [fst] in N1.
  assert (N2 : 0 <= round_nearest_even (shr_m mr) (loc_of_shr_record mr)).
  { destruct mr as [a b c]. cbn [shr_m] in *. destruct b, c; cbn [loc_of_shr_record round_nearest_even]; try lia. destruct (Z.even a); lia. }
  rewrite shr_fexp_exact. set (q := round_nearest_even _ _) in *. pose proof (N (rec0 q) e1 (fexp64 (Zdigits2 q + e1) - e1) N2) as N3.
  destruct (shr (rec0 q) e1 (fexp64 (Zdigits2 q + e1) - e1)) as [mr2 e2]. cbn [fst] in N3. destruct (shr_m mr2) as [|z|z]; [discriminate| |lia]. destruct (Zle_bool e2 (1024 - 53)); discriminate.
Qed.

Section S.
Variables (ex : f64 -> f64) (Hex : exp_ok ex).
Lemma term_nonneg cf sd x : finite cf -> finite (BN x 0 false) -> is_pos (expDen sd) -> is_pos (normDen sd) -> is_nonneg (cdtTerm ex cf sd x).
Proof.
  intros Hc Hx H1 H2. unfold cdtTerm. cbv zeta. apply div_nonneg; [|exact H2]. apply Hex. apply div_nonan; [|exact H1]. apply sq_nonan. apply sub_nonan; assumption.
Qed.
Lemma int_finite x : Z.abs x <= 2 ^ 64 -> finite (BN x 0 false).
Proof.
  intros H. assert (R : (Rabs (IZR x * pw 0) <= pw 970)%R).
  { rewrite pw_0, Rmult_1_r, <- abs_IZR. apply Rle_trans with (pw 64); [rewrite <- pw_IZR by lia; apply IZR_le; lia|apply pw_le; lia]. }
  destruct (BN_rok x 0 false R) as [F _]. revert F. destruct (BN x 0 false); intros F; exact F.
Qed.
Lemma loop_spec cf sd : finite cf -> is_pos (expDen sd) -> is_pos (normDen sd) -> forall n x cdf, is_nonneg cdf -> - 2 ^ 64 <= x -> x + Z.of_nat n <= 2 ^ 64 ->
  length (cdtLoop ex cf sd n x cdf) = n /\ (forall i, (i < n)%nat -> cdtWord cdf <= nthZ (cdtLoop ex cf sd n x cdf) i < 2 ^ 64) /\ nondecreasing (cdtLoop ex cf sd n x cdf).
Proof.
  intros Hc H1 H2 n. induction n as [|n IH]; intros x cdf Hn Hl Hu; [split; [reflexivity|split; [lia|intros i j H; cbn in H; lia]]|].
  cbn [cdtLoop]. pose proof (add_le cdf _ Hn (term_nonneg cf sd x Hc (int_finite x ltac:(lia)) H1 H2)) as L. cbv zeta.
  set (c2 := SFadd 53 1024 cdf (cdtTerm ex cf sd x)) in *. pose proof (word_mono _ _ L) as W. destruct L as (_ & N2 & _).
  destruct (word_spec c2 N2) as [B _]. destruct (IH (x + 1) c2 N2 ltac:(lia) ltac:(lia)) as (I1 & I2 & I3). split; [cbn [length]; lia|]. split.
  - intros [|i] Hi; [change (cdtWord cdf <= cdtWord c2 < 2 ^ 64); lia|]. specialize (I2 i ltac:(lia)).
    change (nthZ (cdtWord c2 :: cdtLoop ex cf sd n (x + 1) c2) (S i)) with (nthZ (cdtLoop ex cf sd n (x + 1) c2) i). lia.
  - intros i j [Hij Hj]. cbn [length] in Hj. destruct i as [|i], j as [|j]; try lia.
    + change (cdtWord c2 <= nthZ (cdtLoop ex cf sd n (x + 1) c2) j). apply I2. lia.
    + change (nthZ (cdtLoop ex cf sd n (x + 1) c2) i <= nthZ (cdtLoop ex cf sd n (x + 1) c2) j). apply I3. lia.
Qed.
End S.
