(** Lemmas on binary64: exact shifts, normalisation, products with powers of two. *)
From Coq Require Import Lia Floats.SpecFloat.
From Verif Require Import Base ModelNum ModelAsm ModelF64.
Import ListNotations.
Open Scope Z_scope.

Notation fexp64 := (fexp 53 1024).
Notation rec0 m := (Build_shr_record m false false).

Lemma iter_add {A} (f : A -> A) n k x : Nat.iter (n + k) f x = Nat.iter n f (Nat.iter k f x).
Proof. induction n as [|n IH]; [reflexivity|]. change (f (Nat.iter (n + k) f x) = f (Nat.iter n f (Nat.iter k f x))). now rewrite IH. Qed.
Lemma iter_pos_nat {A} (f : A -> A) p x : SpecFloat.iter_pos f p x = Nat.iter (Pos.to_nat p) f x.
Proof.
  revert x. induction p as [p IH|p IH|]; intros x; cbn [SpecFloat.iter_pos].
  - rewrite !IH. rewrite Pos2Nat.inj_xI. rewrite <- iter_add. replace (S (2 * Pos.to_nat p)) with (Pos.to_nat p + Pos.to_nat p + 1)%nat by lia.
    rewrite (iter_add f (Pos.to_nat p + Pos.to_nat p) 1). reflexivity.
  - rewrite !IH, Pos2Nat.inj_xO, <- iter_add. f_equal. lia.
  - reflexivity.
Qed.
Lemma shr_nat mrs e n : 0 <= n -> shr mrs e n = (Nat.iter (Z.to_nat n) shr_1 mrs, e + n).
Proof. intros H. destruct n as [|p|p]; [cbn; rewrite Z.add_0_r; reflexivity| |lia]. cbn [shr]. rewrite iter_pos_nat. reflexivity. Qed.
Lemma shr_neg mrs e n : n <= 0 -> shr mrs e n = (mrs, e).
Proof. destruct n; [reflexivity|lia|reflexivity]. Qed.
Lemma shr_1_double m : shr_1 (rec0 (2 * m)) = rec0 m.
Proof. destruct m; reflexivity. Qed.
Lemma iter_double k m : Nat.iter k shr_1 (rec0 (m * 2 ^ Z.of_nat k)) = rec0 m.
Proof.
  revert m. induction k as [|k IH]; intros m; [cbn [Nat.iter nat_rect]; change (2 ^ Z.of_nat 0) with 1; now rewrite Z.mul_1_r|].
  rewrite <- Nat.add_1_r, iter_add. cbn [Nat.iter nat_rect].
  replace (m * 2 ^ Z.of_nat (k + 1)) with (2 * (m * 2 ^ Z.of_nat k)).
  - change (Nat.iter k shr_1 (shr_1 (rec0 (2 * (m * 2 ^ Z.of_nat k)))) = rec0 m). rewrite shr_1_double. apply IH.
  - rewrite Nat2Z.inj_add, Z.pow_add_r by lia. change (2 ^ Z.of_nat 1) with 2. lia.
Qed.
(** Shifting out k zeros first. *)
Lemma shr_zeros m e k n : 0 <= k -> k <= n -> shr (rec0 (m * 2 ^ k)) e n = shr (rec0 m) (e + k) (n - k).
Proof.
  intros Hk Hn. rewrite !shr_nat by lia. f_equal; [|lia].
  replace (Z.to_nat n) with (Z.to_nat (n - k) + Z.to_nat k)%nat by lia. rewrite iter_add. f_equal.
  rewrite <- (Z2Nat.id k) at 2 by lia. apply iter_double.
Qed.

Lemma digits2_pos_pow p : 2 ^ (Zpos (digits2_pos p) - 1) <= Zpos p < 2 ^ Zpos (digits2_pos p).
Proof.
  induction p as [p IH|p IH|]; cbn [digits2_pos]; [| |cbn; lia];
    rewrite Pos2Z.inj_succ; replace (Z.succ (Zpos (digits2_pos p)) - 1) with (Z.succ (Zpos (digits2_pos p) - 1)) by lia;
    rewrite !Z.pow_succ_r by lia; lia.
Qed.
Lemma digits2_pos_unique p d : 2 ^ (d - 1) <= Zpos p < 2 ^ d -> Zpos (digits2_pos p) = d.
Proof.
  intros H. pose proof (digits2_pos_pow p) as D. set (k := Zpos (digits2_pos p)) in *.
  assert (0 < k) by (unfold k; lia).
  assert (0 < d). { destruct (Z.le_gt_cases d 0); [|lia]. destruct (Z.eq_dec d 0) as [-> | ]; [cbn in H; lia|]. rewrite (Z.pow_neg_r 2 d) in H by lia. lia. }
  apply Z.le_antisymm; apply Z.lt_pred_le; apply (Z.pow_lt_mono_r_iff 2); try lia; rewrite <- Z.sub_1_r; lia.
Qed.
Lemma Zdigits_pos p : Zdigits2 (Zpos p) = Zpos (digits2_pos p). Proof. reflexivity. Qed.
Lemma Zdigits_shift m k : 0 < m -> 0 <= k -> Zdigits2 (m * 2 ^ k) = Zdigits2 m + k.
Proof.
  intros Hm Hk. destruct m as [|p|p]; try lia. assert (0 < 2 ^ k) by (apply Z.pow_pos_nonneg; lia).
  destruct (Zpos p * 2 ^ k) as [|q|q] eqn:E; try lia. rewrite !Zdigits_pos. apply digits2_pos_unique. rewrite <- E.
  pose proof (digits2_pos_pow p) as D. replace (Zpos (digits2_pos p) + k - 1) with (Zpos (digits2_pos p) - 1 + k) by lia.
  rewrite !Z.pow_add_r by lia. nia.
Qed.
Lemma Zdigits_unique m d : 2 ^ (d - 1) <= m < 2 ^ d -> 0 < m -> Zdigits2 m = d.
Proof. intros H Hm. destruct m as [|p|p]; try lia. rewrite Zdigits_pos. apply digits2_pos_unique. exact H. Qed.
Lemma Zdigits_bound m : 0 < m -> 2 ^ (Zdigits2 m - 1) <= m < 2 ^ Zdigits2 m /\ 0 < Zdigits2 m.
Proof. destruct m as [|p|p]; try lia. intros _. rewrite Zdigits_pos. split; [apply digits2_pos_pow|lia]. Qed.
Lemma shift_pos_mul d m : Zpos (shift_pos d m) = Zpos m * 2 ^ Zpos d.
Proof. unfold shift_pos. rewrite Z.mul_comm. exact (Zpower.shift_pos_correct d m). Qed.

(** binary_round on Z. *)
Definition BR (s : bool) (m e : Z) : f64 := match m with Zpos p => binary_round 53 1024 s p e | _ => S754_zero s end.
Notation BRA := (binary_round_aux 53 1024).
Lemma BR_eq s m e : 0 < m -> BR s m e =
  let f := fexp64 (Zdigits2 m + e) in if f <? e then BRA s (m * 2 ^ (e - f)) f loc_Exact else BRA s m e loc_Exact.
Proof.
  intros Hm. destruct m as [|p|p]; try lia. cbn [BR]. unfold binary_round. rewrite <- (Zdigits_pos p). cbv zeta.
  set (f := fexp64 (Zdigits2 (Zpos p) + e)). unfold shl_align.
  destruct (f - e) as [|d|d] eqn:E; destruct (Z.ltb_spec f e); try lia; try reflexivity.
  rewrite shift_pos_mul. replace (e - f) with (Zpos d) by lia. reflexivity.
Qed.
Lemma BN_BR z e s : BN z e s = if z =? 0 then S754_zero s else BR (z <? 0) (Z.abs z) e.
Proof. destruct z; reflexivity. Qed.

(** The first shift of binary_round_aux determines the result. *)
Lemma BRA_ext s m e l m' e' l' : shr_fexp 53 1024 m e l = shr_fexp 53 1024 m' e' l' -> BRA s m e l = BRA s m' e' l'.
Proof. intros H. unfold binary_round_aux. rewrite H. reflexivity. Qed.
Lemma shr_fexp_exact m e : shr_fexp 53 1024 m e loc_Exact = shr (rec0 m) e (fexp64 (Zdigits2 m + e) - e).
Proof. reflexivity. Qed.

(** A factor 2^k moves between mantissa and exponent. *)
Lemma BR_scale s m e k : 0 < m -> 0 <= k -> BR s (m * 2 ^ k) e = BR s m (e + k).
Proof.
  intros Hm Hk. assert (P : 0 < 2 ^ k) by (apply Z.pow_pos_nonneg; lia).
  rewrite !BR_eq by nia. rewrite (Zdigits_shift m k Hm Hk). replace (Zdigits2 m + k + e) with (Zdigits2 m + (e + k)) by lia.
  cbv zeta. set (f := fexp64 (Zdigits2 m + (e + k))).
  destruct (Z.ltb_spec f e) as [C1|C1], (Z.ltb_spec f (e + k)) as [C2|C2]; try lia.
  - rewrite <- Z.mul_assoc, <- Z.pow_add_r by lia. do 2 f_equal. f_equal. lia.
  - apply BRA_ext. rewrite !shr_fexp_exact.
    rewrite (Zdigits_shift m k), (Zdigits_shift m (e + k - f)) by lia.
    replace (Zdigits2 m + k + e) with (Zdigits2 m + (e + k)) by lia. replace (Zdigits2 m + (e + k - f) + f) with (Zdigits2 m + (e + k)) by lia.
    fold f. rewrite Z.sub_diag. rewrite (shr_neg _ f 0) by lia.
    replace (m * 2 ^ k) with (m * 2 ^ (e + k - f) * 2 ^ (f - e)).
    + rewrite shr_zeros by lia. rewrite shr_neg by lia. f_equal. lia.
    + rewrite <- Z.mul_assoc, <- Z.pow_add_r by lia. do 2 f_equal. lia.
  - apply BRA_ext. rewrite !shr_fexp_exact. rewrite (Zdigits_shift m k) by lia.
    replace (Zdigits2 m + k + e) with (Zdigits2 m + (e + k)) by lia. fold f. rewrite shr_zeros by lia. f_equal. lia.
Qed.
Lemma BN_scale z e k s : 0 <= k -> BN (z * 2 ^ k) e s = BN z (e + k) s.
Proof.
  intros Hk. assert (P : 0 < 2 ^ k) by (apply Z.pow_pos_nonneg; lia). rewrite !BN_BR.
  destruct (Z.eqb_spec z 0) as [-> | Hz]; [reflexivity|]. destruct (Z.eqb_spec (z * 2 ^ k) 0); [nia|].
  rewrite Z.abs_mul, (Z.abs_eq (2 ^ k)) by lia. rewrite BR_scale by lia.
  replace (z * 2 ^ k <? 0) with (z <? 0); [reflexivity|]. destruct (Z.ltb_spec z 0), (Z.ltb_spec (z * 2 ^ k) 0); try reflexivity; nia.
Qed.

(** Normal floats: 53 digits. *)
Definition normal (m e : Z) : Prop := 2 ^ 52 <= m < 2 ^ 53 /\ -1074 <= e <= 971.
Lemma normal_digits m e : normal m e -> Zdigits2 m = 53.
Proof. intros ((H1 & H2) & _). apply Zdigits_unique; [split; assumption|]. eapply Z.lt_le_trans; [|exact H1]. reflexivity. Qed.
Lemma fexp_norm d e : -1074 <= e -> d = 53 -> fexp64 (d + e) = e.
Proof. intros He ->. unfold fexp, SpecFloat.emin. lia. Qed.
Lemma BRA_normal s m e : normal m e -> exists p, m = Zpos p /\ BRA s m e loc_Exact = S754_finite s p e.
Proof.
  intros H. pose proof (normal_digits m e H) as D. destruct H as ((H1 & H2) & He1 & He2).
  destruct m as [|p|p]; [exfalso; lia| |exfalso; lia]. exists p. split; [reflexivity|].
  unfold binary_round_aux. rewrite shr_fexp_exact, D, fexp_norm, Z.sub_diag by lia. cbn [shr shr_m loc_of_shr_record round_nearest_even].
  rewrite shr_fexp_exact, D, fexp_norm, Z.sub_diag by lia. cbn [shr shr_m]. destruct (Zle_bool e (1024 - 53)) eqn:E; [reflexivity|].
  apply Z.leb_gt in E. lia.
Qed.
Lemma BRA_shift s m e k : normal m (e + k) -> 0 <= k -> BRA s (m * 2 ^ k) e loc_Exact = BRA s m (e + k) loc_Exact.
Proof.
  intros H Hk. pose proof (normal_digits m _ H) as D. pose proof H as ((H1 & H2) & He1 & He2). apply BRA_ext. rewrite !shr_fexp_exact.
  assert (0 < m) by (eapply Z.lt_le_trans; [|exact H1]; reflexivity).
  rewrite Zdigits_shift, D by lia. replace (53 + k + e) with (53 + (e + k)) by lia. rewrite fexp_norm by lia. rewrite shr_zeros by lia. f_equal. lia.
Qed.

(** Exact normalisation of a number with at most 53 digits. *)
Lemma BR_exact s m e : 0 < m < 2 ^ 53 -> -1000 <= e <= 900 ->
  exists p j, BR s m e = S754_finite s p (e - j) /\ Zpos p = m * 2 ^ j /\ 0 <= j <= 52 /\ normal (Zpos p) (e - j).
Proof.
  intros (Hm0 & Hm) He. destruct (Zdigits_bound m Hm0) as ((B1 & B2) & B3). set (d := Zdigits2 m) in *.
  assert (Hd : d <= 53). { destruct (Z.le_gt_cases d 53); [assumption|exfalso]. assert (2 ^ 53 <= 2 ^ (d - 1)) by (apply Z.pow_le_mono_r; lia). lia. }
  assert (Hn : 2 ^ 52 <= m * 2 ^ (53 - d) < 2 ^ 53).
  { replace (2 ^ 52) with (2 ^ (d - 1) * 2 ^ (53 - d)) by (rewrite <- Z.pow_add_r by lia; f_equal; lia).
    replace (2 ^ 53) with (2 ^ d * 2 ^ (53 - d)) by (rewrite <- Z.pow_add_r by lia; f_equal; lia).
    assert (0 < 2 ^ (53 - d)) by (apply Z.pow_pos_nonneg; lia). split; [apply Z.mul_le_mono_nonneg_r; lia|apply Z.mul_lt_mono_pos_r; lia]. }
  assert (N : normal (m * 2 ^ (53 - d)) (e - (53 - d))) by (split; [exact Hn|lia]).
  rewrite BR_eq by lia. cbv zeta. fold d.
  assert (Ef : fexp64 (d + e) = e - (53 - d)) by (unfold fexp, SpecFloat.emin; lia). rewrite Ef.
  destruct (BRA_normal s _ _ N) as (p & Ep & Eb). exists p, (53 - d).
  split; [|split; [symmetry; exact Ep|split; [lia|rewrite <- Ep; exact N]]].
  destruct (Z.ltb_spec (e - (53 - d)) e).
  - replace (e - (e - (53 - d))) with (53 - d) by lia. exact Eb.
  - replace (53 - d) with 0 in * by lia. rewrite Z.pow_0_r, Z.mul_1_r, Z.sub_0_r in *. exact Eb.
Qed.
Lemma BN_exact z e s : 0 < Z.abs z < 2 ^ 53 -> -1000 <= e <= 900 ->
  exists p j, BN z e s = S754_finite (z <? 0) p (e - j) /\ cond_Zopp (z <? 0) (Zpos p) = z * 2 ^ j /\ 0 <= j <= 52 /\ normal (Zpos p) (e - j).
Proof.
  intros Hz He. rewrite BN_BR. destruct (Z.eqb_spec z 0); [lia|]. destruct (BR_exact (z <? 0) (Z.abs z) e Hz He) as (p & j & E1 & E2 & E3 & E4).
  exists p, j. split; [exact E1|]. split; [|split; assumption]. destruct (Z.ltb_spec z 0); cbn [cond_Zopp]; rewrite E2; [rewrite Z.abs_neq by lia|rewrite Z.abs_eq by lia]; lia.
Qed.

(** Products with a power of two. *)
Lemma mul_pow2 s m e k : normal (Zpos m) e -> normal (Zpos m) (e + k) -> SFmul 53 1024 (S754_finite s m e) (pow2F k) = S754_finite s m (e + k).
Proof.
  intros N N'. unfold pow2F. cbn [SFmul]. rewrite Bool.xorb_false_r.
  change (Zpos (m * 2 ^ 52)) with (Zpos m * 2 ^ 52). replace (e + (k - 52)) with (e + k - 52) by lia.
  rewrite BRA_shift; [|replace (e + k - 52 + 52) with (e + k) by lia; exact N'|lia]. replace (e + k - 52 + 52) with (e + k) by lia.
  destruct (BRA_normal s _ _ N') as (p & Ep & ->). injection Ep as ->. reflexivity.
Qed.
