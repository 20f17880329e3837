(** Lemmas: the operations of binary64 return binary64 numbers (valid_binary). *)
From Coq Require Import Lia Floats.SpecFloat.
From Verif Require Import Base ModelNum ModelAsm ModelF64 ModelFFT ModelF64Arith PfF64 PfF64b SpecRound PfRound.
From Coq Require Import Reals Lra.
Open Scope Z_scope.

Notation vb := (valid_binary 53 1024).
Lemma vb_intro s p e : fexp64 (Zdigits2 (Zpos p) + e) = e -> e <= 971 -> vb (S754_finite s p e) = true.
Proof.
  intros H1 H2. change ((Zeq_bool (fexp64 (Zdigits2 (Zpos p) + e)) e && (e <=? 1024 - 53))%bool = true). rewrite H1, (proj1 (Zeq_is_eq_bool e e) eq_refl), (proj2 (Z.leb_le e (1024 - 53)) H2). reflexivity.
Qed.
Lemma vb_elim s p e : vb (S754_finite s p e) = true -> fexp64 (Zdigits2 (Zpos p) + e) = e.
Proof. intros H. change ((Zeq_bool (fexp64 (Zdigits2 (Zpos p) + e)) e && (e <=? 1024 - 53))%bool = true) in H. apply andb_prop in H as [H _]. apply Zeq_bool_eq in H. exact H. Qed.

Lemma digits_ge m d : 2 ^ d <= m -> 0 <= d -> d < Zdigits2 m.
Proof.
  intros H Hd. assert (0 < 2 ^ d) by (apply Z.pow_pos_nonneg; lia). destruct (Zdigits_bound m ltac:(lia)) as ((_ & H1) & H2).
  apply (Z.pow_lt_mono_r_iff 2); lia.
Qed.
Lemma BRA_valid s m e : 0 <= m -> e <= fexp64 (Zdigits2 m + e) -> vb (BRA s m e loc_Exact) = true.
Proof.
  intros Hm Hf. set (f := fexp64 (Zdigits2 m + e)) in *. pose proof (inb_exact m Hm) as Hy.
  destruct (inb_shr _ e (f - e) _ ltac:(lia) Hy) as [Hi He']. destruct (shr (shr_record_of_loc m loc_Exact) e (f - e)) as [mr e'] eqn:E.
  cbn [fst snd] in Hi, He'. subst e'. pose proof (inb_bounds _ _ Hi) as Bi. destruct (inb_round _ _ Hi) as (N0 & _ & N2 & _).
  set (q := round_nearest_even (shr_m mr) (loc_of_shr_record mr)) in *.
  assert (EB : BRA s m e loc_Exact = let '(mr2, f2) := shr_fexp 53 1024 q f loc_Exact in
    match shr_m mr2 with Z0 => S754_zero s | Zpos p => if Zle_bool f2 (1024 - 53) then S754_finite s p f2 else S754_infinity s | Zneg _ => S754_nan end).
  { unfold binary_round_aux. change (shr_fexp 53 1024 m e loc_Exact) with (shr (shr_record_of_loc m loc_Exact) e (f - e)). rewrite E.
    replace (e + (f - e)) with f by lia. fold q. reflexivity. }
  rewrite EB. clear EB. destruct (Zdigits_bounds m Hm) as (D0 & D1 & D2).
  assert (Hq : q <= 2 ^ 53).
  { assert (shr_m mr < 2 ^ 53); [|lia]. apply lt_IZR. rewrite pw_IZR by lia. eapply Rle_lt_trans; [apply Bi|].
    assert (IZR m < pw (Zdigits2 m))%R by (rewrite <- pw_IZR by lia; apply IZR_lt; lia).
    apply Rlt_le_trans with (pw (Zdigits2 m) * pw (- (f - e)))%R; [apply Rmult_lt_compat_r; [apply pw_pos|assumption]|].
    rewrite <- pw_add. apply pw_le. unfold f. rewrite fexp_def. lia. }
  assert (Hq2 : -1074 < f -> 2 ^ 52 <= q).
  { intros Cf. assert (f = Zdigits2 m + e - 53) as Ef by (revert Cf; unfold f; rewrite fexp_def; lia).
    assert (Hm1 : 0 < m). { destruct (Z.eq_dec m 0) as [Z0|]; [|lia]. rewrite Z0 in Ef. cbn in Ef. lia. }
    destruct (D2 Hm1) as (D3 & D4). assert (2 ^ 52 < shr_m mr + 1); [|lia]. apply lt_IZR. rewrite plus_IZR. eapply Rle_lt_trans; [|apply Bi].
    rewrite pw_IZR by lia. replace 52 with (Zdigits2 m - 1 + - (f - e)) at 1 by lia. rewrite pw_add. apply Rmult_le_compat_r; [apply Rlt_le, pw_pos|].
    rewrite <- pw_IZR by lia. apply IZR_le. exact D3. }
  assert (Hfm : -1074 <= f) by (unfold f; rewrite fexp_def; lia).
  clearbody q f. clear Bi Hi E mr N2. rewrite shr_fexp_exact.
  destruct (Z.le_gt_cases (fexp64 (Zdigits2 q + f)) f) as [C|C].
  - rewrite shr_neg by lia. cbn [shr_m]. destruct q as [|p|p]; [reflexivity| |reflexivity].
    destruct (Z.leb f (1024 - 53)) eqn:Ef; [|reflexivity]. apply vb_intro; [|apply Z.leb_le in Ef; lia].
    destruct (Z.eq_dec f (-1074)) as [C1|C1]; [rewrite fexp_def in *; lia|].
    pose proof (digits_ge (Zpos p) 52 (Hq2 ltac:(lia)) ltac:(lia)). rewrite fexp_def in *. lia.
  - assert (q = 2 ^ 53).
    { destruct (Z.eq_dec q (2 ^ 53)) as [|Hn]; [assumption|]. exfalso. rewrite fexp_def in C.
      destruct (Zdigits_bounds q ltac:(lia)) as (E0 & E1 & E2).
      destruct (Z.eq_dec q 0) as [-> | H0]; [cbn in C; lia|]. destruct (E2 ltac:(lia)) as (E3 & E4).
      assert (2 ^ (Zdigits2 q - 1) < 2 ^ 53) by lia. apply (Z.pow_lt_mono_r_iff 2) in H; lia. }
    subst q. replace (Zdigits2 (2 ^ 53)) with 54 by reflexivity. rewrite fexp_def. replace (Z.max (54 + f - 53) (-1074) - f) with 1 by lia.
    change (shr (rec0 (2 ^ 53)) f 1) with (rec0 (2 ^ 52), f + 1). cbn [shr_m].
    change (2 ^ 52) with (Zpos (2 ^ 52)). destruct (Z.leb (f + 1) (1024 - 53)) eqn:Ef; [|reflexivity]. apply vb_intro; [|apply Z.leb_le in Ef; lia].
    replace (Zdigits2 (Zpos (2 ^ 52))) with 53 by reflexivity. rewrite fexp_def. lia.
Qed.
Lemma BR_valid s m e : 0 < m -> vb (BR s m e) = true.
Proof.
  intros Hm. rewrite BR_eq by exact Hm. cbv zeta. set (f := fexp64 (Zdigits2 m + e)). destruct (Z.ltb_spec f e) as [C|C]; [|apply BRA_valid; [lia|exact C]].
  assert (0 < 2 ^ (e - f)) by (apply Z.pow_pos_nonneg; lia). apply BRA_valid; [nia|]. rewrite Zdigits_shift by lia. replace (Zdigits2 m + (e - f) + f) with (Zdigits2 m + e) by lia. fold f. lia.
Qed.
Lemma BN_valid z e s : vb (BN z e s) = true.
Proof. rewrite BN_BR. destruct (Z.eqb_spec z 0); [reflexivity|]. apply BR_valid. lia. Qed.
Lemma opp_valid x : vb (SFopp x) = vb x.
Proof. destruct x; reflexivity. Qed.
Lemma add_valid x y : vb x = true -> vb y = true -> vb (SFadd 53 1024 x y) = true.
Proof.
  destruct x as [sx|sx| |sx mx ex], y as [sy|sy| |sy my ey]; intros Hx Hy; cbn [SFadd]; try exact Hx; try exact Hy; try reflexivity;
    try (destruct (Bool.eqb sx sy); reflexivity). apply BN_valid.
Qed.
Lemma sub_valid x y : vb x = true -> vb y = true -> vb (SFsub 53 1024 x y) = true.
Proof.
  destruct x as [sx|sx| |sx mx ex], y as [sy|sy| |sy my ey]; intros Hx Hy; cbn [SFsub]; try exact Hx; try exact Hy; try reflexivity;
    try (destruct (Bool.eqb sx (negb sy)); reflexivity). apply BN_valid.
Qed.
Lemma mul_valid x y : vb x = true -> vb y = true -> vb (SFmul 53 1024 x y) = true.
Proof.
  destruct x as [sx|sx| |sx mx ex], y as [sy|sy| |sy my ey]; intros Hx Hy; cbn [SFmul]; try reflexivity.
  apply vb_elim in Hx. apply vb_elim in Hy. apply BRA_valid; [lia|]. rewrite fexp_def in *.
  destruct (Zdigits_bound (Zpos mx) ltac:(lia)) as ((A1 & _) & A3). destruct (Zdigits_bound (Zpos my) ltac:(lia)) as ((B1 & _) & B3).
  set (dx := Zdigits2 (Zpos mx)) in *. set (dy := Zdigits2 (Zpos my)) in *.
  assert (H : dx - 1 + (dy - 1) < Zdigits2 (Zpos (mx * my))).
  { apply digits_ge; [|lia]. rewrite Z.pow_add_r, Pos2Z.inj_mul by lia. apply Z.mul_le_mono_nonneg; try assumption; apply Z.pow_nonneg; lia. }
  lia.
Qed.
Lemma fma_valid x y z : vb x = true -> vb y = true -> vb z = true -> vb (fma64 x y z) = true.
Proof.
  intros Hx Hy Hz. assert (vb (SFadd 53 1024 (SFmul 53 1024 x y) z) = true) by (apply add_valid; [apply mul_valid|]; assumption).
  unfold fma64. destruct x; try assumption. destruct y; try assumption. destruct z; try assumption. apply BN_valid.
Qed.
Lemma rnd_valid up x : vb x = true -> vb (rndF up x) = true.
Proof. intros Hx. destruct x as [s|s| |s m e]; try exact Hx. cbn [rndF]. destruct (0 <=? e); [exact Hx|]. destruct (roundZ up (Zpos m) e); [reflexivity|apply BN_valid|apply BN_valid]. Qed.
