(** Lemmas: the operations of binary64 as roundings of real numbers. *)
From Coq Require Import Lia Floats.SpecFloat.
From Verif Require Import Base ModelNum ModelAsm ModelF64 ModelFFT ModelF64Arith PfF64 PfF64b SpecRound.
From Coq Require Import Reals Lra.
Open Scope R_scope.

Notation pw e := (powerRZ 2 e).
Lemma two0 : 2 <> 0. Proof. lra. Qed.
Lemma pw_pos e : 0 < pw e. Proof. apply powerRZ_lt. lra. Qed.
Lemma pw_add a b : pw (a + b) = pw a * pw b. Proof. apply powerRZ_add. lra. Qed.
Lemma pw_IZR k : (0 <= k)%Z -> IZR (2 ^ k) = pw k.
Proof. intros H. rewrite <- (Z2Nat.id k H). rewrite <- pow_IZR. rewrite <- pow_powerRZ. reflexivity. Qed.
Lemma pw_1 : pw 1 = 2. Proof. apply powerRZ_1. Qed.
Lemma pw_0 : pw 0 = 1. Proof. reflexivity. Qed.
Lemma pw_m1 : pw (-1) = / 2. Proof. change (pw (-1)) with (/ (2 ^ 1)). f_equal. apply pow_1. Qed.
Lemma pw_le a b : (a <= b)%Z -> pw a <= pw b.
Proof.
  intros H. replace b with (a + (b - a))%Z by lia. rewrite pw_add. pose proof (pw_pos a).
  assert (1 <= pw (b - a)). { rewrite <- pw_IZR by lia. apply IZR_le. assert (0 < 2 ^ (b - a))%Z by (apply Z.pow_pos_nonneg; lia). lia. }
  nra.
Qed.
Lemma pw_lt_inv a b : pw a < pw b -> (a < b)%Z.
Proof. intros H. destruct (Z.lt_ge_cases a b) as [?|C]; [assumption|]. apply pw_le in C. lra. Qed.

(** A shifted mantissa with its two lost bits describes a real number. *)
Definition inb (m : shr_record) (y : R) : Prop :=
  (0 <= shr_m m)%Z /\ let d := y - IZR (shr_m m) in
  match shr_r m, shr_s m with
  | false, false => d = 0
  | false, true => 0 < d < / 2
  | true, false => d = / 2
  | true, true => / 2 < d < 1
  end.
Lemma inb_shr_1 m y : inb m y -> inb (shr_1 m) (y / 2).
Proof.
  destruct m as [q r s]. unfold inb. cbn [shr_m shr_r shr_s]. intros [H0 H].
  assert (C : exists h b, q = (2 * h + Z.b2z b)%Z /\ (0 <= h)%Z /\ shr_1 (Build_shr_record q r s) = Build_shr_record h b (r || s)).
  { destruct q as [|[p|p|]|p]; try lia.
    - exists 0%Z, false. cbn. auto with zarith.
    - exists (Zpos p), true. cbn. auto with zarith.
    - exists (Zpos p), false. cbn. auto with zarith.
    - exists 0%Z, true. cbn. auto with zarith. }
  destruct C as (h & b & -> & Hh & E). rewrite E. cbn [shr_m shr_r shr_s]. split; [exact Hh|].
  rewrite plus_IZR, mult_IZR in H. cbv zeta in *.
  destruct b, r, s; cbn [orb Z.b2z] in *; lra.
Qed.
Lemma inb_shr m e n y : (0 <= n)%Z -> inb m y -> inb (fst (shr m e n)) (y * pw (- n)) /\ snd (shr m e n) = (e + n)%Z.
Proof.
  intros Hn H. rewrite shr_nat by lia. cbn [fst snd]. split; [|reflexivity].
  rewrite <- (Z2Nat.id n Hn) at 2. generalize (Z.to_nat n) as k. clear n Hn e. intros k. revert m y H.
  induction k as [|k IH]; intros m y H; [cbn [Nat.iter nat_rect]; change (- Z.of_nat 0)%Z with 0%Z; rewrite pw_0, Rmult_1_r; exact H|].
  cbn [Nat.iter nat_rect]. replace (y * pw (- Z.of_nat (S k))) with (y * pw (- Z.of_nat k) / 2).
  - apply inb_shr_1. apply IH. exact H.
  - replace (- Z.of_nat (S k))%Z with (- Z.of_nat k + -1)%Z by lia. rewrite pw_add, pw_m1. field.
Qed.
Lemma inb_round m y : inb m y -> let n := round_nearest_even (shr_m m) (loc_of_shr_record m) in
  (0 <= n)%Z /\ Rabs (IZR n - y) <= / 2 /\ (n = shr_m m \/ n = shr_m m + 1)%Z /\ (shr_r m = false -> n = shr_m m).
Proof.
  destruct m as [q r s]. unfold inb. cbn [shr_m shr_r shr_s loc_of_shr_record]. intros [H0 H]. cbv zeta in *.
  destruct r, s; cbn [round_nearest_even].
  - rewrite plus_IZR. repeat split; try lia; try discriminate. apply Rabs_le. lra.
  - destruct (Z.even q); [|rewrite plus_IZR]; repeat split; try lia; try discriminate; apply Rabs_le; lra.
  - repeat split; try lia. apply Rabs_le. lra.
  - repeat split; try lia. apply Rabs_le. lra.
Qed.

Lemma inb_bounds m y : inb m y -> IZR (shr_m m) <= y < IZR (shr_m m) + 1.
Proof. destruct m as [q r s]. unfold inb. cbn [shr_m shr_r shr_s]. intros [_ H]. cbv zeta in H. destruct r, s; lra. Qed.
Lemma fexp_def x : fexp64 x = Z.max (x - 53) (-1074). Proof. reflexivity. Qed.
Lemma Zdigits_bounds m : (0 <= m)%Z -> (0 <= Zdigits2 m)%Z /\ (m < 2 ^ Zdigits2 m)%Z /\ ((0 < m)%Z -> (2 ^ (Zdigits2 m - 1) <= m)%Z /\ (0 < Zdigits2 m)%Z).
Proof.
  intros H. destruct (Z.eq_dec m 0) as [-> | ]; [cbn; repeat split; lia|].
  destruct (Zdigits_bound m ltac:(lia)) as ((H1 & H2) & H3). repeat split; lia.
Qed.

(** The second shift of binary_round_aux is exact. *)
Lemma shr2 q f : (0 <= q <= 2 ^ 53)%Z -> (-1074 <= f)%Z ->
  exists q2 f2, shr_fexp 53 1024 q f loc_Exact = (rec0 q2, f2) /\ (0 <= q2)%Z /\ IZR q2 * pw f2 = IZR q * pw f /\ (f <= f2 <= f + 1)%Z.
Proof.
  intros Hq Hf. rewrite shr_fexp_exact.
  destruct (Z.le_gt_cases (fexp64 (Zdigits2 q + f)) f) as [C|C].
  - rewrite shr_neg by lia. exists q, f. repeat split; lia.
  - assert (q = 2 ^ 53)%Z.
    { destruct (Z.eq_dec q (2 ^ 53)) as [|Hn]; [assumption|]. exfalso. rewrite fexp_def in C.
      destruct (Zdigits_bounds q ltac:(lia)) as (D0 & D1 & D2).
      destruct (Z.eq_dec q 0) as [-> | H0]; [cbn in C; lia|]. destruct (D2 ltac:(lia)) as (D3 & D4).
      assert (2 ^ (Zdigits2 q - 1) < 2 ^ 53)%Z by lia. apply (Z.pow_lt_mono_r_iff 2) in H; lia. }
    subst q. replace (Zdigits2 (2 ^ 53)) with 54%Z by reflexivity. rewrite fexp_def. replace (Z.max (54 + f - 53) (-1074) - f)%Z with 1%Z by lia.
    exists (2 ^ 52)%Z, (f + 1)%Z. repeat split; try lia. rewrite pw_add, pw_1.
    replace (2 ^ 53)%Z with (2 ^ 52 * 2)%Z by reflexivity. rewrite mult_IZR. ring.
Qed.

Definition sgR (s : bool) : R := if s then -1 else 1.
Lemma val_fin s p e : val (S754_finite s p e) = sgR s * (IZR (Zpos p) * pw e).
Proof. unfold val, sgR. destruct s; unfold cond_Zopp; [rewrite opp_IZR|]; ring. Qed.

Lemma BRA_round s m e l y : inb (shr_record_of_loc m l) y -> (l = loc_Exact \/ (e <= fexp64 (Zdigits2 m + e))%Z) -> y * pw e <= pw 970 ->
  finF (BRA s m e l) /\ exists v, val (BRA s m e l) = sgR s * v /\ 0 <= v /\ Rabs (v - y * pw e) <= pw (-53) * (y * pw e) + pw (-1075).
Proof.
  intros Hy Hl Ho. set (f := fexp64 (Zdigits2 m + e)) in *.
  assert (Em : shr_m (shr_record_of_loc m l) = m) by (destruct l as [|[]]; reflexivity).
  pose proof (inb_bounds _ _ Hy) as By. rewrite Em in By.
  assert (Hm0 : (0 <= m)%Z) by (destruct Hy as [Hy _]; rewrite Em in Hy; exact Hy).
  assert (Ym : 0 <= y) by (apply IZR_le in Hm0; lra).
  pose proof (pw_pos e) as Pe. pose proof (pw_pos (-53)) as P53. pose proof (pw_pos (-1075)) as P1075.
  destruct (Zdigits_bounds m Hm0) as (D0 & D1 & D2).
  destruct (Z.le_gt_cases e f) as [Hf|Hf].
  - (* a shift by f - e *)
    destruct (inb_shr _ e (f - e) y ltac:(lia) Hy) as [Hi He']. destruct (shr (shr_record_of_loc m l) e (f - e)) as [mr e'] eqn:E.
    cbn [fst snd] in Hi, He'. subst e'.
    pose proof (inb_bounds _ _ Hi) as Bi. destruct (inb_round _ _ Hi) as (N0 & N1 & N2 & _).
    set (q := round_nearest_even (shr_m mr) (loc_of_shr_record mr)) in *.
    assert (Eyf : y * pw (- (f - e)) * pw f = y * pw e). { rewrite Rmult_assoc, <- pw_add. do 2 f_equal. lia. }
    assert (Hfm : (-1074 <= f)%Z) by (unfold f; rewrite fexp_def; lia).
    assert (Hq : (q <= 2 ^ 53)%Z).
    { assert (shr_m mr < 2 ^ 53)%Z; [|lia]. apply lt_IZR. rewrite pw_IZR by lia. eapply Rle_lt_trans; [apply Bi|].
      assert (y < pw (Zdigits2 m)). { eapply Rlt_le_trans; [apply By|]. rewrite <- pw_IZR by lia. change 1 with (IZR 1). rewrite <- plus_IZR. apply IZR_le. lia. }
      apply Rlt_le_trans with (pw (Zdigits2 m) * pw (- (f - e))); [apply Rmult_lt_compat_r; [apply pw_pos|assumption]|].
      rewrite <- pw_add. apply pw_le. unfold f. rewrite fexp_def. lia. }
    destruct (shr2 q f ltac:(lia) Hfm) as (q2 & f2 & E2 & Q0 & Q1 & Q2). 
    assert (EB : BRA s m e l = match q2 with Z0 => S754_zero s | Zpos p => if Zle_bool f2 (1024 - 53) then S754_finite s p f2 else S754_infinity s | Zneg _ => S754_nan end).
    { unfold binary_round_aux. change (shr_fexp 53 1024 m e l) with (shr (shr_record_of_loc m l) e (f - e)). rewrite E.
      replace (e + (f - e))%Z with f by lia. fold q. rewrite E2. reflexivity. }
    rewrite EB. clear EB.
    assert (Err : Rabs (IZR q * pw f - y * pw e) <= pw (-53) * (y * pw e) + pw (-1075)).
    { rewrite <- Eyf. replace (IZR q * pw f - y * pw (- (f - e)) * pw f) with ((IZR q - y * pw (- (f - e))) * pw f) by ring.
      rewrite Rabs_mult, (Rabs_right (pw f)) by (pose proof (pw_pos f); lra). rewrite Eyf.
      apply Rle_trans with (/ 2 * pw f); [apply Rmult_le_compat_r; [pose proof (pw_pos f); lra|assumption]|].
      rewrite <- pw_m1, <- pw_add.
      destruct (Z.le_gt_cases f (-1074)) as [Cf|Cf].
      - apply Rle_trans with (pw (-1075)); [apply pw_le; lia|]. assert (0 <= pw (-53) * (y * pw e)) by (apply Rmult_le_pos; [lra|apply Rmult_le_pos; lra]). lra.
      - assert (f = Zdigits2 m + e - 53)%Z as Ef by (revert Cf; unfold f; rewrite fexp_def; lia).
        assert (0 < m)%Z. { destruct (Z.eq_dec m 0) as [Z0|]; [|lia]. rewrite Z0 in Ef. cbn in Ef. lia. }
        destruct (D2 ltac:(lia)) as (D3 & D4).
        apply Rle_trans with (pw (-53) * (y * pw e)); [|lra].
        replace (-1 + f)%Z with (-53 + (Zdigits2 m - 1 + e))%Z by lia. rewrite pw_add. apply Rmult_le_compat_l; [lra|]. rewrite pw_add.
        apply Rmult_le_compat_r; [lra|]. rewrite <- pw_IZR by lia. apply IZR_le in D3. lra. }
    assert (Hf2 : (0 < q2)%Z -> (f2 <= 971)%Z).
    { intros _. destruct (Z.eq_dec m 0) as [Z0|Hm1].
      - assert (f <= 900)%Z; [|lia]. unfold f in *. rewrite Z0 in *. cbn [Zdigits2] in *. rewrite fexp_def in *. lia.
      - destruct (D2 ltac:(lia)) as (D3 & D4).
        assert (pw (Zdigits2 m - 1 + e) <= pw 970).
        { rewrite pw_add. eapply Rle_trans; [|exact Ho]. apply Rmult_le_compat_r; [lra|]. rewrite <- pw_IZR by lia. apply IZR_le in D3. lra. }
        assert (~ (970 < Zdigits2 m - 1 + e)%Z). { intros C. assert (pw 971 <= pw (Zdigits2 m - 1 + e)) by (apply pw_le; lia).
          replace 971%Z with (970 + 1)%Z in H0 by reflexivity. rewrite pw_add, pw_1 in H0. pose proof (pw_pos 970). lra. }
        unfold f in *. rewrite fexp_def in *. lia. }
    destruct q2 as [|p|p]; [| |lia].
    + split; [exact Logic.I|]. exists 0. split; [change (0 = sgR s * 0); ring|]. split; [lra|]. replace 0 with (IZR q * pw f) at 1 by lra. exact Err.
    + change (1024 - 53)%Z with 971%Z. rewrite (proj2 (Z.leb_le f2 971) (Hf2 ltac:(lia))). split; [exact Logic.I|]. exists (IZR (Zpos p) * pw f2).
      split; [apply val_fin|]. split; [apply Rmult_le_pos; [apply IZR_le; lia|pose proof (pw_pos f2); lra]|]. rewrite Q1. exact Err.
  - (* no shift: exact *)
    assert (l = loc_Exact) as -> by (destruct Hl; [assumption|lia]).
    assert (Ey : y = IZR m) by (destruct Hy as [_ Hy]; cbn in Hy; lra). subst y.
    unfold binary_round_aux. rewrite shr_fexp_exact. fold f. rewrite shr_neg by lia. cbn [shr_m loc_of_shr_record round_nearest_even].
    rewrite shr_fexp_exact. fold f. rewrite shr_neg by lia. cbn [shr_m].
    assert (Z0 : Rabs (IZR m * pw e - IZR m * pw e) <= pw (-53) * (IZR m * pw e) + pw (-1075)).
    { rewrite Rminus_diag_eq by reflexivity. rewrite Rabs_R0. assert (0 <= pw (-53) * (IZR m * pw e)) by (apply Rmult_le_pos; [lra|apply Rmult_le_pos; lra]). lra. }
    destruct m as [|p|p]; [| |lia].
    + split; [exact Logic.I|]. exists 0. split; [change (0 = sgR s * 0); ring|]. split; [lra|]. replace 0 with (0 * pw e) at 1 by ring. exact Z0.
    + assert (e <= 971)%Z.
      { destruct (Z.le_gt_cases e 971) as [|C]; [assumption|]. exfalso. assert (pw 971 <= pw e) by (apply pw_le; lia).
        replace 971%Z with (970 + 1)%Z in H by reflexivity. rewrite pw_add, pw_1 in H. pose proof (pw_pos 970).
        assert (1 <= IZR (Zpos p)) by (apply IZR_le; lia). nra. }
      change (1024 - 53)%Z with 971%Z. rewrite (proj2 (Z.leb_le e 971) H). split; [exact Logic.I|]. exists (IZR (Zpos p) * pw e). split; [apply val_fin|].
      split; [apply Rmult_le_pos; lra|exact Z0].
Qed.

(** x is a rounding of r. *)
Definition rok (x : f64) (r : R) : Prop := finF x /\ Rabs (val x - r) <= pw (-53) * Rabs r + pw (-1075).
Lemma rok_exact x r : finF x -> val x = r -> rok x r.
Proof.
  intros H <-. split; [exact H|]. rewrite Rminus_diag_eq by reflexivity. rewrite Rabs_R0. pose proof (pw_pos (-53)). pose proof (pw_pos (-1075)).
  pose proof (Rabs_pos (val x)). nra.
Qed.
Lemma sgR_abs s y : Rabs (sgR s * y) = Rabs y.
Proof. rewrite Rabs_mult. replace (Rabs (sgR s)) with 1; [ring|]. destruct s; unfold sgR; [rewrite Rabs_left by lra|rewrite Rabs_right by lra]; ring. Qed.
Lemma rok_sg s x v y : finF x -> val x = sgR s * v -> 0 <= y -> Rabs (v - y) <= pw (-53) * y + pw (-1075) -> rok x (sgR s * y).
Proof.
  intros H E Hy H1. split; [exact H|]. rewrite E. replace (sgR s * v - sgR s * y) with (sgR s * (v - y)) by ring.
  rewrite !sgR_abs, (Rabs_right y) by lra. exact H1.
Qed.
Lemma inb_exact m : (0 <= m)%Z -> inb (shr_record_of_loc m loc_Exact) (IZR m).
Proof. intros H. split; [exact H|]. cbn. ring. Qed.
Lemma IZR_pw_pos m e : (0 <= m)%Z -> 0 <= IZR m * pw e.
Proof. intros H. apply IZR_le in H. pose proof (pw_pos e). apply Rmult_le_pos; lra. Qed.
Lemma BRA_rok s m e : (0 <= m)%Z -> IZR m * pw e <= pw 970 -> rok (BRA s m e loc_Exact) (sgR s * (IZR m * pw e)).
Proof.
  intros Hm Ho. destruct (BRA_round s m e loc_Exact (IZR m) (inb_exact m Hm) (or_introl eq_refl) Ho) as (H1 & v & H2 & H3 & H4).
  apply (rok_sg s _ v); [exact H1|exact H2|apply IZR_pw_pos; exact Hm|exact H4].
Qed.
Lemma BR_rok s m e : (0 < m)%Z -> IZR m * pw e <= pw 970 -> rok (BR s m e) (sgR s * (IZR m * pw e)).
Proof.
  intros Hm Ho. rewrite BR_eq by exact Hm. cbv zeta. destruct (Z.ltb_spec (fexp64 (Zdigits2 m + e)) e) as [C|C]; [|apply BRA_rok; [lia|exact Ho]].
  set (f := fexp64 (Zdigits2 m + e)) in *.
  assert (E : IZR m * pw e = IZR (m * 2 ^ (e - f)) * pw f). { rewrite mult_IZR, pw_IZR, Rmult_assoc, <- pw_add by lia. do 2 f_equal. lia. }
  rewrite E in *. apply BRA_rok; [|exact Ho]. assert (0 < 2 ^ (e - f))%Z by (apply Z.pow_pos_nonneg; lia). nia.
Qed.
Lemma BN_rok z e s : Rabs (IZR z * pw e) <= pw 970 -> rok (BN z e s) (IZR z * pw e).
Proof.
  intros Ho. rewrite BN_BR. destruct (Z.eqb_spec z 0) as [-> | Hz]; [apply rok_exact; [exact Logic.I|cbn [val]; ring]|].
  assert (E : IZR z = sgR (z <? 0)%Z * IZR (Z.abs z)).
  { unfold sgR. destruct (Z.ltb_spec z 0); [rewrite Z.abs_neq, opp_IZR by lia|rewrite Z.abs_eq by lia]; ring. }
  rewrite E, Rmult_assoc in *. rewrite sgR_abs in Ho. apply BR_rok; [lia|]. rewrite Rabs_right in Ho; [exact Ho|]. apply Rle_ge, IZR_pw_pos. lia.
Qed.

Lemma val_sg s p e : val (S754_finite s p e) = IZR (cond_Zopp s (Zpos p)) * pw e. Proof. reflexivity. Qed.
Lemma val_align s p e e' : (e' <= e)%Z -> IZR (cond_Zopp s (Zpos (fst (shl_align p e e')))) * pw e' = val (S754_finite s p e).
Proof.
  intros H. rewrite shl_mul by exact H. rewrite val_fin. destruct s; cbn [cond_Zopp sgR]; rewrite ?opp_IZR, mult_IZR, pw_IZR by lia;
    replace (pw e) with (pw (e - e') * pw e') by (rewrite <- pw_add; f_equal; lia); ring.
Qed.
Lemma val_opp x : val (SFopp x) = - val x.
Proof. destruct x as [s|s| |s p e]; cbn [SFopp]; try (cbn [val]; ring). rewrite !val_fin. destruct s; cbn [negb sgR]; ring. Qed.
Lemma fin_opp x : finF x -> finF (SFopp x). Proof. destruct x; trivial. Qed.
Lemma sub_opp x y : finF x -> finF y -> val (SFsub 53 1024 x y) = val (SFadd 53 1024 x (SFopp y)) /\ (finF (SFsub 53 1024 x y) <-> finF (SFadd 53 1024 x (SFopp y))).
Proof.
  destruct x as [sx|sx| |sx mx ex], y as [sy|sy| |sy my ey]; intros Hx Hy; try (exfalso; assumption);
    cbn [SFsub SFadd SFopp]; try (split; reflexivity).
  assert (E : forall q, cond_Zopp (negb sy) (Zpos q) = (- cond_Zopp sy (Zpos q))%Z) by (intros q; destruct sy; reflexivity).
  rewrite E, Z.add_opp_r. split; reflexivity.
Qed.
Lemma add_rok x y : finF x -> finF y -> Rabs (val x + val y) <= pw 970 -> rok (SFadd 53 1024 x y) (val x + val y).
Proof.
  destruct x as [sx|sx| |sx mx ex], y as [sy|sy| |sy my ey]; intros Hx Hy Ho; try (exfalso; assumption); cbn [SFadd].
  - apply rok_exact; [destruct (Bool.eqb sx sy); exact Logic.I|]. destruct (Bool.eqb sx sy); cbn [val]; ring.
  - apply rok_exact; [exact Logic.I|]. cbn [val]; ring.
  - apply rok_exact; [exact Logic.I|]. cbn [val]; ring.
  - rewrite <- (val_align sx mx ex (Z.min ex ey)), <- (val_align sy my ey (Z.min ex ey)) in * by lia.
    rewrite <- Rmult_plus_distr_r, <- plus_IZR in *. apply BN_rok. exact Ho.
Qed.
Lemma sub_rok x y : finF x -> finF y -> Rabs (val x - val y) <= pw 970 -> rok (SFsub 53 1024 x y) (val x - val y).
Proof.
  intros Hx Hy Ho. destruct (sub_opp x y Hx Hy) as [E1 E2]. replace (val x - val y) with (val x + val (SFopp y)) in * by (rewrite val_opp; ring).
  destruct (add_rok x (SFopp y) Hx (fin_opp y Hy) Ho) as [A B]. split; [apply E2; exact A|]. rewrite E1. exact B.
Qed.
Lemma sgR_xor a b : sgR (xorb a b) = sgR a * sgR b. Proof. destruct a, b; cbn [xorb sgR]; ring. Qed.
Lemma mul_rok x y : finF x -> finF y -> Rabs (val x * val y) <= pw 970 -> rok (SFmul 53 1024 x y) (val x * val y).
Proof.
  destruct x as [sx|sx| |sx mx ex], y as [sy|sy| |sy my ey]; intros Hx Hy Ho; try (exfalso; assumption); cbn [SFmul];
    try (apply rok_exact; [exact Logic.I|]; cbn [val]; ring).
  rewrite !val_fin in *.
  replace (sgR sx * (IZR (Zpos mx) * pw ex) * (sgR sy * (IZR (Zpos my) * pw ey))) with (sgR (xorb sx sy) * (IZR (Zpos (mx * my)) * pw (ex + ey))) in *.
  - rewrite sgR_abs, Rabs_right in Ho by (apply Rle_ge, IZR_pw_pos; lia). apply BRA_rok; [lia|exact Ho].
  - rewrite sgR_xor, Pos2Z.inj_mul, mult_IZR, pw_add. ring.
Qed.

Lemma newloc b q r : (0 < b)%Z -> (0 <= r < b)%Z -> (0 <= q)%Z -> inb (shr_record_of_loc q (new_location b r)) (IZR (q * b + r) / IZR b).
Proof.
  intros Hb Hr Hq. assert (Pb : 0 < IZR b) by (apply IZR_lt; exact Hb).
  assert (E : IZR (q * b + r) / IZR b = IZR q + IZR r / IZR b) by (rewrite plus_IZR, mult_IZR; field; lra). rewrite E. clear E.
  assert (Ed : forall t, (IZR q + IZR r / IZR b) - IZR q = t <-> IZR r = t * IZR b).
  { intros t. split; intros H; [rewrite <- H; field; lra|rewrite H; field; lra]. }
  assert (L1 : (2 * r < b)%Z -> IZR r / IZR b < / 2).
  { intros H. apply IZR_lt in H. rewrite mult_IZR in H. apply (Rmult_lt_reg_r (IZR b)); [lra|]. replace (IZR r / IZR b * IZR b) with (IZR r) by (field; lra). lra. }
  assert (L2 : (b < 2 * r)%Z -> / 2 < IZR r / IZR b < 1).
  { intros H. apply IZR_lt in H. rewrite mult_IZR in H. assert (IZR r < IZR b) by (apply IZR_lt; lia).
    split; apply (Rmult_lt_reg_r (IZR b)); try lra; replace (IZR r / IZR b * IZR b) with (IZR r) by (field; lra); lra. }
  assert (L3 : (0 < r)%Z -> 0 < IZR r / IZR b). { intros H. apply IZR_lt in H. apply Rdiv_lt_0_compat; lra. }
  unfold new_location, new_location_even, new_location_odd.
  assert (C : forall k : bool, (k = true -> Z.even b = true) -> inb (shr_record_of_loc q (if Zeq_bool r 0 then loc_Exact else loc_Inexact (if k then (2 * r ?= b)%Z else match (2 * r + 1 ?= b)%Z with Gt => Gt | _ => Lt end))) (IZR q + IZR r / IZR b) \/ (k = false /\ Z.even b = true)).
  { intros k Hk. destruct (Zeq_bool r 0) eqn:Er.
    - left. apply Zeq_bool_eq in Er. subst r. split; [exact Hq|]. cbn. field. lra.
    - apply Zeq_bool_neq in Er. destruct k.
      + left. destruct (Z.compare_spec (2 * r) b) as [H|H|H]; (split; [exact Hq|]); cbn [shr_record_of_loc shr_r shr_s shr_m]; cbv zeta.
        * apply Ed. rewrite <- H, mult_IZR. lra.
        * pose proof (L1 H). pose proof (L3 ltac:(lia)). lra.
        * pose proof (L2 H). lra.
      + destruct (Z.even b) eqn:Eb; [right; auto|]. left.
        assert (Hne : (2 * r <> b)%Z). { intros <-. rewrite Z.even_mul in Eb. discriminate Eb. }
        destruct (Z.compare_spec (2 * r + 1) b) as [H|H|H]; (split; [exact Hq|]); cbn [shr_record_of_loc shr_r shr_s shr_m]; cbv zeta.
        * pose proof (L1 ltac:(lia)). pose proof (L3 ltac:(lia)). lra.
        * pose proof (L1 ltac:(lia)). pose proof (L3 ltac:(lia)). lra.
        * pose proof (L2 ltac:(lia)). lra. }
  destruct (Z.even b) eqn:Eb.
  - destruct (C true ltac:(auto)) as [H|[H _]]; [exact H|discriminate].
  - destruct (C false ltac:(discriminate)) as [H|[_ H]]; [|discriminate].
    destruct (Zeq_bool r 0); [exact H|]. destruct (2 * r + 1 ?= b)%Z; exact H.
Qed.

Lemma div_rok x sy my ey : finF x -> Rabs (val x / val (S754_finite sy my ey)) <= pw 970 ->
  rok (SFdiv 53 1024 x (S754_finite sy my ey)) (val x / val (S754_finite sy my ey)).
Proof.
  destruct x as [sx|sx| |sx mx ex]; intros Hx Ho; try (exfalso; assumption); cbn [SFdiv].
  { apply rok_exact; [exact Logic.I|]. cbn [val]. unfold Rdiv. rewrite Rmult_0_l. reflexivity. }
  rewrite !val_fin in *. unfold SFdiv_core_binary. set (m1 := Zpos mx) in *. set (m2 := Zpos my) in *.
  assert (P1 : (0 < m1)%Z) by (unfold m1; lia). assert (P2 : (0 < m2)%Z) by (unfold m2; lia).
  destruct (Zdigits_bound m1 P1) as ((A1 & A2) & A3). destruct (Zdigits_bound m2 P2) as ((B1 & B2) & B3).
  set (d1 := Zdigits2 m1) in *. set (d2 := Zdigits2 m2) in *. set (D := (d1 + ex - (d2 + ey))%Z).
  set (e' := Z.min (fexp64 D) (ex - ey)). cbv zeta. set (s := (ex - ey - e')%Z). assert (Hs : (0 <= s)%Z) by (unfold s, e'; lia).
  replace (match s with Z0 => m1 | Zpos _ => Z.shiftl m1 s | Zneg _ => 0%Z end) with (m1 * 2 ^ s)%Z.
  2: { destruct s as [|p|p] eqn:Es; [lia| |lia]. rewrite Z.shiftl_mul_pow2 by lia. reflexivity. }
  assert (Ps : (0 < 2 ^ s)%Z) by (apply Z.pow_pos_nonneg; lia).
  pose proof (Z_div_mod (m1 * 2 ^ s) m2 ltac:(lia)) as DM. destruct (Z.div_eucl (m1 * 2 ^ s) m2) as [q r]. destruct DM as [EM Hr].
  assert (Hq : (0 <= q)%Z) by nia.
  assert (R2 : 0 < IZR m2) by (apply IZR_lt; exact P2). assert (R1 : 0 < IZR m1) by (apply IZR_lt; exact P1).
  pose proof (newloc m2 q r P2 Hr Hq) as HI. replace (q * m2 + r)%Z with (m1 * 2 ^ s)%Z in HI by lia.
  set (y := IZR (m1 * 2 ^ s) / IZR m2) in *.
  assert (Ey : y * pw e' = IZR m1 * pw ex / (IZR m2 * pw ey)).
  { unfold y. rewrite mult_IZR, pw_IZR by lia. replace (pw ex) with (pw s * pw e' * pw ey).
    - field. split; [pose proof (pw_pos ey)|]; lra.
    - rewrite <- !pw_add. f_equal. unfold s. lia. }
  assert (Ev : sgR sx * (IZR m1 * pw ex) / (sgR sy * (IZR m2 * pw ey)) = sgR (xorb sx sy) * (y * pw e')).
  { rewrite Ey, sgR_xor. pose proof (pw_pos ey). destruct sx, sy; cbn [sgR]; field; repeat split; lra. }
  rewrite Ev in *. assert (Y0 : 0 <= y * pw e'). { rewrite Ey. apply Rlt_le, Rdiv_lt_0_compat; apply Rmult_lt_0_compat; try lra; apply pw_pos. }
  rewrite sgR_abs, Rabs_right in Ho by lra.
  destruct (BRA_round (xorb sx sy) q e' (new_location m2 r) y HI) as (F1 & v & F2 & F3 & F4); [right|exact Ho|apply (rok_sg _ _ v); assumption].
  destruct (Z.le_gt_cases 0 (d1 + s - 1 - d2)) as [C|C].
  - assert (2 ^ (d1 + s - 1 - d2) <= q)%Z.
    { assert (m2 * 2 ^ (d1 + s - 1 - d2) <= m1 * 2 ^ s)%Z.
      { apply Z.le_trans with (2 ^ d2 * 2 ^ (d1 + s - 1 - d2))%Z; [apply Z.mul_le_mono_nonneg_r; [apply Z.pow_nonneg; lia|lia]|].
        rewrite <- Z.pow_add_r by lia. replace (d2 + (d1 + s - 1 - d2))%Z with (d1 - 1 + s)%Z by lia. rewrite Z.pow_add_r by lia. nia. }
      nia. }
    assert (0 < q)%Z by (assert (0 < 2 ^ (d1 + s - 1 - d2))%Z by (apply Z.pow_pos_nonneg; lia); lia).
    destruct (Zdigits_bound q ltac:(lia)) as ((Q1 & Q2) & Q3).
    assert (2 ^ (d1 + s - 1 - d2) < 2 ^ Zdigits2 q)%Z by lia. apply (Z.pow_lt_mono_r_iff 2) in H1; [|lia|lia].
    assert (D <= Zdigits2 q + e')%Z by (unfold D, s in *; lia). unfold e' at 1. rewrite !fexp_def. lia.
  - assert (e' <= -1074)%Z; [|rewrite fexp_def; lia].
    assert (D <= e')%Z by (unfold D, s in *; lia). assert (e' <= fexp64 D)%Z by (unfold e'; lia). rewrite fexp_def in H0. lia.
Qed.

Lemma BN_val z e s : (Z.abs z < 2 ^ 53)%Z -> (-1000 <= e <= 900)%Z -> z <> 0%Z ->
  exists p j, BN z e s = S754_finite (z <? 0)%Z p (e - j) /\ val (BN z e s) = IZR z * pw e.
Proof.
  intros Hz He H0. destruct (BN_exact z e s ltac:(lia) He) as (p & j & E & Ep & Hj & _). exists p, j. split; [exact E|].
  rewrite E, val_sg, Ep, mult_IZR, pw_IZR by lia. replace (pw e) with (pw j * pw (e - j)) by (rewrite <- pw_add; f_equal; lia). ring.
Qed.
Lemma BN_pow2 k : (k <= 64)%nat -> exists s p e, BN (2 ^ Z.of_nat k) 0 false = S754_finite s p e /\ val (BN (2 ^ Z.of_nat k) 0 false) = IZR (2 ^ Z.of_nat k).
Proof.
  intros Hk. assert (E0 : BN (2 ^ Z.of_nat k) 0 false = BN 1 (Z.of_nat k) false) by (rewrite <- (Z.mul_1_l (2 ^ Z.of_nat k)), BN_scale by lia; reflexivity). rewrite E0.
  destruct (BN_val 1 (Z.of_nat k) false ltac:(lia) ltac:(lia) ltac:(lia)) as (p & j & E & Ev). eexists _, p, _. split; [exact E|]. rewrite Ev, pw_IZR by lia. ring.
Qed.
Lemma roundGo_near x : finF x -> Rabs (IZR (roundGo x) - val x) <= / 2.
Proof.
  destruct x as [s|s| |s m e]; intros H; try (exfalso; assumption); cbn [roundGo].
  - cbn [val]. rewrite Rminus_diag_eq by reflexivity. rewrite Rabs_R0. lra.
  - rewrite val_fin. replace (IZR (cond_Zopp s (roundZ upAway (Zpos m) e))) with (sgR s * IZR (roundZ upAway (Zpos m) e)) by (destruct s; cbn [cond_Zopp sgR]; rewrite ?opp_IZR; ring).
    rewrite <- Rmult_minus_distr_l, sgR_abs.
    destruct (Z.le_gt_cases 0 e) as [C|C].
    + unfold roundZ. rewrite (proj2 (Z.leb_le 0 e) C). rewrite mult_IZR, pw_IZR by lia. rewrite Rminus_diag_eq by reflexivity. rewrite Rabs_R0. lra.
    + destruct (roundZ_near upAway (Zpos m) e away_rule ltac:(lia) C) as [B _]. set (n := roundZ upAway (Zpos m) e) in *.
      assert (Pk : 0 < pw (- e)) by apply pw_pos.
      assert (Ee : pw e = / pw (- e)). { apply Rmult_eq_reg_r with (pw (- e)); [|lra]. rewrite <- pw_add, Rinv_l by lra. replace (e + - e)%Z with 0%Z by lia. reflexivity. }
      apply IZR_le in B. rewrite mult_IZR, <- !Rabs_Zabs, minus_IZR, mult_IZR, pw_IZR in B by lia. rewrite Rabs_minus_sym.
      rewrite Ee. replace (IZR (Zpos m) * / pw (- e) - IZR n) with ((IZR (Zpos m) - IZR n * pw (- e)) * / pw (- e)) by (field; lra).
      rewrite Rabs_mult, (Rabs_right (/ pw (- e))) by (apply Rle_ge, Rlt_le, Rinv_0_lt_compat; lra).
      apply (Rmult_le_reg_r (pw (- e))); [lra|]. rewrite Rmult_assoc, Rinv_l by lra. lra.
Qed.

Lemma f64_std cexp : stdmodel (f64Arith cexp) finF val (pw (-53)) (pw (-1075)) (pw 970).
Proof.
  constructor; cbn [car a0 aadd asub amul adivn aofZ around f64Arith].
  - split; [exact Logic.I|reflexivity].
  - exact add_rok.
  - exact sub_rok.
  - exact mul_rok.
  - intros x n Hx Hn (k & Ek) Ho.
    assert (Hk : (k <= 64)%nat). { subst n. destruct (Nat.le_gt_cases k 64) as [|C]; [assumption|]. exfalso. destruct Hn as [_ Hn]. apply Z.pow_le_mono_r_iff in Hn; lia. }
    subst n. destruct (BN_pow2 k Hk) as (s & p & e & E & Ev). rewrite E in *. rewrite <- Ev in *. apply div_rok; assumption.
  - intros z Ho. replace (IZR z) with (IZR z * pw 0) in * by (rewrite pw_0; ring). apply BN_rok. exact Ho.
  - intros k Hk. destruct (BN_pow2 k Hk) as (s & p & e & E & Ev). exact Ev.
  - exact roundGo_near.
Qed.
