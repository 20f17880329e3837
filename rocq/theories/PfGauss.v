(** Lemmas: the Gaussian sampler. *)
From Coq Require Import Floats.SpecFloat.
From Verif Require Import Base ModelNum ModelAsm ModelF64 ModelF64Arith ModelGauss SpecNum SpecRound SpecGauss PfNum PfFFT3 PfRound.
From Coq Require Import Reals Lra Lia.
Open Scope Z_scope.

(** Signs. *)
Lemma opp_opp x : SFopp (SFopp x) = x.
Proof. destruct x as [[|]|[|]| |[|] m e]; reflexivity. Qed.
Lemma bra_opp p e s m x l : binary_round_aux p e (negb s) m x l = SFopp (binary_round_aux p e s m x l).
Proof.
  unfold binary_round_aux. destruct (shr_fexp p e m x l) as [mrs e1]. destruct (shr_fexp p e _ e1 loc_Exact) as [mrs2 e2].
  destruct (shr_m mrs2); try reflexivity. destruct (e2 <=? e - p); reflexivity.
Qed.
Lemma mul_opp_l p e x y : SFmul p e (SFopp x) y = SFopp (SFmul p e x y).
Proof.
  destruct x as [sx|sx| |sx mx ex], y as [sy|sy| |sy my ey]; cbn [SFopp SFmul]; rewrite ?Bool.negb_xorb_l; try reflexivity.
  rewrite <- Bool.negb_xorb_l. apply bra_opp.
Qed.
Lemma mul_opp_r p e x y : SFmul p e x (SFopp y) = SFopp (SFmul p e x y).
Proof.
  destruct x as [sx|sx| |sx mx ex], y as [sy|sy| |sy my ey]; cbn [SFopp SFmul]; rewrite <- ?Bool.negb_xorb_r; try reflexivity.
  apply bra_opp.
Qed.
Lemma flip_half h : flip h / 2 = h / 2 /\ Z.land (flip h) 1 = 1 - Z.land h 1.
Proof.
  unfold flip. change 1 with (Z.ones 1). rewrite !Z.land_ones by lia. change (2 ^ 1) with 2. change (Z.ones 1) with 1.
  pose proof (Zmod_even h) as E. destruct (Z.even h); pose proof (Z.div_mod h 2 ltac:(lia)) as D; rewrite E in D.
  - replace (h + 1) with (1 + (h / 2) * 2) by lia. rewrite Z.div_add, Z.mod_add by lia. rewrite E. split; reflexivity.
  - replace (h - 1) with (0 + (h / 2) * 2) by lia. rewrite Z.div_add, Z.mod_add by lia. rewrite E. split; reflexivity.
Qed.
Lemma flip_shr h n : 1 <= n -> Z.shiftr (flip h) n = Z.shiftr h n.
Proof.
  intros Hn. replace n with (1 + (n - 1)) by lia. rewrite <- !Z.shiftr_shiftr by lia. f_equal. rewrite !Z.shiftr_div_pow2 by lia. apply flip_half.
Qed.
Lemma flip_uniform h : uniformFloat (flip h) = uniformFloat h.
Proof. unfold uniformFloat. now rewrite flip_shr by lia. Qed.
Lemma land1 h : Z.land h 1 = 0 \/ Z.land h 1 = 1.
Proof. assert (Z.land h 1 = h mod 2) as -> by (apply (Z.land_ones h 1); lia). pose proof (Z.mod_pos_bound h 2). lia. Qed.

Section Sym.
Variables lg ex : f64 -> f64.
Variable s : nat -> Z.
Notation s' := (fun n => flip (s n)).
Lemma tail_flip fuel : forall pos, tailLoop lg s' fuel pos = tailLoop lg s fuel pos.
Proof. induction fuel as [|fuel IH]; intros pos; [reflexivity|]. cbn [tailLoop]. rewrite !flip_uniform, IH. reflexivity. Qed.
Lemma norm_flip fuel : forall pos, normFloat lg ex s' fuel pos = option_map (fun r => (SFopp (fst r), snd r)) (normFloat lg ex s fuel pos).
Proof.
  induction fuel as [|fuel IH]; intros pos; [reflexivity|]. cbn [normFloat]. rewrite flip_uniform, tail_flip, IH, !flip_shr by lia. rewrite (proj2 (flip_half (s pos))).
  set (i := Z.land (Z.shiftr (s pos) 1) 127). set (u := Z.shiftr (s pos) 8). set (x := SFmul 53 1024 (BN u 0 false) (wn i)).
  assert (E : (if 0 <? 1 - Z.land (s pos) 1 then SFopp x else x) = SFopp (if 0 <? Z.land (s pos) 1 then SFopp x else x)).
  { destruct (land1 (s pos)) as [-> | ->]; cbn; rewrite ?opp_opp; reflexivity. }
  rewrite E. set (x1 := if 0 <? Z.land (s pos) 1 then SFopp x else x). destruct (u <? kn i); [reflexivity|]. destruct (i =? 0).
  - destruct (tailLoop lg s fuel (S pos)) as [[y p]|]; [|reflexivity]. cbn [option_map fst snd]. destruct (land1 (s pos)) as [-> | ->]; cbn; rewrite ?opp_opp; reflexivity.
  - rewrite !mul_opp_r, mul_opp_l, opp_opp. destruct (SFltb _ _); reflexivity.
Qed.
Lemma round_opp x : roundGo (SFopp x) = - roundGo x.
Proof. destruct x as [a|a| |[|] m e]; cbn; lia. Qed.
Lemma int64_opp x : eqm (2 ^ 64) (int64Of (SFopp x)) (- int64Of x).
Proof.
  unfold int64Of. assert (D : eqm (2 ^ 64) (- 2 ^ 63) (- - 2 ^ 63)) by (exists (-1); reflexivity).
  pose proof (round_opp x) as R. destruct x as [a|a| |a m e]; try exact D.
  - exists 0. reflexivity.
  - cbn [SFopp] in *. rewrite R. set (n := roundGo (S754_finite a m e)). clearbody n. clear -D.
    destruct ((- 2 ^ 63 <=? n) && (n <? 2 ^ 63))%bool eqn:E; destruct ((- 2 ^ 63 <=? - n) && (- n <? 2 ^ 63))%bool eqn:E'; try exact D.
    + reflexivity.
    + apply andb_prop in E. destruct E as [E1 E2]. apply Z.leb_le in E1. apply Z.ltb_lt in E2.
      assert (n = - 2 ^ 63) as ->; [|exact D]. apply Bool.andb_false_iff in E'. destruct E' as [E' | E']; [apply Z.leb_gt in E'|apply Z.ltb_ge in E']; lia.
    + apply andb_prop in E'. destruct E' as [E1 E2]. apply Z.leb_le in E1. apply Z.ltb_lt in E2.
      assert (n = 2 ^ 63) as ->; [|exact D]. apply Bool.andb_false_iff in E. destruct E as [E | E]; [apply Z.leb_gt in E|apply Z.ltb_ge in E]; lia.
Qed.
Lemma sample_flip sg w sd fuel pos : 0 <= w <= 64 ->
  sample1 lg ex s' sg w sd fuel pos = option_map (fun r => (twrap sg w (- fst r), snd r)) (sample1 lg ex s sg w sd fuel pos).
Proof.
  intros Hw. unfold sample1. rewrite norm_flip. destruct (normFloat lg ex s fuel pos) as [[x p]|]; [|reflexivity]. cbn [option_map fst snd]. do 2 f_equal.
  apply twrap_cong. rewrite mul_opp_l. assert (P : (2 ^ w | 2 ^ 64)) by (exists (2 ^ (64 - w)); rewrite <- Z.pow_add_r by lia; f_equal; lia).
  pose proof (twrap_eqm sg w (int64Of (SFmul 53 1024 x sd))) as E. rewrite E. destruct (int64_opp (SFmul 53 1024 x sd)) as [t Ht]. destruct P as [q Hq]. exists (t * q). rewrite Ht, Hq. ring.
Qed.
End Sym.

(** Exact operations on binary32. *)
Lemma digits_unique v d : 0 <= v -> 0 < d -> 2 ^ (d - 1) <= v < 2 ^ d -> Zdigits2 v = d.
Proof.
  intros H0 Hd [H1 H2]. destruct (Zdigits_bounds v H0) as (A & B & C). assert (0 < 2 ^ (d - 1)) by (apply Z.pow_pos_nonneg; lia). destruct (C ltac:(lia)) as [C1 C2].
  destruct (Z.lt_trichotomy (Zdigits2 v) d) as [L | [-> | L]]; [|reflexivity|].
  - assert (2 ^ Zdigits2 v <= 2 ^ (d - 1)) by (apply Z.pow_le_mono_r; lia). lia.
  - assert (2 ^ d <= 2 ^ (Zdigits2 v - 1)) by (apply Z.pow_le_mono_r; lia). lia.
Qed.
Lemma bra24 m e : Zdigits2 (Zpos m) = 24 -> -149 <= e <= 100 -> binary_round_aux 24 128 false (Zpos m) e loc_Exact = S754_finite false m e.
Proof.
  intros Hd He. unfold binary_round_aux, shr_fexp. rewrite Hd. unfold fexp, emin. replace (Z.max (24 + e - 24) (3 - 128 - 24)) with e by lia. rewrite Z.sub_diag. cbn [shr shr_record_of_loc].
  cbn [shr_m loc_of_shr_record shr_record_of_loc round_nearest_even]. rewrite Hd. replace (Z.max (24 + e - 24) (3 - 128 - 24)) with e by lia. rewrite Z.sub_diag. cbn [shr shr_m].
  rewrite (proj2 (Z.leb_le e (128 - 24)) ltac:(lia)). reflexivity.
Qed.
Lemma shift_pos_mul n p : Zpos (shift_pos n p) = Zpos p * 2 ^ Zpos n.
Proof. rewrite shift_pos_correct. apply Z.mul_comm. Qed.
Lemma bn24 v e : 0 < v < 2 ^ 24 -> -100 <= e <= 50 -> exists m j, 0 <= j /\ binary_normalize 24 128 v e false = S754_finite false m (e - j) /\ Zpos m = v * 2 ^ j /\ j = 24 - Zdigits2 v.
Proof.
  intros Hv He. destruct v as [|p|p]; [lia| |lia]. cbn [binary_normalize]. unfold binary_round.
  destruct (Zdigits_bounds (Zpos p) ltac:(lia)) as (D1 & D2 & D3). destruct (D3 ltac:(lia)) as [D4 D5].
  assert (D6 : Zdigits2 (Zpos p) <= 24). { destruct (Z.le_gt_cases (Zdigits2 (Zpos p)) 24); [assumption|]. assert (2 ^ 24 <= 2 ^ (Zdigits2 (Zpos p) - 1)) by (apply Z.pow_le_mono_r; lia). lia. }
  change (Zpos (digits2_pos p)) with (Zdigits2 (Zpos p)). set (d := Zdigits2 (Zpos p)) in *.
  assert (F : fexp 24 128 (d + e) = e - (24 - d)) by (unfold fexp, emin; lia). rewrite F. unfold shl_align. replace (e - (24 - d) - e) with (- (24 - d)) by lia.
  destruct (24 - d) as [|q|q] eqn:E; [| |lia].
  - exists p, 0. cbn [Z.opp]. rewrite Z.sub_0_r. split; [lia|]. split; [apply bra24; [fold d|]; lia|]. lia.
  - cbn [Z.opp]. exists (shift_pos q p), (Zpos q). split; [lia|]. split; [|split; [apply shift_pos_mul|reflexivity]].
    apply bra24; [|lia]. apply digits_unique; [lia|lia|]. rewrite shift_pos_mul. replace (24 - 1) with ((d - 1) + Zpos q) by lia. rewrite Z.pow_add_r by lia.
    replace (2 ^ 24) with (2 ^ d * 2 ^ Zpos q) by (rewrite <- Z.pow_add_r by lia; f_equal; lia). assert (0 < 2 ^ Zpos q) by (apply Z.pow_pos_nonneg; lia).
    split; [apply Z.mul_le_mono_nonneg_r; lia|apply Z.mul_lt_mono_pos_r; lia].
Qed.
Lemma bn24_full u : 2 ^ 23 <= u < 2 ^ 24 -> exists p, u = Zpos p /\ f32OfZ u = S754_finite false p 0 /\ digits2_pos p = 24%positive.
Proof.
  intros Hu. destruct (bn24 u 0 ltac:(lia) ltac:(lia)) as (m & j & Hj & E & Em & Ej). assert (D : Zdigits2 u = 24) by (apply digits_unique; lia). rewrite D in Ej. subst j.
  replace (0 - (24 - 24)) with 0 in E by lia. replace (2 ^ (24 - 24)) with 1 in Em by reflexivity. rewrite Z.mul_1_r in Em. exists m. split; [lia|]. split; [exact E|]. rewrite <- Em in D. cbn [Zdigits2] in D. congruence.
Qed.
Lemma scaled p : digits2_pos p = 24%positive -> SFmul 24 128 (S754_finite false p 0) scaleInv32 = S754_finite false p (-23).
Proof.
  intros D. unfold scaleInv32. cbn [SFmul xorb]. rewrite Pos.mul_comm. change (8388608 * p)%positive with (p~0~0~0~0~0~0~0~0~0~0~0~0~0~0~0~0~0~0~0~0~0~0~0)%positive.
  assert (E1 : shr_fexp 24 128 (Z.pos p~0~0~0~0~0~0~0~0~0~0~0~0~0~0~0~0~0~0~0~0~0~0~0) (0 + -46) loc_Exact = (Build_shr_record (Zpos p) false false, -23))
    by (unfold shr_fexp; cbn [Zdigits2 digits2_pos]; rewrite D; reflexivity).
  assert (E2 : shr_fexp 24 128 (Z.pos p) (-23) loc_Exact = (Build_shr_record (Zpos p) false false, -23)) by (unfold shr_fexp; cbn [Zdigits2]; rewrite D; reflexivity).
  unfold binary_round_aux. rewrite E1. cbn [shr_m loc_of_shr_record round_nearest_even]. rewrite E2. reflexivity.
Qed.
Lemma f32_one : f32OfZ 1 = S754_finite false 8388608 (-23).
Proof. reflexivity. Qed.
Lemma uniform_spec h : 0 <= h < 2 ^ 32 ->
  (h < 512 -> uniformFloat h = S754_zero false) /\ finF (uniformFloat h) /\ val (uniformFloat h) = (IZR (h / 512) * pw (-23))%R.
Proof.
  intros Hh. unfold uniformFloat. change (32 - 23) with 9. rewrite Z.shiftr_div_pow2 by lia. change (2 ^ 9) with 512.
  assert (B : 0 <= h / 512 < 2 ^ 23) by (split; [apply Z.div_pos; lia|apply Z.div_lt_upper_bound; lia]).
  assert (S0 : h < 512 -> h / 512 = 0) by (intros; apply Z.div_small; lia). set (v := h / 512) in *. clearbody v.
  unfold wrap. rewrite Z.mod_small by lia. destruct (bn24_full (v + 2 ^ 23) ltac:(lia)) as (p & Ep & -> & Dp). rewrite (scaled p Dp), f32_one.
  assert (ES : SFsub 24 128 (S754_finite false p (-23)) (S754_finite false 8388608 (-23)) = binary_normalize 24 128 (Zpos p - 8388608) (-23) false) by reflexivity. rewrite ES. clear ES.
  replace (Z.pos p - 8388608) with v by (rewrite <- Ep; lia). destruct (Z.eq_dec v 0) as [-> | Hv].
  - cbn. split; [reflexivity|]. split; [exact Logic.I|]. rewrite Rmult_0_l. reflexivity.
  - split; [intros; lia|]. destruct (bn24 v (-23) ltac:(lia) ltac:(lia)) as (m & j & Hj & -> & Em & Ej). cbn [f64Of32 cond_Zopp].
    destruct (Zdigits_bounds v ltac:(lia)) as (D1 & D2 & D3). destruct (D3 ltac:(lia)) as [D4 D5].
    assert (J : 0 <= j <= 24) by lia. assert (Hm : Zpos m < 2 ^ 53). { rewrite Em. assert (2 ^ j <= 2 ^ 24) by (apply Z.pow_le_mono_r; lia). change (2 ^ 53) with (2 ^ 28 * 2 ^ 25). apply Z.mul_lt_mono_nonneg; [lia|lia|apply Z.pow_nonneg; lia|]. lia. }
    destruct (BN_val (Zpos m) (-23 - j) false ltac:(lia) ltac:(lia) ltac:(lia)) as (p2 & j2 & E2 & V2). split; [rewrite E2; exact Logic.I|].
    rewrite V2, Em, mult_IZR, pw_IZR by lia. replace (-23 - j) with (-23 + - j) by lia. rewrite pw_add, Rmult_assoc. f_equal. rewrite (Rmult_comm (pw (-23))), <- Rmult_assoc, <- pw_add. replace (j + - j) with 0 by lia. rewrite pw_0. ring.
Qed.

(** Bounds. *)
Open Scope R_scope.
Lemma pw54 : 18014398509481984 * pw (-54) = 1.
Proof. change 18014398509481984 with (IZR (2 ^ 54)). rewrite pw_IZR by lia. rewrite <- pw_add. reflexivity. Qed.
Lemma eps53 : 0 <= pw (-53) <= / 1000000.
Proof.
  split; [apply Rlt_le, pw_pos|]. apply (Rle_trans _ (pw (-20))); [apply pw_le; lia|]. assert (1048576 * pw (-20) = 1) as E by (change 1048576 with (IZR (2 ^ 20)); rewrite pw_IZR by lia; rewrite <- pw_add; reflexivity). lra.
Qed.
Lemma eps1075 : 0 <= pw (-1075) <= / 1000000.
Proof. split; [apply Rlt_le, pw_pos|]. apply (Rle_trans _ (pw (-53))); [apply pw_le; lia|apply eps53]. Qed.
Lemma big970 : 1000 <= pw 970.
Proof. apply (Rle_trans _ (pw 10)); [change (pw 10) with (powerRZ 2 10); rewrite <- (pw_IZR 10) by lia; apply IZR_le; lia|apply pw_le; lia]. Qed.
Lemma rok_bound x r B : rok x r -> Rabs r <= B -> finF x /\ Rabs (val x) <= B * (1 + / 1000000) + / 1000000.
Proof.
  intros [H1 H2] H. split; [exact H1|]. pose proof eps53 as [E1 E2]. pose proof eps1075 as [E3 E4].
  replace (val x) with ((val x - r) + r) by ring. eapply Rle_trans; [apply Rabs_triang|]. pose proof (Rabs_pos r) as P.
  assert (pw (-53) * Rabs r <= / 1000000 * B) by (apply Rmult_le_compat; lra). lra.
Qed.
Definition wOK (c : positive * Z) : bool := ((Zpos (fst c) <? 2 ^ 53) && (snd c <=? -75))%Z.
Lemma wn_small i : (0 <= i < 128)%Z -> finF (wn i) /\ 0 <= val (wn i) <= pw (-22).
Proof.
  intros Hi. unfold wn, f64Of. split; [exact Logic.I|].
  assert (G : forallb wOK wnT = true) by reflexivity. rewrite forallb_forall in G. 
  specialize (G (nth (Z.to_nat i) wnT (1%positive, 0%Z))). assert (X : In (nth (Z.to_nat i) wnT (1%positive, 0%Z)) wnT) by (apply nth_In; change (length wnT) with 128%nat; lia).
  specialize (G X). clear X. set (c := nth (Z.to_nat i) wnT (1%positive, 0%Z)) in *. unfold wOK in G. apply andb_prop in G. destruct G as [G1 G2]. apply Z.ltb_lt in G1. apply Z.leb_le in G2.
  rewrite val_sg. cbn [cond_Zopp]. pose proof (pw_pos (snd c)) as P. pose proof (IZR_lt 0 (Zpos (fst c)) ltac:(lia)) as P2. split; [apply Rlt_le, Rmult_lt_0_compat; assumption|].
  apply (Rle_trans _ (pw 53 * pw (-75))); [|rewrite <- pw_add; apply Req_le; f_equal; lia].
  apply Rmult_le_compat; [lra|lra| |apply pw_le; lia]. rewrite <- pw_IZR by lia. apply IZR_le. lia.
Qed.
Lemma body_bound u i : (0 <= u < 2 ^ 24)%Z -> (0 <= i < 128)%Z -> let x := SFmul 53 1024 (BN u 0 false) (wn i) in finF x /\ Rabs (val x) <= 4.1.
Proof.
  intros Hu Hi x. destruct (wn_small i Hi) as [W1 W2].
  assert (B : finF (BN u 0 false) /\ val (BN u 0 false) = IZR u).
  { destruct (Z.eq_dec u 0) as [-> | D]; [split; [exact Logic.I|reflexivity]|]. destruct (BN_val u 0 false ltac:(lia) ltac:(lia) D) as (p & j & E & V). split; [rewrite E; exact Logic.I|]. rewrite V, pw_0. ring. }
  destruct B as [B1 B2]. assert (M : Rabs (val (BN u 0 false) * val (wn i)) <= 4).
  { rewrite B2. pose proof (IZR_le 0 u ltac:(lia)). rewrite Rabs_right by (apply Rle_ge, Rmult_le_pos; lra).
    apply (Rle_trans _ (pw 24 * pw (-22))); [|rewrite <- pw_add; change (24 + -22)%Z with 2%Z; rewrite <- pw_IZR by lia; apply IZR_le; lia]. apply Rmult_le_compat; [lra|lra| |lra]. rewrite <- pw_IZR by lia. apply IZR_le. lia. }
  pose proof big970. destruct (rok_bound x _ 4 (mul_rok _ _ B1 W1 ltac:(lra)) M) as [R1 R2]. split; [exact R1|]. lra.
Qed.
Lemma land127 h : (0 <= Z.land h 127 < 128)%Z.
Proof. assert (Z.land h 127 = h mod 128)%Z as -> by (apply (Z.land_ones h 7); lia). apply Z.mod_pos_bound. lia. Qed.
Lemma inf_sq y : finF y -> SFleb (SFmul 53 1024 (S754_infinity false) (S754_infinity false)) y = false.
Proof. destruct y as [[|]|[|]| |[|] m e]; intros H; try (exfalso; assumption); reflexivity. Qed.

Section Bound.
Variables lg ex : f64 -> f64.
Variable s : nat -> Z.
Hypothesis Hlg : log_ok lg.
Hypothesis Hs : good_words s.
Lemma uni_log n : (s n < 512)%Z /\ lg (uniformFloat (s n)) = S754_infinity true \/ (512 <= s n)%Z /\ finF (lg (uniformFloat (s n))) /\ -16 <= val (lg (uniformFloat (s n))) <= 0.
Proof.
  destruct (Hs n) as [B _]. destruct (uniform_spec (s n) B) as (Z0 & F & V). destruct (Z.lt_ge_cases (s n) 512) as [C|C].
  - left. split; [exact C|]. rewrite Z0 by exact C. apply Hlg.
  - right. split; [exact C|]. apply Hlg; [exact F|]. rewrite V. assert (D : (1 <= s n / 512 < 2 ^ 23)%Z) by (split; [apply Z.div_le_lower_bound; lia|apply Z.div_lt_upper_bound; lia]).
    pose proof (pw_pos (-23)) as P. split.
    + apply (Rle_trans _ (1 * pw (-23))); [lra|]. apply Rmult_le_compat_r; [lra|]. apply IZR_le. lia.
    + apply (Rlt_le_trans _ (pw 23 * pw (-23))); [|rewrite <- pw_add; right; reflexivity]. apply Rmult_lt_compat_r; [exact P|]. rewrite <- pw_IZR by lia. apply IZR_lt. lia.
Qed.
Lemma nrn_val : finF nrnInvC /\ -0.291 <= val nrnInvC <= 0.
Proof.
  split; [exact Logic.I|]. unfold nrnInvC. rewrite val_sg. cbn [cond_Zopp]. rewrite opp_IZR. pose proof pw54 as P. pose proof (pw_pos (-54)). set (a := pw (-54)) in *. lra.
Qed.
Lemma rn_val : finF rnC /\ 0 <= val rnC <= 3.443.
Proof.
  split; [exact Logic.I|]. unfold rnC. rewrite val_sg. cbn [cond_Zopp]. assert (P : 2251799813685248 * pw (-51) = 1) by (change 2251799813685248 with (IZR (2 ^ 51)); rewrite pw_IZR by lia; rewrite <- pw_add; reflexivity).
  pose proof (pw_pos (-51)). set (a := pw (-51)) in *. lra.
Qed.
Lemma tail_bound fuel : forall pos x p, tailLoop lg s fuel pos = Some (x, p) -> finF x /\ Rabs (val x) <= 4.7.
Proof.
  induction fuel as [|fuel IH]; intros pos x p; [discriminate|]. cbn [tailLoop]. destruct nrn_val as [N1 N2]. pose proof big970 as BG.
  destruct (uni_log pos) as [[C ->] | (C & F & V)].
  - assert (E : SFmul 53 1024 nrnInvC (S754_infinity true) = S754_infinity false) by reflexivity. rewrite E. clear E.
    destruct (uni_log (S pos)) as [[C2 _] | (C2 & F2 & V2)]; [destruct (Hs pos) as [_ [G | G]]; lia|].
    rewrite inf_sq; [apply IH|]. apply (add_rok (SFopp (lg (uniformFloat (s (S pos)))))); [now apply fin_opp|now apply fin_opp|]. rewrite val_opp. apply (Rle_trans _ 1000); [|exact BG]. apply Rabs_le. lra.
  - set (y := lg (uniformFloat (s pos))) in *. assert (M : Rabs (val nrnInvC * val y) <= 4.656).
    { rewrite Rabs_mult. apply (Rle_trans _ (0.291 * 16)); [|lra]. apply Rmult_le_compat; [apply Rabs_pos|apply Rabs_pos|apply Rabs_le; lra|apply Rabs_le; lra]. }
    assert (M2 : Rabs (val nrnInvC * val y) <= pw 970) by lra. destruct (rok_bound _ _ 4.656 (mul_rok nrnInvC y N1 F M2) M) as [R1 R2].
    destruct (SFleb _ _); [|apply IH]. intros [= <- _]. split; [exact R1|]. eapply Rle_trans; [exact R2|lra].
Qed.
Lemma norm_bound fuel : forall pos x p, normFloat lg ex s fuel pos = Some (x, p) -> finF x /\ Rabs (val x) <= 8.2.
Proof.
  induction fuel as [|fuel IH]; intros pos x p; [discriminate|]. cbn [normFloat].
  assert (U : (0 <= Z.shiftr (s pos) 8 < 2 ^ 24)%Z) by (rewrite Z.shiftr_div_pow2 by lia; destruct (Hs pos) as [B _]; split; [apply Z.div_pos; lia|apply Z.div_lt_upper_bound; lia]).
  pose proof (land127 (Z.shiftr (s pos) 1)) as I'. set (i := Z.land (Z.shiftr (s pos) 1) 127) in *. set (u := Z.shiftr (s pos) 8) in *.
  destruct (body_bound u i U I') as [B1 B2]. set (y := SFmul 53 1024 (BN u 0 false) (wn i)) in *.
  assert (Y : finF (if (0 <? Z.land (s pos) 1)%Z then SFopp y else y) /\ Rabs (val (if (0 <? Z.land (s pos) 1)%Z then SFopp y else y)) <= 8.2).
  { destruct (0 <? Z.land (s pos) 1)%Z; [split; [now apply fin_opp|rewrite val_opp, Rabs_Ropp; lra]|split; [exact B1|lra]]. }
  destruct (u <? kn i)%Z; [intros [= <- _]; exact Y|]. destruct (i =? 0)%Z.
  - destruct (tailLoop lg s fuel (S pos)) as [[x' p']|] eqn:E; [|discriminate]. intros [= <- _]. apply tail_bound in E. destruct E as [E1 E2]. destruct rn_val as [R1 R2]. pose proof big970.
    assert (M : Rabs (val x' + val rnC) <= 8.143) by (eapply Rle_trans; [apply Rabs_triang|]; rewrite (Rabs_right (val rnC)) by lra; lra).
    assert (M2 : Rabs (val x' + val rnC) <= pw 970) by lra. destruct (rok_bound _ _ 8.143 (add_rok x' rnC E1 R1 M2) M) as [A1 A2].
    destruct (0 <? Z.land (s pos) 1)%Z; [split; [now apply fin_opp|rewrite val_opp, Rabs_Ropp; lra]|split; [exact A1|lra]].
  - destruct (SFltb _ _); [intros [= <- _]; exact Y|apply IH].
Qed.
Lemma sample_bound sg w sd fuel pos v p : finF sd -> 0 <= val sd <= pw 59 -> sample1 lg ex s sg w sd fuel pos = Some (v, p) ->
  exists n, v = twrap sg w n /\ Rabs (IZR n) <= 8.3 * val sd + 1.
Proof.
  intros Fs Bs. unfold sample1. destruct (normFloat lg ex s fuel pos) as [[x p']|] eqn:E; [|discriminate]. intros [= <- _]. apply norm_bound in E. destruct E as [E1 E2].
  exists (int64Of (SFmul 53 1024 x sd)). split; [reflexivity|].
  assert (M : Rabs (val x * val sd) <= 8.2 * val sd) by (rewrite Rabs_mult, (Rabs_right (val sd)) by lra; apply Rmult_le_compat_r; lra).
  assert (P59 : pw 59 = 576460752303423488) by (rewrite <- pw_IZR by lia; reflexivity).
  assert (L : 8.2 * val sd <= pw 970) by (apply (Rle_trans _ (pw 63)); [change (pw 63) with (pw (4 + 59)); rewrite pw_add; change (pw 4) with (powerRZ 2 4); rewrite <- (pw_IZR 4) by lia; change (IZR (2 ^ 4)) with 16; lra|apply pw_le; lia]).
  destruct (rok_bound _ _ (8.2 * val sd) (mul_rok x sd E1 Fs ltac:(lra)) M) as [R1 R2]. set (y := SFmul 53 1024 x sd) in *.
  pose proof (roundGo_near y R1) as R3. assert (R4 : Rabs (IZR (roundGo y)) <= 8.3 * val sd + 1).
  { replace (IZR (roundGo y)) with ((IZR (roundGo y) - val y) + val y) by ring. eapply Rle_trans; [apply Rabs_triang|]. lra. }
  unfold int64Of. destruct y as [a|a| |a m e] eqn:Ey; try contradiction.
  - cbn [roundGo]. change (((- 2 ^ 63 <=? 0) && (0 <? 2 ^ 63))%Z) with true. exact R4.
  - rewrite <- Ey in *. assert (X : (Z.abs (roundGo y) < 2 ^ 63)%Z).
    { apply lt_IZR. rewrite abs_IZR. change (IZR (2 ^ 63)) with 9223372036854775808. lra. }
    assert (((- 2 ^ 63 <=? roundGo y) && (roundGo y <? 2 ^ 63))%Z = true) as ->; [|exact R4]. apply andb_true_intro. split; [apply Z.leb_le|apply Z.ltb_lt]; lia.
Qed.
End Bound.

Lemma vec_bound lg ex s (Hlg : log_ok lg) (Hs : good_words s) acc sg w sd fuel : (0 <= w)%Z -> finF sd -> 0 <= val sd <= pw 59 ->
  (forall x a b, eqm (2 ^ w) a b -> eqm (2 ^ w) (acc x a) (acc x b)) ->
  forall v pos v' p, sampleLoop lg ex s acc sg w sd fuel v pos = Some (v', p) ->
  length v' = length v /\ forall i, (i < length v)%nat -> exists n, Rabs (IZR n) <= 8.3 * val sd + 1 /\ nthZ v' i = twrap sg w (acc (nthZ v i) n).
Proof.
  intros Hw Fs Bs Ha. induction v as [|x v IH]; intros pos v' p.
  - intros [= <- _]. split; [reflexivity|]. cbn [length]. intros; lia.
  - cbn [sampleLoop]. destruct (sample1 lg ex s sg w sd fuel pos) as [[e p1]|] eqn:E1; [|discriminate]. destruct (sampleLoop lg ex s acc sg w sd fuel v p1) as [[v1 p2]|] eqn:E2; [|discriminate].
    intros [= <- _]. destruct (IH _ _ _ E2) as [L H]. cbn [length]. split; [lia|]. intros [|i] Hi.
    + destruct (sample_bound lg ex s Hlg Hs sg w sd fuel pos e p1 Fs Bs E1) as (n & -> & Hn). exists n. split; [exact Hn|]. cbn [nthZ nth]. apply twrap_cong. apply Ha, twrap_eqm.
    + apply (H i). lia.
Qed.
Lemma vec_all lg ex s (Hlg : log_ok lg) (Hs : good_words s) sg w sd fuel v pos v' p : (0 <= w)%Z -> finF sd -> 0 <= val sd <= pw 59 ->
  (SampleVecTo lg ex s sg w sd fuel v pos = Some (Some (v', p)) ->
     length v' = length v /\ forall i, (i < length v)%nat -> exists n, Rabs (IZR n) <= 8.3 * val sd + 1 /\ nthZ v' i = twrap sg w n) /\
  (SamplePolyAddTo lg ex s sg w sd fuel v pos = Some (Some (v', p)) ->
     length v' = length v /\ forall i, (i < length v)%nat -> exists n, Rabs (IZR n) <= 8.3 * val sd + 1 /\ nthZ v' i = twrap sg w (nthZ v i + n)) /\
  (SamplePolySubTo lg ex s sg w sd fuel v pos = Some (Some (v', p)) ->
     length v' = length v /\ forall i, (i < length v)%nat -> exists n, Rabs (IZR n) <= 8.3 * val sd + 1 /\ nthZ v' i = twrap sg w (nthZ v i - n)).
Proof.
  intros Hw Fs Bs.
  assert (X : forall acc, (forall x a b, eqm (2 ^ w) a b -> eqm (2 ^ w) (acc x a) (acc x b)) -> sampleVec lg ex s acc sg w sd fuel v pos = Some (Some (v', p)) ->
    length v' = length v /\ forall i, (i < length v)%nat -> exists n, Rabs (IZR n) <= 8.3 * val sd + 1 /\ nthZ v' i = twrap sg w (acc (nthZ v i) n)).
  { intros acc Ha H. unfold sampleVec in H. destruct (SFltb sd (S754_zero false)); [discriminate|]. injection H as H. exact (vec_bound lg ex s Hlg Hs acc sg w sd fuel Hw Fs Bs Ha v pos v' p H). }
  split; [|split]; intros H.
  - refine (X _ _ H). intros x a b E. exact E.
  - refine (X _ _ H). intros x a b (t & E). exists t. lia.
  - refine (X _ _ H). intros x a b (t & E). exists (- t)%Z. lia.
Qed.
Lemma panics lg ex s sg w sd fuel pos : finF sd -> (Sample lg ex s sg w sd fuel pos = None <-> val sd < 0).
Proof.
  intros F. unfold Sample. destruct sd as [a|a| |a m e]; try contradiction.
  - cbn [SFltb SFcompare val]. split; [discriminate|lra].
  - rewrite val_fin. pose proof (pw_pos e). pose proof (IZR_lt 0 (Zpos m) ltac:(lia)). assert (0 < IZR (Zpos m) * pw e) by (apply Rmult_lt_0_compat; lra).
    destruct a; cbn [sgR]; unfold SFltb; cbn [SFcompare]; split; try discriminate; try reflexivity; try lra.
Qed.
(** The witness of an infinite sample: the tail of the lowest layer, then two words that give 0. *)
Definition badStream (n : nat) : Z := match n with O => 4294967040 | _ => 0 end.
Lemma infinite lg ex fuel : lg (S754_zero false) = S754_infinity true -> (2 <= fuel)%nat -> normFloat lg ex badStream fuel 0 = Some (S754_infinity false, 3%nat).
Proof.
  intros Hl Hf. destruct fuel as [|[|fuel]]; try lia. cbn [normFloat]. change (Z.land (Z.shiftr (badStream 0) 1) 127) with 0%Z. change (Z.shiftr (badStream 0) 8) with 16777215%Z.
  change (16777215 <? kn 0)%Z with false. cbn iota. change (0 =? 0)%Z with true. cbn iota. cbn [tailLoop]. change (uniformFloat (badStream 1)) with (S754_zero false). change (uniformFloat (badStream 2)) with (S754_zero false). rewrite Hl. reflexivity.
Qed.
Lemma infinite_sample lg ex fuel m e : lg (S754_zero false) = S754_infinity true -> (2 <= fuel)%nat ->
  Sample lg ex badStream false 64 (S754_finite false m e) fuel 0 = Some (Some (2 ^ 63, 3%nat))%Z.
Proof. intros Hl Hf. unfold Sample, sample1. rewrite (infinite lg ex fuel Hl Hf). reflexivity. Qed.

(** Tables. *)
Definition W (i : Z) : Z := let c := nth (Z.to_nat i) wnT (1%positive, 0%Z) in (Zpos (fst c) * 2 ^ (snd c + 78))%Z.
Definition G (i : Z) : Z := let c := nth (Z.to_nat i) fnT (1%positive, 0%Z) in (Zpos (fst c) * 2 ^ (snd c + 61))%Z.
Definition idx : list Z := map Z.of_nat (seq 0 128).
Lemma all_idx (P : Z -> bool) : forallb P idx = true -> forall i, (0 <= i < 128)%Z -> P i = true.
Proof. intros H i Hi. rewrite forallb_forall in H. apply H. apply in_map_iff. exists (Z.to_nat i). split; [lia|]. apply in_seq. lia. Qed.
Lemma W_val i : (0 <= i < 128)%Z -> val (wn i) = IZR (W i) * pw (-78).
Proof.
  intros Hi. assert (E : (-78 <=? snd (nth (Z.to_nat i) wnT (1%positive, 0%Z)))%Z = true) by (apply (all_idx (fun i => (-78 <=? snd (nth (Z.to_nat i) wnT (1%positive, 0%Z)))%Z)); [reflexivity|exact Hi]).
  apply Z.leb_le in E. unfold wn, f64Of, W. cbv zeta. set (c := nth (Z.to_nat i) wnT (1%positive, 0%Z)) in *. rewrite val_sg, mult_IZR, pw_IZR by lia. cbn [cond_Zopp]. rewrite Rmult_assoc, <- pw_add. do 2 f_equal. lia.
Qed.
Lemma G_val i : (0 <= i < 128)%Z -> val (fn i) = IZR (G i) * pw (-61).
Proof.
  intros Hi. assert (E : (-61 <=? snd (nth (Z.to_nat i) fnT (1%positive, 0%Z)))%Z = true) by (apply (all_idx (fun i => (-61 <=? snd (nth (Z.to_nat i) fnT (1%positive, 0%Z)))%Z)); [reflexivity|exact Hi]).
  apply Z.leb_le in E. unfold fn, f64Of, G. cbv zeta. set (c := nth (Z.to_nat i) fnT (1%positive, 0%Z)) in *. rewrite val_sg, mult_IZR, pw_IZR by lia. cbn [cond_Zopp]. rewrite Rmult_assoc, <- pw_add. do 2 f_equal. lia.
Qed.
Lemma layers i u : (0 <= i < 128)%Z -> (0 <= u < kn i)%Z ->
  if (i =? 0)%Z then IZR u * val (wn 0) < val rnC else (2 <= i)%Z /\ IZR u * val (wn i) < 16777216 * val (wn (i - 1)).
Proof.
  intros Hi Hu. pose proof (pw_pos (-78)) as P.
  pose proof (all_idx (fun i => if i =? 0 then true else if i =? 1 then kn i =? 0 else (kn i * W i <=? 16777216 * W (i - 1)) && (0 <? W i))%Z eq_refl i Hi) as T. cbv beta in T.
  destruct (Z.eqb_spec i 0) as [-> | D0].
  - rewrite W_val by lia. assert (R : val rnC = IZR (7752090750102504 * 2 ^ 27) * pw (-78)).
    { unfold rnC. rewrite val_sg, mult_IZR, pw_IZR by lia. cbn [cond_Zopp]. rewrite Rmult_assoc, <- pw_add. reflexivity. }
    rewrite R, <- Rmult_assoc, <- mult_IZR. apply Rmult_lt_compat_r; [exact P|]. apply IZR_lt. assert (K : (kn 0 * W 0 <=? 7752090750102504 * 2 ^ 27)%Z = true) by reflexivity. apply Z.leb_le in K.
    assert (W0 : (0 < W 0)%Z) by reflexivity. apply (Z.lt_le_trans _ (kn 0 * W 0)); [apply Z.mul_lt_mono_pos_r; [exact W0|lia]|exact K].
  - destruct (Z.eqb_spec i 1) as [-> | D1]; [apply Z.eqb_eq in T; lia|]. apply andb_prop in T. destruct T as [T1 T2]. apply Z.leb_le in T1. apply Z.ltb_lt in T2. split; [lia|].
    rewrite !W_val by lia. rewrite <- !Rmult_assoc. change 16777216 with (IZR 16777216). rewrite <- !mult_IZR. apply Rmult_lt_compat_r; [exact P|]. apply IZR_lt.
    apply (Z.lt_le_trans _ (kn i * W i)); [apply Z.mul_lt_mono_pos_r; [exact T2|lia]|exact T1].
Qed.
Lemma monotone i : (1 <= i < 128)%Z -> val (fn i) < val (fn (i - 1)) /\ ((2 <= i)%Z -> val (wn (i - 1)) < val (wn i)).
Proof.
  intros Hi. pose proof (pw_pos (-78)) as P. pose proof (pw_pos (-61)) as P2.
  pose proof (all_idx (fun i => if i =? 0 then true else (G i <? G (i - 1)) && ((i =? 1) || (W (i - 1) <? W i)))%Z eq_refl i ltac:(lia)) as T. cbv beta in T.
  destruct (Z.eqb_spec i 0) as [-> | D0]; [lia|]. apply andb_prop in T. destruct T as [T1 T2]. apply Z.ltb_lt in T1. split.
  - rewrite !G_val by lia. apply Rmult_lt_compat_r; [exact P2|]. now apply IZR_lt.
  - intros H2. rewrite !W_val by lia. apply Rmult_lt_compat_r; [exact P|]. apply IZR_lt. destruct (Z.eqb_spec i 1); [lia|]. now apply Z.ltb_lt.
Qed.
Definition areaOK (a : Z) : bool := (Z.abs (a * 10 ^ 17 - 991256303526217 * 2 ^ 139) <=? 1200000 * 2 ^ 139)%Z.
Lemma area_val a : areaOK a = true -> Rabs (IZR a * pw (-139) - 0.00991256303526217) <= 0.000000000012.
Proof.
  intros H. unfold areaOK in H. apply Z.leb_le, IZR_le in H. rewrite abs_IZR, minus_IZR, !mult_IZR, (pw_IZR 139) in H by lia.
  pose proof (pw_pos 139) as P. assert (E : pw 139 * pw (-139) = 1) by (rewrite <- pw_add; reflexivity). pose proof (pw_pos (-139)) as P2.
  change (IZR (10 ^ 17)) with 100000000000000000 in H.
  replace (IZR a * pw (-139) - 0.00991256303526217) with ((IZR a * 100000000000000000 - 991256303526217 * pw 139) * (pw (-139) * / 100000000000000000)).
  - rewrite Rabs_mult, (Rabs_right (pw (-139) * / 100000000000000000)) by (apply Rle_ge, Rmult_le_pos; lra).
    apply (Rle_trans _ (1200000 * pw 139 * (pw (-139) * / 100000000000000000))); [apply Rmult_le_compat_r; [apply Rmult_le_pos; lra|exact H]|].
    replace (1200000 * pw 139 * (pw (-139) * / 100000000000000000)) with (1200000 * / 100000000000000000 * (pw 139 * pw (-139))) by ring. rewrite E. lra.
  - rewrite Rmult_minus_distr_r. replace (991256303526217 * pw 139 * (pw (-139) * / 100000000000000000)) with (991256303526217 * / 100000000000000000 * (pw 139 * pw (-139))) by ring. rewrite E.
    replace (IZR a * 100000000000000000 * (pw (-139) * / 100000000000000000)) with (IZR a * pw (-139)) by field. lra.
Qed.
Lemma areas i : (0 <= i < 128)%Z -> Rabs (16777216 * val (wn i) * (if (i =? 0)%Z then val (fn 127) else val (fn (i - 1)) - val (fn i)) - 0.00991256303526217) <= 0.000000000012.
Proof.
  intros Hi. pose proof (all_idx (fun i => areaOK (16777216 * W i * (if i =? 0 then G 127 else G (i - 1) - G i)))%Z eq_refl i Hi) as T. cbv beta in T. apply area_val in T.
  eapply Rle_trans; [|exact T]. right. do 2 f_equal. rewrite !mult_IZR. change (-139)%Z with (-78 + -61)%Z. rewrite pw_add, (W_val i Hi).
  destruct (Z.eqb_spec i 0) as [-> | D]; [rewrite (G_val 127) by lia; ring|]. rewrite !G_val, minus_IZR by lia. ring.
Qed.
