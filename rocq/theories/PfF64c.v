(** float64 lanes: the reduction modulo q = 2^w. *)
From Coq Require Import Lia Floats.SpecFloat.
From Verif Require Import Base ModelNum ModelAsm ModelF64 SpecF64 PfF64 PfF64b.
Import ListNotations.
Open Scope Z_scope.

Section Core.
Variable up : Z -> Z -> Z -> bool.
Hypothesis Hu : nearRule up.
Variables (s : bool) (m : positive) (e : Z).
Hypothesis N : normal (Zpos m) e.
Notation K := (2 ^ (- e)).
Notation k := (roundZ up (Zpos m) e).
Notation r := (Zpos m - k * K).

Lemma frac_bounds : e < 0 -> 0 <= k < 2 ^ 53 /\ Z.abs r < 2 ^ 53 /\ 2 * Z.abs r <= K.
Proof.
  intros He. destruct (roundZ_near up (Zpos m) e Hu ltac:(lia) He) as (B1 & B2). destruct N as ((N1 & N2) & _).
  split; [lia|]. split; [|exact B1]. destruct (Z.le_gt_cases (- e) 53) as [C|C].
  - assert (K <= 2 ^ 53) by (apply Z.pow_le_mono_r; lia). lia.
  - assert (2 ^ 54 <= K) by (apply Z.pow_le_mono_r; lia). change (2 ^ 54) with (2 * 2 ^ 53) in *.
    assert (k = 0). { clear - B1 B2 N2 H. set (kk := k) in *. clearbody kk. set (KK := K) in *. clearbody KK. destruct (Z.eq_dec kk 0); [assumption|]. assert (KK <= kk * KK) by nia. lia. }
    rewrite H0. lia.
Qed.
Lemma rnd_cases : e < 0 ->
  (k = 0 /\ rndF up (S754_finite s m e) = S754_zero s) \/
  exists p j, rndF up (S754_finite s m e) = S754_finite s p (- j) /\ Zpos p = k * 2 ^ j /\ 0 <= j <= 52 /\ normal (Zpos p) (- j).
Proof.
  intros He. destruct (frac_bounds He) as (B1 & _). cbn [rndF]. destruct (Z.leb_spec 0 e); [lia|].
  destruct (roundZ up (Zpos m) e) as [|n|n] eqn:E; [left; split; reflexivity| |lia].
  right. assert (Hn : 0 < Z.abs (cond_Zopp s (Zpos n)) < 2 ^ 53) by (destruct s; cbn [cond_Zopp Z.abs Z.opp]; lia).
  destruct (BN_exact (cond_Zopp s (Zpos n)) 0 s Hn ltac:(lia)) as (p & j & -> & E2 & E3 & N').
  assert (Es : (cond_Zopp s (Zpos n) <? 0) = s) by (destruct s; reflexivity). rewrite Es in *.
  replace (0 - j) with (- j) in * by lia. exists p, j. split; [reflexivity|]. split; [|split; assumption]. destruct s; cbn [cond_Zopp] in E2; lia.
Qed.
(** Subtracting the rounded value, both scaled by 2^w. *)
Lemma sub_core w p j : e < 0 -> 0 <= j -> Zpos p = k * 2 ^ j ->
  SFsub 53 1024 (S754_finite s m (e + w)) (S754_finite s p (- j + w)) = BN (sg s r) (e + w) false.
Proof.
  intros He Hj Hp. apply sub_BN; [lia|]. set (z := Z.min (e + w) (- j + w)). rewrite Hp.
  replace (sg s (Zpos m) * 2 ^ (e + w - z) - sg s (k * 2 ^ j) * 2 ^ (- j + w - z)) with (sg s (Zpos m * 2 ^ (e + w - z) - k * (2 ^ j * 2 ^ (- j + w - z)))) by (destruct s; cbn [sg cond_Zopp]; ring).
  replace (2 ^ j * 2 ^ (- j + w - z)) with (K * 2 ^ (e + w - z)) by (rewrite <- !Z.pow_add_r by lia; f_equal; lia).
  destruct s; cbn [sg cond_Zopp]; ring.
Qed.
End Core.

(** The value before the last rounding is sg s r * 2^e with r = m - k 2^(w - e). *)
Definition restV (up : Z -> Z -> Z -> bool) (w : Z) (m : Z) (e : Z) : Z := if 0 <=? e - w then 0 else m - roundZ up m (e - w) * 2 ^ (w - e).
Lemma BN0 e s : BN 0 e s = S754_zero s. Proof. reflexivity. Qed.
Lemma BN_zero_e z e e' s : z = 0 -> BN z e s = BN z e' s. Proof. intros ->. reflexivity. Qed.
Lemma avx_lane w s m e : 0 <= w <= 64 -> normal (Zpos m) e -> -900 <= e ->
  exists b e0, fround F64 (fmul F64 (fsub F64 (fmul F64 (S754_finite s m e) (pow2F (- w))) (fround F64 (fmul F64 (S754_finite s m e) (pow2F (- w))))) (pow2F w))
    = rndF upEven (BN (sg s (restV upEven w (Zpos m) e)) e0 b) /\ (e0 = e \/ restV upEven w (Zpos m) e = 0 /\ e0 = 0) /\ Z.abs (restV upEven w (Zpos m) e) < 2 ^ 53.
Proof.
  intros Hw N He. cbn [F64 fround fmul fsub]. pose proof N as (N1 & N3 & N4).
  assert (N' : normal (Zpos m) (e + - w)) by (split; [exact N1|lia]). rewrite (mul_pow2 s m e (- w) N N'). unfold restV. replace (e - w) with (e + - w) by lia.
  destruct (Z.leb_spec 0 (e + - w)) as [C|C].
  - exists false, 0. split; [|split; [right; split; reflexivity|cbn; lia]]. cbn [rndF]. destruct (Z.leb_spec 0 (e + - w)); [|lia].
    rewrite (sub_BN s m (e + - w) s m (e + - w) 0 (e + - w)); [|lia|lia]. rewrite BN0. cbn [SFmul pow2F]. destruct s; reflexivity.
  - destruct (frac_bounds upEven even_rule m (e + - w) N' C) as (B1 & B2 & B3).
    replace (w - e) with (- (e + - w)) by lia.
    destruct (rnd_cases upEven even_rule s m (e + - w) N' C) as [(K0 & R0) | (p & j & R0 & Hp & Hj & Np)]; rewrite R0.
    + rewrite K0. rewrite Z.mul_0_l, Z.sub_0_r. exists s, e. split; [|split; [left; reflexivity|destruct N1; lia]].
      cbn [SFsub]. assert (Nb : normal (Zpos m) (e + - w + w)) by (replace (e + - w + w) with e by lia; exact N). rewrite (mul_pow2 s m (e + - w) w N' Nb). replace (e + - w + w) with e by lia. rewrite <- (normal_BN s m e s N). reflexivity.
    + pose proof (sub_core upEven s m (e + - w) 0 p j C ltac:(lia) Hp) as SC. rewrite !Z.add_0_r in SC. rewrite SC.
      rewrite mul_BN by (try (destruct s; cbn [sg cond_Zopp]; rewrite ?Z.abs_opp; lia); lia). replace (e + - w + w) with e by lia. exists false, e. split; [reflexivity|]. split; [left; reflexivity|exact B2].
Qed.

Lemma div_pow2 s m e w : normal (Zpos m) e -> -950 <= e -> 0 <= w <= 64 -> SFdiv 53 1024 (S754_finite s m e) (pow2F w) = S754_finite s m (e - w).
Proof.
  intros N He Hw. pose proof N as (N1 & N3 & N4). assert (N' : normal (Zpos m) (e - w)) by (split; [exact N1|lia]).
  unfold pow2F. cbn [SFdiv]. rewrite Bool.xorb_false_r. unfold SFdiv_core_binary.
  rewrite (normal_digits (Zpos m) e N). replace (Zdigits2 (Zpos (2 ^ 52))) with 53 by reflexivity. cbv zeta.
  assert (E : Z.min (fexp64 (53 + e - (53 + (w - 52)))) (e - (w - 52)) = e - w - 1) by (unfold fexp, SpecFloat.emin; lia). rewrite E.
  replace (e - (w - 52) - (e - w - 1)) with 53 by lia. rewrite Z.shiftl_mul_pow2 by lia.
  assert (Q : Z.div_eucl (Zpos m * 2 ^ 53) (Zpos (2 ^ 52)) = (Zpos m * 2, 0)).
  { pose proof (Z.div_eucl_eq (Zpos m * 2 ^ 53) (Zpos (2 ^ 52)) ltac:(discriminate)) as D.
    pose proof (Z.mod_pos_bound (Zpos m * 2 ^ 53) (Zpos (2 ^ 52)) ltac:(reflexivity)) as B. unfold Z.modulo in B.
    destruct (Z.div_eucl (Zpos m * 2 ^ 53) (Zpos (2 ^ 52))) as (q, t). change (Zpos (2 ^ 52)) with (2 ^ 52) in *. change (2 ^ 53) with (2 * 2 ^ 52) in D.
    assert (2 * Zpos m = q) by (clear - D B; set (P := 2 ^ 52) in *; assert (0 < P) by reflexivity; clearbody P; nia). subst q.
    f_equal; [lia|]. clear - D. set (P := 2 ^ 52) in *. clearbody P. nia. }
  rewrite Q. change (new_location (Zpos (2 ^ 52)) 0) with loc_Exact.
  change (Zpos m * 2) with (Zpos m * 2 ^ 1). rewrite (BRA_shift s (Zpos m) (e - w - 1) 1); [|replace (e - w - 1 + 1) with (e - w) by lia; exact N'|lia].
  replace (e - w - 1 + 1) with (e - w) by lia. destruct (BRA_normal s _ _ N') as (p & Ep & ->). injection Ep as ->. reflexivity.
Qed.
Lemma SFmul_comm x y : SFmul 53 1024 x y = SFmul 53 1024 y x.
Proof. destruct x, y; cbn [SFmul]; try reflexivity; rewrite ?(Bool.xorb_comm s s0); try reflexivity. rewrite Pos.mul_comm, Z.add_comm. reflexivity. Qed.
Lemma go_lane w s m e : 0 <= w <= 64 -> normal (Zpos m) e -> -900 <= e ->
  exists b e0, goModQ (pow2F w) (S754_finite s m e) = rndF upAway (BN (sg s (restV upAway w (Zpos m) e)) e0 b) /\ (e0 = e \/ restV upAway w (Zpos m) e = 0 /\ e0 = 0) /\ Z.abs (restV upAway w (Zpos m) e) < 2 ^ 53.
Proof.
  intros Hw N He. unfold goModQ. pose proof N as (N1 & N3 & N4). rewrite div_pow2 by (try assumption; lia).
  assert (N' : normal (Zpos m) (e - w)) by (split; [exact N1|lia]). rewrite SFmul_comm. unfold restV.
  destruct (Z.leb_spec 0 (e - w)) as [C|C].
  - exists false, 0. split; [|split; [right; split; reflexivity|cbn; lia]]. cbn [rndF]. destruct (Z.leb_spec 0 (e - w)); [|lia].
    assert (Nb : normal (Zpos m) (e - w + w)) by (replace (e - w + w) with e by lia; exact N). rewrite (mul_pow2 s m (e - w) w N' Nb). replace (e - w + w) with e by lia.
    rewrite (sub_BN s m e s m e 0 e); [|lia|lia]. rewrite BN0. destruct s; reflexivity.
  - destruct (frac_bounds upAway away_rule m (e - w) N' C) as (B1 & B2 & B3). replace (w - e) with (- (e - w)) by lia.
    destruct (rnd_cases upAway away_rule s m (e - w) N' C) as [(K0 & R0) | (p & j & R0 & Hp & Hj & Np)]; rewrite R0.
    + rewrite K0, Z.mul_0_l, Z.sub_0_r. exists s, e. split; [|split; [left; reflexivity|destruct N1; lia]].
      cbn [SFmul pow2F SFsub]. rewrite <- (normal_BN s m e s N). reflexivity.
    + assert (Nb : normal (Zpos p) (- j + w)) by (destruct Np as (Na & _); split; [exact Na|lia]). rewrite (mul_pow2 s p (- j) w Np Nb).
      pose proof (sub_core upAway s m (e - w) w p j C ltac:(lia) Hp) as SC. replace (e - w + w) with e in SC by lia. rewrite SC.
      exists false, e. split; [reflexivity|]. split; [left; reflexivity|exact B2].
Qed.

(** What both versions store: an integer congruent to a nearest integer of the float. *)
Definition nearV (x : f64) (n : Z) : Prop :=
  match x with S754_zero _ => n = 0 | S754_finite s m e => near (if s then Zneg m else Zpos m) e n | _ => False end.
Lemma rest_bound up w m e : nearRule up -> 0 <= w <= 64 -> normal (Zpos m) e -> -900 <= e -> e < w -> 2 * Z.abs (restV up w (Zpos m) e) <= 2 ^ (w - e).
Proof.
  intros Hu Hw N He Hl. unfold restV. destruct (Z.leb_spec 0 (e - w)); [lia|]. pose proof N as (N1 & N3 & N4).
  assert (N' : normal (Zpos m) (e - w)) by (split; [exact N1|lia]).
  destruct (frac_bounds up Hu m (e - w) N' ltac:(lia)) as (_ & _ & B3). replace (- (e - w)) with (w - e) in B3 by lia. exact B3.
Qed.
Lemma finish up w s m e b e0 : nearRule up -> 1 <= w <= 64 -> normal (Zpos m) e -> -800 <= e ->
  (e0 = e \/ restV up w (Zpos m) e = 0 /\ e0 = 0) -> Z.abs (restV up w (Zpos m) e) < 2 ^ 53 ->
  exists n N, has_value (rndF up (BN (sg s (restV up w (Zpos m) e)) e0 b)) n /\ normalF (rndF up (BN (sg s (restV up w (Zpos m) e)) e0 b)) /\
    2 * Z.abs n <= 2 ^ w /\ near (sg s (Zpos m)) e N /\ n mod 2 ^ w = N mod 2 ^ w /\ (up = upEven -> tie (sg s (Zpos m)) e -> Z.even N = true).
Proof.
  intros Hu Hw Nm He0 HE HR. pose proof (pow_pos2 w ltac:(lia)) as Pw. set (z := sg s (restV up w (Zpos m) e)) in *.
  assert (Hz : Z.abs z < 2 ^ 53) by (unfold z; destruct s; cbn [sg cond_Zopp]; rewrite ?Z.abs_opp; exact HR).
  destruct (Z.le_gt_cases w e) as [C|C].
  - assert (Z0 : z = 0) by (unfold z, restV; destruct (Z.leb_spec 0 (e - w)); [destruct s; reflexivity|lia]).
    exists 0, (sg s (Zpos m) * 2 ^ e). rewrite Z0, BN0. cbn [rndF has_value normalF]. split; [reflexivity|]. split; [exact Logic.I|]. split; [cbn; lia|].
    split; [unfold near; destruct (Z.leb_spec 0 e); [reflexivity|lia]|]. split.
    + replace e with (e - w + w) by lia. rewrite Z.pow_add_r, Z.mul_assoc, Z.mod_mul by lia. apply Z.mod_0_l. lia.
    + intros _ (Ht & _). lia.
  - assert (HB : 2 * Z.abs z <= 2 ^ (w - e)).
    { unfold z. replace (Z.abs (sg s (restV up w (Zpos m) e))) with (Z.abs (restV up w (Zpos m) e)) by (destruct s; cbn [sg cond_Zopp]; rewrite ?Z.abs_opp; reflexivity). apply rest_bound; try assumption; lia. }
    assert (Hd : z = sg s (Zpos m) - sg s (roundZ up (Zpos m) (e - w)) * 2 ^ (w - e)).
    { unfold z, restV. destruct (Z.leb_spec 0 (e - w)); [lia|]. destruct s; cbn [sg cond_Zopp]; ring. }
    set (kk := sg s (roundZ up (Zpos m) (e - w))) in *.
    assert (Hrn : exists n, has_value (rndF up (BN z e0 b)) n /\ normalF (rndF up (BN z e0 b)) /\ near z e n /\ (up = upEven -> tie z e -> Z.even n = true)).
    { destruct HE as [-> | (R0 & ->)]; [apply rnd_BN; [exact Hu|exact Hz|destruct Nm; lia]|].
      assert (Z0 : z = 0) by (unfold z; rewrite R0; destruct s; reflexivity). rewrite (BN_zero_e z 0 e b Z0). apply rnd_BN; [exact Hu|exact Hz|destruct Nm; lia]. }
    destruct Hrn as (n & V1 & V2 & V3 & V4). exists n, (n + kk * 2 ^ w). split; [exact V1|]. split; [exact V2|].
    assert (EM : (n + kk * 2 ^ w) mod 2 ^ w = n mod 2 ^ w) by (apply Z.mod_add; lia).
    unfold near in V3 |- *. destruct (Z.leb_spec 0 e) as [Ce|Ce].
    + assert (PE : 2 ^ (w - e) * 2 ^ e = 2 ^ w) by (rewrite <- Z.pow_add_r by lia; f_equal; lia). pose proof (pow_pos2 e Ce) as Pe.
      split; [|split; [|split; [symmetry; exact EM|intros _ (Ht & _); lia]]].
      * rewrite V3, Z.abs_mul, (Z.abs_eq (2 ^ e)) by lia. rewrite <- PE. nia.
      * rewrite V3, Hd, <- PE. ring.
    + assert (PE : 2 ^ (w - e) = 2 ^ w * 2 ^ (- e)) by (rewrite <- Z.pow_add_r by lia; f_equal; lia). pose proof (pow_pos2 (- e) ltac:(lia)) as Pe.
      rewrite PE in *. set (P := 2 ^ (- e)) in *. set (W := 2 ^ w) in *.
      assert (EV : exists h, W = 2 * h). { exists (2 ^ (w - 1)). unfold W. rewrite <- (Z.pow_succ_r 2 (w - 1)) by lia. f_equal. lia. }
      assert (SH : forall x, sg s (Zpos m) - (x + kk * W) * P = z - x * P) by (intros x; rewrite Hd; ring).
      split; [|split; [rewrite SH; exact V3|split; [symmetry; exact EM|]]].
      * destruct EV as (h & EV). clear - V3 HB Pe EV Pw. clearbody P W. subst W. clear Pw.
        destruct (Z.le_gt_cases (2 * Z.abs n) (2 * h)) as [|G]; [assumption|exfalso].
        assert (Z.abs n * P <= Z.abs z + Z.abs (z - n * P)). { replace (Z.abs n * P) with (Z.abs (n * P)) by (rewrite Z.abs_mul, (Z.abs_eq P) by lia; reflexivity). lia. }
        assert ((h + 1) * P <= Z.abs n * P) by nia. nia.
      * intros Eu (Ht & x & Hx). rewrite Z.even_add, Z.even_mul. destruct EV as (h & ->). rewrite Z.even_mul. change (Z.even 2) with true. cbn [orb]. rewrite Bool.orb_true_r.
        rewrite V4; [reflexivity|exact Eu|]. split; [exact Ht|]. exists (x - kk * (2 * h)). fold P in Hx |- *. transitivity (2 * (sg s (Zpos m) - x * P)); [rewrite Hd; ring|exact Hx].
Qed.
