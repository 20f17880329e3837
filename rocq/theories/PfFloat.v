From Verif Require Import Base ModelNum ModelFloat SpecNum PfNum.

(** A rational [(a,b)] denotes x/y. *)
Definition denotes (r : rat) (x y : Z) : Prop := 0 < snd r /\ fst r * y = x * snd r.

Lemma rne_spec n d : 0 < d -> d * (2 * rne n d - 1) <= 2 * n <= d * (2 * rne n d + 1).
Proof.
  intros Hd. unfold rne. pose proof (Z.div_mod n d ltac:(lia)) as E.
  pose proof (Z.mod_pos_bound n d Hd).
  set (q := n / d) in *. set (r := n mod d) in *.
  destruct (Z.ltb_spec (2 * r) d); [nia|].
  destruct (Z.ltb_spec d (2 * r)); [nia|].
  destruct (Z.even q); nia.
Qed.

Lemma rne_exact n d k : 0 < d -> n = k * d -> rne n d = k.
Proof.
  intros Hd ->. unfold rne. rewrite Z.div_mul, Z_mod_mult by lia.
  destruct (Z.ltb_spec (2 * 0) d); lia.
Qed.

Lemma scale2_eq n d e : scale2 n d e = (n * 2 ^ (Z.max 0 (- e)), d * 2 ^ (Z.max 0 e)).
Proof.
  unfold scale2. destruct (Z.leb_spec 0 e).
  - rewrite (Z.max_l 0 (- e)), (Z.max_r 0 e) by lia. rewrite Z.pow_0_r. f_equal; lia.
  - rewrite (Z.max_r 0 (- e)), (Z.max_l 0 e) by lia. rewrite Z.pow_0_r. f_equal; lia.
Qed.

Lemma scale2_half n d e : 0 < d ->
  fst (scale2 n d (e - 1)) * snd (scale2 n d e) = 2 * fst (scale2 n d e) * snd (scale2 n d (e - 1)).
Proof.
  intros Hd. rewrite !scale2_eq. cbn [fst snd].
  destruct (Z_le_gt_dec e 0).
  - rewrite (Z.max_r 0 (- (e - 1))), (Z.max_l 0 e), (Z.max_r 0 (- e)), (Z.max_l 0 (e - 1)) by lia.
    replace (- (e - 1)) with (Z.succ (- e)) by lia. rewrite Z.pow_succ_r by lia. ring.
  - rewrite (Z.max_l 0 (- (e - 1))), (Z.max_r 0 e), (Z.max_l 0 (- e)), (Z.max_r 0 (e - 1)) by lia.
    replace e with (Z.succ (e - 1)) at 1 by lia. rewrite Z.pow_succ_r by lia. ring.
Qed.

Lemma scale2_pos n d e : 0 < n -> 0 < d -> 0 < fst (scale2 n d e) /\ 0 < snd (scale2 n d e).
Proof.
  intros. rewrite scale2_eq; cbn [fst snd].
  pose proof (pow2_pos (Z.max 0 (- e)) ltac:(lia)). pose proof (pow2_pos (Z.max 0 e) ltac:(lia)). nia.
Qed.

Lemma flexp0_spec n d : 0 < n -> 0 < d ->
  let e0 := Z.log2 n - Z.log2 d - 52 in
  2 ^ 51 * snd (scale2 n d e0) < fst (scale2 n d e0) < 2 ^ 53 * snd (scale2 n d e0).
Proof.
  intros Hn Hd e0. rewrite scale2_eq; cbn [fst snd].
  pose proof (Z.log2_spec n Hn) as [Hn1 Hn2]. pose proof (Z.log2_spec d Hd) as [Hd1 Hd2].
  pose proof (Z.log2_nonneg n). pose proof (Z.log2_nonneg d).
  rewrite Z.pow_succ_r in Hn2, Hd2 by lia.
  destruct (Z_le_gt_dec 0 e0).
  - rewrite (Z.max_l 0 (- e0)), (Z.max_r 0 e0), Z.pow_0_r, Z.mul_1_r by lia.
    assert (2 ^ Z.log2 n = 2 ^ Z.log2 d * (2 ^ e0 * 2 ^ 52)) as E.
    { rewrite <- !Z.pow_add_r by lia. f_equal. lia. }
    pose proof (pow2_pos e0 ltac:(lia)). pose proof (pow2_pos (Z.log2 d) ltac:(lia)).
    change (2 ^ 52) with (2 * 2 ^ 51) in E. change (2 ^ 53) with (4 * 2 ^ 51).
    set (c := 2 ^ 51) in *. assert (0 < c) by reflexivity.
    set (L := 2 ^ Z.log2 n) in *. set (D := 2 ^ Z.log2 d) in *. set (p := 2 ^ e0) in *.
    clearbody c L D p. split.
    + assert (c * (d * p) < c * (2 * D * p)) by (apply Z.mul_lt_mono_pos_l; [lia|]; apply Z.mul_lt_mono_pos_r; lia).
      lia.
    + assert (4 * c * (D * p) <= 4 * c * (d * p)) by (apply Z.mul_le_mono_nonneg_l; [lia|]; apply Z.mul_le_mono_nonneg_r; lia).
      lia.
  - rewrite (Z.max_r 0 (- e0)), (Z.max_l 0 e0), Z.pow_0_r, Z.mul_1_r by lia.
    assert (2 ^ Z.log2 n * 2 ^ (- e0) = 2 ^ Z.log2 d * 2 ^ 52) as E.
    { rewrite <- !Z.pow_add_r by lia. f_equal. lia. }
    pose proof (pow2_pos (- e0) ltac:(lia)). pose proof (pow2_pos (Z.log2 d) ltac:(lia)).
    change (2 ^ 52) with (2 * 2 ^ 51) in E. change (2 ^ 53) with (4 * 2 ^ 51).
    set (c := 2 ^ 51) in *. assert (0 < c) by reflexivity.
    set (L := 2 ^ Z.log2 n) in *. set (D := 2 ^ Z.log2 d) in *. set (p := 2 ^ (- e0)) in *.
    clearbody c L D p. split.
    + assert (c * d < c * (2 * D)) by (apply Z.mul_lt_mono_pos_l; lia).
      assert (L * p <= n * p) by (apply Z.mul_le_mono_nonneg_r; lia). lia.
    + assert (n * p < 2 * L * p) by (apply Z.mul_lt_mono_pos_r; lia).
      assert (4 * c * D <= 4 * c * d) by (apply Z.mul_le_mono_nonneg_l; lia). lia.
Qed.

Lemma flexp_spec n d : 0 < n -> 0 < d ->
  2 ^ 52 * snd (scale2 n d (flexp n d)) <= fst (scale2 n d (flexp n d)) < 2 ^ 53 * snd (scale2 n d (flexp n d)).
Proof.
  intros Hn Hd. unfold flexp. cbn zeta.
  set (e0 := Z.log2 n - Z.log2 d - 52).
  pose proof (flexp0_spec n d Hn Hd) as H. cbn zeta in H. fold e0 in H.
  pose proof (scale2_half n d e0 Hd) as Hh.
  pose proof (scale2_pos n d e0 Hn Hd). pose proof (scale2_pos n d (e0 - 1) Hn Hd).
  destruct (scale2 n d e0) as [a b] eqn:E0. destruct (scale2 n d (e0 - 1)) as [a1 b1] eqn:E1.
  cbn [fst snd] in *.
  change (2 ^ 52) with (2 * 2 ^ 51). change (2 ^ 53) with (4 * 2 ^ 51) in *.
  set (c := 2 ^ 51) in *. assert (0 < c) by reflexivity. clearbody c.
  destruct (Z.ltb_spec a (2 * c * b)).
  - rewrite E1. cbn [fst snd]. split.
    + assert (2 * c * b1 * b < a1 * b); [|apply Z.lt_le_incl; apply Z.mul_lt_mono_pos_r with b; lia].
      rewrite Hh. assert (c * b * b1 < a * b1) by (apply Z.mul_lt_mono_pos_r; lia). lia.
    + apply Z.mul_lt_mono_pos_r with b; [lia|]. rewrite Hh.
      assert (a * b1 < 2 * c * b * b1) by (apply Z.mul_lt_mono_pos_r; lia). lia.
  - rewrite E0. cbn [fst snd]. lia.
Qed.

(** The value of [fl] in terms of the integer significand. *)
Lemma fl_unfold n d : 0 < n -> 0 < d ->
  let s := scale2 n d (flexp n d) in
  let r := fl (n, d) in
  0 < snd r /\ (* value r = rne(s) * 2^e; cross-multiplied with s = (n/d) / 2^e *)
  fst r * (fst s * d) = rne (fst s) (snd s) * snd s * n * snd r.
Proof.
  intros Hn Hd s r. subst r. unfold fl. destruct (Z.eqb_spec n 0); [lia|].
  subst s. set (e := flexp n d). rewrite !scale2_eq. cbn [fst snd].
  set (m := rne _ _).
  destruct (Z.leb_spec 0 e).
  - rewrite (Z.max_l 0 (- e)), (Z.max_r 0 e), Z.pow_0_r by lia. cbn [fst snd]. split; [lia|ring].
  - rewrite (Z.max_r 0 (- e)), (Z.max_l 0 e), Z.pow_0_r by lia. cbn [fst snd].
    split; [apply pow2_pos; lia|ring].
Qed.

Lemma mul_pos_lt a b c : 0 < c -> a * c < b * c -> a < b.
Proof. intros; apply Z.mul_lt_mono_pos_r with c; lia. Qed.
Lemma mul_pos_le a b c : 0 < c -> a * c <= b * c -> a <= b.
Proof. intros; apply Z.mul_le_mono_pos_r with c; lia. Qed.

(** Relative error at most 2^-53. *)
Lemma fl_error n d : 0 <= n -> 0 < d ->
  let r := fl (n, d) in
  0 < snd r /\ 0 <= fst r /\ Z.abs (fst r * d - n * snd r) * 2 ^ 53 <= n * snd r.
Proof.
  intros Hn Hd r. destruct (Z.eq_dec n 0) as [->|Hn0].
  { subst r. unfold fl. change (0 =? 0) with true. cbn. lia. }
  pose proof (fl_unfold n d ltac:(lia) Hd) as [Hs E]. fold r in Hs, E.
  pose proof (flexp_spec n d ltac:(lia) Hd) as He.
  pose proof (scale2_pos n d (flexp n d) ltac:(lia) Hd) as [Hp1 Hp2].
  destruct (scale2 n d (flexp n d)) as [a b]. cbn [fst snd] in *.
  pose proof (rne_spec a b Hp2) as Hr. set (m := rne a b) in *. clearbody m.
  destruct r as [p q]. cbn [fst snd] in *.
  assert (Hm : 0 < m).
  { change (2 ^ 52) with 4503599627370496 in He. nia. }
  split; [assumption|].
  assert (Hpp : 0 <= p).
  { assert (0 <= p * (a * d)) as H0.
    { rewrite E. repeat apply Z.mul_nonneg_nonneg; lia. }
    assert (0 < a * d) by (apply Z.mul_pos_pos; lia). nia. }
  split; [assumption|].
  (* |p d - n q| a = |p d a - n q a| = n q |m b - a| *)
  assert (Heq : (p * d - n * q) * a = (n * q) * (m * b - a)) by lia.
  assert (Hab : Z.abs (p * d - n * q) * a = (n * q) * Z.abs (m * b - a)).
  { rewrite <- (Z.abs_eq a) at 1 by lia. rewrite <- Z.abs_mul, Heq, Z.abs_mul, (Z.abs_eq (n * q)) by nia.
    reflexivity. }
  assert (H2 : 2 * Z.abs (m * b - a) <= b) by lia.
  apply mul_pos_le with a; [lia|].
  replace (Z.abs (p * d - n * q) * 2 ^ 53 * a) with (Z.abs (p * d - n * q) * a * 2 ^ 53) by ring.
  rewrite Hab. replace (n * q * Z.abs (m * b - a) * 2 ^ 53) with (n * q * (Z.abs (m * b - a) * 2 ^ 53)) by ring.
  apply Z.mul_le_mono_nonneg_l; [nia|].
  change (2 ^ 53) with (2 * 2 ^ 52). lia.
Qed.

(** Exactness: a rational that is k/2^j or k*2^j with k < 2^53 is not changed. *)
Lemma fl_exact n d k j : 0 <= n -> 0 < d -> 0 <= k < 2 ^ 53 ->
  (0 <= j /\ n * 2 ^ j = k * d \/ j <= 0 /\ n = k * 2 ^ (- j) * d) ->
  denotes (fl (n, d)) n d.
Proof.
  intros Hn Hd Hk Hj. destruct (Z.eq_dec n 0) as [->|Hn0].
  { unfold fl, denotes. change (0 =? 0) with true. cbn. lia. }
  pose proof (fl_unfold n d ltac:(lia) Hd) as [Hs E].
  pose proof (flexp_spec n d ltac:(lia) Hd) as He.
  pose proof (scale2_pos n d (flexp n d) ltac:(lia) Hd) as [Hp1 Hp2].
  set (e := flexp n d) in *.
  assert (Hdiv : exists c, fst (scale2 n d e) = c * snd (scale2 n d e)).
  { rewrite scale2_eq in *. cbn [fst snd] in *.
    assert (HK : forall A B, 0 <= A -> 0 <= B -> 2 ^ 52 * 2 ^ A <= k * 2 ^ B -> A <= B).
    { intros A B HA HB H. destruct (Z_le_gt_dec A B); [assumption|exfalso].
      replace A with (B + 1 + (A - B - 1)) in H by lia. rewrite !Z.pow_add_r in H by lia.
      pose proof (pow2_pos B HB). pose proof (pow2_pos (A - B - 1) ltac:(lia)).
      change (2 ^ 1) with 2 in H. change (2 ^ 53) with (2 * 2 ^ 52) in Hk.
      set (c := 2 ^ 52) in *. assert (0 < c) by reflexivity. clearbody c.
      assert (1 * (c * (2 * 2 ^ B)) <= 2 ^ (A - B - 1) * (c * (2 * 2 ^ B))) by (apply Z.mul_le_mono_nonneg_r; [nia|lia]).
      assert (k * 2 ^ B < 2 * c * 2 ^ B) by (apply Z.mul_lt_mono_pos_r; lia). lia. }
    destruct Hj as [[Hj Hnk]|[Hj Hnk]].
    - (* n/d = k/2^j *)
      assert (j + Z.max 0 e <= Z.max 0 (- e)) as Hle.
      { apply HK; try lia. rewrite Z.pow_add_r by lia.
        apply mul_pos_le with d; [lia|].
        replace (2 ^ 52 * (2 ^ j * 2 ^ Z.max 0 e) * d) with (2 ^ 52 * (d * 2 ^ Z.max 0 e) * 2 ^ j) by ring.
        replace (k * 2 ^ Z.max 0 (- e) * d) with (n * 2 ^ Z.max 0 (- e) * 2 ^ j).
        - apply Z.mul_le_mono_nonneg_r; [pose proof (pow2_pos j); lia|lia].
        - replace (k * 2 ^ Z.max 0 (- e) * d) with (k * d * 2 ^ Z.max 0 (- e)) by ring. rewrite <- Hnk. ring. }
      exists (k * 2 ^ (Z.max 0 (- e) - (j + Z.max 0 e))).
      apply Z.mul_reg_r with (2 ^ j); [pose proof (pow2_pos j); lia|].
      replace (n * 2 ^ Z.max 0 (- e) * 2 ^ j) with (n * 2 ^ j * 2 ^ Z.max 0 (- e)) by ring. rewrite Hnk.
      replace (2 ^ Z.max 0 (- e)) with (2 ^ (Z.max 0 (- e) - (j + Z.max 0 e)) * (2 ^ j * 2 ^ Z.max 0 e)).
      + ring.
      + rewrite <- !Z.pow_add_r by lia. f_equal. lia.
    - assert (Z.max 0 e <= Z.max 0 (- e) - j) as Hle.
      { apply HK; try lia.
        replace (Z.max 0 (- e) - j) with (- j + Z.max 0 (- e)) by lia. rewrite Z.pow_add_r by lia.
        apply mul_pos_le with d; [lia|].
        replace (k * (2 ^ (- j) * 2 ^ Z.max 0 (- e)) * d) with (k * 2 ^ (- j) * d * 2 ^ Z.max 0 (- e)) by ring.
        rewrite <- Hnk. lia. }
      exists (k * 2 ^ (Z.max 0 (- e) - j - Z.max 0 e)).
      rewrite Hnk.
      replace (k * 2 ^ (Z.max 0 (- e) - j - Z.max 0 e) * (d * 2 ^ Z.max 0 e))
        with (k * (2 ^ (Z.max 0 (- e) - j - Z.max 0 e) * 2 ^ Z.max 0 e) * d) by ring.
      rewrite <- Z.pow_add_r by lia.
      replace (Z.max 0 (- e) - j - Z.max 0 e + Z.max 0 e) with (- j + Z.max 0 (- e)) by lia.
      rewrite Z.pow_add_r by lia. ring. }
  destruct Hdiv as [c Hc].
  rewrite (rne_exact _ _ c Hp2 Hc) in E. rewrite <- Hc in E.
  split; [assumption|].
  apply Z.mul_reg_r with (fst (scale2 n d e)); [lia|].
  replace (fst (fl (n, d)) * d * fst (scale2 n d e)) with (fst (fl (n, d)) * (fst (scale2 n d e) * d)) by ring.
  rewrite E. ring.
Qed.

Lemma fl_of_int_exact x : 0 <= x < 2 ^ 53 -> denotes (fl_of_int x) x 1.
Proof.
  intros Hx. apply (fl_exact x 1 x 0); try lia.
Qed.

(** x is exactly a float64 (significand below 2^53 times a power of two). *)
Definition is_float_int (x : Z) : Prop := exists k j, 0 <= k < 2 ^ 53 /\ 0 <= j /\ x = k * 2 ^ j.

Lemma fl_of_int_float x : is_float_int x -> denotes (fl_of_int x) x 1.
Proof.
  intros (k & j & Hk & Hj & ->). pose proof (pow2_pos j Hj).
  apply (fl_exact (k * 2 ^ j) 1 k (- j)); try lia; try nia.
  right. rewrite Z.opp_involutive. lia.
Qed.

Lemma fl_pow2_float j : 0 <= j -> is_float_int (2 ^ j).
Proof. intros; exists 1, j. repeat split; lia. Qed.

(** Rounding to nearest integer of a value that is within n*2^-53/d of x/y, x < 2^52. *)
Lemma math_Round_spec r : 0 < snd r -> is_round_half_up (fst r) (snd r) (math_Round r).
Proof. intros. unfold math_Round. now apply is_round_half_up_floor. Qed.

Lemma round_of_fl n d x y : 0 <= n -> 0 < d -> 0 < y -> n * y = x * d -> 0 <= x < 2 ^ 52 ->
  is_round_half_up x y (math_Round (fl (n, d))).
Proof.
  intros Hn Hd Hy Hv Hx.
  pose proof (fl_error n d Hn Hd) as (Hq & Hp & Herr).
  assert (Htie : forall k, 0 <= k -> 2 * x = k * y -> denotes (fl (n, d)) n d).
  { intros k Hk Hxy. apply (fl_exact n d k 1); try lia.
    left. split; [lia|]. change (2 ^ 1) with 2.
    apply Z.mul_reg_r with y; [lia|]. nia. }
  pose proof (math_Round_spec (fl (n, d)) Hq) as Hr.
  destruct (fl (n, d)) as [p q]. cbn [fst snd] in *.
  set (R := math_Round (p, q)) in *. clearbody R.
  unfold is_round_half_up, denotes in *. cbn [fst snd] in *.
  assert (H0 : Z.abs (p * y - x * q) * 2 ^ 53 <= x * q).
  { apply mul_pos_le with d; [lia|].
    replace (Z.abs (p * y - x * q) * 2 ^ 53 * d) with (Z.abs (p * y - x * q) * d * 2 ^ 53) by ring.
    rewrite <- (Z.abs_eq d) at 1 by lia. rewrite <- Z.abs_mul.
    replace ((p * y - x * q) * d) with ((p * d - n * q) * y).
    - rewrite Z.abs_mul, (Z.abs_eq y) by lia.
      replace (x * q * d) with (n * q * y) by (replace (x * q * d) with (x * d * q) by ring; rewrite <- Hv; ring).
      replace (Z.abs (p * d - n * q) * y * 2 ^ 53) with (Z.abs (p * d - n * q) * 2 ^ 53 * y) by ring.
      apply Z.mul_le_mono_nonneg_r; lia.
    - replace ((p * d - n * q) * y) with (p * d * y - n * y * q) by ring. rewrite Hv. ring. }
  assert (H1 : 2 * Z.abs (p * y - x * q) < q).
  { assert (x * q < 2 ^ 52 * q) by (apply Z.mul_lt_mono_pos_r; lia).
    change (2 ^ 53) with (2 * 2 ^ 52) in H0. lia. }
  split.
  - (* y (2R-1) <= 2x *)
    destruct (Z_le_gt_dec (y * (2 * R - 1)) (2 * x)) as [|Hgt]; [assumption|exfalso].
    (* then y(2R-1) >= 2x+1, p y >= q y (2R-1)/2 *)
    assert (q * (2 * R - 1) * y <= 2 * p * y) by (apply Z.mul_le_mono_nonneg_r; lia).
    assert ((2 * x + 1) * q <= y * (2 * R - 1) * q) by (apply Z.mul_le_mono_nonneg_r; lia).
    lia.
  - destruct (Z_lt_ge_dec (2 * x) (y * (2 * R + 1))) as [|Hge]; [assumption|exfalso].
    destruct (Z.eq_dec (2 * x) (y * (2 * R + 1))) as [Heq|Hne].
    + (* exact tie *)
      assert (0 <= 2 * R + 1) by nia.
      destruct (Htie (2 * R + 1)) as [_ Hden]; [lia|lia|].
      (* p d = n q -> p y = x q *)
      assert (p * y = x * q).
      { apply Z.mul_reg_r with d; [lia|]. nia. }
      assert (2 * p * y < q * (2 * R + 1) * y) by (apply Z.mul_lt_mono_pos_r; lia).
      assert (2 * x * q = y * (2 * R + 1) * q) by (rewrite Heq; reflexivity). lia.
    + assert (2 * p * y < q * (2 * R + 1) * y) by (apply Z.mul_lt_mono_pos_r; lia).
      assert ((y * (2 * R + 1) + 1) * q <= 2 * x * q) by (apply Z.mul_le_mono_nonneg_r; lia).
      lia.
Qed.

Lemma DivRound_exact x y : 0 <= x < 2 ^ 52 -> 0 < y < 2 ^ 53 -> is_round_half_up x y (DivRound x y).
Proof.
  intros Hx Hy. unfold DivRound, fl_div.
  destruct (fl_of_int_exact x) as [Hd1 Hv1]; [change (2 ^ 53) with (2 * 2 ^ 52); lia|].
  destruct (fl_of_int_exact y) as [Hd2 Hv2]; [lia|].
  destruct (fl_of_int x) as [a b]. destruct (fl_of_int y) as [c d]. cbn [fst snd] in *.
  assert (0 < c) by nia. assert (0 <= a) by nia.
  apply round_of_fl; try nia.
Qed.

(** General quotient: error bound when the divisor is exactly representable. *)
Lemma fl_div_error x y : 0 <= x -> 0 < y -> is_float_int y ->
  let f := fl_div (fl_of_int x) (fl_of_int y) in
  0 < snd f /\ 0 <= fst f /\
  Z.abs (fst f * y - x * snd f) * 2 ^ 106 <= x * snd f * (2 ^ 54 + 1).
Proof.
  intros Hx Hy Hfy f. unfold f, fl_div. clear f.
  pose proof (fl_error x 1 Hx ltac:(lia)) as (Hd1 & Hp1 & He1).
  fold (fl_of_int x) in *.
  destruct (fl_of_int_float y Hfy) as [Hd2 Hv2].
  destruct (fl_of_int x) as [a b]. destruct (fl_of_int y) as [c d]. cbn [fst snd] in *.
  assert (0 < c) by nia. rewrite Z.mul_1_r in *.
  pose proof (fl_error (a * d) (b * c) ltac:(nia) ltac:(nia)) as (Hq & Hp & He).
  destruct (fl (a * d, b * c)) as [p q]. cbn [fst snd] in *.
  split; [assumption|]. split; [assumption|].
  (* c = y d ; |p b y - a q| 2^53 <= a q ; |a - x b| 2^53 <= x b *)
  assert (He' : Z.abs (p * b * y - a * q) * 2 ^ 53 <= a * q).
  { apply mul_pos_le with d; [lia|].
    replace (a * q * d) with (a * d * q) by ring.
    replace (Z.abs (p * b * y - a * q) * 2 ^ 53 * d) with (Z.abs (p * b * y - a * q) * d * 2 ^ 53) by ring.
    rewrite <- (Z.abs_eq d) at 1 by lia. rewrite <- Z.abs_mul.
    replace ((p * b * y - a * q) * d) with (p * (b * c) - a * d * q) by (rewrite Hv2; ring). assumption. }
  apply mul_pos_le with b; [lia|].
  replace (x * q * (2 ^ 54 + 1) * b) with (x * b * q * (2 ^ 54 + 1)) by ring.
  replace (Z.abs (p * y - x * q) * 2 ^ 106 * b) with (Z.abs (p * y - x * q) * b * 2 ^ 106) by ring.
  rewrite <- (Z.abs_eq b) at 1 by lia. rewrite <- Z.abs_mul.
  replace ((p * y - x * q) * b) with ((p * b * y - a * q) + (a - x * b) * q) by ring.
  set (A := p * b * y - a * q) in *. set (B := a - x * b) in *.
  assert (Z.abs (A + B * q) <= Z.abs A + Z.abs B * q).
  { rewrite <- (Z.abs_eq q) at 2 by lia. rewrite <- Z.abs_mul. apply Z.abs_triangle. }
  change (2 ^ 106) with (2 ^ 53 * 2 ^ 53).
  set (u := 2 ^ 53) in *. change (2 ^ 54) with (2 * u).
  assert (0 < u) by reflexivity. clearbody u.
  assert (Z.abs B * u * q <= x * b * q) by (apply Z.mul_le_mono_nonneg_r; lia).
  assert (a <= x * b + Z.abs B) by lia.
  assert (a * q <= (x * b + Z.abs B) * q) by (apply Z.mul_le_mono_nonneg_r; lia).
  assert (a * q * u <= (x * b + Z.abs B) * q * u) by (apply Z.mul_le_mono_nonneg_r; lia).
  assert (Z.abs A * u * u <= a * q * u) by (apply Z.mul_le_mono_nonneg_r; lia).
  assert (Z.abs (A + B * q) * (u * u) <= (Z.abs A + Z.abs B * q) * (u * u)) by (apply Z.mul_le_mono_nonneg_r; nia).
  assert (Z.abs B * q * (u * u) = Z.abs B * u * q * u) by ring.
  assert (Z.abs B * u * q * u <= x * b * q * u) by (apply Z.mul_le_mono_nonneg_r; lia).
  lia.
Qed.

(** Consequence: DivRound of a noisy multiple of the scale, 64-bit words included. *)
Lemma DivRound_noisy x y m e : 0 <= x < 2 ^ 64 -> 0 < y -> is_float_int y ->
  x = m * y + e -> 2 * Z.abs e + 2 ^ 13 + 2 < y -> DivRound x y = m.
Proof.
  intros Hx Hy Hfy Hxe He. unfold DivRound.
  pose proof (fl_div_error x y ltac:(lia) Hy Hfy) as (Hq & Hp & Herr).
  pose proof (math_Round_spec _ Hq) as Hr.
  destruct (fl_div _ _) as [p q]. cbn [fst snd] in *.
  set (R := math_Round (p, q)) in *. clearbody R. unfold is_round_half_up in Hr.
  assert (Hb : Z.abs (p * y - x * q) <= 2 ^ 12 * q + q).
  { assert (x * q * (2 ^ 54 + 1) <= 2 ^ 64 * q * (2 ^ 54 + 1)).
    { apply Z.mul_le_mono_nonneg_r; [lia|]. apply Z.mul_le_mono_nonneg_r; lia. }
    assert (2 ^ 64 * (2 ^ 54 + 1) <= (2 ^ 12 + 1) * 2 ^ 106) by (vm_compute; discriminate).
    assert (2 ^ 64 * q * (2 ^ 54 + 1) <= (2 ^ 12 + 1) * 2 ^ 106 * q).
    { replace (2 ^ 64 * q * (2 ^ 54 + 1)) with (2 ^ 64 * (2 ^ 54 + 1) * q) by ring.
      apply Z.mul_le_mono_nonneg_r; lia. }
    apply mul_pos_le with (2 ^ 106); [reflexivity|]. lia. }
  assert (Hc : 2 * Z.abs (p - m * q) * y < q * y).
  { replace (2 * Z.abs (p - m * q) * y) with (2 * Z.abs ((p - m * q) * y))
      by (rewrite Z.abs_mul, (Z.abs_eq y) by lia; ring).
    replace ((p - m * q) * y) with ((p * y - x * q) + e * q) by (rewrite Hxe; ring).
    assert (Z.abs (e * q) = Z.abs e * q) by (rewrite Z.abs_mul, (Z.abs_eq q) by lia; reflexivity).
    pose proof (Z.abs_triangle (p * y - x * q) (e * q)).
    assert ((2 * Z.abs e + 2 ^ 13 + 3) * q <= y * q) by (apply Z.mul_le_mono_nonneg_r; lia).
    lia. }
  apply mul_pos_lt in Hc; [|assumption].
  assert (2 * R - 1 < 2 * m + 1) by (apply mul_pos_lt with q; lia).
  assert (2 * m - 1 < 2 * R + 1) by (apply mul_pos_lt with q; lia).
  lia.
Qed.

(** The same with the exact quotient (32-bit words and every x below 2^52). *)
Lemma DivRound_noisy_small x y m e : 0 <= x < 2 ^ 52 -> 0 < y < 2 ^ 53 ->
  x = m * y + e -> - y <= 2 * e < y -> DivRound x y = m.
Proof.
  intros Hx Hy Hxe He. pose proof (DivRound_exact x y Hx Hy) as H.
  apply (is_round_half_up_unique x y); [lia|assumption|]. unfold is_round_half_up. nia.
Qed.
