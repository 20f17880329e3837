From Verif Require Import Base ModelNum SpecNum.

(* ------------------------------------------------------------------ *)
(** ** Words *)

Lemma pow2_pos w : 0 <= w -> 0 < 2 ^ w.
Proof. intros; apply Z.pow_pos_nonneg; lia. Qed.

Lemma wrap_range w x : 0 <= w -> uword w (wrap w x).
Proof. intros; apply Z.mod_pos_bound, pow2_pos; auto. Qed.

Lemma wrap_small w x : uword w x -> wrap w x = x.
Proof. intros; now apply Z.mod_small. Qed.

Lemma wrap_eqm w x : eqm (2 ^ w) (wrap w x) x.
Proof. apply eqm_mod. Qed.

Lemma swrap_range w x : 0 < w -> sword w (swrap w x).
Proof.
  intros. unfold swrap, sword.
  pose proof (Z.mod_pos_bound (x + 2 ^ (w - 1)) (2 ^ w) (pow2_pos w ltac:(lia))).
  assert (2 ^ w = 2 * 2 ^ (w - 1)) by (rewrite <- Z.pow_succ_r by lia; f_equal; lia).
  lia.
Qed.

Lemma swrap_small w x : 0 < w -> sword w x -> swrap w x = x.
Proof.
  intros Hw Hx. unfold swrap, sword in *.
  assert (2 ^ w = 2 * 2 ^ (w - 1)) by (rewrite <- Z.pow_succ_r by lia; f_equal; lia).
  rewrite Z.mod_small by lia. lia.
Qed.

Lemma swrap_eqm w x : eqm (2 ^ w) (swrap w x) x.
Proof.
  unfold swrap. rewrite eqm_mod. apply eqm_eq; lia.
Qed.

(* ------------------------------------------------------------------ *)
(** ** Powers of two, logarithm *)

Lemma Log2_spec x k : Log2 x = Ok k <-> 0 < x /\ is_floor_log2 x k.
Proof.
  unfold Log2, Len64, is_floor_log2. destruct (Z.leb_spec x 0); [split; [discriminate|lia]|].
  destruct (Z.eqb_spec x 0); [lia|].
  assert (2 ^ Z.log2 x <= x < 2 ^ Z.succ (Z.log2 x)) as Hl by (apply Z.log2_spec; lia).
  pose proof (Z.log2_nonneg x).
  split.
  - intros E; inversion E; subst. replace (Z.log2 x + 1 - 1) with (Z.log2 x) by lia.
    replace (Z.log2 x + 1) with (Z.succ (Z.log2 x)) by lia. lia.
  - intros (_ & Hk & Hk'). f_equal. rewrite (Z.log2_unique x k); lia.
Qed.

Lemma Log2_panics x : Log2 x = Panic <-> x <= 0.
Proof.
  unfold Log2. destruct (Z.leb_spec x 0); split; try lia; try discriminate; auto.
Qed.

Lemma land_pred_pow2 x : 0 < x -> Z.land x (x - 1) = 0 -> x = 2 ^ Z.log2 x.
Proof.
  intros Hx H. pose proof (Z.log2_spec x Hx) as [Hl Hu].
  pose proof (Z.log2_nonneg x) as Hn.
  destruct (Z.eq_dec x (2 ^ Z.log2 x)) as [|Hne]; [assumption|exfalso].
  assert (Z.log2 (x - 1) = Z.log2 x) as E by (apply Z.log2_unique; lia).
  assert (Z.testbit (Z.land x (x - 1)) (Z.log2 x) = true) as Hb.
  { rewrite Z.land_spec, Z.bit_log2 by lia. rewrite <- E at 1.
    rewrite Z.bit_log2; [reflexivity|].
    pose proof (pow2_pos _ Hn). lia. }
  rewrite H, Z.bits_0 in Hb. discriminate.
Qed.

Lemma IsPowerOfTwo_spec x : IsPowerOfTwo x = true <-> power_of_two x.
Proof.
  unfold IsPowerOfTwo, power_of_two. rewrite andb_true_iff, Z.ltb_lt, Z.eqb_eq. split.
  - intros [Hx H]. exists (Z.log2 x). split; [apply Z.log2_nonneg|]. now apply land_pred_pow2.
  - intros (k & Hk & ->). split; [now apply pow2_pos|].
    replace (2 ^ k - 1) with (Z.ones k) by (rewrite Z.ones_equiv; lia).
    rewrite Z.land_ones by lia. apply Z.mod_same. pose proof (pow2_pos k Hk). lia.
Qed.

(* ------------------------------------------------------------------ *)
(** ** DivRoundBits *)

Lemma land_1 x : Z.land x 1 = x mod 2.
Proof. change 1 with (Z.ones 1). rewrite Z.land_ones by lia. reflexivity. Qed.

(** The core: with y = 2x mod 2^w (any representative), bit [b] of y is bit b of 2x. *)
Lemma bit_core w b x y : 0 <= b < w -> eqm (2 ^ w) y (2 * x) ->
  Z.land (Z.shiftr y b) 1 = (2 * x / 2 ^ b) mod 2.
Proof.
  intros Hb [k Hk]. rewrite land_1, Z.shiftr_div_pow2 by lia.
  replace y with (2 * x + (k * 2 ^ (w - b - 1) * 2) * 2 ^ b).
  - rewrite Z.div_add by (pose proof (pow2_pos b); lia). apply Z_mod_plus_full.
  - replace (k * 2 ^ (w - b - 1) * 2 * 2 ^ b) with (k * 2 ^ w); [lia|].
    replace w with ((w - b - 1) + 1 + b) at 1 by lia.
    rewrite !Z.pow_add_r by lia. change (2 ^ 1) with 2. ring.
Qed.

Lemma round_core b x : 0 <= b ->
  is_round_half_up x (2 ^ b) (x / 2 ^ b + (2 * x / 2 ^ b) mod 2).
Proof.
  intros Hb. unfold is_round_half_up. pose proof (pow2_pos b Hb) as Hp.
  set (p := 2 ^ b) in *.
  pose proof (Z.div_mod x p ltac:(lia)) as E1.
  pose proof (Z.mod_pos_bound x p Hp).
  set (q := x / p) in *. set (r := x mod p) in *.
  assert (2 * x / p = 2 * q + (2 * r) / p) as ->.
  { rewrite E1. replace (2 * (p * q + r)) with (2 * r + (2 * q) * p) by ring.
    rewrite Z.div_add by lia. lia. }
  assert ((2 * r) / p = if 2 * r <? p then 0 else 1) as ->.
  { destruct (Z.ltb_spec (2 * r) p).
    - apply Z.div_small; lia.
    - symmetry; apply Z.div_unique with (2 * r - p); lia. }
  destruct (Z.ltb_spec (2 * r) p).
  - replace (2 * q + 0) with (q * 2) by ring. rewrite Z_mod_mult. nia.
  - replace (2 * q + 1) with (1 + q * 2) by ring. rewrite Z_mod_plus_full.
    change (1 mod 2) with 1. nia.
Qed.

Lemma DivRoundBits_spec w x bits : 0 <= bits < w -> uword w x ->
  is_round_half_up x (2 ^ bits) (DivRoundBits w x bits) /\ uword w (DivRoundBits w x bits).
Proof.
  intros Hb Hx. split; [|apply wrap_range; lia].
  unfold DivRoundBits.
  rewrite (bit_core w bits x) by (try lia; rewrite wrap_eqm, Z.shiftl_mul_pow2 by lia; apply eqm_eq; lia).
  rewrite Z.shiftr_div_pow2 by lia.
  pose proof (round_core bits x ltac:(lia)) as H.
  rewrite wrap_small; [assumption|].
  unfold uword in *. pose proof (pow2_pos bits ltac:(lia)).
  pose proof (Z.mod_pos_bound (2 * x / 2 ^ bits) 2 ltac:(lia)).
  assert (0 <= x / 2 ^ bits) by (apply Z.div_pos; lia).
  split; [lia|].
  destruct (Z.eq_dec bits 0) as [->|Hne].
  - change (2 ^ 0) with 1. rewrite !Z.div_1_r. replace (2 * x) with (x * 2) by ring. rewrite Z_mod_mult. lia.
  - assert (2 ^ bits = 2 * 2 ^ (bits - 1)) by (rewrite <- Z.pow_succ_r by lia; f_equal; lia).
    assert (2 ^ w = 2 ^ (w - 1) * 2) by (rewrite Z.mul_comm, <- Z.pow_succ_r by lia; f_equal; lia).
    pose proof (pow2_pos (bits - 1) ltac:(lia)).
    assert (x / 2 ^ bits < 2 ^ (w - 1)) by (apply Z.div_lt_upper_bound; nia).
    assert (2 ^ 0 <= 2 ^ (w - 1)) by (apply Z.pow_le_mono_r; lia).
    change (2 ^ 0) with 1 in *. lia.
Qed.

Lemma DivRoundBitsS_spec w x bits : 0 <= bits < w -> sword w x ->
  is_round_half_up x (2 ^ bits) (DivRoundBitsS w x bits) /\ sword w (DivRoundBitsS w x bits).
Proof.
  intros Hb Hx. split; [|apply swrap_range; lia].
  unfold DivRoundBitsS.
  rewrite (bit_core w bits x) by (try lia; rewrite swrap_eqm, Z.shiftl_mul_pow2 by lia; apply eqm_eq; lia).
  rewrite Z.shiftr_div_pow2 by lia.
  pose proof (round_core bits x ltac:(lia)) as H.
  rewrite swrap_small; [assumption|lia|].
  unfold sword in *. pose proof (pow2_pos bits ltac:(lia)).
  pose proof (Z.mod_pos_bound (2 * x / 2 ^ bits) 2 ltac:(lia)).
  destruct (Z.eq_dec bits 0) as [->|Hne].
  - change (2 ^ 0) with 1. rewrite !Z.div_1_r. replace (2 * x) with (x * 2) by ring. rewrite Z_mod_mult. lia.
  - assert (2 ^ bits = 2 * 2 ^ (bits - 1)) by (rewrite <- Z.pow_succ_r by lia; f_equal; lia).
    pose proof (pow2_pos (bits - 1) ltac:(lia)).
    assert (2 ^ (w - 1) = 2 * 2 ^ (w - 2)) by (rewrite <- Z.pow_succ_r by lia; f_equal; lia).
    pose proof (pow2_pos (w - 2) ltac:(lia)).
    assert (x / 2 ^ bits < 2 ^ (w - 2)) by (apply Z.div_lt_upper_bound; nia).
    assert (- 2 ^ (w - 2) <= x / 2 ^ bits) by (apply Z.div_le_lower_bound; nia).
    lia.
Qed.

(** The rounding spec determines the result. *)
Lemma is_round_half_up_unique n d r r' : 0 < d ->
  is_round_half_up n d r -> is_round_half_up n d r' -> r = r'.
Proof. unfold is_round_half_up; intros Hd H1 H2. nia. Qed.

Lemma is_round_half_up_floor n d : 0 < d -> is_round_half_up n d ((2 * n + d) / (2 * d)).
Proof.
  intros Hd. unfold is_round_half_up.
  pose proof (Z.div_mod (2 * n + d) (2 * d) ltac:(lia)).
  pose proof (Z.mod_pos_bound (2 * n + d) (2 * d) ltac:(lia)). nia.
Qed.

(* ------------------------------------------------------------------ *)
(** ** MaxN / MinN *)

Lemma MaxN_spec x : x <> [] -> In (MaxN x) x /\ forall y, In y x -> y <= MaxN x.
Proof.
  destruct x as [|x0 xs]; [congruence|intros _]. cbn [MaxN].
  assert (forall m, let M := fold_left (fun m y => if m <? y then y else m) xs m in
     (M = m \/ In M xs) /\ m <= M /\ forall y, In y xs -> y <= M) as H.
  { induction xs as [|y ys IH]; intros m; cbn.
    - split; [auto|]. split; [lia|tauto].
    - destruct (IH (if m <? y then y else m)) as (H1 & H2 & H3). cbn in *.
      destruct (Z.ltb_spec m y).
      + split; [destruct H1; auto|]. split; [lia|]. intros z [->|Hz]; auto.
      + split; [destruct H1; auto|]. split; [lia|]. intros z [->|Hz]; [lia|auto]. }
  destruct (H x0) as (H1 & H2 & H3). cbn in H1. split.
  - destruct H1; [left; auto|right; auto].
  - intros y [->|Hy]; auto.
Qed.

Lemma MinN_spec x : x <> [] -> In (MinN x) x /\ forall y, In y x -> MinN x <= y.
Proof.
  destruct x as [|x0 xs]; [congruence|intros _]. cbn [MinN].
  assert (forall m, let M := fold_left (fun m y => if y <? m then y else m) xs m in
     (M = m \/ In M xs) /\ M <= m /\ forall y, In y xs -> M <= y) as H.
  { induction xs as [|y ys IH]; intros m; cbn.
    - split; [auto|]. split; [lia|tauto].
    - destruct (IH (if y <? m then y else m)) as (H1 & H2 & H3). cbn in *.
      destruct (Z.ltb_spec y m).
      + split; [destruct H1; auto|]. split; [lia|]. intros z [->|Hz]; auto.
      + split; [destruct H1; auto|]. split; [lia|]. intros z [->|Hz]; [lia|auto]. }
  destruct (H x0) as (H1 & H2 & H3). cbn in H1. split.
  - destruct H1; [left; auto|right; auto].
  - intros y [->|Hy]; auto.
Qed.

(* ------------------------------------------------------------------ *)
(** ** Sqrt *)

Definition sq_d (i : nat) : Z := match i with O => 0 | S j => 4 ^ Z.of_nat j end.

Lemma sq_d_shift i : Z.shiftr (sq_d (S i)) 2 = sq_d i.
Proof.
  rewrite Z.shiftr_div_pow2 by lia. change (2 ^ 2) with 4.
  destruct i as [|i]; cbn [sq_d]; [reflexivity|].
  rewrite Nat2Z.inj_succ, Z.pow_succ_r by lia. rewrite Z.mul_comm. apply Z.div_mul. lia.
Qed.

Lemma four_two i : 0 <= i -> 4 ^ i = 2 ^ i * 2 ^ i.
Proof. intros. rewrite <- Z.pow_mul_l. reflexivity. Qed.

Lemma sqrt_init_spec fuel i x : 0 <= x -> (i < fuel)%nat -> x < 4 ^ Z.of_nat i ->
  exists j, (j <= i)%nat /\ x < 4 ^ Z.of_nat j /\ sqrt_init fuel x (sq_d i) = Ok (sq_d j).
Proof.
  intros Hx. revert i; induction fuel as [|fuel IH]; intros i Hf Hi; [lia|].
  cbn [sqrt_init]. destruct (Z.ltb_spec x (sq_d i)) as [H|H].
  - destruct i as [|i]; [cbn in H; lia|]. rewrite sq_d_shift.
    destruct (IH i) as (j & Hj & Hxj & E); [lia|exact H|].
    exists j. repeat split; auto; lia.
  - exists i. auto.
Qed.

Lemma sqrt_loop_spec fuel i x r t c :
  (i < fuel)%nat -> (i <= 32)%nat -> 0 <= r -> (i = 32%nat -> r = 0) ->
  t = x - r * r -> 0 <= t -> x < 2 ^ 64 ->
  (2 ^ Z.of_nat i | r) -> x < (r + 2 ^ Z.of_nat i) * (r + 2 ^ Z.of_nat i) ->
  c = r * 2 ^ Z.of_nat i ->
  exists s, sqrt_loop fuel t c (sq_d i) = Ok s /\ is_floor_sqrt x s.
Proof.
  revert i r t c. induction fuel as [|fuel IH]; intros i r t c Hf Hi Hr H32 Ht Ht0 Hx64 Hdiv Hx Hc; [lia|].
  cbn [sqrt_loop]. destruct i as [|i].
  - cbn [sq_d]. change (0 =? 0) with true. cbn iota. exists c. split; [reflexivity|].
    change (2 ^ Z.of_nat 0) with 1 in *. unfold is_floor_sqrt.
    replace c with r by lia. repeat split; try nia.
  - cbn [sq_d]. set (p := 2 ^ Z.of_nat i) in *.
    assert (0 < p) by (apply pow2_pos; lia).
    assert (2 ^ Z.of_nat (S i) = 2 * p) as E2 by (rewrite Nat2Z.inj_succ, Z.pow_succ_r by lia; reflexivity).
    assert (4 ^ Z.of_nat i = p * p) as E4 by (apply four_two; lia).
    rewrite E2 in *.
    assert (r * r < 2 ^ 64) by lia.
    assert (r < 2 ^ 32) by (change (2 ^ 64) with (2 ^ 32 * 2 ^ 32) in *; nia).
    assert (p <= 2 ^ 31) by (unfold p; apply Z.pow_le_mono_r; lia).
    assert (c + p * p < 2 ^ 64) as Hov.
    { destruct (Nat.eq_dec (S i) 32) as [E|E].
      - rewrite (H32 E) in *. subst c. change (2 ^ 64) with (4 * (2 ^ 31 * 2 ^ 31)).
        assert (0 < 2 ^ 31 * 2 ^ 31) by reflexivity. nia.
      - assert (p <= 2 ^ 30) by (unfold p; apply Z.pow_le_mono_r; lia).
        subst c. change (2 ^ 64) with (2 ^ 32 * 2 ^ 31 + 2 ^ 63).
        assert (r * (2 * p) <= 2 ^ 32 * 2 ^ 31) by (change (2 ^ 31) with (2 * 2 ^ 30); nia).
        assert (p * p <= 2 ^ 30 * 2 ^ 30) by nia.
        change (2 ^ 30 * 2 ^ 30) with (2 ^ 60) in *. assert (2 ^ 60 < 2 ^ 63) by reflexivity. lia. }
    assert (0 <= c) by (subst c; nia).
    rewrite E4. destruct (Z.eqb_spec (p * p) 0) as [E|_]; [nia|].
    assert (Z.shiftr (p * p) 2 = sq_d i) as ->.
    { rewrite <- E4. apply (sq_d_shift i). }
    assert (Z.shiftr c 1 = r * p) as ->.
    { rewrite Z.shiftr_div_pow2 by lia. change (2 ^ 1) with 2. subst c.
      replace (r * (2 * p)) with (r * p * 2) by ring. apply Z.div_mul. lia. }
    rewrite (wrap_small 64 (c + p * p)) by (unfold uword; nia).
    destruct Hdiv as [a Ha].
    destruct (Z.leb_spec (c + p * p) t) as [Hge|Hlt].
    + assert (0 <= t - (c + p * p) < 2 ^ 64) by nia.
      assert (0 <= r * p + p * p < 2 ^ 64) by (subst c; nia).
      rewrite !wrap_small by (unfold uword; assumption).
      apply IH with (r := r + p); fold p; try lia.
      exists (2 * a + 1). subst r; ring.
    + apply IH with (r := r); fold p; try lia.
      exists (2 * a). subst r; ring.
Qed.

Lemma Sqrt_spec x : 0 <= x < 2 ^ 64 -> exists s, Sqrt x = Ok s /\ is_floor_sqrt x s.
Proof.
  intros Hx. unfold Sqrt. destruct (Z.ltb_spec x 0); [lia|].
  destruct (sqrt_init_spec 40 32 x) as (j & Hj & Hxj & E); try lia.
  change (sq_d 32) with (2 ^ 62) in E. rewrite E.
  apply sqrt_loop_spec with (r := 0); try lia.
  - exists 0; lia.
  - rewrite !Z.add_0_l. rewrite <- four_two by lia. lia.
Qed.

Lemma Sqrt_panics x : x < 0 -> Sqrt x = Panic.
Proof. intros; unfold Sqrt. destruct (Z.ltb_spec x 0); [reflexivity|lia]. Qed.

Lemma is_floor_sqrt_unique x r r' : is_floor_sqrt x r -> is_floor_sqrt x r' -> r = r'.
Proof. unfold is_floor_sqrt; intros; nia. Qed.

(* ------------------------------------------------------------------ *)
(** ** ModInverse *)


Lemma twrap_eqm sg w x : eqm (2 ^ w) (twrap sg w x) x.
Proof. destruct sg; [apply swrap_eqm | apply wrap_eqm]. Qed.


Record euclid_inv (x m a b u v : Z) : Prop := {
  ei_a : 0 <= a <= m;
  ei_b : 0 <= b <= m;
  ei_uv : u * v <= 0;
  ei_m : a * Z.abs v + b * Z.abs u = m;
  ei_u : Z.abs u <= m;
  ei_v : Z.abs v <= m;
  ei_xa : eqm m a (x * u);
  ei_xb : eqm m b (x * v);
  ei_gcd : Z.gcd a b = Z.gcd x m }.

Lemma quot_div a b : 0 <= a -> 0 < b -> Z.quot a b = a / b.
Proof. intros; apply Z.quot_div_nonneg; lia. Qed.

Lemma abs_sub_opposite u v q : 0 <= q -> u * v <= 0 -> Z.abs (u - q * v) = Z.abs u + q * Z.abs v.
Proof.
  intros Hq H. destruct (Z_le_gt_dec 0 v), (Z_le_gt_dec 0 u).
  - assert (u = 0 \/ v = 0) by nia. nia.
  - rewrite (Z.abs_eq v), (Z.abs_neq u), Z.abs_neq by nia. lia.
  - rewrite (Z.abs_neq v), (Z.abs_eq u), Z.abs_eq by nia. lia.
  - exfalso; nia.
Qed.

Lemma gcd_step a b : 0 < b -> Z.gcd b (a - a / b * b) = Z.gcd a b.
Proof.
  intros Hb. replace (a - a / b * b) with (a mod b) by (pose proof (Z.div_mod a b); lia).
  rewrite Z.gcd_comm. rewrite Z.gcd_mod by lia. apply Z.gcd_comm.
Qed.

Lemma euclid_bound a b q r U V m : 0 <= U -> 0 <= V -> 0 <= r -> 0 < b -> 0 <= q ->
  a = b * q + r -> a * V + b * U = m -> U + q * V <= m.
Proof.
  intros HU HV Hr Hb Hq Ha Hm.
  assert (b * q * V <= a * V) by (apply Z.mul_le_mono_nonneg_r; lia).
  assert (0 <= q * V) by (apply Z.mul_nonneg_nonneg; lia).
  assert (1 * (U + q * V) <= b * (U + q * V)) by (apply Z.mul_le_mono_nonneg_r; lia). lia.
Qed.

Lemma euclid_step w x m a b u v :
  1 < w -> 0 < m < 2 ^ (w - 1) -> 0 < b -> euclid_inv x m a b u v ->
  let q := Z.quot a b in
  twrap true w (a - twrap true w (q * b)) = a mod b /\
  twrap true w (u - twrap true w (q * v)) = u - q * v /\
  euclid_inv x m b (a mod b) v (u - q * v).
Proof.
  intros Hw Hm Hb [Ha Hb' Huv Hma Hu Hv Hxa Hxb Hg] q.
  assert (Hq : q = a / b) by (apply quot_div; lia).
  assert (0 <= q) by (rewrite Hq; apply Z.div_pos; lia).
  pose proof (Z.div_mod a b ltac:(lia)) as Ediv. rewrite <- Hq in Ediv.
  pose proof (Z.mod_pos_bound a b Hb) as Hmod.
  pose proof (abs_sub_opposite u v q ltac:(lia) Huv) as Habs.
  assert (Hv' : Z.abs (u - q * v) <= m).
  { rewrite Habs. apply (euclid_bound a b q (a mod b)); try lia. }
  assert (Hqv : Z.abs (q * v) <= m).
  { rewrite Z.abs_mul, (Z.abs_eq q) by lia. lia. }
  assert (0 <= q * b) by (apply Z.mul_nonneg_nonneg; lia).
  assert (E1 : twrap true w (q * b) = q * b).
  { apply swrap_small; [lia|]. unfold sword; lia. }
  assert (E2 : twrap true w (q * v) = q * v).
  { apply swrap_small; [lia|]. unfold sword; lia. }
  rewrite E1, E2. split; [|split].
  - replace (a - q * b) with (a mod b) by lia. apply swrap_small; [lia|]. unfold sword; lia.
  - apply swrap_small; [lia|]. unfold sword; lia.
  - split; try lia.
    + assumption.
    + replace (a mod b) with (a - q * b) by lia. rewrite Hxa, Hxb. apply eqm_eq; ring.
    + replace (a mod b) with (a - a / b * b) by lia. rewrite gcd_step by lia. assumption.
Qed.

Lemma mod_mod_half a b : 0 < a mod b -> 0 < b -> 2 * (b mod (a mod b)) < b.
Proof.
  intros Hr Hb. set (r := a mod b) in *.
  pose proof (Z.mod_pos_bound a b Hb). fold r in H.
  pose proof (Z.mod_pos_bound b r ltac:(lia)).
  pose proof (Z.div_mod b r ltac:(lia)).
  assert (1 <= b / r) by (apply Z.div_le_lower_bound; lia). nia.
Qed.

Lemma inv_loop_signed w x m : 1 < w -> 0 < m < 2 ^ (w - 1) ->
  forall (k fuel : nat) a b u v,
  (2 * k + 1 <= fuel)%nat -> b < 2 ^ Z.of_nat k -> euclid_inv x m a b u v ->
  exists c, inv_loop fuel true w a b u v = Ok (Z.gcd x m, c) /\
            eqm m (Z.gcd x m) (x * c) /\ Z.abs c <= m.
Proof.
  intros Hw Hm.
  assert (Hstop : forall fuel a u v, euclid_inv x m a 0 u v ->
     exists c, inv_loop (S fuel) true w a 0 u v = Ok (Z.gcd x m, c) /\
            eqm m (Z.gcd x m) (x * c) /\ Z.abs c <= m).
  { intros fuel a u v [Ha Hb' Huv Hma Hu Hv Hxa Hxb Hg].
    exists u. rewrite Z.gcd_0_r, Z.abs_eq in Hg by lia. rewrite <- Hg. cbn. auto. }
  induction k as [|k IH]; intros fuel a b u v Hf Hb Hi.
  - change (2 ^ Z.of_nat 0) with 1 in Hb. destruct fuel as [|fuel]; [lia|].
    assert (b = 0) by (destruct Hi; lia). subst b. now apply Hstop.
  - destruct fuel as [|[|[|fuel]]]; try lia.
    destruct (Z.eq_dec b 0) as [->|Hb0]; [now apply Hstop|].
    pose proof (ei_b _ _ _ _ _ _ Hi).
    destruct (euclid_step w x m a b u v Hw Hm ltac:(lia) Hi) as (E1 & E2 & Hi').
    remember (S (S fuel)) as f2. cbn [inv_loop].
    destruct (Z.eqb_spec b 0); [lia|]. cbn zeta. rewrite E1, E2. subst f2.
    set (r := a mod b) in *. set (v' := u - Z.quot a b * v) in *.
    destruct (Z.eq_dec r 0) as [E0|Hr0].
    + rewrite E0 in *. now apply Hstop.
    + pose proof (ei_b _ _ _ _ _ _ Hi').
      destruct (euclid_step w x m b r v v' Hw Hm ltac:(lia) Hi') as (E1' & E2' & Hi'').
      remember (S fuel) as f2. cbn [inv_loop].
      destruct (Z.eqb_spec r 0); [lia|]. cbn zeta. rewrite E1', E2'.
      apply IH; [lia| |assumption].
      rewrite Nat2Z.inj_succ, Z.pow_succ_r in Hb by lia.
      pose proof (mod_mod_half a b) as Hhalf. fold r in Hhalf. lia.
Qed.

Lemma rem_norm x m : 0 < m -> (if Z.rem x m <? 0 then Z.rem x m + m else Z.rem x m) = x mod m.
Proof.
  intros Hm. pose proof (Z.quot_rem x m ltac:(lia)) as E.
  destruct (Z.ltb_spec (Z.rem x m) 0) as [H|H].
  - assert (- m < Z.rem x m) by (destruct (Z_le_gt_dec 0 x);
      [pose proof (Z.rem_nonneg x m); lia | pose proof (Z.rem_bound_neg_pos x m); lia]).
    apply Z.mod_unique with (Z.quot x m - 1); nia.
  - assert (Z.rem x m < m) by (destruct (Z_le_gt_dec 0 x);
      [pose proof (Z.rem_bound_pos x m); lia | pose proof (Z.rem_bound_neg_pos x m); lia]).
    apply Z.mod_unique with (Z.quot x m); nia.
Qed.

Lemma rem_norm_signed w x m : 1 < w -> 0 < m < 2 ^ (w - 1) ->
  (if Z.rem x m <? 0 then twrap true w (Z.rem x m + m) else Z.rem x m) = x mod m.
Proof.
  intros Hw Hm. pose proof (rem_norm x m ltac:(lia)) as E.
  destruct (Z.ltb_spec (Z.rem x m) 0); [|assumption].
  rewrite E. apply swrap_small; [lia|]. pose proof (Z.mod_pos_bound x m). unfold sword; lia.
Qed.

Lemma ModInverse_signed w x m : 1 < w <= 64 -> 0 < m < 2 ^ (w - 1) ->
  (Z.gcd x m = 1 -> exists y, ModInverse true w x m = Ok y /\ 0 <= y < m /\ eqm m (x * y) 1) /\
  (Z.gcd x m <> 1 -> ModInverse true w x m = Panic).
Proof.
  intros Hw Hm. unfold ModInverse. destruct (Z.leb_spec m 0); [lia|]. cbn zeta.
  rewrite rem_norm_signed by lia.
  pose proof (Z.mod_pos_bound x m ltac:(lia)) as Hx.
  assert (Hinv : euclid_inv (x mod m) m (x mod m) m 1 0).
  { split; try lia; try reflexivity.
    - apply eqm_eq; lia.
    - rewrite Z.mul_0_r. rewrite <- (Z.mul_1_l m) at 2. apply eqm_multiple. }
  destruct (inv_loop_signed w (x mod m) m ltac:(lia) Hm 69 140 (x mod m) m 1 0) as (c & E & Hc & Hcb).
  { lia. }
  { assert (2 ^ (w - 1) <= 2 ^ Z.of_nat 69) by (apply Z.pow_le_mono_r; lia). lia. }
  { assumption. }
  rewrite E. rewrite Z.gcd_mod, Z.gcd_comm in * by lia.
  assert (Z.gcd m x = Z.gcd x m) as Eg by apply Z.gcd_comm. rewrite ?Eg in *. clear Eg.
  destruct (Z.eqb_spec (Z.gcd x m) 1) as [Hg|Hg].
  - split; [intros _|lia]. eexists. split; [reflexivity|].
    rewrite rem_norm_signed by lia. split; [apply Z.mod_pos_bound; lia|].
    rewrite Hg in Hc. rewrite eqm_mod. rewrite Hc, eqm_mod. reflexivity.
  - split; [lia|reflexivity].
Qed.

(** Unsigned T: correct when the modulus divides 2^w (a power of two). *)
Lemma inv_loop_unsigned w x m : 0 < w -> 0 < m < 2 ^ w -> (m | 2 ^ w) ->
  forall (k fuel : nat) a b u v,
  (2 * k + 1 <= fuel)%nat -> b < 2 ^ Z.of_nat k ->
  0 <= a < 2 ^ w -> 0 <= b < 2 ^ w -> uword w u -> uword w v ->
  eqm m a (x * u) -> eqm m b (x * v) ->
  exists c, inv_loop fuel false w a b u v = Ok (Z.gcd a b, c) /\
            eqm m (Z.gcd a b) (x * c) /\ uword w c.
Proof.
  intros Hw Hm Hdiv.
  assert (Hstop : forall fuel a u v, 0 <= a -> uword w u -> eqm m a (x * u) ->
     exists c, inv_loop (S fuel) false w a 0 u v = Ok (Z.gcd a 0, c) /\
            eqm m (Z.gcd a 0) (x * c) /\ uword w c).
  { intros fuel a u v Ha Hu Hxa.
    exists u. rewrite Z.gcd_0_r, Z.abs_eq by lia. cbn. auto. }
  assert (Hstep : forall a b u v, 0 < b -> 0 <= a < 2 ^ w -> 0 <= b < 2 ^ w ->
     eqm m a (x * u) -> eqm m b (x * v) ->
     let q := Z.quot a b in
     twrap false w (a - twrap false w (q * b)) = a mod b /\
     uword w (twrap false w (u - twrap false w (q * v))) /\
     eqm m (a mod b) (x * twrap false w (u - twrap false w (q * v)))).
  { intros a b u v Hb Ha Hb' Hxa Hxb q.
    assert (Hq : q = a / b) by (apply quot_div; lia).
    assert (0 <= q) by (rewrite Hq; apply Z.div_pos; lia).
    pose proof (Z.div_mod a b ltac:(lia)) as Ediv. rewrite <- Hq in Ediv.
    pose proof (Z.mod_pos_bound a b Hb) as Hmod.
    assert (E1 : twrap false w (q * b) = q * b) by (apply wrap_small; unfold uword; nia).
    rewrite E1. split; [|split].
    - replace (a - q * b) with (a mod b) by lia. apply wrap_small. unfold uword; lia.
    - apply wrap_range; lia.
    - rewrite (eqm_divide _ _ _ _ Hdiv (twrap_eqm false w _)).
      rewrite (eqm_divide _ _ _ _ Hdiv (twrap_eqm false w (q * v))).
      replace (a mod b) with (a - q * b) by lia. rewrite Hxa, Hxb. apply eqm_eq; ring. }
  induction k as [|k IH]; intros fuel a b u v Hf Hb Ha Hbw Hu Hv Hxa Hxb.
  - change (2 ^ Z.of_nat 0) with 1 in Hb. destruct fuel as [|fuel]; [lia|].
    assert (b = 0) by lia. subst b. apply Hstop; auto; lia.
  - destruct fuel as [|[|[|fuel]]]; try lia.
    destruct (Z.eq_dec b 0) as [->|Hb0]; [apply Hstop; auto; lia|].
    destruct (Hstep a b u v) as (E1 & Hu' & Hx'); auto; try lia.
    remember (S (S fuel)) as f2. cbn [inv_loop].
    destruct (Z.eqb_spec b 0); [lia|]. cbn zeta. rewrite E1. subst f2.
    set (v' := twrap false w (u - twrap false w (Z.quot a b * v))) in *.
    assert (Hg : Z.gcd a b = Z.gcd b (a mod b)).
    { rewrite (Z.gcd_comm b), Z.gcd_mod by lia. apply Z.gcd_comm. }
    rewrite Hg. pose proof (Z.mod_pos_bound a b ltac:(lia)) as Hmod.
    set (r := a mod b) in *.
    destruct (Z.eq_dec r 0) as [E0|Hr0].
    + rewrite E0 in *. apply Hstop; auto; lia.
    + destruct (Hstep b r v v') as (E1' & Hu'' & Hx''); auto; try lia.
      remember (S fuel) as f2. cbn [inv_loop].
      destruct (Z.eqb_spec r 0); [lia|]. cbn zeta. rewrite E1'.
      assert (Hg' : Z.gcd b r = Z.gcd r (b mod r)).
      { rewrite (Z.gcd_comm r), Z.gcd_mod by lia. apply Z.gcd_comm. }
      rewrite Hg'. pose proof (Z.mod_pos_bound b r ltac:(lia)).
      apply IH; auto; try lia.
      rewrite Nat2Z.inj_succ, Z.pow_succ_r in Hb by lia.
      pose proof (mod_mod_half a b) as Hhalf. fold r in Hhalf. lia.
Qed.

Lemma ModInverse_unsigned w x m : 1 < w <= 64 -> 0 < m < 2 ^ w -> (m | 2 ^ w) -> uword w x ->
  (Z.gcd x m = 1 -> exists y, ModInverse false w x m = Ok y /\ 0 <= y < m /\ eqm m (x * y) 1) /\
  (Z.gcd x m <> 1 -> ModInverse false w x m = Panic).
Proof.
  intros Hw Hm Hdiv Hx0. unfold ModInverse. destruct (Z.leb_spec m 0); [lia|]. cbn zeta.
  unfold uword in Hx0.
  assert (Hrem : forall z, 0 <= z -> Z.rem z m = z mod m) by (intros; apply Z.rem_mod_nonneg; lia).
  rewrite (Hrem x) by lia.
  pose proof (Z.mod_pos_bound x m ltac:(lia)) as Hx.
  destruct (Z.ltb_spec (x mod m) 0); [lia|].
  destruct (inv_loop_unsigned w (x mod m) m ltac:(lia) Hm Hdiv 69 140 (x mod m) m 1 0) as (c & E & Hc & Hcb);
    try lia.
  { assert (2 ^ w <= 2 ^ Z.of_nat 69) by (apply Z.pow_le_mono_r; lia). lia. }
  { unfold uword. assert (2 ^ 1 < 2 ^ w) by (apply Z.pow_lt_mono_r; lia). lia. }
  { unfold uword. lia. }
  { apply eqm_eq; lia. }
  { rewrite Z.mul_0_r. rewrite <- (Z.mul_1_l m) at 2. apply eqm_multiple. }
  rewrite E. rewrite Z.gcd_mod in * by lia. rewrite (Z.gcd_comm m x) in *.
  destruct (Z.eqb_spec (Z.gcd x m) 1) as [Hg|Hg].
  - split; [intros _|lia]. eexists. split; [reflexivity|].
    unfold uword in Hcb. rewrite (Hrem c) by lia.
    pose proof (Z.mod_pos_bound c m ltac:(lia)).
    destruct (Z.ltb_spec (c mod m) 0); [lia|]. split; [lia|].
    rewrite Hg in Hc. rewrite eqm_mod. rewrite Hc, eqm_mod. reflexivity.
  - split; [lia|reflexivity].
Qed.

(* ------------------------------------------------------------------ *)
(** ** ModExp *)

Definition tword (sg : bool) (w x : Z) : Prop := if sg then sword w x else uword w x.

Lemma twrap_small sg w x : 0 < w -> tword sg w x -> twrap sg w x = x.
Proof. destruct sg; cbn; intros; [apply swrap_small | apply wrap_small]; auto. Qed.

Lemma exp_loop_spec sg w m : 1 < w -> 0 < m -> tword sg w ((m - 1) * (m - 1)) ->
  forall (k fuel : nat) r x y, (k < fuel)%nat -> 0 <= y < 2 ^ Z.of_nat k ->
  0 <= x < m -> 0 <= r <= 1 \/ 0 <= r < m ->
  exists s, exp_loop fuel sg w r x y m = Ok s /\ eqm m s (r * x ^ y) /\ (0 <= s < m \/ s = r).
Proof.
  intros Hw Hm Hov.
  assert (Hprod : forall a b, (0 <= a <= 1 \/ 0 <= a < m) -> 0 <= b < m ->
     Z.rem (twrap sg w (a * b)) m = (a * b) mod m).
  { intros a b Ha Hb. rewrite twrap_small; [apply Z.rem_mod_nonneg; nia|lia|].
    destruct Ha as [Ha|Ha].
    - assert (a * b <= b) by nia. assert (0 <= a * b) by nia.
      destruct sg; cbn in *; unfold sword, uword in *; [|nia].
      pose proof (pow2_pos (w - 1)). nia.
    - assert (a * b <= (m - 1) * (m - 1)) by nia. assert (0 <= a * b) by nia.
      destruct sg; cbn in *; unfold sword, uword in *; [|lia].
      pose proof (pow2_pos (w - 1)). lia. }
  induction k as [|k IH]; intros fuel r x y Hf Hy Hx Hr; (destruct fuel as [|fuel]; [lia|]); cbn [exp_loop].
  - change (2 ^ Z.of_nat 0) with 1 in Hy. replace y with 0 by lia.
    change (0 <? 0) with false. cbn iota. exists r. rewrite Z.pow_0_r.
    split; [reflexivity|]. split; [apply eqm_eq; lia|auto].
  - destruct (Z.ltb_spec 0 y) as [Hy0|Hy0].
    2:{ replace y with 0 by lia. exists r. rewrite Z.pow_0_r.
        split; [reflexivity|]. split; [apply eqm_eq; lia|auto]. }
    cbn zeta. rewrite land_1, Z.shiftr_div_pow2 by lia. change (2 ^ 1) with 2.
    rewrite (Hprod x x) by lia.
    pose proof (Z.mod_pos_bound y 2 ltac:(lia)).
    pose proof (Z.div_mod y 2 ltac:(lia)) as Ey.
    pose proof (Z.mod_pos_bound (x * x) m ltac:(lia)).
    pose proof (Z.mod_pos_bound (r * x) m ltac:(lia)).
    rewrite Nat2Z.inj_succ, Z.pow_succ_r in Hy by lia.
    assert (0 <= y / 2) by (apply Z.div_pos; lia).
    assert (Hpow : forall c, eqm m (c * (x * x) ^ (y / 2)) (c * ((x * x) mod m) ^ (y / 2))).
    { intros c. apply eqm_mul; [reflexivity|]. apply eqm_mod_eq. apply Zpower_mod. lia. }
    assert (Hyy : x ^ y = x ^ (y mod 2) * (x * x) ^ (y / 2)).
    { rewrite Ey at 1. rewrite Z.add_comm, Z.pow_add_r, Z.pow_mul_r by lia.
      replace (x ^ 2) with (x * x) by ring. reflexivity. }
    destruct (Z.eqb_spec (y mod 2) 1) as [E|E].
    + rewrite (Hprod r x) by assumption.
      destruct (IH fuel ((r * x) mod m) ((x * x) mod m) (y / 2)) as (s & Es & Hs & Hs'); try lia.
      exists s. split; [exact Es|]. split.
      * rewrite Hs, <- Hpow, eqm_mod, Hyy, E. apply eqm_eq. rewrite Z.pow_1_r. ring.
      * lia.
    + destruct (IH fuel r ((x * x) mod m) (y / 2)) as (s & Es & Hs & Hs'); try lia.
      exists s. split; [exact Es|]. split.
      * rewrite Hs, <- Hpow, Hyy. replace (y mod 2) with 0 by lia. apply eqm_eq. rewrite Z.pow_0_r. ring.
      * lia.
Qed.

(** Non-negative exponents, modulus at least 2 whose square (of m-1) fits the type. *)
Lemma ModExp_nonneg sg w x y m :
  1 < w <= 64 -> 1 < m -> tword sg w m -> tword sg w ((m - 1) * (m - 1)) ->
  tword sg w x -> tword sg w y -> 0 <= y ->
  exists s, ModExp sg w x y m = Ok s /\ 0 <= s < m /\ eqm m s (x ^ y).
Proof.
  intros Hw Hm Hmw Hov Hx Hyw Hy. unfold ModExp.
  destruct (Z.leb_spec m 0); [lia|]. destruct (Z.ltb_spec y 0); [lia|].
  destruct (Z.eqb_spec y 0) as [->|Hy0].
  { exists 1. rewrite Z.pow_0_r. split; [reflexivity|]. split; [lia|reflexivity]. }
  cbn zeta.
  assert (E : (if Z.rem x m <? 0 then twrap sg w (Z.rem x m + m) else Z.rem x m) = x mod m).
  { rewrite <- (rem_norm x m) by lia. destruct (Z.ltb_spec (Z.rem x m) 0); [|reflexivity].
    apply twrap_small; [lia|]. pose proof (rem_norm x m ltac:(lia)) as R.
    destruct (Z.ltb_spec (Z.rem x m) 0); [|lia]. rewrite R.
    pose proof (Z.mod_pos_bound x m). destruct sg; cbn in *; unfold sword, uword in *; lia. }
  rewrite E. pose proof (Z.mod_pos_bound x m ltac:(lia)).
  destruct (exp_loop_spec sg w m ltac:(lia) ltac:(lia) Hov 64 70 1 (x mod m) y) as (s & Es & Hs & Hs'); try lia.
  { split; [lia|]. assert (2 ^ (w - 1) <= 2 ^ w) by (apply Z.pow_le_mono_r; lia).
    assert (2 ^ w <= 2 ^ Z.of_nat 64) by (apply Z.pow_le_mono_r; lia).
    destruct sg; cbn in *; unfold sword, uword in *; lia. }
  rewrite Es. destruct (Z.ltb_spec s 0); [lia|]. exists s. split; [reflexivity|].
  split; [lia|]. rewrite Hs, Z.mul_1_l. apply eqm_mod_eq. symmetry. apply Zpower_mod. lia.
Qed.

(** Negative exponents: (x^-1)^(-y). *)
Lemma ModExp_neg w x y m :
  1 < w <= 64 -> 1 < m < 2 ^ (w - 1) -> sword w ((m - 1) * (m - 1)) ->
  sword w x -> - 2 ^ (w - 1) < y < 0 -> Z.gcd x m = 1 ->
  exists s, ModExp true w x y m = Ok s /\ 0 <= s < m /\ eqm m (s * x ^ (- y)) 1.
Proof.
  intros Hw Hm Hov Hx Hy Hg.
  destruct (ModInverse_signed w x m) as [Hinv _]; try lia.
  destruct (Hinv Hg) as (xi & Exi & Hxi & Hxx).
  assert (Hny : twrap true w (- y) = - y) by (apply swrap_small; [lia|unfold sword; lia]).
  destruct (ModExp_nonneg true w xi (- y) m) as (s & Es & Hs & Hse); cbn; unfold sword in *; try lia.
  exists s. split; [|split; [assumption|]].
  - rewrite <- Es. unfold ModExp. rewrite Exi. cbn zeta. rewrite Hny.
    destruct (Z.leb_spec m 0); [lia|]. destruct (Z.ltb_spec y 0); [|lia].
    destruct (Z.ltb_spec (- y) 0); [lia|]. destruct (Z.eqb_spec (- y) 0); [lia|]. reflexivity.
  - rewrite Hse. rewrite <- Z.pow_mul_l. 
    apply eqm_mod_eq. rewrite Zpower_mod by lia.
    apply eqm_mod_eq in Hxx. rewrite (Z.mul_comm xi x), Hxx.
    rewrite <- Zpower_mod by lia. rewrite Z.pow_1_l by lia. reflexivity.
Qed.
