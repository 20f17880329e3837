(** float64 lanes: rounding to integers and the reduction modulo q. *)
From Coq Require Import Lia Floats.SpecFloat.
From Verif Require Import Base ModelNum ModelAsm ModelF64 SpecF64 PfF64.
Import ListNotations.
Open Scope Z_scope.

Lemma pow_pos2 k : 0 <= k -> 0 < 2 ^ k. Proof. intros. apply Z.pow_pos_nonneg; lia. Qed.
Lemma cz s p : cond_Zopp s (Zpos p) = if s then Zneg p else Zpos p. Proof. destruct s; reflexivity. Qed.

(** A rule that rounds to a nearest integer. *)
Definition nearRule (up : Z -> Z -> Z -> bool) : Prop :=
  forall q r k, 0 <= r < k -> (up q r k = true -> k <= 2 * r) /\ (up q r k = false -> 2 * r <= k).
Lemma even_rule : nearRule upEven.
Proof.
  intros q r k H. unfold upEven. destruct (Z.ltb_spec k (2 * r)), (Z.eqb_spec k (2 * r)), (Z.odd q); cbn [orb andb]; split; intros; try discriminate; lia.
Qed.
Lemma away_rule : nearRule upAway.
Proof. intros q r k H. unfold upAway. destruct (Z.leb_spec k (2 * r)); split; intros; try discriminate; lia. Qed.

Lemma roundZ_near up m e : nearRule up -> 0 <= m -> e < 0 -> 2 * Z.abs (m - roundZ up m e * 2 ^ (- e)) <= 2 ^ (- e) /\ 0 <= roundZ up m e <= m.
Proof.
  intros Hu Hm He. unfold roundZ. destruct (Z.leb_spec 0 e); [lia|]. cbv zeta. set (k := 2 ^ (- e)).
  assert (Hk : 2 <= k). { unfold k. replace (- e) with (1 + (- e - 1)) by lia. rewrite Z.pow_add_r by lia. pose proof (pow_pos2 (- e - 1) ltac:(lia)). lia. }
  pose proof (Z.div_mod m k ltac:(lia)) as D. pose proof (Z.mod_pos_bound m k ltac:(lia)) as B. pose proof (Z.div_pos m k ltac:(lia) ltac:(lia)) as P.
  destruct (Hu (m / k) (m mod k) k B) as (U1 & U2). destruct (up (m / k) (m mod k) k); [specialize (U1 eq_refl)|specialize (U2 eq_refl)].
  - replace (m - (m / k + 1) * k) with (m mod k - k) by lia. clear - U1 D B P Hk. set (q := m / k) in *. set (r := m mod k) in *. clearbody q r k. split; [lia|nia].
  - replace (m - m / k * k) with (m mod k) by lia. clear - U2 D B P Hk. set (q := m / k) in *. set (r := m mod k) in *. clearbody q r k. split; [lia|nia].
Qed.
Lemma roundZ_even m e n : 0 <= m -> e < 0 -> 2 * (m - n * 2 ^ (- e)) = 2 ^ (- e) -> Z.even (roundZ upEven m e) = true.
Proof.
  intros Hm He Hn. unfold roundZ. destruct (Z.leb_spec 0 e); [lia|]. cbv zeta. set (k := 2 ^ (- e)) in *.
  assert (Hk : 2 <= k). { unfold k. replace (- e) with (1 + (- e - 1)) by lia. rewrite Z.pow_add_r by lia. pose proof (pow_pos2 (- e - 1) ltac:(lia)). lia. }
  assert (E : m / k = n /\ m mod k = m - n * k).
  { assert (B : 0 <= m - n * k < k) by lia. split; symmetry; [apply (Z.div_unique_pos m k n (m - n * k))|apply (Z.mod_unique_pos m k n (m - n * k))]; lia. }
  destruct E as (-> & ->). unfold upEven. rewrite Hn. rewrite Z.ltb_irrefl, Z.eqb_refl. cbn [orb andb].
  destruct (Z.odd n) eqn:O; [rewrite Z.add_1_r, Z.even_succ; exact O|]. rewrite <- Z.negb_odd, O. reflexivity.
Qed.

(** Rounding a float: an integral float. *)
Definition sg (s : bool) (z : Z) : Z := cond_Zopp s z.
Lemma rnd_int up s m e : nearRule up -> normal (Zpos m) e -> -900 <= e ->
  let n := sg s (roundZ up (Zpos m) e) in
  has_value (rndF up (S754_finite s m e)) n /\ normalF (rndF up (S754_finite s m e)) /\ near (sg s (Zpos m)) e n.
Proof.
  intros Hu N He. cbv zeta. pose proof N as ((N1 & N2) & N3 & N4). cbn [rndF]. unfold near. destruct (Z.leb_spec 0 e) as [C|C].
  - assert (R : roundZ up (Zpos m) e = Zpos m * 2 ^ e) by (unfold roundZ; destruct (Z.leb_spec 0 e); [reflexivity|lia]). rewrite R. cbn [has_value normalF]. rewrite <- cz. destruct (Z.leb_spec 0 e); [|lia].
    split; [|split; [split; [split; assumption|lia]|]]; destruct s; cbn [sg cond_Zopp]; ring.
  - destruct (roundZ_near up (Zpos m) e Hu ltac:(lia) C) as (B1 & B2).
    assert (NE : 2 * Z.abs (sg s (Zpos m) - sg s (roundZ up (Zpos m) e) * 2 ^ (- e)) <= 2 ^ (- e)).
    { destruct s; cbn [sg cond_Zopp]; [|exact B1]. replace (- Z.pos m - - roundZ up (Z.pos m) e * 2 ^ (- e)) with (- (Zpos m - roundZ up (Zpos m) e * 2 ^ (- e))) by ring. rewrite Z.abs_opp. exact B1. }
    destruct (roundZ up (Zpos m) e) as [|n|n] eqn:E; [|..].
    + cbn [has_value normalF]. split; [destruct s; reflexivity|]. split; [exact Logic.I|]. exact NE.
    + assert (Hn : 0 < Z.abs (cond_Zopp s (Zpos n)) < 2 ^ 53) by (destruct s; cbn [cond_Zopp Z.abs Z.opp]; lia).
      destruct (BN_exact (cond_Zopp s (Zpos n)) 0 s Hn ltac:(lia)) as (p & j & -> & E2 & E3 & N').
      assert (Es : (cond_Zopp s (Zpos n) <? 0) = s) by (destruct s; reflexivity). rewrite Es in *.
      cbn [has_value normalF]. rewrite <- cz, E2. replace (0 - j) with (- j) in * by lia. rewrite Z.opp_involutive.
      split; [|split; [destruct N' as (Na & Nb); split; [exact Na|lia]|exact NE]].
      destruct (Z.leb_spec 0 (- j)); [|reflexivity]. replace j with 0 in * by lia. change (2 ^ 0) with 1. change (2 ^ (- 0)) with 1. unfold sg. ring.
    + lia.
Qed.

(** Exact differences and sums. *)
Lemma shl_mul m e ez : ez <= e -> Zpos (fst (shl_align m e ez)) = Zpos m * 2 ^ (e - ez).
Proof.
  intros H. unfold shl_align. destruct (ez - e) as [|d|d] eqn:E; cbn [fst].
  - replace (e - ez) with 0 by lia. lia.
  - lia.
  - rewrite shift_pos_mul. replace (e - ez) with (Zpos d) by lia. reflexivity.
Qed.
Lemma sg_mul s a b : sg s (a * b) = sg s a * b. Proof. destruct s; cbn [sg cond_Zopp]; ring. Qed.
Lemma sub_BN s1 m1 e1 s2 m2 e2 z e : Z.min e1 e2 <= e ->
  sg s1 (Zpos m1) * 2 ^ (e1 - Z.min e1 e2) - sg s2 (Zpos m2) * 2 ^ (e2 - Z.min e1 e2) = z * 2 ^ (e - Z.min e1 e2) ->
  SFsub 53 1024 (S754_finite s1 m1 e1) (S754_finite s2 m2 e2) = BN z e false.
Proof.
  intros He H. cbn [SFsub]. rewrite !shl_mul by lia. fold (sg s1 (Zpos m1 * 2 ^ (e1 - Z.min e1 e2))). fold (sg s2 (Zpos m2 * 2 ^ (e2 - Z.min e1 e2))).
  rewrite !sg_mul, H, BN_scale by lia. f_equal. lia.
Qed.
Lemma add_BN s1 m1 e1 s2 m2 e2 z e : Z.min e1 e2 <= e ->
  sg s1 (Zpos m1) * 2 ^ (e1 - Z.min e1 e2) + sg s2 (Zpos m2) * 2 ^ (e2 - Z.min e1 e2) = z * 2 ^ (e - Z.min e1 e2) ->
  SFadd 53 1024 (S754_finite s1 m1 e1) (S754_finite s2 m2 e2) = BN z e false.
Proof.
  intros He H. cbn [SFadd]. rewrite !shl_mul by lia. fold (sg s1 (Zpos m1 * 2 ^ (e1 - Z.min e1 e2))). fold (sg s2 (Zpos m2 * 2 ^ (e2 - Z.min e1 e2))).
  rewrite !sg_mul, H, BN_scale by lia. f_equal. lia.
Qed.
Lemma normal_BN s m e b : normal (Zpos m) e -> S754_finite s m e = BN (sg s (Zpos m)) e b.
Proof.
  intros N. pose proof (normal_digits _ _ N) as D. pose proof N as (_ & N3 & N4).
  assert (E : BR s (Zpos m) e = S754_finite s m e).
  { rewrite BR_eq, D by lia. cbv zeta. rewrite fexp_norm, Z.ltb_irrefl by lia. destruct (BRA_normal s _ _ N) as (p & Ep & ->). injection Ep as ->. reflexivity. }
  rewrite BN_BR. destruct s; cbn [sg cond_Zopp Z.opp]; symmetry; exact E.
Qed.
Lemma mul_BN z e s k : Z.abs z < 2 ^ 53 -> -1000 <= e <= 900 -> -1000 <= e + k <= 900 -> SFmul 53 1024 (BN z e s) (pow2F k) = BN z (e + k) s.
Proof.
  intros Hz He Hk. destruct (Z.eq_dec z 0) as [-> | Nz]; [destruct s; reflexivity|].
  destruct (BN_exact z e s ltac:(lia) He) as (p & j & E1 & E2 & E3 & N). rewrite E1.
  assert (N' : normal (Zpos p) (e - j + k)) by (destruct N as (Na & Nb); split; [exact Na|lia]).
  rewrite mul_pow2 by assumption. rewrite (normal_BN _ _ _ s N'). unfold sg. rewrite E2, BN_scale by lia. f_equal. lia.
Qed.
Lemma near_scale z e j n : 0 <= j -> near (z * 2 ^ j) (e - j) n -> near z e n.
Proof.
  intros Hj. unfold near. pose proof (pow_pos2 j Hj). destruct (Z.leb_spec 0 (e - j)), (Z.leb_spec 0 e); try lia.
  - intros ->. rewrite <- Z.mul_assoc, <- Z.pow_add_r by lia. do 2 f_equal. lia.
  - replace (- (e - j)) with (j - e) by lia. intros Hn. replace (2 ^ j) with (2 ^ (j - e) * 2 ^ e) in Hn by (rewrite <- Z.pow_add_r by lia; f_equal; lia).
    pose proof (pow_pos2 (j - e) ltac:(lia)). set (P := 2 ^ (j - e)) in *.
    replace (z * (P * 2 ^ e) - n * P) with ((z * 2 ^ e - n) * P) in Hn by ring. rewrite Z.abs_mul, (Z.abs_eq P) in Hn by lia.
    assert (2 * Z.abs (z * 2 ^ e - n) <= 1) by nia. lia.
  - replace (- (e - j)) with (- e + j) by lia. rewrite Z.pow_add_r by lia. intros Hn.
    replace (z * 2 ^ j - n * (2 ^ (- e) * 2 ^ j)) with ((z - n * 2 ^ (- e)) * 2 ^ j) in Hn by ring. rewrite Z.abs_mul, (Z.abs_eq (2 ^ j)) in Hn by lia. nia.
Qed.
Lemma tie_scale z e j : 0 <= j -> tie z e -> tie (z * 2 ^ j) (e - j).
Proof.
  intros Hj (He & n & Hn). split; [lia|]. exists n. replace (- (e - j)) with (- e + j) by lia. rewrite Z.pow_add_r by lia.
  replace (2 * (z * 2 ^ j - n * (2 ^ (- e) * 2 ^ j))) with (2 * (z - n * 2 ^ (- e)) * 2 ^ j) by ring. rewrite Hn. reflexivity.
Qed.
(** Rounding an exactly represented number. *)
Lemma rnd_BN up z e s : nearRule up -> Z.abs z < 2 ^ 53 -> -800 <= e <= 900 ->
  exists n, has_value (rndF up (BN z e s)) n /\ normalF (rndF up (BN z e s)) /\ near z e n /\ (up = upEven -> tie z e -> Z.even n = true).
Proof.
  intros Hu Hz He. destruct (Z.eq_dec z 0) as [-> | Nz].
  - exists 0. cbn [rndF binary_normalize has_value normalF]. split; [reflexivity|]. split; [exact Logic.I|]. split.
    + unfold near. destruct (Z.leb_spec 0 e); [reflexivity|]. cbn. pose proof (pow_pos2 (- e) ltac:(lia)). lia.
    + intros _ _. reflexivity.
  - destruct (BN_exact z e s ltac:(lia) ltac:(lia)) as (p & j & E1 & E2 & E3 & N). rewrite E1.
    destruct (rnd_int up (z <? 0) p (e - j) Hu N ltac:(lia)) as (R1 & R2 & R3). exists (sg (z <? 0) (roundZ up (Zpos p) (e - j))).
    split; [exact R1|]. split; [exact R2|]. unfold sg in R3 at 1. rewrite E2 in R3. split; [apply (near_scale z e j); [lia|exact R3]|].
    intros -> Ht. apply (tie_scale z e j ltac:(lia)) in Ht. destruct Ht as (Ht & n & Hn). rewrite <- E2 in Hn.
    destruct (Z.ltb_spec z 0); cbn [sg cond_Zopp] in *.
    + rewrite Z.even_opp. apply (roundZ_even (Zpos p) (e - j) (- n - 1)); [lia|exact Ht|]. lia.
    + apply (roundZ_even (Zpos p) (e - j) n); [lia|exact Ht|exact Hn].
Qed.
