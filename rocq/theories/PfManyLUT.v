From Verif Require Import Base NegaRing SpecNum ModelNum ModelFloat PfNum ModelVec SpecVec PfVec ModelPoly SpecPoly PfPoly ModelGadget SpecGadget PfGadget ModelEncoder ModelLWE SpecLWE PfLWE PfLWE2 PfKS ModelParams PfParams PfEncoder ModelGLWE SpecGLWE PfGLWE PfGLWE2 PfGLWE3 PfGLWE4 ModelBoot SpecBoot PfBoot PfBoot2 PfBoot3 PfBoot4 ModelManyLUT SpecManyLUT.

Lemma set_chk_some v i x : 0 <= i < Z.of_nat (length v) -> set_chk v i x = Some (upd v (Z.to_nat i) x).
Proof. intros H. unfold set_chk. destruct (Z.leb_spec 0 i); [|lia]. destruct (Z.ltb_spec i (Z.of_nat (length v))); [reflexivity|lia]. Qed.

Section Fill.
Variable N C : nat.
Variable mm q : Z.
Hypothesis HN : (0 < N)%nat.
Hypothesis HC : (0 < C)%nat.
Hypothesis Hmm : 0 < mm < 2 ^ 52.
Hypothesis Hsz : mm * Z.of_nat N < 2 ^ 52.
Hypothesis Hq : Z.of_nat N = q * (2 * mm * Z.of_nat C).
Notation CZ := (Z.of_nat C).
Notation W := (2 * q * CZ).

Lemma q_pos : 0 < q.
Proof. nia. Qed.
Lemma W_pos : 0 < W.
Proof. pose proof q_pos. nia. Qed.
Lemma rd_div x : 0 <= x <= mm -> rd N mm x = x * W.
Proof. intros Hx. pose proof (rd_spec N mm HN Hmm Hsz x Hx) as H. unfold is_round_half_up in H. rewrite Hq in H. pose proof q_pos. nia. Qed.

Variable f : list (Z -> Z).
Hypothesis Hf : (length f <= C)%nat.

Lemma mlRow_nth x i : (i < C)%nat -> nthZ (mlRow C f x) i = funOf f i x.
Proof.
  intros Hi. unfold mlRow, funOf, nthZ. destruct (Nat.lt_ge_cases i (length f)) as [L|L].
  - rewrite app_nth1 by (rewrite map_length; exact L).
    exact (map_nth (fun g : Z -> Z => g x) f (fun _ => 0) i).
  - rewrite app_nth2 by (rewrite map_length; exact L). rewrite (nth_overflow f) by exact L. apply nthZ_repeat0.
Qed.

(** Every position up to t is filled. *)
Definition filled (t : Z) (s : option (list Z)) : Prop := exists r, s = Some r /\ length r = N /\
  forall j, (j < N)%nat -> Z.of_nat j < t -> nthZ r j = funOf f (Z.to_nat (Z.of_nat j mod CZ)) (Z.of_nat j / W).

Lemma mlFill_spec lut : length lut = N -> filled (Z.of_nat N) (mlFill N C mm f lut).
Proof.
  intros Ll. pose proof q_pos as Hqp. pose proof W_pos as HW.
  assert (Z.of_nat N = Z.of_nat (Z.to_nat mm) * W) as EN by (rewrite Z2Nat.id by lia; rewrite Hq; ring).
  enough (filled (Z.of_nat (Z.to_nat mm) * W) (mlFill N C mm f lut)) as G by (rewrite EN; exact G). unfold mlFill.
  pose (J := fun (x : nat) (s : option (list Z)) => (x <= Z.to_nat mm)%nat -> filled (Z.of_nat x * W) s).
  match goal with |- filled _ ?g => enough (J (Z.to_nat mm) g) as H by (apply H; lia) end.
  apply (forN_ind J).
  { intros _. exists lut. split; [reflexivity|]. split; [exact Ll|]. intros j _ Hj. lia. }
  intros x s Hx IH Hx1. specialize (IH ltac:(lia)). cbv beta zeta. rewrite !Nat.add_0_l.
  change (DivRound (Z.of_nat x * Z.of_nat N) mm) with (rd N mm (Z.of_nat x)). change (DivRound ((Z.of_nat x + 1) * Z.of_nat N) mm) with (rd N mm (Z.of_nat x + 1)).
  rewrite !rd_div by lia. replace ((Z.of_nat x + 1) * W - Z.of_nat x * W + CZ - 1) with (2 * q * CZ + (CZ - 1)) by ring.
  rewrite Z.div_add_l, (Z.div_small (CZ - 1)), Z.add_0_r by lia.
  replace (Z.of_nat (S x) * W) with (Z.of_nat x * W + Z.of_nat (Z.to_nat (2 * q)) * CZ) by (rewrite Z2Nat.id by lia; lia).
  pose (J2 := fun (a : nat) (s : option (list Z)) => (a <= Z.to_nat (2 * q))%nat -> filled (Z.of_nat x * W + Z.of_nat a * CZ) s).
  match goal with |- filled _ ?g => enough (J2 (Z.to_nat (2 * q)) g) as H by (apply H; lia) end.
  apply (forN_ind J2).
  { intros _. replace (Z.of_nat x * W + Z.of_nat 0 * CZ) with (Z.of_nat x * W) by lia. exact IH. }
  intros a s2 Ha IH2 Ha1. specialize (IH2 ltac:(lia)). cbv beta. rewrite !Nat.add_0_l.
  replace (Z.of_nat x * W + Z.of_nat (S a) * CZ) with (Z.of_nat x * W + Z.of_nat a * CZ + CZ) by lia.
  set (t := Z.of_nat x * W + Z.of_nat a * CZ) in *.
  assert (t + CZ <= Z.of_nat N) as Ht.
  { unfold t. assert (Z.of_nat x + 1 <= mm) by lia. assert (Z.of_nat a + 1 <= 2 * q) by lia. rewrite Hq. nia. }
  pose (J3 := fun (i : nat) (s : option (list Z)) => (i <= C)%nat -> filled (t + Z.of_nat i) s).
  match goal with |- filled _ ?g => enough (J3 C g) as H by (apply H; lia) end.
  apply (forN_ind J3).
  { intros _. rewrite Z.add_0_r. exact IH2. }
  intros i s3 Hi IH3 Hi1. cbv beta. rewrite ?Nat.add_0_l. destruct (IH3 ltac:(lia)) as (r & -> & Lr & Hr). rewrite set_chk_some by (unfold t in *; nia).
  eexists. split; [reflexivity|]. split; [now rewrite upd_length|]. intros j Hj Hjt. rewrite nthZ_upd by (unfold t in *; nia).
  destruct (Nat.eqb_spec j (Z.to_nat (t + Z.of_nat i))) as [Ej|Nj].
  - rewrite Ej in *. assert (0 <= t) by (unfold t; nia). 
    rewrite mlRow_nth by lia. rewrite Z2Nat.id by lia.
    replace ((t + Z.of_nat i) mod CZ) with (Z.of_nat i). 2:{ unfold t. replace (Z.of_nat x * W + Z.of_nat a * CZ + Z.of_nat i) with (Z.of_nat i + (Z.of_nat x * (2 * q) + Z.of_nat a) * CZ) by ring. rewrite Z_mod_plus_full, Z.mod_small by lia. reflexivity. }
    replace ((t + Z.of_nat i) / W) with (Z.of_nat x). 2:{ unfold t. rewrite <- Z.add_assoc, Z.div_add_l by lia. rewrite Z.div_small; [lia|]. split; [nia|]. assert (Z.of_nat a + 1 <= 2 * q) by lia. nia. }
    now rewrite Nat2Z.id.
  - apply Hr; [exact Hj|]. assert (0 <= t) by (unfold t; nia). lia.
Qed.
End Fill.

Lemma MLGenLUT_spec w N C mm f lut : 0 < w -> (0 < N)%nat -> (0 < C)%nat -> 0 < mm < 2 ^ 52 -> 2 * mm < 2 ^ w -> mm * Z.of_nat N < 2 ^ 52 ->
  (2 * mm * Z.of_nat C | Z.of_nat N) -> (length f <= C)%nat -> length lut = N ->
  exists r, MLGenLUTCustomFullTo w N C lut f mm = Some r /\ length r = N /\
    ((forall i m, (i < C)%nat -> 0 <= m < mm -> uword w (funOf f i m)) -> Forall (uword w) r) /\ many_hold N C (2 ^ w) mm r (funOf f).
Proof.
  intros Hw HN HC Hmm Hmw Hsz (q & Hq) Hf Ll. pose proof (q_pos N C mm q HN HC Hmm Hq) as Hqp. pose proof (W_pos N C mm q HN HC Hmm Hq) as HW.
  unfold MLGenLUTCustomFullTo. destruct (Nat.ltb_spec C (length f)); [lia|].
  destruct (mlFill_spec N C mm q HN HC Hmm Hsz Hq f Hf lut Ll) as (r1 & -> & L1 & H1).
  assert (mm * Z.of_nat (1 * N) < 2 ^ 52) as Hsz1 by (rewrite Nat.mul_1_l; exact Hsz).
  pose proof (off_spec w N 1 mm Hw HN ltac:(lia) Hmm Hmw Hsz1) as Ho. rewrite Nat.mul_1_l in Ho.
  destruct (lutRotate_spec w N 1 mm Hw HN ltac:(lia) Hmm Hmw Hsz1 r1 ltac:(lia)) as (r & E & Lr & Wr & Hr). rewrite Nat.mul_1_l in E, Lr, Hr.
  set (o := off N 1 mm) in *. clearbody o. assert (o = q * Z.of_nat C) as Eo by (unfold is_round_half_up in Ho; rewrite Hq in Ho; nia). clear Ho.
  exists r. split; [exact E|]. split; [exact Lr|]. split.
  - intros Hu. apply Wr. apply Forall_nthZ. intros j Hj. rewrite H1 by lia. apply Hu.
    + pose proof (Z.mod_pos_bound (Z.of_nat j) (Z.of_nat C) ltac:(lia)). lia.
    + split; [apply Z.div_pos; lia|]. apply Z.div_lt_upper_bound; [exact HW|]. rewrite L1 in Hj. nia.
  - intros i j m Hi Hm (jc & Hj) Hb. set (x := j + Z.of_nat i + o).
    assert (x = (jc + q) * Z.of_nat C + Z.of_nat i) as Ex by (unfold x; rewrite Eo, Hj; ring).
    assert (m * (2 * q) <= jc + q < (m + 1) * (2 * q)) as Hjc.
    { rewrite Hj, Hq in Hb. assert (0 < mm * Z.of_nat C) by nia. assert (- q <= jc - m * (2 * q) < q); [|lia].
      replace (2 * (mm * (jc * Z.of_nat C) - m * (q * (2 * mm * Z.of_nat C)))) with (2 * (mm * Z.of_nat C) * (jc - m * (2 * q))) in Hb by ring.
      replace (q * (2 * mm * Z.of_nat C)) with (2 * (mm * Z.of_nat C) * q) in Hb by ring. nia. }
    assert (m * (2 * q * Z.of_nat C) <= x < (m + 1) * (2 * q * Z.of_nat C)) as Hx by nia.
    assert (0 <= x < Z.of_nat N) as HxN. { rewrite Hq. assert ((m + 1) * (2 * q * Z.of_nat C) <= mm * (2 * q * Z.of_nat C)) by (apply Z.mul_le_mono_nonneg_r; lia). nia. }
    assert (nthZ r1 (Z.to_nat x) = funOf f i m) as HV.
    { rewrite H1 by lia. rewrite Z2Nat.id by lia. f_equal.
      - f_equal. rewrite Ex, Z.add_comm, Z_mod_plus_full, Z.mod_small by lia. lia.
      - symmetry. apply Z.div_unique with (r := x - m * (2 * q * Z.of_nat C)); [lia|ring]. }
    rewrite <- HV. assert (0 <= o <= Z.of_nat N) as Hor by (split; rewrite ?Hq; nia). clear - HN Lr Hr HxN Hor Hw. unfold x in *.
    set (t := j + Z.of_nat i) in *. clearbody t. destruct (Z_lt_ge_dec t 0) as [Hneg|Hpos].
    + replace (cf (pol N r) t) with (- cf (pol N r) (Z.of_nat (Z.to_nat (t + Z.of_nat N)))).
      2:{ rewrite Z2Nat.id by lia. rewrite cf_anti. lia. }
      rewrite (cf_pol_at N HN) by lia. rewrite Hr by lia. destruct (Z.ltb_spec (Z.of_nat (Z.to_nat (t + Z.of_nat N))) (Z.of_nat N - o)); [lia|].
      replace (Z.to_nat (t + Z.of_nat N) + Z.to_nat o - N)%nat with (Z.to_nat (t + o)) by lia. rewrite wrap_eqm. apply eqm_eq. lia.
    + replace t with (Z.of_nat (Z.to_nat t)) at 1 by lia. rewrite (cf_pol_at N HN) by lia. rewrite Hr by lia.
      destruct (Z.ltb_spec (Z.of_nat (Z.to_nat t)) (Z.of_nat N - o)); [|lia]. replace (Z.to_nat t + Z.to_nat o)%nat with (Z.to_nat (t + o)) by lia. reflexivity.
Qed.

(** ** Modulus switching to multiples of C *)
Lemma MLModSwitch_spec w logN logC : 0 <= logC <= logN -> logN + 1 < w ->
  forall x, uword w x -> let R := MLModSwitch w logN logC x in
  0 <= R <= 2 * 2 ^ logN /\ (2 ^ logC | R) /\ 2 * Z.abs (R * 2 ^ w - x * (2 * 2 ^ logN)) <= 2 ^ logC * 2 ^ w.
Proof.
  intros Hc Hn x Hx R. set (b := w - logN - 1 + logC). destruct (DivRoundBits_spec w x b ltac:(unfold b; lia) Hx) as (A & _).
  set (d := DivRoundBits w x b) in *. assert (R = wrap w (Z.shiftl d logC)) as ER by reflexivity. clearbody R d.
  assert (2 ^ w = 2 ^ b * 2 ^ (logN + 1 - logC)) as Ew by (rewrite <- Z.pow_add_r by (unfold b; lia); f_equal; unfold b; lia).
  assert (2 * 2 ^ logN = 2 ^ (logN + 1 - logC) * 2 ^ logC) as En by (rewrite <- Z.pow_add_r by lia; replace (logN + 1 - logC + logC) with (Z.succ logN) by lia; rewrite Z.pow_succ_r by lia; reflexivity).
  pose proof (pow2_pos b ltac:(unfold b; lia)) as Pb. pose proof (pow2_pos (logN + 1 - logC) ltac:(lia)) as Pm. pose proof (pow2_pos logC ltac:(lia)) as Pc. pose proof (pow2_pos logN ltac:(lia)) as PN.
  assert (0 <= d <= 2 ^ (logN + 1 - logC)) as Hd. { unfold is_round_half_up in A. unfold uword in Hx. rewrite Ew in Hx. nia. }
  assert (2 * 2 ^ logN < 2 ^ w) as Hlt by (rewrite <- Z.pow_succ_r by lia; apply Z.pow_lt_mono_r; lia).
  rewrite Z.shiftl_mul_pow2 in ER by lia. rewrite wrap_small in ER by (unfold uword; nia). rewrite ER.
  split; [nia|]. split; [exists d; ring|]. rewrite En, Ew.
  replace (d * 2 ^ logC * (2 ^ b * 2 ^ (logN + 1 - logC)) - x * (2 ^ (logN + 1 - logC) * 2 ^ logC)) with (2 ^ logC * 2 ^ (logN + 1 - logC) * (d * 2 ^ b - x)) by ring.
  rewrite Z.abs_mul, Z.abs_eq by nia. assert (2 * Z.abs (d * 2 ^ b - x) <= 2 ^ b) by (unfold is_round_half_up in A; lia). nia.
Qed.

Lemma zsum_divide c n g : (forall i, (i < n)%nat -> (c | g i)) -> (c | zsum n g).
Proof. induction n as [|n IH]; intros H; [exists 0; reflexivity|]. cbn [zsum]. apply Z.divide_add_r; [apply IH; intros; apply H; lia|apply H; lia]. Qed.

Section Rot.
Variable w : Z.
Hypothesis Hw : 0 < w.
Variables (logN logC : Z) (N C k : nat).
Hypothesis HNn : Z.of_nat N = 2 ^ logN.
Hypothesis HCn : Z.of_nat C = 2 ^ logC.
Hypothesis Hlog : 0 <= logC <= logN.
Hypothesis Hlw : logN + 1 < w.
Notation Q := (2 ^ w).
Notation ms := (MLModSwitch w logN logC).
Notation NZ := (Z.of_nat N).

Lemma ml_Npos : (0 < N)%nat.
Proof. pose proof (pow2_pos logN ltac:(lia)). lia. Qed.

(** The switched phase is a multiple of C, in the box of m. *)
Lemma ml_position s ct mm scale m ee : binary s -> lwe_ct w (length s) ct -> 0 <= m < mm -> (2 * mm | NZ) -> eqm Q (phase s ct) (scale * m + ee) ->
  many_margin Q NZ (Z.of_nat C) mm scale m (Z.abs ee) (zsum (length s) (nthZ s)) ->
  exists t, (Z.of_nat C | rotSum ms s ct + 2 * NZ * t) /\ - NZ <= 2 * (mm * (rotSum ms s ct + 2 * NZ * t) - m * NZ) < NZ.
Proof.
  intros Hs Hct Hm Hdiv Hph Hmar. pose proof ml_Npos as HN. pose proof (pow2_pos w ltac:(lia)) as HQ.
  set (ms' := fun x => ms x mod (2 * NZ)).
  assert (forall x, uword w x -> exists R, ms x = R /\ (Z.of_nat C | R) /\ 2 * Z.abs (R * Q - x * (2 * NZ)) <= Z.of_nat C * Q) as HM.
  { intros x Hx. destruct (MLModSwitch_spec w logN logC Hlog Hlw x Hx) as (_ & A & B). exists (ms x). rewrite HCn, HNn. auto. }
  assert (forall j, (Z.of_nat C | ms (nthZ ct j))) as HD.
  { intros j. destruct (HM (nthZ ct j)) as (R & -> & A & _); [|exact A]. unfold nthZ. destruct (Nat.lt_ge_cases j (length ct)) as [X|X]; [exact (Forall_nth_lt _ ct 0 j (proj2 Hct) X)|rewrite nth_overflow by exact X; unfold uword; lia]. }
  assert (ms_err w NZ (Z.of_nat C * Q) ms') as Hmu.
  { intros x Hx. destruct (HM x Hx) as (R & E & _ & B). exists R. split; [unfold ms'; now rewrite E|exact B]. }
  destruct (rotSum_err w NZ (Z.of_nat C * Q) ms' s ct Hw ltac:(lia) Hmu Hs Hct) as (t & err & Et & Be). destruct Hph as (q & Hq).
  assert (exists u, rotSum ms' s ct = rotSum ms s ct + 2 * NZ * u) as (u & Hu).
  { assert (forall x, ms' x = ms x + 2 * NZ * - (ms x / (2 * NZ))) as X by (intros x; unfold ms'; rewrite Z.mod_eq by lia; ring).
    unfold rotSum. rewrite X. assert (forall n, exists u, zsum n (fun i => ms' (nthZ ct (S i)) * nthZ s i) = zsum n (fun i => ms (nthZ ct (S i)) * nthZ s i) + 2 * NZ * u) as Y.
    { induction n as [|n (u & IH)]; [exists 0; cbn; lia|]. cbn [zsum]. rewrite IH, X. exists (u - ms (nthZ ct (S n)) / (2 * NZ) * nthZ s n). ring. }
    destruct (Y (length s)) as (u & ->). exists (u - ms (nthZ ct 0) / (2 * NZ)). ring. }
  exists (u - (t + q)). split.
  - apply Z.divide_add_r.
    + unfold rotSum. apply Z.divide_add_r; [apply HD|]. apply zsum_divide. intros i _. apply Z.divide_mul_l, HD.
    + apply Z.divide_mul_l. apply Z.divide_mul_r. rewrite HNn, HCn. exists (2 ^ (logN - logC)). rewrite <- Z.pow_add_r by lia. f_equal. lia.
  - assert (in_box NZ mm m (rotSum ms s ct + 2 * NZ * (u - (t + q)))) as [B|(_ & B)]; [|lia|exact B].
    apply (pos_in_box Q NZ mm scale m ee err 0 (Z.of_nat C * Q) (zsum (length s) (nthZ s)) 0); try assumption; try lia.
    cbv zeta. right. split; [exact Hdiv|]. unfold many_margin in Hmar. lia.
Qed.

(** ** Blind rotation and bootstrapping *)
Lemma ml_rotate p sk s brk Ek bs bc : br_setting w N k sk p s brk Ek bs bc ->
  forall ctOut ct lut mm scale F m ee, gshape N k ctOut -> wpoly w N lut -> many_hold N C Q mm lut F -> lwe_ct w (length s) ct -> 0 <= m < mm ->
  (2 * mm | NZ) -> eqm Q (phase s ct) (scale * m + ee) -> many_margin Q NZ (Z.of_nat C) mm scale m (Z.abs ee) (zsum (length s) (nthZ s)) ->
  let r := MLBlindRotateTo w N k ms p brk bs bc (length s) ctOut ct lut in
  glwe_ct w N k r /\ forall i, (i < C)%nat -> dist_le Q (cf (gphase N k sk r) (Z.of_nat i)) (F i m) (brNoise w N k p bc (length s) Ek).
Proof.
  intros (_ & HN & (n0 & Hn0 & HNn0) & Hskb & Hok & (e & Hbrk & He) & HEk & Hbs & Hbc & Hlen & Hblk) ctOut ct lut mm scale F m ee Hs Hl HF Hct Hm Hdiv Hph Hmar r.
  assert (glwe_ct w N k r /\ pdist_le Q (gphase N k sk r) (pshift (- rotSum ms s ct) (pol N lut)) (brNoise w N k p bc (length s) Ek)) as (A & B).
  { unfold r, MLBlindRotateTo. destruct (Nat.ltb_spec 1 bs) as [C2|C2].
    - apply (blindRotateBlock_spec w Hw N HN n0 Hn0 HNn0 k sk Hskb p Hok ms s brk e Ek Hbrk HEk He bs bc); assumption.
    - assert (bs = 1%nat) by lia. subst bs. replace bc with (length s) at 1 by lia.
      apply (blindRotateOriginal_spec w Hw N HN n0 Hn0 HNn0 k sk Hskb p Hok ms s brk e Ek); try assumption; [apply Hblk|lia]. }
  split; [exact A|]. intros i Hi. destruct (ml_position s ct mm scale m ee (proj1 Hblk) Hct Hm Hdiv Hph Hmar) as (t & T1 & T2).
  pose proof (HF i _ m Hi Hm T1 T2) as Hv. destruct (pdist_cf Q _ _ _ (Z.of_nat i) B) as (x & (t1 & X1) & X2). cbn [cf pshift] in X1.
  rewrite (cf_eqm2N (pol N lut) _ (Z.of_nat i - - rotSum ms s ct)) in Hv by (exists t; lia).
  destruct Hv as (t2 & Hv). exists x. split; [exists (t1 + t2); lia|exact X2].
Qed.

Lemma ml_boot p pKS sk s large brk ksk bs bc Ek Eks : boot_keys w N k 1 p pKS sk s large brk ksk bs bc Ek Eks ->
  forall rotBuf ksBuf extBuf lut mm scale F m ee ct outs, gshape N k rotBuf -> length ksBuf = S (length s) -> length extBuf = S (k * N) ->
  wpoly w N lut -> many_hold N C Q mm lut F -> 0 <= m < mm -> (2 * mm | NZ) -> (C <= length outs)%nat ->
  ((forall i, (i < C)%nat -> length (nth i outs []) = S (length s)) -> lwe_ct w (length s) ct -> eqm Q (phase s ct) (scale * m + ee) ->
   many_margin Q NZ (Z.of_nat C) mm scale m (Z.abs ee) (zsum (length s) (nthZ s)) ->
   exists r, MLBootstrapLUTTo w N k C false ms p pKS brk ksk bs bc (length s) rotBuf ksBuf extBuf outs ct lut = Some r /\ length r = length outs /\
   (forall i, (C <= i)%nat -> nth i r [] = nth i outs []) /\
   forall i, (i < C)%nat -> lwe_ct w (length s) (nth i r []) /\
     dist_le Q (phase s (nth i r [])) (F i m) (brNoise w N k p bc (length s) Ek + ksNoise w pKS (length large - length s) Eks)) /\
  ((forall i, (i < C)%nat -> length (nth i outs []) = S (length large)) -> lwe_ct w (length large) ct -> eqm Q (phase large ct) (scale * m + ee) ->
   many_margin Q NZ (Z.of_nat C) mm scale m (Z.abs ee + ksNoise w pKS (length large - length s) Eks) (zsum (length s) (nthZ s)) ->
   exists r, MLBootstrapLUTTo w N k C true ms p pKS brk ksk bs bc (length s) rotBuf ksBuf extBuf outs ct lut = Some r /\ length r = length outs /\
   (forall i, (C <= i)%nat -> nth i r [] = nth i outs []) /\
   forall i, (i < C)%nat -> lwe_ct w (length large) (nth i r []) /\ dist_le Q (phase large (nth i r [])) (F i m) (brNoise w N k p bc (length s) Ek)).
Proof.
  intros [(n0 & Hn0 & HNn0) _ (Hok & HokK) (Lk & Hfl & Hbin) (Hpre & Hle) (Hbs & Hbc & Hlen & Hblk) (HEk & HEks) (e & He1 & He2) (eks & Hk1 & Hk2)].
  intros rotBuf ksBuf extBuf lut mm scale F m ee ct outs Hrot Lks Lex Hl HF Hm Hdiv HCo. pose proof ml_Npos as HN.
  pose proof (flat_bound N k sk large HN Lk Hfl Hbin) as Hskb.
  assert (length large = (k * N)%nat) as LD by (destruct Hfl as (X & _); now rewrite Lk in X).
  assert (br_setting w N k sk p s brk Ek bs bc) as HB. { refine (conj Hw (conj HN (conj _ (conj Hskb (conj Hok (conj _ (conj HEk (conj Hbs (conj Hbc (conj Hlen Hblk)))))))))); [exists n0; auto|exists e; auto]. }
  assert (C <= N)%nat as HCN. { assert (2 ^ logC <= 2 ^ logN) by (apply Z.pow_le_mono_r; lia). lia. }
  unfold MLBootstrapLUTTo. destruct (Nat.ltb_spec (length outs) C); [lia|]. split; intros Lo Hct Hph Hmar; cbv zeta.
  - destruct (ml_rotate p sk s brk Ek bs bc HB rotBuf ct lut mm scale F m ee Hrot Hl HF Hct Hm Hdiv Hph Hmar) as (A & B).
    set (r := MLBlindRotateTo w N k ms p brk bs bc (length s) rotBuf ct lut) in *. clearbody r.
    eexists. split; [reflexivity|].
    pose (J := fun (j : nat) (st : list Z * list (list Z)) => (j <= C)%nat -> length (fst st) = S (k * N) /\ length (snd st) = length outs /\
      (forall i, (j <= i)%nat -> nth i (snd st) [] = nth i outs []) /\
      forall i, (i < j)%nat -> lwe_ct w (length s) (nth i (snd st) []) /\
       dist_le Q (phase s (nth i (snd st) [])) (F i m) (brNoise w N k p bc (length s) Ek + ksNoise w pKS (length large - length s) Eks)).
    match goal with |- length (snd ?g) = _ /\ _ => enough (J C g) as H0 by (apply H0; lia) end.
    apply (forN_ind J).
    + intros _. cbn. split; [exact Lex|]. split; [reflexivity|]. split; [reflexivity|]. intros i Hi. lia.
    + intros j (ext, o) Hj IH Hj1. destruct (IH ltac:(lia)) as (I1 & I2 & I3 & I4). cbn [fst snd] in *. rewrite Nat.add_0_l.
      destruct (extract_spec w Hw N HN k sk large j ext r Lk Hfl A ltac:(lia) I1) as (X1 & X2).
      set (x := AsLWECiphertextTo w N j ext r) in *. clearbody x. rewrite <- LD in X1.
      assert (length (nth j o []) = S (length s)) as Lj by (rewrite I3 by lia; apply Lo; lia).
      pose proof (DefaultKeySwitch_dcmp w Hw s pKS HokK large (nth j o []) x ksk eks Hpre Hle Lj X1 Hk1) as (Y1 & _).
      pose proof (DefaultKeySwitch_bound w Hw s pKS HokK large (nth j o []) x ksk eks Eks Hpre Hle Lj X1 Hk1 Hbin Hk2) as Y2. rewrite <- LD.
      split; [rewrite LD; exact (eq_trans (proj1 X1) (f_equal S LD))|]. split; [now rewrite upd_length|]. split.
      * intros i Hi. rewrite nth_upd_other by lia. apply I3. lia.
      * intros i Hi. destruct (Nat.eq_dec i j) as [->|Nij]; [|rewrite nth_upd_other by lia; apply I4; lia].
        rewrite nth_upd_same by lia. split; [exact Y1|]. destruct (B j ltac:(lia)) as (b & (t1 & B1) & B2). destruct Y2 as (c & (t2 & C1) & C2). destruct X2 as (t3 & X2).
        exists (b + c). split; [exists (t1 + t2 + t3); lia|]. unfold ksNoise. lia.
  - rewrite <- LD.
    pose proof (DefaultKeySwitch_dcmp w Hw s pKS HokK large ksBuf ct ksk eks Hpre Hle Lks Hct Hk1) as (Y1 & _).
    pose proof (DefaultKeySwitch_bound w Hw s pKS HokK large ksBuf ct ksk eks Eks Hpre Hle Lks Hct Hk1 Hbin Hk2) as Y2.
    set (c := DefaultKeySwitchTo w (length s) (length large) pKS ksBuf ct ksk) in *. clearbody c.
    destruct Y2 as (x & (t & X1) & X2). change (Z.abs x <= ksNoise w pKS (length large - length s) Eks) in X2.
    destruct (ml_rotate p sk s brk Ek bs bc HB rotBuf c lut mm scale F m (ee + x) Hrot Hl HF Y1 Hm Hdiv) as (A & B).
    + destruct Hph as (t' & Hp). exists (t + t'). lia.
    + unfold many_margin in *. assert (4 * NZ * mm * Z.abs (ee + x) <= 4 * NZ * mm * (Z.abs ee + ksNoise w pKS (length large - length s) Eks)) as Hm1 by (apply Z.mul_le_mono_nonneg_l; [apply Z.mul_nonneg_nonneg; lia|]; pose proof (Z.abs_triangle ee x); lia). lia.
    + set (r := MLBlindRotateTo w N k ms p brk bs bc (length s) rotBuf c lut) in *. clearbody r.
      eexists. split; [reflexivity|].
      pose (J := fun (j : nat) (st : list (list Z)) => (j <= C)%nat -> length st = length outs /\
        (forall i, (j <= i)%nat -> nth i st [] = nth i outs []) /\
        forall i, (i < j)%nat -> lwe_ct w (length large) (nth i st []) /\ dist_le Q (phase large (nth i st [])) (F i m) (brNoise w N k p bc (length s) Ek)).
      match goal with |- length ?g = _ /\ _ => enough (J C g) as H0 by (apply H0; lia) end.
      apply (forN_ind J).
      * intros _. split; [reflexivity|]. split; [reflexivity|]. intros i Hi. lia.
      * intros j o Hj IH Hj1. destruct (IH ltac:(lia)) as (I2 & I3 & I4). rewrite Nat.add_0_l.
        assert (length (nth j o []) = S (k * N)) as Lj by (rewrite I3, <- LD by lia; apply Lo; lia).
        destruct (extract_spec w Hw N HN k sk large j (nth j o []) r Lk Hfl A ltac:(lia) Lj) as (Z1 & Z2).
        split; [now rewrite upd_length|]. split.
        -- intros i Hi. rewrite nth_upd_other by lia. apply I3. lia.
        -- intros i Hi. destruct (Nat.eq_dec i j) as [->|Nij]; [|rewrite nth_upd_other by lia; apply I4; lia].
           rewrite nth_upd_same by lia. rewrite LD. split; [exact Z1|]. destruct (B j ltac:(lia)) as (b & (t1 & B1) & B2). destruct Z2 as (t3 & Z2).
           exists b. split; [exists (t1 + t3); lia|exact B2].
Qed.
End Rot.

Lemma funOf_map f g i m : (forall x, g 0 x = 0) -> funOf (map (fun h x => g (h x) x) f) i m = g (funOf f i m) m.
Proof.
  intros H0. unfold funOf. destruct (Nat.lt_ge_cases i (length f)) as [L|L].
  - rewrite (nth_indep _ _ ((fun (h : Z -> Z) x => g (h x) x) (fun _ => 0))) by (rewrite map_length; exact L).
    exact (f_equal (fun h : Z -> Z => h m) (map_nth (fun (h : Z -> Z) x => g (h x) x) f (fun _ => 0) i)).
  - rewrite !nth_overflow by (rewrite ?map_length; exact L). now rewrite H0.
Qed.

Lemma ml_message w logN logC N C k p pKS sk s large brk ksk bs bc Ek Eks : 0 < w -> Z.of_nat N = 2 ^ logN -> Z.of_nat C = 2 ^ logC -> 0 <= logC <= logN -> logN + 1 < w ->
  boot_keys w N k 1 p pKS sk s large brk ksk bs bc Ek Eks ->
  forall rotBuf ksBuf extBuf lut0 kk f, gshape N k rotBuf -> length ksBuf = S (length s) -> length extBuf = S (k * N) -> length lut0 = N ->
  0 <= kk <= w - 2 -> 2 ^ kk * Z.of_nat N < 2 ^ 52 -> let mm := 2 ^ kk in let scale := scaleOf w mm in let ms := MLModSwitch w logN logC in
  (2 * mm * Z.of_nat C | Z.of_nat N) -> (length f <= C)%nat ->
  exists lut, MLGenLUTCustomTo w N C lut0 f mm scale = Some lut /\ forall m ee ct outs, 0 <= m < mm -> (C <= length outs)%nat ->
  ((forall i, (i < C)%nat -> length (nth i outs []) = S (length s)) -> lwe_ct w (length s) ct -> eqm (2 ^ w) (phase s ct) (scale * m + ee) ->
   many_margin (2 ^ w) (Z.of_nat N) (Z.of_nat C) mm scale m (Z.abs ee) (zsum (length s) (nthZ s)) ->
   decodes w scale (brNoise w N k p bc (length s) Ek + ksNoise w pKS (length large - length s) Eks) ->
   exists r, MLBootstrapLUTTo w N k C false ms p pKS brk ksk bs bc (length s) rotBuf ksBuf extBuf outs ct lut = Some r /\
   forall i, (i < C)%nat -> DecryptLWE w mm scale s (nth i r []) = Some (funOf f i m mod mm)) /\
  ((forall i, (i < C)%nat -> length (nth i outs []) = S (length large)) -> lwe_ct w (length large) ct -> eqm (2 ^ w) (phase large ct) (scale * m + ee) ->
   many_margin (2 ^ w) (Z.of_nat N) (Z.of_nat C) mm scale m (Z.abs ee + ksNoise w pKS (length large - length s) Eks) (zsum (length s) (nthZ s)) ->
   decodes w scale (brNoise w N k p bc (length s) Ek) ->
   exists r, MLBootstrapLUTTo w N k C true ms p pKS brk ksk bs bc (length s) rotBuf ksBuf extBuf outs ct lut = Some r /\
   forall i, (i < C)%nat -> DecryptLWE w mm scale large (nth i r []) = Some (funOf f i m mod mm)).
Proof.
  intros Hw HNn HCn Hlog Hlw HK rotBuf ksBuf extBuf lut0 kk f Hrot Lks Lex Ll Hk Hsz mm scale ms Hdiv Lf.
  pose proof (pow2_pos kk ltac:(lia)) as Hp. destruct (encode_val w kk 0 Hw Hk) as (E0 & EQ). fold mm scale in E0, EQ, Hp, Hsz. rewrite Z.mod_0_l, Z.mul_0_r in E0 by (unfold mm; lia).
  assert (2 <= scale) as Hs. { unfold scale, mm. rewrite scale_pow2 by lia. change 2 with (2 ^ 1) at 1. apply Z.pow_le_mono_r; lia. }
  assert (0 < N)%nat as HN by (pose proof (pow2_pos logN ltac:(lia)); lia). pose proof (pow2_pos logC ltac:(lia)) as PC.
  destruct (MLGenLUT_spec w N C mm (map (fun g x => EncodeLWECustom w (g x) mm scale) f) lut0 Hw HN ltac:(lia) ltac:(nia) ltac:(nia) Hsz Hdiv ltac:(rewrite map_length; exact Lf) Ll) as (lut & A & B & U & D).
  assert (forall i m, funOf (map (fun g x => EncodeLWECustom w (g x) mm scale) f) i m = EncodeLWECustom w (funOf f i m) mm scale) as HF.
  { intros i m. exact (funOf_map f (fun y _ => EncodeLWECustom w y mm scale) i m (fun _ => E0)). }
  assert (wpoly w N lut) as Hlut. { split; [exact B|]. apply U. intros i m _ _. rewrite HF. unfold EncodeLWECustom. apply wrap_range. lia. }
  exists lut. split; [exact A|]. intros m ee ct outs Hm Lo.
  assert ((2 * mm | Z.of_nat N)) as Hd2 by (destruct Hdiv as (q & Hq); exists (q * Z.of_nat C); rewrite Hq; ring).
  destruct (ml_boot w Hw logN logC N C k HNn HCn Hlog Hlw p pKS sk s large brk ksk bs bc Ek Eks HK rotBuf ksBuf extBuf lut mm scale _ m ee ct outs Hrot Lks Lex Hlut D Hm Hd2 Lo) as (P1 & P2).
  split; intros L1 L2 L3 L4 L5.
  - destruct (P1 L1 L2 L3 L4) as (r & R1 & _ & _ & R2). exists r. split; [exact R1|]. intros i Hi. destruct (R2 i Hi) as (X & Y). rewrite HF in Y.
    apply (decode_dist w kk s _ (funOf f i m) _ Hw Hk (proj1 X) Y L5).
  - destruct (P2 L1 L2 L3 L4) as (r & R1 & _ & _ & R2). exists r. split; [exact R1|]. intros i Hi. destruct (R2 i Hi) as (X & Y). rewrite HF in Y.
    apply (decode_dist w kk large _ (funOf f i m) _ Hw Hk (proj1 X) Y L5).
Qed.
