From Verif Require Import Base NegaRing SpecNum ModelNum PfNum ModelVec SpecVec PfVec ModelPoly SpecPoly PfPoly PfPerm PfSplit ModelGadget SpecGadget PfGadget ModelEncoder ModelLWE SpecLWE PfLWE PfLWE2 PfKS PfKS2 ModelGLWE SpecGLWE PfGLWE PfGLWE2 PfGLWE3 PfGLWE4
  ModelParams PfParams ModelBoot SpecBoot PfBoot PfBoot2 PfBoot3 PfBoot4 ModelBFV SpecBFV PfBFV PfBFV2 PfBFV4 ModelFHEW SpecFHEW PfFHEW PfFHEW2 PfFHEW3 PfFHEW4.

(** ** Rotation against phase *)
Lemma oddRot_err w L mu ms s ct : 0 < w -> 0 < L -> ms_err w L mu ms -> lwe_ct w (length s) ct ->
  exists t err, - oddRot w ms s ct * 2 ^ w = 2 * L * phase s ct + err + 2 * L * 2 ^ w * t /\ 2 * Z.abs err <= (mu + 2 * 2 ^ w) * (1 + absSum w s).
Proof.
  intros Hw HL Hms (Lc & Hc). pose proof (pow2_pos w ltac:(lia)) as HQ. set (Q := 2 ^ w) in *. pose (a := fun x => Z.lor (ms (wrap w (- x))) 1).
  assert (forall j, (j <= length s)%nat -> exists t err, - a (nthZ ct j) * Q = 2 * L * nthZ ct j + err + 2 * L * Q * t /\ 2 * Z.abs err <= mu + 2 * Q) as H1.
  { intros j Hj. set (x := wrap w (- nthZ ct j)). destruct (Hms x) as (R & HR & He); [apply wrap_word; lia|]. fold Q in He.
    destruct (wrap_eqm w (- nthZ ct j)) as (c & Ec). fold x Q in Ec.
    assert (0 <= ms x) as Hx by (rewrite HR; apply Z.mod_pos_bound; lia).
    pose proof (lor1 (ms x) Hx) as E1. pose proof (Z.div_mod (ms x) 2 ltac:(lia)) as E2. pose proof (Z.mod_pos_bound (ms x) 2 ltac:(lia)) as E3.
    set (dl := 1 - ms x mod 2). assert (a (nthZ ct j) = ms x + dl /\ 0 <= dl <= 1) as (Ea & Hdl) by (unfold a; fold x; rewrite E1; unfold dl; lia).
    exists (R / (2 * L) - c), (- (R * Q - x * (2 * L)) - dl * Q). split.
    - rewrite Ea, HR. rewrite (Z.mod_eq R (2 * L)) by lia. replace (nthZ ct j) with (c * Q - x) by lia. ring.
    - assert (0 <= dl * Q <= Q) by nia. lia. }
  unfold oddRot, phase. fold a. cbv zeta. destruct (H1 O ltac:(lia)) as (t0 & e0 & E0 & B0).
  assert (forall n, (n <= length s)%nat -> exists t err, - zsum n (fun i => a (nthZ ct (S i)) * swrap w (nthZ s i)) * Q = 2 * L * zsum n (fun i => nthZ ct (S i) * nthZ s i) + err + 2 * L * Q * t /\
    2 * Z.abs err <= (mu + 2 * Q) * zsum n (fun i => Z.abs (swrap w (nthZ s i)))) as H2.
  { induction n as [|n IH]; intros Hn; [exists 0, 0; cbn; lia|]. destruct (IH ltac:(lia)) as (t & err & E1 & B1). destruct (H1 (S n) ltac:(lia)) as (t' & err' & E2 & B2).
    destruct (swrap_eqm w (nthZ s n)) as (c & Ec). fold Q in Ec.
    exists (t + t' * swrap w (nthZ s n) + nthZ ct (S n) * c), (err + err' * swrap w (nthZ s n)). cbn [zsum]. set (sg := swrap w (nthZ s n)) in *. split.
    - replace (nthZ s n) with (sg - c * Q) by lia. 
      transitivity (- zsum n (fun i => a (nthZ ct (S i)) * swrap w (nthZ s i)) * Q + (- a (nthZ ct (S n)) * Q) * sg); [ring|]. rewrite E1, E2. ring.
    - assert (2 * Z.abs (err' * sg) <= (mu + 2 * Q) * Z.abs sg) by (rewrite Z.abs_mul; nia). lia. }
  destruct (H2 (length s) ltac:(lia)) as (t & err & E1 & B1). exists (t0 + t), (e0 + err). unfold absSum. split; [|lia].
  transitivity (- a (nthZ ct 0) * Q + - zsum (length s) (fun i => a (nthZ ct (S i)) * swrap w (nthZ s i)) * Q); [unfold a; ring|]. rewrite E0, E1. ring.
Qed.
Lemma ms_range w L mu ms x : 0 < L -> ms_err w L mu ms -> uword w x -> 0 <= ms x < 2 * L.
Proof. intros HL H Hx. destruct (H x Hx) as (R & -> & _). apply Z.mod_pos_bound. lia. Qed.

(** ** Key switching for a small key *)
Lemma ks_small w s p large out ct ksk e E b : 0 < w -> gadget_ok w p -> s = firstn (length s) large -> (length s <= length large)%nat -> length out = S (length s) -> lwe_ct w (length large) ct ->
  ksk_enc w p s (skipn (length s) large) ksk e -> (forall i, (i < length large)%nat -> Z.abs (swrap w (nthZ large i)) <= b) ->
  (forall i j, (i < length large - length s)%nat -> (j < g_level p)%nat -> Z.abs (e i j) <= E) ->
  let r := DefaultKeySwitchTo w (length s) (length large) p out ct ksk in
  lwe_ct w (length s) r /\ dist_le (2 ^ w) (phase s r) (phase large ct) (ksNoiseB w p (length large - length s) b E).
Proof.
  intros Hw Hok Hpre Hle Lo Hc Hk Hb HE r. destruct (DefaultKeySwitch_dcmp w Hw s p Hok large out ct ksk e Hpre Hle Lo Hc Hk) as (A & d & rr & Hd & B). fold r in A, B. split; [exact A|].
  set (D := (length large - length s)%nat) in *. set (n := length s) in *.
  exists (zsum D (fun i => zsum (g_level p) (fun j => d i j * e i j) - swrap w (nthZ large (n + i)) * rr i)). split.
  - rewrite B. match goal with |- eqm _ (?a + ?x - ?a) _ => replace (a + x - a) with x by ring end. apply zsum_eqm. intros i Hi. rewrite (swrap_eqm w (nthZ large (n + i))). reflexivity.
  - unfold ksNoiseB. apply zsum_abs_le. intros i Hi. destruct (Hd i Hi) as (_ & D2 & D3).
    rewrite Hpre in * || idtac. destruct (Hd i Hi) as (D1 & _ & _).
    assert (Z.abs (zsum (g_level p) (fun j => d i j * e i j)) <= Z.of_nat (g_level p) * (2 ^ (g_logBase p - 1) * E)) as X1.
    { apply zsum_abs_le. intros j Hj. rewrite Z.abs_mul. apply Z.mul_le_mono_nonneg; try apply Z.abs_nonneg; [specialize (D1 j Hj); lia|now apply HE]. }
    assert (Z.abs (swrap w (nthZ large (n + i)) * rr i) <= b * gadEps w p) as X2.
    { rewrite Z.abs_mul. apply Z.mul_le_mono_nonneg; try apply Z.abs_nonneg; [apply Hb; unfold D in Hi; lia|]. unfold gadEps. apply Z.div_le_lower_bound; lia. }
    lia.
Qed.

(** ** Bootstrapping *)
Lemma flat_small w N k sk large b : (0 < N)%nat -> length sk = k -> (forall i, (i < k)%nat -> length (nth i sk []) = N) -> flat N sk large -> key_small w N k sk b ->
  forall i, (i < length large)%nat -> Z.abs (swrap w (nthZ large i)) <= b.
Proof.
  intros HN Lk Hsk (Lf & Hf) Hb i Hi. rewrite Lf, Lk in Hi. pose proof (Nat.div_mod i N ltac:(lia)) as E. pose proof (Nat.mod_upper_bound i N ltac:(lia)) as Hj.
  assert (i / N < k)%nat as Hi' by (apply Nat.div_lt_upper_bound; lia). replace i with (i / N * N + i mod N)%nat by lia. rewrite Hf by lia.
  specialize (Hb (i / N)%nat Hi' (Z.of_nat (i mod N))). rewrite (cf_pol_at N HN) in Hb by exact Hj. unfold nthZ in Hb at 1.
  rewrite (nth_indep _ 0 (swrap w 0)) in Hb by (rewrite map_length, Hsk by exact Hi'; exact Hj). rewrite map_nth in Hb. exact Hb.
Qed.

Lemma fhew_value w N k p pKS sk s large brk glk ksk W b Ek Eg Eks : 0 < w -> fhew_keys w N k p pKS sk s large brk glk ksk W b Ek Eg Eks ->
  forall perm rotBuf lut f mm scale mu ms m ee ct, glwe_ct w N k perm -> gshape N k rotBuf -> wpoly w N lut -> 0 <= m < mm -> lut_holds N 1 (2 ^ w) mm [lut] f -> ms_err w (Z.of_nat N) mu ms ->
  lwe_ct w (length s) ct -> eqm (2 ^ w) (phase s ct) (scale * m + ee) -> boot_margin (2 ^ w) (Z.of_nat N) mm scale m (Z.abs ee) (mu + 2 * 2 ^ w) (absSum w s) 0 ->
  exists r perm', FHEWBlindRotateTo w N k ms p brk glk W (length s) perm rotBuf ct lut = Some (r, perm') /\ glwe_ct w N k r /\
    dist_le (2 ^ w) (cf (gphase N k sk r) 0) (f m) (fhewNoise w N k p W (length s) b Ek Eg).
Proof.
  intros Hw [(n & Hn & HNn) (Hok & HokK) (Hk & Lk & Hfl & Hsk) (Hpre & Hle) (Hb0 & HEk & HEg & HEks & Hb) HW Hbrk Hglk Hksk].
  intros perm rotBuf lut f mm scale mu ms m ee ct Hp Hr Hl Hm Hf Hmu Hct Hph Hmar.
  assert (0 < Z.of_nat N) as HN by (rewrite HNn; apply Z.pow_pos_nonneg; lia).
  destruct (FHEWBlindRotateTo_spec w N k n Hw Hn HNn sk p Hok Hk Hsk b Hb Hb0 s brk Ek Hbrk HEk W glk Eg HW Hglk HEg ms perm rotBuf ct lut (fun x => ms_range w _ mu ms x HN Hmu) Hr Hp Hl) as (r & perm' & E1 & _ & G & x & X1 & X2).
  exists r, perm'. split; [exact E1|]. split; [exact G|]. exists (cf x 0). split; [|apply X2].
  destruct (oddRot_err w (Z.of_nat N) mu ms s ct Hw HN Hmu Hct) as (t & err & Et & Be). destruct Hph as (q & Hq).
  set (R := oddRot w ms s ct) in *.
  assert (in_box (Z.of_nat N) mm m (- R + 2 * Z.of_nat N * - (t + q))) as Hbox.
  { apply (pos_in_box (2 ^ w) (Z.of_nat N) mm scale m ee err 0 (mu + 2 * 2 ^ w) (absSum w s) 0); try assumption; try lia; try (apply pow2_pos; lia). }
  assert (in_box (Z.of_nat (1 * N)) mm m (- R + 2 * Z.of_nat N * - (t + q))) as Hbox' by (rewrite Nat.mul_1_l; exact Hbox).
  pose proof (Hf _ m Hm Hbox') as Hv.
  specialize (X1 0). cbn [cf psub] in X1.
  pose proof (pshift_mono (2 ^ w) R (pol N lut) 0) as XS. cbn [cf pshift] in XS. rewrite <- XS in X1.
  assert (eqm (2 ^ w) (cf (pol N lut) (0 - R)) (f m)) as Hv'.
  { rewrite <- Hv. assert (forall x, cf (tableOf N 1 [lut]) x = cf (pol N lut) x) as -> by (intros y; unfold tableOf; rewrite weave_cf_eq by lia; change (Z.of_nat 1) with 1; rewrite Z.mod_1_r, Z.div_1_r; reflexivity).
    apply eqm_eq. apply cf_eqm2N. exists (t + q). lia. }
  destruct X1 as (u1 & X1). destruct Hv' as (u2 & X3). exists (u1 + u2). lia.
Qed.

(** Both orders. *)
Lemma fhew_boot_phase w N k p pKS sk s large brk glk ksk W b Ek Eg Eks : 0 < w -> fhew_keys w N k p pKS sk s large brk glk ksk W b Ek Eg Eks ->
  forall perm rotBuf ksBuf extBuf lut f mm scale mu ms m ee ct out, glwe_ct w N k perm -> gshape N k rotBuf -> length ksBuf = S (length s) -> length extBuf = S (k * N) ->
  wpoly w N lut -> 0 <= m < mm -> lut_holds N 1 (2 ^ w) mm [lut] f -> ms_err w (Z.of_nat N) mu ms ->
  (length out = S (length s) -> lwe_ct w (length s) ct -> eqm (2 ^ w) (phase s ct) (scale * m + ee) ->
   boot_margin (2 ^ w) (Z.of_nat N) mm scale m (Z.abs ee) (mu + 2 * 2 ^ w) (absSum w s) 0 ->
   exists r, FHEWBootstrapLUTTo w N k false ms p pKS brk glk ksk W (length s) perm rotBuf ksBuf extBuf out ct lut = Some r /\
   lwe_ct w (length s) r /\ dist_le (2 ^ w) (phase s r) (f m) (fhewNoise w N k p W (length s) b Ek Eg + ksNoiseB w pKS (length large - length s) b Eks)) /\
  (length out = S (length large) -> lwe_ct w (length large) ct -> eqm (2 ^ w) (phase large ct) (scale * m + ee) ->
   boot_margin (2 ^ w) (Z.of_nat N) mm scale m (Z.abs ee + ksNoiseB w pKS (length large - length s) b Eks) (mu + 2 * 2 ^ w) (absSum w s) 0 ->
   exists r, FHEWBootstrapLUTTo w N k true ms p pKS brk glk ksk W (length s) perm rotBuf ksBuf extBuf out ct lut = Some r /\
   lwe_ct w (length large) r /\ dist_le (2 ^ w) (phase large r) (f m) (fhewNoise w N k p W (length s) b Ek Eg)).
Proof.
  intros Hw HK perm rotBuf ksBuf extBuf lut f mm scale mu ms m ee ct out Hp Hr Lks Lex Hl Hm Hf Hmu. pose proof HK as HK'.
  destruct HK' as [(n & Hn & HNn) (Hok & HokK) (Hk & Lk & Hfl & Hsk) (Hpre & Hle) (Hb0 & HEk & HEg & HEks & Hb) HW Hbrk Hglk (eks & Hk1 & Hk2)].
  assert (0 < N)%nat as HN by (pose proof (Z.pow_pos_nonneg 2 n ltac:(lia) ltac:(lia)); lia).
  assert (length large = (k * N)%nat) as LD by (destruct Hfl as (X & _); now rewrite Lk in X).
  pose proof (flat_small w N k sk large b HN Lk Hsk Hfl Hb) as Hlb.
  split; intros Lo Hct Hph Hmar; unfold FHEWBootstrapLUTTo.
  - destruct (fhew_value w N k p pKS sk s large brk glk ksk W b Ek Eg Eks Hw HK perm rotBuf lut f mm scale mu ms m ee ct Hp Hr Hl Hm Hf Hmu Hct Hph Hmar) as (r & perm' & -> & G & V). cbn [option_map fst].
    destruct (extract_spec w Hw N HN k sk large 0 extBuf r Lk Hfl G HN Lex) as (X1 & X2). change (Z.of_nat 0) with 0 in X2. rewrite <- LD in *.
    destruct (ks_small w s pKS large out _ ksk eks Eks b Hw HokK Hpre Hle Lo X1 Hk1 Hlb Hk2) as (Y1 & Y2). eexists. split; [reflexivity|]. split; [exact Y1|].
    destruct V as (x & (t1 & B1) & B2). destruct Y2 as (c & (t2 & C1) & C2). destruct X2 as (t3 & X2). exists (x + c). split; [exists (t1 + t2 + t3); lia|]. lia.
  - rewrite <- LD. destruct (ks_small w s pKS large ksBuf ct ksk eks Eks b Hw HokK Hpre Hle Lks Hct Hk1 Hlb Hk2) as (Y1 & x & (t & X1) & X2). cbv zeta in *.
    set (c := DefaultKeySwitchTo w (length s) (length large) pKS ksBuf ct ksk) in *. clearbody c. 
    destruct (fhew_value w N k p pKS sk s large brk glk ksk W b Ek Eg Eks Hw HK perm rotBuf lut f mm scale mu ms m (ee + x) c Hp Hr Hl Hm Hf Hmu Y1) as (r & perm' & -> & G & V).
    + destruct Hph as (t' & Hp'). exists (t + t'). lia.
    + unfold boot_margin in *. cbv zeta in *. set (KN := ksNoiseB _ _ _ _ _) in *.
      assert (4 * Z.of_nat N * mm * Z.abs (ee + x) <= 4 * Z.of_nat N * mm * (Z.abs ee + KN)) as Hm1 by (apply Z.mul_le_mono_nonneg_l; [apply Z.mul_nonneg_nonneg; lia|]; pose proof (Z.abs_triangle ee x); lia).
      destruct Hmar as [HX|(Hd & HX)]; [left|right; split; [exact Hd|]]; lia.
    + cbn [option_map fst]. eexists. split; [reflexivity|]. rewrite LD in Lo.
      destruct (extract_spec w Hw N HN k sk large 0 out r Lk Hfl G HN Lo) as (Z1 & Z2). change (Z.of_nat 0) with 0 in Z2. rewrite LD. split; [exact Z1|].
      destruct V as (y & (t1 & B1) & B2). destruct Z2 as (t3 & Z2). exists y. split; [exists (t1 + t3); lia|exact B2].
Qed.

Lemma fhew_boot_message w N k p pKS sk s large brk glk ksk W b Ek Eg Eks : 0 < w -> fhew_keys w N k p pKS sk s large brk glk ksk W b Ek Eg Eks ->
  forall perm rotBuf ksBuf extBuf lutOut raw kk mu f, glwe_ct w N k perm -> gshape N k rotBuf -> length ksBuf = S (length s) -> length extBuf = S (k * N) ->
  length raw = N -> length lutOut = N -> 0 <= kk <= w - 2 -> 2 ^ kk * Z.of_nat N < 2 ^ 52 -> let mm := 2 ^ kk in let scale := scaleOf w mm in let ms := ModSwitch w (Z.of_nat N) in
  ms_err w (Z.of_nat N) mu ms ->
  exists lut raw', GenLUTCustomTo w N 1 [lutOut] raw f mm scale = Some ([lut], raw') /\ forall m ee ct out, 0 <= m < mm ->
  (length out = S (length s) -> lwe_ct w (length s) ct -> eqm (2 ^ w) (phase s ct) (scale * m + ee) ->
   boot_margin (2 ^ w) (Z.of_nat N) mm scale m (Z.abs ee) (mu + 2 * 2 ^ w) (absSum w s) 0 ->
   decodes w scale (fhewNoise w N k p W (length s) b Ek Eg + ksNoiseB w pKS (length large - length s) b Eks) ->
   exists r, FHEWBootstrapLUTTo w N k false ms p pKS brk glk ksk W (length s) perm rotBuf ksBuf extBuf out ct lut = Some r /\ DecryptLWE w mm scale s r = Some (f m mod mm)) /\
  (length out = S (length large) -> lwe_ct w (length large) ct -> eqm (2 ^ w) (phase large ct) (scale * m + ee) ->
   boot_margin (2 ^ w) (Z.of_nat N) mm scale m (Z.abs ee + ksNoiseB w pKS (length large - length s) b Eks) (mu + 2 * 2 ^ w) (absSum w s) 0 ->
   decodes w scale (fhewNoise w N k p W (length s) b Ek Eg) ->
   exists r, FHEWBootstrapLUTTo w N k true ms p pKS brk glk ksk W (length s) perm rotBuf ksBuf extBuf out ct lut = Some r /\ DecryptLWE w mm scale large r = Some (f m mod mm)).
Proof.
  intros Hw HK perm rotBuf ksBuf extBuf lutOut raw kk mu f Hpm Hrot Lks Lex Lr Lo Hk Hsz mm scale ms Hmu.
  pose proof (fk_rank _ _ _ _ _ _ _ _ _ _ _ _ _ _ _ _ HK) as (n & Hn & HNn). assert (0 < N)%nat as HN by (pose proof (Z.pow_pos_nonneg 2 n ltac:(lia) ltac:(lia)); lia).
  pose proof (pow2_pos kk ltac:(lia)) as Hp. destruct (encode_val w kk 0 Hw Hk) as (_ & EQ). fold mm scale in EQ, Hp, Hsz.
  assert (2 <= scale) as Hs. { unfold scale, mm. rewrite scale_pow2 by lia. change 2 with (2 ^ 1) at 1. apply Z.pow_le_mono_r; lia. }
  destruct (GenLUT_holds w N 1 mm (fun x => EncodeLWECustom w (f x) mm scale) [lutOut] raw Hw HN ltac:(lia) ltac:(nia) ltac:(nia) ltac:(rewrite Nat.mul_1_l; exact Hsz) ltac:(lia) eq_refl) as (lut & raw' & A & B & C & D).
  { intros i Hi. replace i with 0%nat by lia. exact Lo. }
  assert (lut_ok w N 1 lut) as (Hl1 & Hl2). { apply C. intros x Hx. unfold EncodeLWECustom. apply wrap_range. lia. }
  destruct lut as [|lut [|]]; try discriminate Hl1. specialize (Hl2 0%nat ltac:(lia)). cbn [nth] in Hl2.
  exists lut, raw'. split; [exact A|]. intros m ee ct out Hm.
  destruct (fhew_boot_phase w N k p pKS sk s large brk glk ksk W b Ek Eg Eks Hw HK perm rotBuf ksBuf extBuf lut _ mm scale mu ms m ee ct out Hpm Hrot Lks Lex Hl2 Hm D Hmu) as (P1 & P2).
  split; intros L1 L2 L3 L4 L5.
  - destruct (P1 L1 L2 L3 L4) as (r & E & X & Y). exists r. split; [exact E|]. apply (decode_dist w kk s _ (f m) _ Hw Hk (proj1 X) Y L5).
  - destruct (P2 L1 L2 L3 L4) as (r & E & X & Y). exists r. split; [exact E|]. apply (decode_dist w kk large _ (f m) _ Hw Hk (proj1 X) Y L5).
Qed.
