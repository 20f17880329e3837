(** Sanitisation: the whole of SanitizeLUTTo and SanitizeFuncTo. *)
From Verif Require Import Base NegaRing SpecNum ModelNum PfNum ModelVec SpecVec PfVec ModelPoly SpecPoly PfPoly PfSplit ModelGadget SpecGadget PfGadget ModelEncoder ModelLWE SpecLWE PfLWE PfLWE2 PfKS PfKS2 ModelGLWE SpecGLWE PfGLWE PfGLWE2 PfGLWE3 PfGLWE4
  ModelBoot SpecBoot PfBoot PfBoot2 PfBoot3 PfBoot4 ModelParams PfParams PfEncoder SpecPub PfPub ModelSanit SpecSanit PfSanit.

Section Lin.
Variables (w logN : Z) (N : nat).
Hypothesis Hw : 0 < w.
Hypothesis HN : (0 < N)%nat.
Hypothesis HlN : 0 < splitBits logN.
Notation Q := (2 ^ w).
Add Ring nring : (@npoly_ring N Q) (setoid (@peq_equiv N Q) (@npoly_ring_ext N Q)).

(** The sampled polynomial, as integers. *)
Definition linX (L1 L0 : nat -> Z) (l : nat) : list Z := tab N (fun i => if Nat.eqb i 0 then L1 l else L0 (l * (N - 1) + (i - 1))%nat).
Lemma linX_bound L1 L0 l B : 0 <= B -> (forall i, Z.abs (L1 i) <= B) -> (forall i, Z.abs (L0 i) <= B) -> pbound B (pol N (linX L1 L0 l)).
Proof.
  intros HB H1 H0. apply pbound_coeffs; [exact HN|]. intros i Hi. rewrite (cf_pol_at N HN) by exact Hi. unfold linX. rewrite nthZ_tab by exact Hi. destruct (Nat.eqb i 0); [apply H1|apply H0].
Qed.
Lemma linPoly_spec L1 L0 mm pG l : length pG = N ->
  wpoly w N (linPoly w L1 L0 mm pG l) /\ peq Q (pol N (linPoly w L1 L0 mm pG l)) (padd pone (pscale (2 * mm) (pol N (linX L1 L0 l)))).
Proof.
  intros Lp. unfold linPoly. cbv zeta. rewrite upd_length.
  destruct pG as [|x0 pG]; [cbn in Lp; lia|]. cbn [upd firstn app length]. cbn [length] in Lp. replace (S (length pG) - 1)%nat with (N - 1)%nat by lia.
  set (g := wrap w (L1 l) :: tab (N - 1) (fun i => wrap w (L0 (l * (N - 1) + i)%nat))).
  assert (length g = N) as Lg by (unfold g; cbn [length]; rewrite tab_length; lia).
  assert (length (vscale w (wrap w (2 * mm)) g) = N) as Lv by (unfold vscale; rewrite map_length; exact Lg).
  assert (forall i, (i < N)%nat -> nthZ (vscale w (wrap w (2 * mm)) g) i = wrap w (wrap w (2 * mm) * nthZ g i)) as Hv.
  { intros i Hi. unfold vscale. rewrite nthZ_map by lia. reflexivity. }
  assert (forall i, (i < N)%nat -> nthZ g i = wrap w (nthZ (linX L1 L0 l) i)) as Hg.
  { intros i Hi. unfold linX. rewrite nthZ_tab by exact Hi. unfold g. destruct i as [|i]; [reflexivity|]. cbn [Nat.eqb]. unfold nthZ. cbn [nth]. fold (nthZ (tab (N - 1) (fun i => wrap w (L0 (l * (N - 1) + i)%nat))) i). rewrite nthZ_tab by lia. repeat f_equal. lia. }
  split.
  - split; [rewrite upd_length; exact Lv|]. apply Forall_nthZ. rewrite upd_length, Lv. intros i Hi. rewrite nthZ_upd by lia. destruct (Nat.eqb i 0); [now apply wrap_word|]. rewrite Hv by exact Hi. now apply wrap_word.
  - apply (pol_peq N HN). intros i Hi. rewrite nthZ_upd by lia. cbn [cf padd pscale]. rewrite (cf_pol_at N HN) by exact Hi.
    assert (eqm Q (nthZ (vscale w (wrap w (2 * mm)) g) i) (2 * mm * nthZ (linX L1 L0 l) i)) as (t & Ht) by (rewrite Hv, Hg by exact Hi; rewrite !wrap_eqm; apply eqm_refl).
    cbn [cf pone]. rewrite one_cf_at by exact Hi. destruct (Nat.eqb_spec i 0) as [->|Hz].
    + destruct (wrap_eqm w (nthZ (vscale w (wrap w (2 * mm)) g) 0 + 1)) as (t2 & H2). exists (t + t2). lia.
    + exists t. lia.
Qed.

(** Multiplying both polynomials of a rank-1 ciphertext by g. *)
Lemma mulBoth_spec sk r g : glwe_ct w N 1 r -> wpoly w N g ->
  let r' := forN 0 2 (fun i r => upd r i (MulPolyTo false w logN N (nth i r []) g)) r in
  glwe_ct w N 1 r' /\ peq Q (gphase N 1 sk r') (pmul (gphase N 1 sk r) (pol N g)).
Proof.
  intros (Lr & Hr) Hg r'. pose proof (Hr 0%nat ltac:(lia)) as H0. pose proof (Hr 1%nat ltac:(lia)) as H1. destruct r as [|a [|b [|]]]; try discriminate Lr. cbn [nth] in H0, H1.
  destruct (MulPolyTo_spec N HN false w logN a g Hw HlN H0 Hg) as (A1 & A2). destruct (MulPolyTo_spec N HN false w logN b g Hw HlN H1 Hg) as (B1 & B2).
  assert (r' = [MulPolyTo false w logN N a g; MulPolyTo false w logN N b g]) as -> by reflexivity. split.
  - split; [reflexivity|]. intros i Hi. assert (i = 0 \/ i = 1)%nat as [-> | ->] by lia; assumption.
  - unfold gphase. cbn [nth psum]. rewrite A2, B2. ring.
Qed.

(** The randomized linear evaluation keeps the table value. *)
Lemma lin_noise (T V eta x dl : npoly N) b rot mm B Bl delta : 0 <= mm -> pbound B eta -> pbound Bl x -> pbound delta dl ->
  peq Q V (padd (pshift (- rot) T) eta) -> peq Q (pscale (2 * mm) T) dl ->
  pdist_le Q (pmul V (pmul (pmono (- b)) (padd pone (pscale (2 * mm) x)))) (pshift (- (b + rot)) T) (B * (1 + 2 * mm * Z.of_nat N * Bl) + Z.of_nat N * (Bl * delta)).
Proof.
  intros Hm He Hx Hd HV HT.
  exists (padd (pshift (- b) (padd eta (pscale (2 * mm) (pmul eta x)))) (pshift (- (b + rot)) (pmul x dl))). split.
  - rewrite !pshift_mono. rewrite <- HT. rewrite !pscale_mul. rewrite HV. rewrite !pshift_mono. replace (- (b + rot)) with (- b + - rot) by lia. rewrite <- pmono_add. ring.
  - replace (B * (1 + 2 * mm * Z.of_nat N * Bl)) with (B + Z.abs (2 * mm) * (Z.of_nat N * (B * Bl))) by (rewrite Z.abs_eq by lia; ring).
    apply pbound_add; apply pbound_shift; [|now apply pbound_mul]. apply pbound_add; [exact He|]. apply pbound_scale. now apply pbound_mul.
Qed.
End Lin.

Section Main.
Variables (w logN : Z) (N : nat).
Hypothesis Hw : 0 < w.
Hypothesis HN : (0 < N)%nat.
Hypothesis HlN : 0 < splitBits logN.
Notation Q := (2 ^ w).
Add Ring nring : (@npoly_ring N Q) (setoid (@peq_equiv N Q) (@npoly_ring_ext N Q)).

Lemma sanit_position p pKS sk s large brk ksk bs bc Ek Eks gpk e E : boot_keys w N 1 1 p pKS sk s large brk ksk bs bc Ek Eks -> pk_enc w N 1 sk gpk e -> pbound E (e 0%nat) ->
  forall (D R L1 L0 RL : nat -> Z) Bd Br Bl BL, 0 <= Bd -> 0 <= Bl -> (forall i, Z.abs (D i) <= Bd) -> (forall i, Z.abs (R i) <= Br) -> (forall i, Z.abs (L1 i) <= Bl) -> (forall i, Z.abs (L0 i) <= Bl) -> (forall i, Z.abs (RL i) <= BL) ->
  forall mm mu ms lut delta, 0 < mm -> ms_err w (Z.of_nat N) mu ms -> lut_ok w N 1 lut -> lut_steps Q N mm delta (nth 0 lut []) ->
  forall pG cR lR reBuf ksBuf rotBuf ctOut ct st l phi, length pG = N -> gshape N 1 cR -> length lR = S N -> length reBuf = S N -> length ksBuf = S (length s) -> gshape N 1 rotBuf -> length ctOut = S N ->
  lwe_ct w N ct -> eqm Q (phase large ct) phi ->
  exists r, SanitizeLUTTo w logN N 1 D R L1 L0 RL mm ms p pKS brk ksk bs bc (length s) gpk pG cR lR reBuf ksBuf rotBuf ctOut ct lut st l = Some r /\
  lwe_ct w N r /\ exists pos, 2 * Z.abs (pos * Q - 2 * Z.of_nat N * phi) <= mu * (2 + zsum (length s) (nthZ s)) + 4 * Z.of_nat N * (reRandBound N E Bd + Br + ksNoise w pKS (N - length s) Eks) /\
  dist_le Q (phase large r) (cf (pol N (nth 0 lut [])) pos) (sanitNoise N mm (brNoise w N 1 p bc (length s) Ek) Bl delta BL).
Proof.
  intros [(n0 & Hn0 & HNn) (HE & HE2) (Hok & HokK) (Lk & Hfl & Hbin) (Hpre & Hle) (Hbs & Hbc & Hlen & Hblk) (HEk & HEks) (eb & He1 & He2) (eks & Hk1 & Hk2)] Hpk HEe.
  intros D R L1 L0 RL Bd Br Bl BL HBd HBl HD HR HL1 HL0 HRL mm mu ms lut delta Hmm Hmu Hlut (dl & Hdl1 & Hdl2) pG cR lR reBuf ksBuf rotBuf ctOut ct st l phi Lp Hc LlR Lre Lks Hrot Lo Hct (tp & Hph).
  pose proof (flat_bound N 1 sk large HN Lk Hfl Hbin) as Hskb. assert (length large = N) as LD by (destruct Hfl as (X & _); rewrite Lk in X; lia). pose proof (pow2_pos w ltac:(lia)) as HQ.
  unfold SanitizeLUTTo. cbv zeta. replace (1 * N)%nat with N by lia.
  destruct (ReRandLWETo_spec w logN N Hw HN HlN D R sk gpk e Hpk large pG cR lR reBuf ct st Hfl Lk Lp Hc ltac:(lia) ltac:(lia) ltac:(now rewrite Nat.mul_1_l)) as (_ & _ & C1 & _ & C2).
  pose proof (reRandErr_bound N HN D sk e E Bd (fst st) (pbound_nonneg _ _ HEe) HBd HEe HD (Hskb 0%nat ltac:(lia)) 0) as Be. set (err := cf (reRandErr N sk (e 0%nat) D (fst st)) 0) in *. clearbody err.
  set (c := fst (ReRandLWETo w logN N D R gpk pG cR lR reBuf ct st)) in *. clearbody c. rewrite Nat.mul_1_l in C1. destruct C1 as (Lc & Wc).
  set (body := nthZ c 0). assert (uword w body) as Hb by (apply (Forall_nth_lt _ c 0 0%nat Wc); lia).
  assert (lwe_ct w (length large) (upd c 0 0)) as Hc0.
  { split; [rewrite upd_length; lia|]. apply Forall_nthZ. rewrite upd_length. intros i Hi. rewrite nthZ_upd by lia. destruct (Nat.eqb i 0); [unfold uword; lia|]. exact (Forall_nth_lt _ c 0 i Wc Hi). }
  pose proof (phase_upd0 large c 0 ltac:(lia)) as P0. fold body in P0.
  pose proof (DefaultKeySwitch_dcmp w Hw s pKS HokK large ksBuf (upd c 0 0) ksk eks Hpre Hle Lks Hc0 Hk1) as (Y1 & _).
  pose proof (DefaultKeySwitch_bound w Hw s pKS HokK large ksBuf (upd c 0 0) ksk eks Eks Hpre Hle Lks Hc0 Hk1 Hbin Hk2) as (x & (tx & X1) & X2). rewrite LD in Y1, X1, X2.
  change (Z.abs x <= ksNoise w pKS (N - length s) Eks) in X2. set (c' := DefaultKeySwitchTo w (length s) N pKS ksBuf (upd c 0 0) ksk) in *. clearbody c'.
  assert (glwe_ct w N 1 (BlindRotateTo w N 1 1 ms p brk bs bc (length s) rotBuf rotBuf c' lut) /\
    pdist_le Q (gphase N 1 sk (BlindRotateTo w N 1 1 ms p brk bs bc (length s) rotBuf rotBuf c' lut)) (pshift (- rotSum ms s c') (pol N (nth 0 lut []))) (brNoise w N 1 p bc (length s) Ek)) as (A & (eta & B1 & B2)).
  { destruct Hlut as (_ & Hl). specialize (Hl O ltac:(lia)).
    assert (forall j, 0 <= ms (nthZ c' j) <= 2 * Z.of_nat (1 * N)) as Hms.
    { rewrite Nat.mul_1_l. intros j. destruct (Hmu (nthZ c' j)) as (R0 & -> & _).
      - unfold nthZ. destruct (Nat.lt_ge_cases j (length c')) as [Lj|Lj]; [apply (Forall_nth_lt _ c' 0 j (proj2 Y1)); exact Lj|]. rewrite nth_overflow by exact Lj. unfold uword. lia.
      - pose proof (Z.mod_pos_bound R0 (2 * Z.of_nat N) ltac:(lia)). lia. }
    unfold BlindRotateTo. destruct (Nat.ltb_spec N (1 * N)) as [C|_]; [lia|].
    destruct (Nat.ltb_spec 1 bs) as [C3|C3].
    - apply (blindRotateBlock_spec w Hw N HN n0 Hn0 HNn 1 sk Hskb p Hok ms s brk eb Ek He1 HEk He2 bs bc); assumption.
    - assert (bs = 1%nat) by lia. subst bs. replace bc with (length s) at 1 by lia.
      apply (blindRotateOriginal_spec w Hw N HN n0 Hn0 HNn 1 sk Hskb p Hok ms s brk eb Ek); try assumption; [apply Hblk|lia]. }
  set (r := BlindRotateTo w N 1 1 ms p brk bs bc (length s) rotBuf rotBuf c' lut) in *. clearbody r.
  destruct (linPoly_spec w N Hw HN L1 L0 mm pG l Lp) as (G1 & G2). pose proof (linX_bound N HN L1 L0 l Bl HBl HL1 HL0) as Bx. set (g := linPoly w L1 L0 mm pG l) in *. clearbody g.
  rewrite (MonomialMulPolyInPlace_eq N HN w n0 g g (- ms body) ltac:(lia) ltac:(lia) HNn (proj1 G1) G1).
  destruct (MonomialMulPolyTo_spec N HN w n0 g g (- ms body) ltac:(lia) ltac:(lia) HNn (proj1 G1) G1) as (M1 & M2). set (g' := MonomialMulPolyTo w N g g (- ms body)) in *. clearbody g'.
  destruct (mulBoth_spec w logN N Hw HN HlN sk r g' A M1) as (R1 & R2). set (r' := forN 0 2 _ r) in *. clearbody r'.
  destruct (extract_spec w Hw N HN 1 sk large 0 ctOut r' Lk Hfl R1 HN ltac:(lia)) as (X3 & (t4 & X4)). rewrite Nat.mul_1_l in X3. change (Z.of_nat 0) with 0 in X4.
  set (o := AsLWECiphertextTo w N 0 ctOut r') in *. clearbody o.
  eexists. split; [reflexivity|]. split.
  { split; [rewrite upd_length; apply X3|]. apply Forall_nthZ. rewrite upd_length. intros i Hi. rewrite nthZ_upd by (destruct X3; lia). destruct (Nat.eqb i 0); [now apply wrap_word|]. exact (Forall_nth_lt _ o 0 i (proj2 X3) Hi). }
  destruct (rotSum_err w (Z.of_nat N) mu ms s c' Hw ltac:(lia) Hmu (proj1 Hblk) Y1) as (t & er & Et & Ber).
  destruct (Hmu body Hb) as (R0 & HR0 & HRe).
  destruct C2 as (t2 & C2).
  exists (ms body + rotSum ms s c' - 2 * Z.of_nat N * (t + tx + t2 + tp - R0 / (2 * Z.of_nat N))). split.
  - replace ((ms body + rotSum ms s c' - 2 * Z.of_nat N * (t + tx + t2 + tp - R0 / (2 * Z.of_nat N))) * Q - 2 * Z.of_nat N * phi)
      with ((R0 * Q - body * (2 * Z.of_nat N)) + er + 2 * Z.of_nat N * (err + R (snd st) + x)).
    + assert (Z.abs (2 * Z.of_nat N * (err + R (snd st) + x)) <= 2 * Z.of_nat N * (reRandBound N E Bd + Br + ksNoise w pKS (N - length s) Eks)) as Hz.
      { rewrite Z.abs_mul, (Z.abs_eq (2 * Z.of_nat N)) by lia. apply Z.mul_le_mono_nonneg_l; [lia|]. pose proof (HR (snd st)). lia. }
      clear - Hz HRe Ber. set (A := R0 * Q - body * (2 * Z.of_nat N)) in *. set (B := 2 * Z.of_nat N * (err + R (snd st) + x)) in *. clearbody A B. lia.
    + rewrite HR0, (Z.mod_eq R0 (2 * Z.of_nat N)) by lia.
      assert (phase s c' = phi + err + R (snd st) - body + x + (tp + t2 + tx) * Q) as HP by lia. rewrite HP in Et. clear - Et. nia.
  - destruct (lin_noise w N Hw HN (pol N (nth 0 lut [])) (gphase N 1 sk r) eta (pol N (linX N L1 L0 l)) dl (ms body) (rotSum ms s c') mm (brNoise w N 1 p bc (length s) Ek) Bl delta ltac:(lia) B2 Bx Hdl2) as (z & Z1 & Z2).
    { rewrite <- B1. ring. } { rewrite <- Hdl1. ring. }
    destruct (Z1 0) as (t5 & Z3). destruct (R2 0) as (t6 & R3).
    assert (peq Q (pmul (gphase N 1 sk r) (pol N g')) (pmul (gphase N 1 sk r) (pmul (pmono (- ms body)) (padd pone (pscale (2 * mm) (pol N (linX N L1 L0 l))))))) as Eg by (rewrite M2, G2; reflexivity).
    destruct (Eg 0) as (t7 & Z7). rewrite (cf_eqm2N (pol N (nth 0 lut [])) _ (ms body + rotSum ms s c')) by (exists (- (t + tx + t2 + tp - R0 / (2 * Z.of_nat N))); lia).
    rewrite phase_upd0 by (destruct X3; lia).
    destruct (wrap_eqm w (nthZ o 0 + wrap w (RL l))) as (t8 & Z8). destruct (wrap_eqm w (RL l)) as (t9 & Z9).
    exists (cf z 0 + RL l). split.
    + exists (t4 + t5 + t6 + t7 + t8 + t9). cbn [cf psub pshift] in Z3. replace (0 - - (ms body + rotSum ms s c')) with (ms body + rotSum ms s c') in Z3 by lia. lia.
    + unfold sanitNoise. pose proof (Z2 0). pose proof (HRL l). lia.
Qed.
End Main.

Lemma tableOf_1 N lut x : cf (tableOf N 1 lut) x = cf (pol N (nth 0 lut [])) x.
Proof. unfold tableOf. rewrite weave_cf_eq by lia. change (Z.of_nat 1) with 1. rewrite Z.mod_1_r, Z.div_1_r. reflexivity. Qed.

(** Tables made by GenLUTCustomTo for a power-of-two modulus consist of multiples of Q/2mm. *)
Lemma GenLUT_steps w N kk f lutOut raw : 0 < w -> (0 < N)%nat -> 0 <= kk <= w - 2 -> 2 ^ kk * Z.of_nat N < 2 ^ 52 -> length raw = N -> length lutOut = 1%nat -> length (nth 0 lutOut []) = N ->
  let mm := 2 ^ kk in let scale := scaleOf w mm in
  exists lut raw', GenLUTCustomTo w N 1 lutOut raw f mm scale = Some (lut, raw') /\ lut_ok w N 1 lut /\ lut_holds N 1 (2 ^ w) mm lut (fun x => EncodeLWECustom w (f x) mm scale) /\ lut_steps (2 ^ w) N mm 0 (nth 0 lut []).
Proof.
  intros Hw HN Hk Hsz Lr Lo Hl mm scale. pose proof (pow2_pos kk ltac:(lia)) as Hp. destruct (encode_val w kk 0 Hw Hk) as (_ & EQ). fold mm scale in EQ, Hp, Hsz.
  assert (2 <= scale) as Hs. { unfold scale, mm. rewrite scale_pow2 by lia. change 2 with (2 ^ 1) at 1. apply Z.pow_le_mono_r; lia. }
  assert (mm < 2 ^ 52) as H52 by nia. assert (2 * mm < 2 ^ w) as Hmw by nia.
  assert (forall i, (i < 1)%nat -> length (nth i lutOut []) = N) as Hl' by (intros i Hi; replace i with 0%nat by lia; exact Hl).
  set (F := fun x => EncodeLWECustom w (f x) mm scale).
  destruct (GenLUT_holds w N 1 mm F lutOut raw Hw HN ltac:(lia) ltac:(lia) Hmw ltac:(rewrite Nat.mul_1_l; exact Hsz) ltac:(lia) Lo Hl') as (lut & raw' & A & B & C & D).
  destruct (GenLUT_every w N 1 mm F lutOut raw Hw HN ltac:(lia) ltac:(lia) Hmw ltac:(rewrite Nat.mul_1_l; exact Hsz) ltac:(lia) Lo Hl') as (lut2 & raw2 & o & A2 & _ & V).
  rewrite A in A2. injection A2 as <- <-. exists lut, raw'. split; [exact A|]. split; [apply C; intros x _; unfold F, EncodeLWECustom; apply wrap_range; lia|]. split; [exact D|].
  assert (forall i, 0 <= i < Z.of_nat N -> eqm (2 ^ w) (2 * mm * cf (pol N (nth 0 lut [])) (i - o)) 0) as V0.
  { intros i Hi. destruct (V i ltac:(lia)) as (m & _ & _ & _ & _ & _ & _ & (t & Ht)). rewrite tableOf_1 in Ht. unfold F in Ht. pose proof (proj1 (encode_val w kk (f m) Hw Hk)) as He. cbv zeta in He. fold mm in He. fold scale in He. rewrite He in Ht.
    exists (f m mod mm + 2 * mm * t). rewrite Z.sub_0_r. replace (cf (pol N (nth 0 lut [])) (i - o)) with (scale * (f m mod mm) + t * 2 ^ w) by lia. rewrite EQ. ring. }
  exists pzero. split; [|apply pbound_zero]. intros x. cbn [cf psub pscale pzero].
  pose proof (Z.mod_pos_bound (x + o) (2 * Z.of_nat N) ltac:(lia)) as Hb. pose proof (Z.div_mod (x + o) (2 * Z.of_nat N) ltac:(lia)) as Hd. set (i := (x + o) mod (2 * Z.of_nat N)) in *.
  rewrite (cf_eqm2N (pol N (nth 0 lut [])) x (i - o)) by (exists ((x + o) / (2 * Z.of_nat N)); lia).
  destruct (Z.lt_ge_cases i (Z.of_nat N)) as [L|L].
  - destruct (V0 i ltac:(lia)) as (t & Ht). exists t. lia.
  - destruct (V0 (i - Z.of_nat N) ltac:(lia)) as (t & Ht). exists (- t). replace (i - o) with (i - Z.of_nat N - o + Z.of_nat N) by lia. rewrite cf_anti. lia.
Qed.

Section Msg.
Variables (w logN : Z) (N : nat).
Hypothesis Hw : 0 < w.
Hypothesis HN : (0 < N)%nat.
Hypothesis HlN : 0 < splitBits logN.
Notation Q := (2 ^ w).
Variables (p pKS : gadget) (sk : list (list Z)) (s large : list Z) (brk : list (list (list (list (list Z))))) (ksk : list (list (list Z))) (bs bc : nat) (Ek Eks : Z).
Variables (gpk : list (list (list Z))) (e : nat -> npoly N) (E : Z).
Hypothesis HK : boot_keys w N 1 1 p pKS sk s large brk ksk bs bc Ek Eks.
Hypothesis Hpk : pk_enc w N 1 sk gpk e.
Hypothesis HEe : pbound E (e 0%nat).
Variables (D R L1 L0 RL : nat -> Z) (Bd Br Bl BL : Z).
Hypothesis HBd : 0 <= Bd.
Hypothesis HBl : 0 <= Bl.
Hypothesis HD : forall i, Z.abs (D i) <= Bd.
Hypothesis HR : forall i, Z.abs (R i) <= Br.
Hypothesis HL1 : forall i, Z.abs (L1 i) <= Bl.
Hypothesis HL0 : forall i, Z.abs (L0 i) <= Bl.
Hypothesis HRL : forall i, Z.abs (RL i) <= BL.
Variables (pG : list Z) (cR : list (list Z)) (lR reBuf ksBuf : list Z) (rotBuf : list (list Z)) (ctOut : list Z).
Hypothesis Lp : length pG = N.
Hypothesis Hc : gshape N 1 cR.
Hypothesis LlR : length lR = S N.
Hypothesis Lre : length reBuf = S N.
Hypothesis Lks : length ksBuf = S (length s).
Hypothesis Hrot : gshape N 1 rotBuf.
Hypothesis Lo : length ctOut = S N.

Lemma sanit_phase mm scale mu ms lut f delta : 0 < mm -> ms_err w (Z.of_nat N) mu ms -> lut_ok w N 1 lut -> lut_holds N 1 Q mm lut f -> lut_steps Q N mm delta (nth 0 lut []) ->
  forall ct st l m ee, lwe_ct w N ct -> 0 <= m < mm -> eqm Q (phase large ct) (scale * m + ee) ->
  boot_margin Q (Z.of_nat N) mm scale m (Z.abs ee + reRandBound N E Bd + Br + ksNoise w pKS (N - length s) Eks) mu (1 + zsum (length s) (nthZ s)) 0 ->
  exists r, SanitizeLUTTo w logN N 1 D R L1 L0 RL mm ms p pKS brk ksk bs bc (length s) gpk pG cR lR reBuf ksBuf rotBuf ctOut ct lut st l = Some r /\
  lwe_ct w N r /\ dist_le Q (phase large r) (f m) (sanitNoise N mm (brNoise w N 1 p bc (length s) Ek) Bl delta BL).
Proof.
  intros Hmm Hmu Hlut Hf Hst ct st l m ee Hct Hm Hph HX.
  destruct (sanit_position w logN N Hw HN HlN p pKS sk s large brk ksk bs bc Ek Eks gpk e E HK Hpk HEe D R L1 L0 RL Bd Br Bl BL HBd HBl HD HR HL1 HL0 HRL mm mu ms lut delta Hmm Hmu Hlut Hst
    pG cR lR reBuf ksBuf rotBuf ctOut ct st l (scale * m + ee) Lp Hc LlR Lre Lks Hrot Lo Hct Hph) as (r & A & B & pos & P1 & (x & (t & X1) & X2)).
  exists r. split; [exact A|]. split; [exact B|]. pose proof (pow2_pos w ltac:(lia)) as HQ.
  set (BB := reRandBound N E Bd + Br + ksNoise w pKS (N - length s) Eks) in *. replace (Z.abs ee + reRandBound N E Bd + Br + ksNoise w pKS (N - length s) Eks) with (Z.abs ee + BB) in HX by (unfold BB; lia). clearbody BB.
  assert (in_box (Z.of_nat N) mm m pos) as Hb.
  { apply (pos_in_box Q (Z.of_nat N) mm scale m ee (pos * Q - 2 * Z.of_nat N * (scale * m + ee)) 0 (mu * (2 + zsum (length s) (nthZ s)) + 4 * Z.of_nat N * BB) 0 0); try lia.
    unfold boot_margin in HX. cbv zeta in HX. clear - HX.
    match goal with |- ?X <= _ \/ _ /\ _ => match type of HX with ?Y <= _ \/ _ /\ _ => replace X with Y by ring end end. exact HX. }
  pose proof (Hf pos m Hm ltac:(rewrite Nat.mul_1_l; exact Hb)) as (t2 & Hv). rewrite tableOf_1 in Hv. exists x. split; [exists (t + t2); lia|exact X2].
Qed.

Lemma sanit_message kk mu f lutBuf raw : 0 <= kk <= w - 2 -> 2 ^ kk * Z.of_nat N < 2 ^ 52 -> length raw = N -> length lutBuf = 1%nat -> length (nth 0 lutBuf []) = N ->
  let mm := 2 ^ kk in let scale := scaleOf w mm in let ms := ModSwitch w (Z.of_nat N) in ms_err w (Z.of_nat N) mu ms ->
  forall ct st l m ee, lwe_ct w N ct -> 0 <= m < mm -> eqm Q (phase large ct) (scale * m + ee) ->
  boot_margin Q (Z.of_nat N) mm scale m (Z.abs ee + reRandBound N E Bd + Br + ksNoise w pKS (N - length s) Eks) mu (1 + zsum (length s) (nthZ s)) 0 ->
  SpecBoot.decodes w scale (sanitNoise N mm (brNoise w N 1 p bc (length s) Ek) Bl 0 BL) ->
  exists r, SanitizeFuncTo w logN N 1 D R L1 L0 RL mm scale ms p pKS brk ksk bs bc (length s) gpk pG cR lR reBuf ksBuf rotBuf ctOut ct lutBuf raw f st l = Some r /\
  lwe_ct w N r /\ DecryptLWE w mm scale large r = Some (f m mod mm).
Proof.
  intros Hk Hsz Lr Lb Ll mm scale ms Hmu ct st l m ee Hct Hm Hph HX Hd. pose proof (pow2_pos kk ltac:(lia)) as Hp. fold mm in Hp.
  destruct (GenLUT_steps w N kk f lutBuf raw Hw HN Hk Hsz Lr Lb Ll) as (lut & raw' & A & B & C & S0). fold mm scale in A, B, C, S0.
  unfold SanitizeFuncTo. rewrite A. destruct (sanit_phase mm scale mu ms lut _ 0 Hp Hmu B C S0 ct st l m ee Hct Hm Hph HX) as (r & R1 & R2 & R3). exists r. split; [exact R1|]. split; [exact R2|].
  refine (decode_dist w kk large r (f m) _ Hw Hk _ R3 Hd). destruct R2 as (Lx & _). rewrite Lx. f_equal. destruct HK as [_ _ _ (Lk & (Lf & _) & _) _ _ _ _ _]. rewrite Lk in Lf. lia.
Qed.
End Msg.
