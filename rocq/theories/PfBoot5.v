(** Bootstrapping as a table look-up at an approximate position (any table). *)
From Verif Require Import Base NegaRing SpecNum ModelNum PfNum ModelVec SpecVec PfVec ModelPoly SpecPoly PfPoly ModelGadget SpecGadget PfGadget ModelEncoder ModelLWE SpecLWE PfLWE PfLWE2 PfKS PfKS2 ModelParams PfParams PfEncoder ModelGLWE SpecGLWE PfGLWE PfGLWE2 PfGLWE3 PfGLWE4 ModelBoot SpecBoot PfBoot PfBoot2 PfBoot3 PfBoot4.

Lemma boot_position w N k E p pKS sk s large brk ksk bs bc Ek Eks : 0 < w -> (0 < N)%nat ->
  boot_keys w N k E p pKS sk s large brk ksk bs bc Ek Eks ->
  forall acc0 rotBuf ksBuf extBuf lut mu ms, boot_bufs N k E (length s) acc0 rotBuf ksBuf extBuf -> lut_ok w N E lut ->
  ms_err w (Z.of_nat (E * N)) mu ms -> forall phi ct out,
  let L := Z.of_nat (E * N) in let M := mu * (1 + zsum (length s) (nthZ s)) + 2 * extSlack E * 2 ^ w in
  (length out = S (length s) -> lwe_ct w (length s) ct -> eqm (2 ^ w) (phase s ct) phi ->
   let r := BootstrapLUTTo w N k E false ms p pKS brk ksk bs bc (length s) acc0 rotBuf ksBuf extBuf out ct lut in
   lwe_ct w (length s) r /\ exists pos, 2 * Z.abs (pos * 2 ^ w - 2 * L * phi) <= M /\
   dist_le (2 ^ w) (phase s r) (cf (tableOf N E lut) pos) (brNoise w N k p bc (length s) Ek + ksNoise w pKS (length large - length s) Eks)) /\
  (length out = S (length large) -> lwe_ct w (length large) ct -> eqm (2 ^ w) (phase large ct) phi ->
   let r := BootstrapLUTTo w N k E true ms p pKS brk ksk bs bc (length s) acc0 rotBuf ksBuf extBuf out ct lut in
   lwe_ct w (length large) r /\ exists pos, 2 * Z.abs (pos * 2 ^ w - 2 * L * phi) <= M + 4 * L * ksNoise w pKS (length large - length s) Eks /\
   dist_le (2 ^ w) (phase large r) (cf (tableOf N E lut) pos) (brNoise w N k p bc (length s) Ek)).
Proof.
  intros Hw HN [(n0 & Hn0 & HNn) (HE & HE2) (Hok & HokK) (Lk & Hfl & Hbin) (Hpre & Hle) (Hbs & Hbc & Hlen & Hblk) (HEk & HEks) (e & He1 & He2) (eks & Hk1 & Hk2)].
  intros acc0 rotBuf ksBuf extBuf lut mu ms (Hacc & Hrot & Lks & Lex) Hlut Hmu phi ct out L M.
  pose proof (flat_bound N k sk large HN Lk Hfl Hbin) as Hskb. assert (0 < L) as HL by (unfold L; nia). pose proof (pow2_pos w ltac:(lia)) as HQ.
  assert (length large = (k * N)%nat) as LD by (destruct Hfl as (X & _); now rewrite Lk in X).
  (* blind rotation of any ciphertext under s *)
  assert (forall c phi, lwe_ct w (length s) c -> eqm (2 ^ w) (phase s c) phi ->
    let r := BlindRotateTo w N k E ms p brk bs bc (length s) acc0 rotBuf c lut in
    glwe_ct w N k r /\ exists pos, 2 * Z.abs (pos * 2 ^ w - 2 * L * phi) <= M /\
      dist_le (2 ^ w) (cf (gphase N k sk r) 0) (cf (tableOf N E lut) pos) (brNoise w N k p bc (length s) Ek)) as HBR.
  { intros c ph (Lc & Hc) (q & Hq) r.
    assert (forall j, 0 <= ms (nthZ c j) <= 2 * L) as Hr.
    { intros j. destruct (Hmu (nthZ c j)) as (R & -> & _).
      - unfold nthZ. destruct (Nat.lt_ge_cases j (length c)) as [Lj|Lj]; [now apply (Forall_nth_lt _ c 0 j Hc)|]. rewrite nth_overflow by exact Lj. unfold uword. lia.
      - pose proof (Z.mod_pos_bound R (2 * Z.of_nat (E * N)) ltac:(unfold L in HL; lia)). unfold L. lia. }
    destruct (BlindRotate_at w Hw N HN k sk p Hok n0 Hn0 HNn E HE Hskb ms s brk e Ek He1 HEk He2 bs bc Hbs Hbc HE2 Hlen Hblk acc0 rotBuf lut Hrot Hacc Hlut c Hr) as (A & d & D1 & _ & D3).
    fold r in A, D3. split; [exact A|].
    destruct (rotSum_err w L mu ms s c Hw HL Hmu (proj1 Hblk) (conj Lc Hc)) as (t & err & Et & Be).
    exists (rotSum ms s c + d - 2 * L * (t + q)). split.
    - replace ((rotSum ms s c + d - 2 * L * (t + q)) * 2 ^ w - 2 * L * ph) with (err + d * 2 ^ w).
      + pose proof (Z.abs_triangle err (d * 2 ^ w)). rewrite Z.abs_mul, (Z.abs_eq (2 ^ w)) in H by lia. unfold M. nia.
      + replace ((rotSum ms s c + d - 2 * L * (t + q)) * 2 ^ w - 2 * L * ph) with (rotSum ms s c * 2 ^ w + d * 2 ^ w - 2 * L * (t + q) * 2 ^ w - 2 * L * ph) by ring.
        rewrite Et. replace (phase s c) with (ph + q * 2 ^ w) by lia. ring.
    - rewrite (cf_eqm2N (tableOf N E lut) _ (rotSum ms s c + d)); [exact D3|]. exists (- (t + q)). unfold L. lia. }
  split; intros Lo Hct Hph; unfold BootstrapLUTTo; cbv zeta.
  - destruct (HBR ct phi Hct Hph) as (A & pos & P1 & B). set (r := BlindRotateTo w N k E ms p brk bs bc (length s) acc0 rotBuf ct lut) in *. clearbody r.
    destruct (extract_spec w Hw N HN k sk large 0 extBuf r Lk Hfl A HN Lex) as (X1 & X2). change (Z.of_nat 0) with 0 in X2.
    set (x := AsLWECiphertextTo w N 0 extBuf r) in *. clearbody x. rewrite <- LD in X1.
    pose proof (DefaultKeySwitch_dcmp w Hw s pKS HokK large out x ksk eks Hpre Hle Lo X1 Hk1) as (Y1 & _).
    pose proof (DefaultKeySwitch_bound w Hw s pKS HokK large out x ksk eks Eks Hpre Hle Lo X1 Hk1 Hbin Hk2) as Y2. rewrite <- LD. split; [exact Y1|].
    exists pos. split; [exact P1|].
    destruct B as (b & (t1 & B1) & B2). destruct Y2 as (c & (t2 & C1) & C2). destruct X2 as (t3 & X2). exists (b + c). split; [exists (t1 + t2 + t3); lia|]. unfold ksNoise. lia.
  - rewrite <- LD. pose proof (DefaultKeySwitch_dcmp w Hw s pKS HokK large ksBuf ct ksk eks Hpre Hle Lks Hct Hk1) as (Y1 & _).
    pose proof (DefaultKeySwitch_bound w Hw s pKS HokK large ksBuf ct ksk eks Eks Hpre Hle Lks Hct Hk1 Hbin Hk2) as Y2.
    set (c := DefaultKeySwitchTo w (length s) (length large) pKS ksBuf ct ksk) in *. clearbody c.
    destruct Y2 as (x & (t & X1) & X2). destruct Hph as (t' & Hph).
    destruct (HBR c (phi + x) Y1) as (A & pos & P1 & B); [exists (t + t'); lia|].
    set (r := BlindRotateTo w N k E ms p brk bs bc (length s) acc0 rotBuf c lut) in *. clearbody r.
    destruct (extract_spec w Hw N HN k sk large 0 out r Lk Hfl A HN ltac:(now rewrite <- LD)) as (Z1 & Z2). change (Z.of_nat 0) with 0 in Z2. rewrite LD. split; [exact Z1|].
    exists pos. split.
    + replace (pos * 2 ^ w - 2 * L * phi) with ((pos * 2 ^ w - 2 * L * (phi + x)) + 2 * L * x) by ring.
      pose proof (Z.abs_triangle (pos * 2 ^ w - 2 * L * (phi + x)) (2 * L * x)) as Ht. rewrite (Z.abs_mul (2 * L) x), (Z.abs_eq (2 * L)) in Ht by lia.
      change (Z.abs x <= ksNoise w pKS (length large - length s) Eks) in X2. rewrite <- LD. nia.
    + destruct B as (b & (t1 & B1) & B2). destruct Z2 as (t3 & Z2). exists b. split; [exists (t1 + t3); lia|exact B2].
Qed.
