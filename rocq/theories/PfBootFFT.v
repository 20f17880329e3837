(** Lemmas: bootstrapping on binary64 transforms. *)
From Coq Require Import Floats.SpecFloat.
From Verif Require Import Base NegaRing ModelNum ModelVec ModelPoly ModelAsm ModelF64 ModelFFT ModelF64Arith ModelSplitFFT ModelFused ModelFusedMul ModelGadget ModelEncoder ModelLWE ModelGLWE ModelBoot ModelProdFFT ModelBlindFFT ModelBootFFT
  SpecNum SpecVec SpecPoly SpecFFT SpecRound SpecGadget SpecLWE SpecGLWE SpecBoot SpecProdFFT SpecBlindFFT PfNum PfVec PfPoly PfGadget PfLWE PfLWE2 PfKS ModelParams PfParams PfEncoder PfGLWE PfGLWE2 PfGLWE3 PfGLWE4 PfBoot PfBoot2 PfBoot3 PfBoot4 PfSplitF64 PfBlindFFT5.
From Coq Require Import Reals Lra Lia.
Open Scope Z_scope.

(** Extraction and key switching after any blind rotation with the property of C32. *)
Section Any.
Variables (w : Z) (N k : nat) (p pKS : gadget) (sk : list (list Z)) (s large : list Z) (brk : list (list (list (list (list Z))))) (ksk : list (list (list Z))) (bs bc : nat) (Ek Eks : Z).
Hypothesis Hw : 0 < w.
Hypothesis HN : (0 < N)%nat.
Hypothesis HK : boot_keys w N k 1 p pKS sk s large brk ksk bs bc Ek Eks.
Variables (lut0 : list Z) (f : Z -> Z) (mm scale mu : Z) (ms : Z -> Z).
Hypothesis Hmm : 0 < mm.
Hypothesis Hf : lut_holds N 1 (2 ^ w) mm [lut0] f.
Hypothesis Hmu : ms_err w (Z.of_nat N) mu ms.
Variable BR : list Z -> list (list Z).
Variable B : Z.
Hypothesis HBR : forall ct, lwe_ct w (length s) ct -> glwe_ct w N k (BR ct) /\ pdist_le (2 ^ w) (gphase N k sk (BR ct)) (pshift (- rotSum ms s ct) (pol N lut0)) B.
Notation Q := (2 ^ w).
Notation LZ := (Z.of_nat N).

Lemma any_value m ee ct : lwe_ct w (length s) ct -> 0 <= m < mm -> eqm Q (phase s ct) (scale * m + ee) ->
  boot_margin Q LZ mm scale m (Z.abs ee) mu (zsum (length s) (nthZ s)) 0 -> glwe_ct w N k (BR ct) /\ dist_le Q (cf (gphase N k sk (BR ct)) 0) (f m) B.
Proof.
  intros Hct Hm Hph HX. destruct (HBR ct Hct) as (A & C). split; [exact A|]. destruct HK as [_ _ _ _ _ (_ & _ & _ & Hblk) _ _ _].
  destruct (rotSum_err w LZ mu ms s ct Hw ltac:(lia) Hmu (proj1 Hblk) Hct) as (t & err & Et & Be). destruct Hph as (q & Hq).
  assert (Hb : in_box LZ mm m (rotSum ms s ct + 2 * LZ * - (t + q))).
  { apply (pos_in_box Q LZ mm scale m ee err 0 mu (zsum (length s) (nthZ s)) 0); [apply pow2_pos; lia|lia|exact Hm|exact Be|reflexivity| |exact HX].
    replace ((rotSum ms s ct + 2 * LZ * - (t + q)) * Q) with (rotSum ms s ct * Q - 2 * LZ * (t + q) * Q) by ring. rewrite Et. replace (phase s ct) with (scale * m + ee + q * Q) by lia. ring. }
  assert (HT : forall x, cf (tableOf N 1 [lut0]) x = cf (pol N lut0) x).
  { intros x. unfold tableOf. rewrite weave_cf_eq by lia. change (Z.of_nat 1) with 1. rewrite Z.mod_1_r, Z.div_1_r. reflexivity. }
  assert (E1 : Z.of_nat (1 * N) = LZ) by lia.
  pose proof (Hf (rotSum ms s ct + 2 * LZ * - (t + q)) m Hm) as Hv. rewrite E1 in Hv. specialize (Hv Hb). rewrite HT in Hv. rewrite (cf_eqm2N (pol N lut0) _ (rotSum ms s ct)) in Hv by (exists (- (t + q)); lia).
  destruct (pdist_cf Q _ _ _ 0 C) as (x & X1 & X2). cbn [cf pshift] in X1. replace (0 - - rotSum ms s ct) with (rotSum ms s ct) in X1 by lia.
  exists x. split; [|exact X2]. destruct X1 as (t1 & X1). destruct Hv as (t2 & X3). exists (t1 + t2). lia.
Qed.
Lemma any_boot ksBuf extBuf m ee ct out : length ksBuf = S (length s) -> length extBuf = S (k * N) -> 0 <= m < mm ->
  (length out = S (length s) -> lwe_ct w (length s) ct -> eqm Q (phase s ct) (scale * m + ee) ->
   boot_margin Q LZ mm scale m (Z.abs ee) mu (zsum (length s) (nthZ s)) 0 ->
   let r := DefaultKeySwitchTo w (length s) (k * N) pKS out (AsLWECiphertextTo w N 0 extBuf (BR ct)) ksk in
   lwe_ct w (length s) r /\ dist_le Q (phase s r) (f m) (B + ksNoise w pKS (length large - length s) Eks)) /\
  (length out = S (length large) -> lwe_ct w (length large) ct -> eqm Q (phase large ct) (scale * m + ee) ->
   boot_margin Q LZ mm scale m (Z.abs ee + ksNoise w pKS (length large - length s) Eks) mu (zsum (length s) (nthZ s)) 0 ->
   let r := AsLWECiphertextTo w N 0 out (BR (DefaultKeySwitchTo w (length s) (k * N) pKS ksBuf ct ksk)) in
   lwe_ct w (length large) r /\ dist_le Q (phase large r) (f m) B).
Proof.
  intros Lk Lx Hm. pose proof HK as [(n0 & Hn0 & HNn) (HE & HE2) (Hok & HokK) (Lsk & Hfl & Hbin) (Hpre & Hle) _ (HEk & HEks) _ (eks & Hk1 & Hk2)].
  assert (Dl : length large = (k * N)%nat) by (destruct Hfl as (X & _); now rewrite Lsk in X).
  split; intros Lo Hct Hph HX; cbv zeta; rewrite <- Dl in *.
  - destruct (any_value m ee ct Hct Hm Hph HX) as (A & C). set (r := BR ct) in *. clearbody r. rewrite Dl in Lx.
    destruct (extract_spec w Hw N HN k sk large 0 extBuf r Lsk Hfl A HN Lx) as (X1 & X2). change (Z.of_nat 0) with 0 in X2. set (x := AsLWECiphertextTo w N 0 extBuf r) in *. clearbody x. rewrite <- Dl in X1.
    pose proof (DefaultKeySwitch_dcmp w Hw s pKS HokK large out x ksk eks Hpre Hle Lo X1 Hk1) as (Y1 & _).
    pose proof (DefaultKeySwitch_bound w Hw s pKS HokK large out x ksk eks Eks Hpre Hle Lo X1 Hk1 Hbin Hk2) as Y2. split; [exact Y1|].
    destruct C as (b & (t1 & B1) & B2). destruct Y2 as (c & (t2 & C1) & C2). destruct X2 as (t3 & X2). exists (b + c). split; [exists (t1 + t2 + t3); lia|]. unfold ksNoise. lia.
  - pose proof (DefaultKeySwitch_dcmp w Hw s pKS HokK large ksBuf ct ksk eks Hpre Hle Lk Hct Hk1) as (Y1 & _).
    pose proof (DefaultKeySwitch_bound w Hw s pKS HokK large ksBuf ct ksk eks Eks Hpre Hle Lk Hct Hk1 Hbin Hk2) as Y2.
    set (c := DefaultKeySwitchTo w (length s) (length large) pKS ksBuf ct ksk) in *. clearbody c.
    destruct Y2 as (x & (t & X1) & X2). change (Z.abs x <= ksNoise w pKS (length large - length s) Eks) in X2.
    destruct (any_value m (ee + x) c Y1 Hm) as (A & C).
    + destruct Hph as (t' & Hp). exists (t + t'). lia.
    + assert (4 * LZ * mm * Z.abs (ee + x) <= 4 * LZ * mm * (Z.abs ee + ksNoise w pKS (length large - length s) Eks)) as Hm1 by (apply Z.mul_le_mono_nonneg_l; [apply Z.mul_nonneg_nonneg; lia|]; pose proof (Z.abs_triangle ee x); lia).
      unfold boot_margin in *. cbv zeta in *. destruct HX as [HX|(Hd & HX)]; [left|right; split; [exact Hd|]]; lia.
    + set (r := BR c) in *. clearbody r. rewrite Dl in Lo. destruct (extract_spec w Hw N HN k sk large 0 out r Lsk Hfl A HN Lo) as (Z1 & Z2). change (Z.of_nat 0) with 0 in Z2. rewrite Dl. split; [exact Z1|].
      destruct C as (b & (t1 & B1) & B2). destruct Z2 as (t3 & Z2). exists b. split; [exists (t1 + t3); lia|exact B2].
Qed.
End Any.

(** Decryption of the output; K, mono, left and the transformed key only appear through the blind rotation. *)
Section Float.
Variable cexp : Z -> Z -> spec_float * spec_float.
Hypothesis HC : cexp_near_full (f64Arith cexp) finF val 17 (5 * powerRZ 2 (-52)).
Hypothesis HV : cexp_valid cexp.
Variables (N : nat) (logN : Z).
Hypothesis HN2 : Z.of_nat N = 2 ^ logN.
Hypothesis Hlog : 4 <= logN <= 15.
Variable e : evaluator (f64Arith cexp).
Hypothesis He : NewEvaluator (f64Arith cexp) N = Ok e.
Variable K : kern spec_float.
Hypothesis HKern : K = goKern (f64Arith cexp) e \/ K = avxKern cexp e.
Variable left : list spec_float -> list spec_float.
Hypothesis Hleft : forall v, valid64 N v -> valid64 N (left v).
Variables (w : Z) (k : nat) (p pKS : gadget) (sk : list (list Z)) (s large : list Z) (bk : list (list (list (list (list Z))))) (ksk : list (list (list Z))) (bs bc : nat) (Ek Eks : Z).
Hypothesis Hw : 0 < w <= 64.
Hypothesis HB : boot_keys w N k 1 p pKS sk s large (map (map (map (map (fwdFFT w)))) bk) ksk bs bc Ek Eks.
Hypothesis Hbk : forall j r l i, (j < length s)%nat -> (r <= k)%nat -> (l < g_level p)%nat -> (i <= k)%nat -> wpoly w N (nth i (nth l (nth r (nth j bk []) []) []) []).
Variable D : Z.
Hypothesis Hterms : Z.of_nat (S k * g_level p + bs) <= 1000000.
Hypothesis HD : rotErr_le w (g_logBase p) logN N (S k * g_level p) bs D.
Notation mono := (MonomialSubOneFwdFFTTo (f64Arith cexp) e).
Notation B := (brNoise w N k p bc (length s) Ek + Z.of_nat bc * (D * (1 + Z.of_nat k * Z.of_nat N))).

Lemma rank_pos : (0 < N)%nat.
Proof. pose proof (Z.pow_pos_nonneg 2 logN ltac:(lia) ltac:(lia)). lia. Qed.
Lemma BlindRotate_fft ms b ctOut ct lut0 : gshape N k ctOut -> wpoly w N lut0 -> rot_bufs N k (g_level p) b ->
  let r := BlindRotateToK K w N k mono left ms p (map (toFFTGGSW K w) bk) bs bc (length s) b ctOut ct [lut0] in
  glwe_ct w N k r /\ pdist_le (2 ^ w) (gphase N k sk r) (pshift (- rotSum ms s ct) (pol N lut0)) B.
Proof.
  intros H1 H2 H3. pose proof HB as [Hn0 _ (Hok & _) (Lsk & Hfl & Hbin) _ (Hbs & Hbc & Ls & Hblk) (HEk & _) Hbrk _].
  assert (Hset : br_setting w N k sk p s (map (map (map (map (fwdFFT w)))) bk) Ek bs bc).
  { split; [lia|]. split; [exact rank_pos|]. split; [exact Hn0|]. split; [exact (flat_bound N k sk large rank_pos Lsk Hfl Hbin)|]. split; [exact Hok|]. split; [exact Hbrk|]. split; [exact HEk|]. auto. }
  cbv zeta. unfold BlindRotateToK. cbn [nth]. destruct (Nat.ltb_spec 1 bs).
  - apply (block_main cexp HC HV N logN HN2 Hlog e He K HKern left Hleft w k sk p s bk Ek bs bc ltac:(lia) Hset Hbk D Hterms HD ms b ctOut ct lut0 H1 H2 H3).
  - assert (bs = 1%nat) as E1 by lia. assert (length s = bc) as E2 by lia. assert (HD1 := HD). assert (HT1 := Hterms). assert (Hset1 := Hset). rewrite E1 in HD1, HT1, Hset1.
    pose proof (original_main cexp HC HV N logN HN2 Hlog e He K HKern left Hleft w k sk p s bk Ek bc ltac:(lia) Hset1 Hbk D HT1 HD1 ms b ctOut ct lut0 H1 H2 H3) as M. cbv zeta in M. rewrite E2 in *. exact M.
Qed.

Lemma boot_phase_fft b rotBuf ksBuf extBuf lut0 f mm scale mu ms : gshape N k rotBuf -> rot_bufs N k (g_level p) b -> length ksBuf = S (length s) -> length extBuf = S (k * N) ->
  wpoly w N lut0 -> 0 < mm -> lut_holds N 1 (2 ^ w) mm [lut0] f -> ms_err w (Z.of_nat N) mu ms -> forall m ee ct out, 0 <= m < mm ->
  let boot ksFirst := BootstrapLUTToK K w N k mono left ksFirst ms p pKS (map (toFFTGGSW K w) bk) ksk bs bc (length s) b rotBuf ksBuf extBuf out ct [lut0] in
  (length out = S (length s) -> lwe_ct w (length s) ct -> eqm (2 ^ w) (phase s ct) (scale * m + ee) ->
   boot_margin (2 ^ w) (Z.of_nat N) mm scale m (Z.abs ee) mu (zsum (length s) (nthZ s)) 0 ->
   lwe_ct w (length s) (boot false) /\ dist_le (2 ^ w) (phase s (boot false)) (f m) (B + ksNoise w pKS (length large - length s) Eks)) /\
  (length out = S (length large) -> lwe_ct w (length large) ct -> eqm (2 ^ w) (phase large ct) (scale * m + ee) ->
   boot_margin (2 ^ w) (Z.of_nat N) mm scale m (Z.abs ee + ksNoise w pKS (length large - length s) Eks) mu (zsum (length s) (nthZ s)) 0 ->
   lwe_ct w (length large) (boot true) /\ dist_le (2 ^ w) (phase large (boot true)) (f m) B).
Proof.
  intros Hr Hb Lk Lx Hl0 Hp Dl Hmu m ee ct out Hm.
  exact (any_boot w N k p pKS sk s large _ ksk bs bc Ek Eks (proj1 Hw) rank_pos HB lut0 f mm scale mu ms Hp Dl Hmu
    (fun c => BlindRotateToK K w N k mono left ms p (map (toFFTGGSW K w) bk) bs bc (length s) b rotBuf c [lut0]) B (fun c _ => BlindRotate_fft ms b rotBuf c lut0 Hr Hl0 Hb) ksBuf extBuf m ee ct out Lk Lx Hm).
Qed.
Lemma boot_message_fft b rotBuf ksBuf extBuf lutOut raw kk mu f : gshape N k rotBuf -> rot_bufs N k (g_level p) b -> length ksBuf = S (length s) -> length extBuf = S (k * N) ->
  length raw = N -> length lutOut = N -> 0 <= kk <= w - 2 -> 2 ^ kk * Z.of_nat N < 2 ^ 52 -> let mm := 2 ^ kk in let scale := scaleOf w mm in let ms := ModSwitch w (Z.of_nat N) in
  ms_err w (Z.of_nat N) mu ms ->
  exists lut0 raw', GenLUTCustomTo w N 1 [lutOut] raw f mm scale = Some ([lut0], raw') /\ forall m ee ct out, 0 <= m < mm ->
  let boot ksFirst := BootstrapLUTToK K w N k mono left ksFirst ms p pKS (map (toFFTGGSW K w) bk) ksk bs bc (length s) b rotBuf ksBuf extBuf out ct [lut0] in
  (length out = S (length s) -> lwe_ct w (length s) ct -> eqm (2 ^ w) (phase s ct) (scale * m + ee) ->
   boot_margin (2 ^ w) (Z.of_nat N) mm scale m (Z.abs ee) mu (zsum (length s) (nthZ s)) 0 -> 
   SpecBoot.decodes w scale (B + ksNoise w pKS (length large - length s) Eks) -> DecryptLWE w mm scale s (boot false) = Some (f m mod mm)) /\
  (length out = S (length large) -> lwe_ct w (length large) ct -> eqm (2 ^ w) (phase large ct) (scale * m + ee) ->
   boot_margin (2 ^ w) (Z.of_nat N) mm scale m (Z.abs ee + ksNoise w pKS (length large - length s) Eks) mu (zsum (length s) (nthZ s)) 0 ->
   SpecBoot.decodes w scale B -> DecryptLWE w mm scale large (boot true) = Some (f m mod mm)).
Proof.
  intros Hr Hb Lk Lx Lr Lo Hk Hsz mm scale ms Hmu. assert (Hw0 : 0 < w) by lia. pose proof rank_pos as HN.
  pose proof (pow2_pos kk ltac:(lia)) as Hp. destruct (encode_val w kk 0 Hw0 Hk) as (_ & EQ). fold mm scale in EQ, Hp, Hsz.
  assert (2 <= scale) as Hs. { unfold scale, mm. rewrite scale_pow2 by lia. change 2 with (2 ^ 1) at 1. apply Z.pow_le_mono_r; lia. }
  destruct (GenLUT_holds w N 1 mm (fun x => EncodeLWECustom w (f x) mm scale) [lutOut] raw Hw0 HN ltac:(lia) ltac:(nia) ltac:(nia) ltac:(rewrite Nat.mul_1_l; exact Hsz) ltac:(lia) eq_refl) as (lut & raw' & A & A2 & C & Dl).
  { intros i Hi. assert (i = 0%nat) as -> by lia. exact Lo. }
  assert (lut_ok w N 1 lut) as (L1 & L2). { apply C. intros x Hx. unfold EncodeLWECustom. apply wrap_range. lia. }
  destruct lut as [|lut0 [|? ?]]; try discriminate L1. exists lut0, raw'. split; [exact A|]. intros m ee ct out Hm. cbv zeta.
  assert (Hl0 : wpoly w N lut0) by exact (L2 0%nat ltac:(lia)).
  destruct (boot_phase_fft b rotBuf ksBuf extBuf lut0 _ mm scale mu ms Hr Hb Lk Lx Hl0 Hp Dl Hmu m ee ct out Hm) as (P1 & P2).
  split; intros M1 M2 M3 M4 M5.
  - destruct (P1 M1 M2 M3 M4) as (X & Y). apply (decode_dist w kk s _ (f m) _ Hw0 Hk (proj1 X) Y M5).
  - destruct (P2 M1 M2 M3 M4) as (X & Y). apply (decode_dist w kk large _ (f m) _ Hw0 Hk (proj1 X) Y M5).
Qed.
End Float.
