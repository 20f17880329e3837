(** Lemmas: bootstrapping on binary64 transforms, every size of the look-up table. *)
From Coq Require Import Floats.SpecFloat.
From Verif Require Import Base NegaRing ModelNum ModelVec ModelPoly ModelAsm ModelF64 ModelFFT ModelF64Arith ModelSplitFFT ModelFused ModelFusedMul ModelGadget ModelEncoder ModelLWE ModelGLWE ModelBoot ModelProdFFT ModelBlindFFT ModelBootFFT ModelExtFFT ModelBootExtFFT
  SpecNum SpecVec SpecPoly SpecFFT SpecRound SpecGadget SpecLWE SpecGLWE SpecBoot SpecProdFFT SpecBlindFFT SpecExtFFT PfNum PfVec PfPoly PfGadget PfLWE PfLWE2 PfKS ModelParams PfParams PfEncoder PfGLWE PfGLWE2 PfGLWE3 PfGLWE4 PfBoot PfBoot2 PfBoot3 PfBoot4 PfSplitF64 PfBlindFFT5 PfExtFFT5 PfBootFFT.
From Coq Require Import Reals Lra Lia.
Open Scope Z_scope.

Lemma rank_posE N logN : Z.of_nat N = 2 ^ logN -> 4 <= logN <= 15 -> (0 < N)%nat.
Proof. intros H1 H2. pose proof (Z.pow_pos_nonneg 2 logN ltac:(lia) ltac:(lia)). lia. Qed.
Lemma ms_rangeE w N E ms mu ct : 0 < w -> (0 < N)%nat -> (0 < E)%nat -> ms_err w (Z.of_nat (E * N)) mu ms -> Forall (uword w) ct -> forall j, 0 <= ms (nthZ ct j) <= 2 * Z.of_nat (E * N).
Proof.
  intros Hw HN HE Hmu Hc j. assert (0 < Z.of_nat (E * N)) by nia. pose proof (pow2_pos w ltac:(lia)). destruct (Hmu (nthZ ct j)) as (R & -> & _).
  - unfold nthZ. destruct (Nat.lt_ge_cases j (length ct)) as [L|L]; [now apply (Forall_nth_lt _ ct 0 j Hc)|]. rewrite nth_overflow by exact L. unfold uword. lia.
  - pose proof (Z.mod_pos_bound R (2 * Z.of_nat (E * N)) ltac:(lia)). lia.
Qed.

(** Extraction and key switching after any blind rotation with the property of C33 at position 0. *)
Section AnyE.
Variables (w : Z) (N k E : nat) (p pKS : gadget) (sk : list (list Z)) (s large : list Z) (brk : list (list (list (list (list Z))))) (ksk : list (list (list Z))) (bs bc : nat) (Ek Eks : Z).
Hypothesis Hw : 0 < w.
Hypothesis HN : (0 < N)%nat.
Hypothesis HK : boot_keys w N k E p pKS sk s large brk ksk bs bc Ek Eks.
Variables (lut : list (list Z)) (f : Z -> Z) (mm scale mu : Z) (ms : Z -> Z).
Hypothesis Hmm : 0 < mm.
Hypothesis Hf : lut_holds N E (2 ^ w) mm lut f.
Hypothesis Hmu : ms_err w (Z.of_nat (E * N)) mu ms.
Variable BR : list Z -> list (list Z).
Variable B : Z.
Hypothesis HBR : forall ct, lwe_ct w (length s) ct -> glwe_ct w N k (BR ct) /\ exists d, Z.abs d <= extSlack E /\ dist_le (2 ^ w) (cf (gphase N k sk (BR ct)) 0) (cf (tableOf N E lut) (rotSum ms s ct + d)) B.
Notation Q := (2 ^ w).
Notation LZ := (Z.of_nat (E * N)).

Lemma any_valueE m ee ct : lwe_ct w (length s) ct -> 0 <= m < mm -> eqm Q (phase s ct) (scale * m + ee) ->
  boot_margin Q LZ mm scale m (Z.abs ee) mu (zsum (length s) (nthZ s)) (extSlack E) -> glwe_ct w N k (BR ct) /\ dist_le Q (cf (gphase N k sk (BR ct)) 0) (f m) B.
Proof.
  intros Hct Hm Hph HX. destruct (HBR ct Hct) as (A & d & D1 & C). split; [exact A|]. destruct HK as [_ (HE & _) _ _ _ (_ & _ & _ & Hblk) _ _ _]. assert (LP : 0 < LZ) by nia.
  destruct (rotSum_err w LZ mu ms s ct Hw LP Hmu (proj1 Hblk) Hct) as (t & err & Et & Be). destruct Hph as (q & Hq).
  assert (Hb : in_box LZ mm m (rotSum ms s ct + d + 2 * LZ * - (t + q))).
  { apply (pos_in_box Q LZ mm scale m ee err d mu (zsum (length s) (nthZ s)) (extSlack E)); [apply pow2_pos; lia|exact LP|exact Hm|exact Be|exact D1| |exact HX].
    replace ((rotSum ms s ct + d + 2 * LZ * - (t + q)) * Q) with (rotSum ms s ct * Q + d * Q - 2 * LZ * (t + q) * Q) by ring. rewrite Et. replace (phase s ct) with (scale * m + ee + q * Q) by lia. ring. }
  pose proof (Hf (rotSum ms s ct + d + 2 * LZ * - (t + q)) m Hm Hb) as Hv. rewrite (cf_eqm2N (tableOf N E lut) _ (rotSum ms s ct + d)) in Hv by (exists (- (t + q)); lia).
  destruct C as (x & X1 & X2). exists x. split; [|exact X2]. destruct X1 as (t1 & X1). destruct Hv as (t2 & X3). exists (t1 + t2). lia.
Qed.
Lemma any_bootE ksBuf extBuf m ee ct out : length ksBuf = S (length s) -> length extBuf = S (k * N) -> 0 <= m < mm ->
  (length out = S (length s) -> lwe_ct w (length s) ct -> eqm Q (phase s ct) (scale * m + ee) ->
   boot_margin Q LZ mm scale m (Z.abs ee) mu (zsum (length s) (nthZ s)) (extSlack E) ->
   let r := DefaultKeySwitchTo w (length s) (k * N) pKS out (AsLWECiphertextTo w N 0 extBuf (BR ct)) ksk in
   lwe_ct w (length s) r /\ dist_le Q (phase s r) (f m) (B + ksNoise w pKS (length large - length s) Eks)) /\
  (length out = S (length large) -> lwe_ct w (length large) ct -> eqm Q (phase large ct) (scale * m + ee) ->
   boot_margin Q LZ mm scale m (Z.abs ee + ksNoise w pKS (length large - length s) Eks) mu (zsum (length s) (nthZ s)) (extSlack E) ->
   let r := AsLWECiphertextTo w N 0 out (BR (DefaultKeySwitchTo w (length s) (k * N) pKS ksBuf ct ksk)) in
   lwe_ct w (length large) r /\ dist_le Q (phase large r) (f m) B).
Proof.
  intros Lk Lx Hm. pose proof HK as [(n0 & Hn0 & HNn) (HE & HE2) (Hok & HokK) (Lsk & Hfl & Hbin) (Hpre & Hle) _ (HEk & HEks) _ (eks & Hk1 & Hk2)].
  assert (Dl : length large = (k * N)%nat) by (destruct Hfl as (X & _); now rewrite Lsk in X).
  split; intros Lo Hct Hph HX; cbv zeta; rewrite <- Dl in *.
  - destruct (any_valueE m ee ct Hct Hm Hph HX) as (A & C). set (r := BR ct) in *. clearbody r. rewrite Dl in Lx.
    destruct (extract_spec w Hw N HN k sk large 0 extBuf r Lsk Hfl A HN Lx) as (X1 & X2). change (Z.of_nat 0) with 0 in X2. set (x := AsLWECiphertextTo w N 0 extBuf r) in *. clearbody x. rewrite <- Dl in X1.
    pose proof (DefaultKeySwitch_dcmp w Hw s pKS HokK large out x ksk eks Hpre Hle Lo X1 Hk1) as (Y1 & _).
    pose proof (DefaultKeySwitch_bound w Hw s pKS HokK large out x ksk eks Eks Hpre Hle Lo X1 Hk1 Hbin Hk2) as Y2. split; [exact Y1|].
    destruct C as (b & (t1 & B1) & B2). destruct Y2 as (c & (t2 & C1) & C2). destruct X2 as (t3 & X2). exists (b + c). split; [exists (t1 + t2 + t3); lia|]. unfold ksNoise. lia.
  - pose proof (DefaultKeySwitch_dcmp w Hw s pKS HokK large ksBuf ct ksk eks Hpre Hle Lk Hct Hk1) as (Y1 & _).
    pose proof (DefaultKeySwitch_bound w Hw s pKS HokK large ksBuf ct ksk eks Eks Hpre Hle Lk Hct Hk1 Hbin Hk2) as Y2.
    set (c := DefaultKeySwitchTo w (length s) (length large) pKS ksBuf ct ksk) in *. clearbody c.
    destruct Y2 as (x & (t & X1) & X2). change (Z.abs x <= ksNoise w pKS (length large - length s) Eks) in X2.
    destruct (any_valueE m (ee + x) c Y1 Hm) as (A & C).
    + destruct Hph as (t' & Hp). exists (t + t'). lia.
    + assert (4 * LZ * mm * Z.abs (ee + x) <= 4 * LZ * mm * (Z.abs ee + ksNoise w pKS (length large - length s) Eks)) as Hm1 by (apply Z.mul_le_mono_nonneg_l; [apply Z.mul_nonneg_nonneg; lia|]; pose proof (Z.abs_triangle ee x); lia).
      unfold boot_margin in *. cbv zeta in *. destruct HX as [HX|(Hd & HX)]; [left|right; split; [exact Hd|]]; lia.
    + set (r := BR c) in *. clearbody r. rewrite Dl in Lo. destruct (extract_spec w Hw N HN k sk large 0 out r Lsk Hfl A HN Lo) as (Z1 & Z2). change (Z.of_nat 0) with 0 in Z2. rewrite Dl. split; [exact Z1|].
      destruct C as (b & (t1 & B1) & B2). destruct Z2 as (t3 & Z2). exists b. split; [exists (t1 + t3); lia|exact B2].
Qed.
End AnyE.

(** Decryption of the output; K, mono, left and the transformed key only appear through the blind rotation. *)
Section FloatE.
Variable cexp : Z -> Z -> spec_float * spec_float.
Hypothesis HC : cexp_near_full (f64Arith cexp) finF val 17 (5 * powerRZ 2 (-52)).
Hypothesis HV : cexp_valid cexp.
Variables (N : nat) (logN : Z).
Hypothesis HN2 : Z.of_nat N = 2 ^ logN.
Hypothesis Hlog : 4 <= logN <= 15.
Variable e : evaluator (f64Arith cexp).
Hypothesis He : NewEvaluator (f64Arith cexp) N = Ok e.
Variable K : kern spec_float.
Hypothesis HKern : K = goKern (f64Arith cexp) e \/ K = avxKern cexp e.
Variable left : list spec_float -> list spec_float.
Hypothesis Hleft : forall v, valid64 N v -> valid64 N (left v).
Variables (w : Z) (k E : nat) (p pKS : gadget) (sk : list (list Z)) (s large : list Z) (bk : list (list (list (list (list Z))))) (ksk : list (list (list Z))) (bs bc : nat) (Ek Eks : Z).
Hypothesis Hw : 0 < w <= 64.
Hypothesis HB : boot_keys w N k E p pKS sk s large (map (map (map (map (fwdFFT w)))) bk) ksk bs bc Ek Eks.
Hypothesis Hbk : forall j r l i, (j < length s)%nat -> (r <= k)%nat -> (l < g_level p)%nat -> (i <= k)%nat -> wpoly w N (nth i (nth l (nth r (nth j bk []) []) []) []).
Variable D : Z.
Notation nt := (if Nat.ltb 1 E then 2 * bs else bs)%nat.
Hypothesis Hterms : Z.of_nat (S k * g_level p + nt) <= 1000000.
Hypothesis HD : rotErr_le w (g_logBase p) logN N (S k * g_level p) nt D.
Notation mono := (MonomialSubOneFwdFFTTo (f64Arith cexp) e).
Notation monoM := (MonomialFwdFFTTo (f64Arith cexp) e).
Notation fsub := (subCmplxTo (f64Arith cexp)).
Notation B := (brNoise w N k p bc (length s) Ek + Z.of_nat bc * (D * (1 + Z.of_nat k * Z.of_nat N))).

Lemma BlindRotate_fftE ms b xb acc0 ctOut ct lut : (forall j, 0 <= ms (nthZ ct j) <= 2 * Z.of_nat (E * N)) -> gshape N k ctOut -> (length acc0 = E /\ forall i, (i < E)%nat -> length (nth i acc0 []) = N) ->
  lut_ok w N E lut -> rot_bufs N k (g_level p) b -> ext_bufs N k E (g_level p) xb ->
  let r := BlindRotateExtK K w N k E mono monoM fsub left ms p (map (toFFTGGSW K w) bk) bs bc (length s) b xb acc0 ctOut ct lut in
  glwe_ct w N k r /\ exists d, Z.abs d <= extSlack E /\ dist_le (2 ^ w) (cf (gphase N k sk r) 0) (cf (tableOf N E lut) (rotSum ms s ct + d)) B.
Proof.
  intros Hms H1 Ha H2 H3 H4. pose proof (rank_posE N logN HN2 Hlog) as HN. pose proof HB as [Hn0 (HE & HE2) (Hok & _) (Lsk & Hfl & Hbin) _ (Hbs & Hbc & Ls & Hblk) (HEk & _) Hbrk _].
  assert (Hset : br_setting w N k sk p s (map (map (map (map (fwdFFT w)))) bk) Ek bs bc).
  { split; [lia|]. split; [exact HN|]. split; [exact Hn0|]. split; [exact (flat_bound N k sk large HN Lsk Hfl Hbin)|]. split; [exact Hok|]. split; [exact Hbrk|]. split; [exact HEk|]. auto. }
  cbv zeta. unfold BlindRotateExtK. destruct (Nat.ltb_spec N (E * N)) as [C|C].
  - assert (C1 : (1 < E)%nat) by nia. pose proof Hterms as HT. pose proof HD as HD'. rewrite (proj2 (Nat.ltb_lt 1 E) C1) in HT, HD'.
    destruct (extended_main cexp HC HV N logN HN2 Hlog e He K HKern left Hleft w k E sk p s bk Ek bs bc HE ltac:(lia) Hset ltac:(lia) Hbk D HT HD' ms xb acc0 ct lut Hms Ha H2 H4) as (A & A2 & _). cbv zeta in A, A2.
    split; [exact A|]. destruct (A2 0) as (d & D1 & _ & D2). exists d. split; [exact D1|]. replace (Z.of_nat E * 0 + rotSum ms s ct + d) with (rotSum ms s ct + d) in D2 by lia. exact D2.
  - assert (E1 : E = 1%nat) by nia. pose proof Hterms as HT. pose proof HD as HD'. pose proof HB as HB'. rewrite E1 in HT, HD', HB', H2. change (Nat.ltb 1 1) with false in HT, HD'. cbv iota in HT, HD'.
    destruct H2 as (L1 & L2). destruct lut as [|lut0 [|? ?]]; try discriminate L1.
    destruct (BlindRotate_fft cexp HC HV N logN HN2 Hlog e He K HKern left Hleft w k p pKS sk s large bk ksk bs bc Ek Eks Hw HB' Hbk D HT HD' ms b ctOut ct lut0 H1 (L2 O ltac:(lia)) H3) as (A & A2). cbv zeta in A, A2.
    split; [exact A|]. exists 0. split; [rewrite E1; unfold extSlack; lia|]. rewrite E1, Z.add_0_r.
    assert (HT0 : forall x, cf (tableOf N 1 [lut0]) x = cf (pol N lut0) x).
    { intros x. unfold tableOf. rewrite weave_cf_eq by lia. change (Z.of_nat 1) with 1. rewrite Z.mod_1_r, Z.div_1_r. reflexivity. }
    rewrite HT0. destruct (pdist_cf _ _ _ _ 0 A2) as (x & X1 & X2). cbn [cf pshift] in X1. replace (0 - - rotSum ms s ct) with (rotSum ms s ct) in X1 by lia. exists x. split; [|exact X2]. destruct X1 as (t1 & X1). exists t1. lia.
Qed.

Lemma boot_phase_fftE b xb acc0 rotBuf ksBuf extBuf lut f mm scale mu ms : gshape N k rotBuf -> (length acc0 = E /\ forall i, (i < E)%nat -> length (nth i acc0 []) = N) -> ext_bufs N k E (g_level p) xb -> rot_bufs N k (g_level p) b -> length ksBuf = S (length s) -> length extBuf = S (k * N) ->
  lut_ok w N E lut -> 0 < mm -> lut_holds N E (2 ^ w) mm lut f -> ms_err w (Z.of_nat (E * N)) mu ms -> forall m ee ct out, 0 <= m < mm ->
  let boot ksFirst := BootstrapLUTExtK K w N k E mono monoM fsub left ksFirst ms p pKS (map (toFFTGGSW K w) bk) ksk bs bc (length s) b xb acc0 rotBuf ksBuf extBuf out ct lut in
  (length out = S (length s) -> lwe_ct w (length s) ct -> eqm (2 ^ w) (phase s ct) (scale * m + ee) ->
   boot_margin (2 ^ w) (Z.of_nat (E * N)) mm scale m (Z.abs ee) mu (zsum (length s) (nthZ s)) (extSlack E) ->
   lwe_ct w (length s) (boot false) /\ dist_le (2 ^ w) (phase s (boot false)) (f m) (B + ksNoise w pKS (length large - length s) Eks)) /\
  (length out = S (length large) -> lwe_ct w (length large) ct -> eqm (2 ^ w) (phase large ct) (scale * m + ee) ->
   boot_margin (2 ^ w) (Z.of_nat (E * N)) mm scale m (Z.abs ee + ksNoise w pKS (length large - length s) Eks) mu (zsum (length s) (nthZ s)) (extSlack E) ->
   lwe_ct w (length large) (boot true) /\ dist_le (2 ^ w) (phase large (boot true)) (f m) B).
Proof.
  intros Hr Ha Hx Hb Lk Lx Hl0 Hp Dl Hmu m ee ct out Hm. pose proof (rank_posE N logN HN2 Hlog) as HN. pose proof HB as [_ (HE & _) _ _ _ _ _ _ _].
  exact (any_bootE w N k E p pKS sk s large _ ksk bs bc Ek Eks (proj1 Hw) HN HB lut f mm scale mu ms Hp Dl Hmu
    (fun c => BlindRotateExtK K w N k E mono monoM fsub left ms p (map (toFFTGGSW K w) bk) bs bc (length s) b xb acc0 rotBuf c lut) B
    (fun c Hc => BlindRotate_fftE ms b xb acc0 rotBuf c lut (ms_rangeE w N E ms mu c (proj1 Hw) HN HE Hmu (proj2 Hc)) Hr Ha Hl0 Hb Hx) ksBuf extBuf m ee ct out Lk Lx Hm).
Qed.
Lemma boot_message_fftE b xb acc0 rotBuf ksBuf extBuf lutOut raw kk mu f : gshape N k rotBuf -> (length acc0 = E /\ forall i, (i < E)%nat -> length (nth i acc0 []) = N) -> ext_bufs N k E (g_level p) xb -> rot_bufs N k (g_level p) b -> length ksBuf = S (length s) -> length extBuf = S (k * N) ->
  length raw = (E * N)%nat -> length lutOut = E -> (forall i, (i < E)%nat -> length (nth i lutOut []) = N) -> 0 <= kk <= w - 2 -> 2 ^ kk * Z.of_nat (E * N) < 2 ^ 52 -> let mm := 2 ^ kk in let scale := scaleOf w mm in let ms := ModSwitch w (Z.of_nat (E * N)) in
  ms_err w (Z.of_nat (E * N)) mu ms ->
  exists lut raw', GenLUTCustomTo w N E lutOut raw f mm scale = Some (lut, raw') /\ forall m ee ct out, 0 <= m < mm ->
  let boot ksFirst := BootstrapLUTExtK K w N k E mono monoM fsub left ksFirst ms p pKS (map (toFFTGGSW K w) bk) ksk bs bc (length s) b xb acc0 rotBuf ksBuf extBuf out ct lut in
  (length out = S (length s) -> lwe_ct w (length s) ct -> eqm (2 ^ w) (phase s ct) (scale * m + ee) ->
   boot_margin (2 ^ w) (Z.of_nat (E * N)) mm scale m (Z.abs ee) mu (zsum (length s) (nthZ s)) (extSlack E) -> 
   SpecBoot.decodes w scale (B + ksNoise w pKS (length large - length s) Eks) -> DecryptLWE w mm scale s (boot false) = Some (f m mod mm)) /\
  (length out = S (length large) -> lwe_ct w (length large) ct -> eqm (2 ^ w) (phase large ct) (scale * m + ee) ->
   boot_margin (2 ^ w) (Z.of_nat (E * N)) mm scale m (Z.abs ee + ksNoise w pKS (length large - length s) Eks) mu (zsum (length s) (nthZ s)) (extSlack E) ->
   SpecBoot.decodes w scale B -> DecryptLWE w mm scale large (boot true) = Some (f m mod mm)).
Proof.
  intros Hr Ha Hx Hb Lk Lx Lr Lo Ll Hk Hsz mm scale ms Hmu. assert (Hw0 : 0 < w) by lia. pose proof (rank_posE N logN HN2 Hlog) as HN. pose proof HB as [_ (HE & _) _ _ _ _ _ _ _].
  pose proof (pow2_pos kk ltac:(lia)) as Hp. destruct (encode_val w kk 0 Hw0 Hk) as (_ & EQ). fold mm scale in EQ, Hp, Hsz.
  assert (2 <= scale) as Hs. { unfold scale, mm. rewrite scale_pow2 by lia. change 2 with (2 ^ 1) at 1. apply Z.pow_le_mono_r; lia. }
  assert (1 <= Z.of_nat (E * N)) by nia.
  destruct (GenLUT_holds w N E mm (fun x => EncodeLWECustom w (f x) mm scale) lutOut raw Hw0 HN HE ltac:(nia) ltac:(nia) Hsz Lr Lo Ll) as (lut & raw' & A & A2 & C & Dl).
  assert (Hlut : lut_ok w N E lut). { apply C. intros x Hx0. unfold EncodeLWECustom. apply wrap_range. lia. }
  exists lut, raw'. split; [exact A|]. intros m ee ct out Hm. cbv zeta.
  destruct (boot_phase_fftE b xb acc0 rotBuf ksBuf extBuf lut _ mm scale mu ms Hr Ha Hx Hb Lk Lx Hlut Hp Dl Hmu m ee ct out Hm) as (P1 & P2).
  split; intros M1 M2 M3 M4 M5.
  - destruct (P1 M1 M2 M3 M4) as (X & Y). apply (decode_dist w kk s _ (f m) _ Hw0 Hk (proj1 X) Y M5).
  - destruct (P2 M1 M2 M3 M4) as (X & Y). apply (decode_dist w kk large _ (f m) _ Hw0 Hk (proj1 X) Y M5).
Qed.
End FloatE.
