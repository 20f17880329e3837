(** C72: extended blind rotation of tfhe/bootstrap.go as it is computed, on binary64 transforms. *)
From Coq Require Import Floats.SpecFloat.
From Verif Require Import Base NegaRing ModelNum ModelVec ModelPoly ModelAsm ModelF64 ModelFFT ModelF64Arith ModelSplitFFT ModelFused ModelFusedMul ModelGadget ModelLWE ModelGLWE ModelBoot ModelProdFFT ModelBlindFFT ModelExtFFT
  SpecNum SpecVec SpecPoly SpecFFT SpecRound SpecGadget SpecLWE SpecGLWE SpecBoot SpecProdFFT SpecBlindFFT SpecExtFFT PfPoly PfRoundEx PfSplitF64 PfSplitF64b PfProdFFT2 PfBoot4 PfBlindFFT5 PfExtFFT5 PropLWE PropBlindFFT.
From Coq Require Import Reals Lra Lia.
Import ListNotations.
Open Scope Z_scope.

(** ** C72 *)
(** blindRotateExtendedTo, portable loops or AVX2 kernels, every key and every ciphertext: each coefficient of the phase is the table entry
    at the rotated position, up to 2E-2 positions away and none if E divides the switched body (C33), with C33's noise and D (1 + k N) per block.
    A bit of the key counts for two terms: its product and the subtraction that follows. *)
Theorem C72_extended : forall cexp, cexp_near_full (f64Arith cexp) finF val 17 (5 * powerRZ 2 (-52)) -> cexp_valid cexp ->
  forall N logN, Z.of_nat N = 2 ^ logN -> 4 <= logN <= 15 -> forall e, NewEvaluator (f64Arith cexp) N = Ok e ->
  forall K, K = goKern (f64Arith cexp) e \/ K = avxKern cexp e -> forall left, (forall v, valid64 N v -> valid64 N (left v)) ->
  forall w k E sk p s bk Ek bs bc, (0 < E)%nat -> w <= 64 -> br_setting w N k sk p s (map (map (map (map (fwdFFT w)))) bk) Ek bs bc -> (2 <= bc)%nat ->
  (forall j r l i, (j < length s)%nat -> (r <= k)%nat -> (l < g_level p)%nat -> (i <= k)%nat -> wpoly w N (nth i (nth l (nth r (nth j bk []) []) []) [])) ->
  forall D, Z.of_nat (S k * g_level p + 2 * bs) <= 1000000 -> rotErr_le w (g_logBase p) logN N (S k * g_level p) (2 * bs) D ->
  forall ms b acc0 ct lut, (forall j, 0 <= ms (nthZ ct j) <= 2 * Z.of_nat (E * N)) ->
  (length acc0 = E /\ forall i, (i < E)%nat -> length (nth i acc0 []) = N) -> lut_ok w N E lut -> ext_bufs N k E (g_level p) b ->
  let r := blindRotateExtendedToK K w N k E (MonomialSubOneFwdFFTTo (f64Arith cexp) e) (MonomialFwdFFTTo (f64Arith cexp) e) (subCmplxTo (f64Arith cexp)) left ms p (map (toFFTGGSW K w) bk) bs bc (length s) b acc0 ct lut in
  let B := brNoise w N k p bc (length s) Ek + Z.of_nat bc * (D * (1 + Z.of_nat k * Z.of_nat N)) in
  glwe_ct w N k r /\
  (forall t, exists d, Z.abs d <= extSlack E /\ ((Z.of_nat E | ms (nthZ ct 0)) -> d = 0) /\
    dist_le (2 ^ w) (cf (gphase N k sk r) t) (cf (tableOf N E lut) (Z.of_nat E * t + rotSum ms s ct + d)) B) /\
  ((Z.of_nat E | ms (nthZ ct 0)) -> pdist_le (2 ^ w) (gphase N k sk r) (SpecBoot.comp (pshift (- rotSum ms s ct) (tableOf N E lut)) 0) B).
Proof. exact extended_main. Qed.
Print Assumptions C72_extended.

(** The key of C69_setting as two blocks of one bit, a table of 32 entries. *)
Example C72_setting : br_setting 32 16 1 sk16 gad16 s2 (map (map (map (map (fwdFFT 32)))) key16) 3 1 2.
Proof.
  destruct C69_setting as (A1 & A2 & A3 & A4 & A5 & A6 & A7 & _ & _ & _ & A8 & _). repeat (split; [assumption|]). split; [lia|]. split; [lia|]. split; [reflexivity|]. split; [exact A8|].
  intros i j Hi Hj Hd. rewrite !Nat.div_1_r in Hd. lia.
Qed.
Definition buf72 : extBuf spec_float := mkExtBuf [[[z16; z16]; [z16; z16]]; [[z16; z16]; [z16; z16]]] [[z16; z16]; [z16; z16]] z16 [[z16; z16]; [z16; z16]].
(** The switched ciphertext (14, 4, 21) of 64 with key (0, 1): the table is rotated by 35, exactly since 14 is even. *)
Example C72_ex : rotSum (fun x => x) s2 [14; 4; 21] = 35 /\
  exists e, NewEvaluator (f64Arith cexpT) 16 = Ok e /\ forall K, K = goKern (f64Arith cexpT) e \/ K = avxKern cexpT e -> forall lut, lut_ok 32 16 2 lut ->
  let r := blindRotateExtendedToK K 32 16 1 2 (MonomialSubOneFwdFFTTo (f64Arith cexpT) e) (MonomialFwdFFTTo (f64Arith cexpT) e) (subCmplxTo (f64Arith cexpT)) (fun v => v) (fun x => x) gad16 (map (toFFTGGSW K 32) key16) 1 2 2 buf72
    [repeat 0 16; repeat 0 16] [14; 4; 21] lut in
  pdist_le (2 ^ 32) (gphase 16 1 sk16 r) (SpecBoot.comp (pshift (- (35)) (tableOf 16 2 lut)) 0) (570431488 + 68).
Proof.
  split; [reflexivity|]. destruct (NewEvaluator64 cexpT 16 4 eq_refl ltac:(lia)) as (e & He & _). exists e. split; [exact He|]. intros K HK lut Hl. cbv zeta.
  assert (V : valid64 16 z16) by (split; [reflexivity|repeat constructor]).
  pose proof (extended_main cexpT (cexpT_full 17) cexpT_valid 16 4 eq_refl ltac:(lia) e He K HK (fun v => v) (fun v H => H) 32 1 2 sk16 gad16 s2 key16 3 1 2 ltac:(lia) ltac:(lia) C72_setting ltac:(lia)
    (fun j r l i Hj Hr Hl2 Hi => Logic.conj (key16_w j r l i Hj Hr Hl2 Hi) (key16_word j r l i)) 2) as M.
  assert (Q : 570431488 + 68 = brNoise 32 16 1 gad16 2 (length s2) 3 + Z.of_nat 2 * (2 * (1 + Z.of_nat 1 * Z.of_nat 16))) by reflexivity.
  rewrite Q. change (pshift (- (35)) (tableOf 16 2 lut)) with (pshift (- rotSum (fun x => x) s2 [14; 4; 21]) (tableOf 16 2 lut)). apply M; clear M Q.
  - cbn. lia.
  - unfold rotErr_le, rotErr. rewrite !INR_IZR_INZ. rewrite pw_m53. cbn [g_level g_logBase gad16].
    change (Z.of_nat 16) with 16. change (Z.of_nat (2 * 2)) with 4. change (Z.of_nat (2 * 1)) with 2. change (2 ^ (32 - 1)) with 2147483648. change (2 ^ (4 - 1)) with 8. change (2 + 1) with 3. lra.
  - intros [|[|[|j]]]; cbn; try lia. destruct j; cbn; lia.
  - split; [reflexivity|]. intros i Hi. assert (i = 0 \/ i = 1)%nat as [-> | ->] by lia; reflexivity.
  - exact Hl.
  - split; [|split; [|split; [exact V|]]].
    + intros m Hm. assert (m = 0 \/ m = 1)%nat as [-> | ->] by lia; (split; [reflexivity|]); intros i j Hi Hj; assert (i = 0 \/ i = 1)%nat as [-> | ->] by lia; assert (j = 0 \/ j = 1)%nat as [-> | ->] by (cbn in Hj; lia); exact V.
    + split; [reflexivity|]. intros m i Hm Hi. assert (m = 0 \/ m = 1)%nat as [-> | ->] by lia; assert (i = 0 \/ i = 1)%nat as [-> | ->] by lia; exact V.
    + split; [reflexivity|]. intros m i Hm Hi. assert (m = 0 \/ m = 1)%nat as [-> | ->] by lia; assert (i = 0 \/ i = 1)%nat as [-> | ->] by lia; exact V.
  - exists 7. reflexivity.
Qed.
