(** C71: bootstrapping of tfhe/bootstrap.go as it is computed, on binary64 transforms. *)
From Coq Require Import Floats.SpecFloat.
From Verif Require Import Base NegaRing ModelNum ModelVec ModelPoly ModelAsm ModelF64 ModelFFT ModelF64Arith ModelSplitFFT ModelFused ModelFusedMul ModelGadget ModelEncoder ModelParams ModelLWE ModelGLWE ModelBoot ModelProdFFT ModelBlindFFT ModelBootFFT
  SpecNum SpecVec SpecPoly SpecFFT SpecRound SpecGadget SpecLWE SpecGLWE SpecBoot SpecProdFFT SpecBlindFFT PfPoly PfEncoder PfRoundEx PfSplitF64 PfSplitF64b PfProdFFT2 PfBoot4 PfBlindFFT5 PfBootFFT PropLWE PropBlindFFT.
From Coq Require Import Reals Lra Lia.
Import ListNotations.
Open Scope Z_scope.

(** ** C71 *)
(** BootstrapLUTTo, both orders, portable loops or AVX2 kernels, every table over modulus mm: the output is a ciphertext of f m up to
    C34's noise and D (1 + k N) per block, whenever the input noise stays inside the box of m. *)
Theorem C71_phase : forall cexp, cexp_near_full (f64Arith cexp) finF val 17 (5 * powerRZ 2 (-52)) -> cexp_valid cexp ->
  forall N logN, Z.of_nat N = 2 ^ logN -> 4 <= logN <= 15 -> forall e, NewEvaluator (f64Arith cexp) N = Ok e ->
  forall K, K = goKern (f64Arith cexp) e \/ K = avxKern cexp e -> forall left, (forall v, valid64 N v -> valid64 N (left v)) ->
  forall w k p pKS sk s large bk ksk bs bc Ek Eks, 0 < w <= 64 -> boot_keys w N k 1 p pKS sk s large (map (map (map (map (fwdFFT w)))) bk) ksk bs bc Ek Eks ->
  (forall j r l i, (j < length s)%nat -> (r <= k)%nat -> (l < g_level p)%nat -> (i <= k)%nat -> wpoly w N (nth i (nth l (nth r (nth j bk []) []) []) [])) ->
  forall D, Z.of_nat (S k * g_level p + bs) <= 1000000 -> rotErr_le w (g_logBase p) logN N (S k * g_level p) bs D ->
  forall b rotBuf ksBuf extBuf lut0 f mm scale mu ms, gshape N k rotBuf -> rot_bufs N k (g_level p) b -> length ksBuf = S (length s) -> length extBuf = S (k * N) ->
  wpoly w N lut0 -> 0 < mm -> lut_holds N 1 (2 ^ w) mm [lut0] f -> ms_err w (Z.of_nat N) mu ms -> forall m ee ct out, 0 <= m < mm ->
  let B := brNoise w N k p bc (length s) Ek + Z.of_nat bc * (D * (1 + Z.of_nat k * Z.of_nat N)) in
  let boot ksFirst := BootstrapLUTToK K w N k (MonomialSubOneFwdFFTTo (f64Arith cexp) e) left ksFirst ms p pKS (map (toFFTGGSW K w) bk) ksk bs bc (length s) b rotBuf ksBuf extBuf out ct [lut0] in
  (length out = S (length s) -> lwe_ct w (length s) ct -> eqm (2 ^ w) (phase s ct) (scale * m + ee) ->
   boot_margin (2 ^ w) (Z.of_nat N) mm scale m (Z.abs ee) mu (zsum (length s) (nthZ s)) 0 ->
   lwe_ct w (length s) (boot false) /\ dist_le (2 ^ w) (phase s (boot false)) (f m) (B + ksNoise w pKS (length large - length s) Eks)) /\
  (length out = S (length large) -> lwe_ct w (length large) ct -> eqm (2 ^ w) (phase large ct) (scale * m + ee) ->
   boot_margin (2 ^ w) (Z.of_nat N) mm scale m (Z.abs ee + ksNoise w pKS (length large - length s) Eks) mu (zsum (length s) (nthZ s)) 0 ->
   lwe_ct w (length large) (boot true) /\ dist_le (2 ^ w) (phase large (boot true)) (f m) B).
Proof. exact boot_phase_fft. Qed.
Print Assumptions C71_phase.
(** With GenLUT's table and power-of-two message modulus: the output decrypts to f m. *)
Theorem C71_message : forall cexp, cexp_near_full (f64Arith cexp) finF val 17 (5 * powerRZ 2 (-52)) -> cexp_valid cexp ->
  forall N logN, Z.of_nat N = 2 ^ logN -> 4 <= logN <= 15 -> forall e, NewEvaluator (f64Arith cexp) N = Ok e ->
  forall K, K = goKern (f64Arith cexp) e \/ K = avxKern cexp e -> forall left, (forall v, valid64 N v -> valid64 N (left v)) ->
  forall w k p pKS sk s large bk ksk bs bc Ek Eks, 0 < w <= 64 -> boot_keys w N k 1 p pKS sk s large (map (map (map (map (fwdFFT w)))) bk) ksk bs bc Ek Eks ->
  (forall j r l i, (j < length s)%nat -> (r <= k)%nat -> (l < g_level p)%nat -> (i <= k)%nat -> wpoly w N (nth i (nth l (nth r (nth j bk []) []) []) [])) ->
  forall D, Z.of_nat (S k * g_level p + bs) <= 1000000 -> rotErr_le w (g_logBase p) logN N (S k * g_level p) bs D ->
  forall b rotBuf ksBuf extBuf lutOut raw kk mu f, gshape N k rotBuf -> rot_bufs N k (g_level p) b -> length ksBuf = S (length s) -> length extBuf = S (k * N) ->
  length raw = N -> length lutOut = N -> 0 <= kk <= w - 2 -> 2 ^ kk * Z.of_nat N < 2 ^ 52 -> let mm := 2 ^ kk in let scale := scaleOf w mm in let ms := ModSwitch w (Z.of_nat N) in
  ms_err w (Z.of_nat N) mu ms ->
  exists lut0 raw', GenLUTCustomTo w N 1 [lutOut] raw f mm scale = Some ([lut0], raw') /\ forall m ee ct out, 0 <= m < mm ->
  let B := brNoise w N k p bc (length s) Ek + Z.of_nat bc * (D * (1 + Z.of_nat k * Z.of_nat N)) in
  let boot ksFirst := BootstrapLUTToK K w N k (MonomialSubOneFwdFFTTo (f64Arith cexp) e) left ksFirst ms p pKS (map (toFFTGGSW K w) bk) ksk bs bc (length s) b rotBuf ksBuf extBuf out ct [lut0] in
  (length out = S (length s) -> lwe_ct w (length s) ct -> eqm (2 ^ w) (phase s ct) (scale * m + ee) ->
   boot_margin (2 ^ w) (Z.of_nat N) mm scale m (Z.abs ee) mu (zsum (length s) (nthZ s)) 0 ->
   SpecBoot.decodes w scale (B + ksNoise w pKS (length large - length s) Eks) -> DecryptLWE w mm scale s (boot false) = Some (f m mod mm)) /\
  (length out = S (length large) -> lwe_ct w (length large) ct -> eqm (2 ^ w) (phase large ct) (scale * m + ee) ->
   boot_margin (2 ^ w) (Z.of_nat N) mm scale m (Z.abs ee + ksNoise w pKS (length large - length s) Eks) mu (zsum (length s) (nthZ s)) 0 ->
   SpecBoot.decodes w scale B -> DecryptLWE w mm scale large (boot true) = Some (f m mod mm)).
Proof. exact boot_message_fft. Qed.
Print Assumptions C71_message.

(** Generated keys of rank 16, LWE dimension 2 in one block. *)
Definition s10 : list Z := [1; 0].
Definition bbrk16 := fst (GenBlindRotateKey 32 4 16 1 exU exG (map (fwdFFT 32) sk16) sk16 s10 gad16 [repeat 7 16; repeat 7 16] (2, 4)%nat).
Definition bkey16 := map (map (map (map (map (wrap 32))))) bbrk16.
Definition bksk16 := fst (GenDefaultKeySwitchKey 32 exU exG s10 (skipn 2 (hd [] sk16)) gad16 (500, 600)%nat).
Lemma s10_blocks : block_binary 2 s10.
Proof.
  split; [repeat (apply Forall_cons; [auto|]); apply Forall_nil|]. intros i j H1 H2 H3. change (length s10) with 2%nat in H2. unfold s10, nthZ.
  assert (j = 1)%nat as -> by lia. assert (i = 0)%nat as -> by lia. first [left; reflexivity|right; reflexivity].
Qed.
Lemma bkey16_fft : map (map (map (map (fwdFFT 32)))) bkey16 = bbrk16.
Proof. vm_compute. reflexivity. Qed.
Lemma bkey16_w : forall j r l i, (j < 2)%nat -> (r <= 1)%nat -> (l < 2)%nat -> (i <= 1)%nat -> wpoly 32 16 (nth i (nth l (nth r (nth j bkey16 []) []) []) []).
Proof.
  intros j r l i Hj Hr Hl Hi. split.
  - assert (j = 0 \/ j = 1)%nat as [-> | ->] by lia; assert (r = 0 \/ r = 1)%nat as [-> | ->] by lia; assert (l = 0 \/ l = 1)%nat as [-> | ->] by lia; assert (i = 0 \/ i = 1)%nat as [-> | ->] by lia; vm_compute; reflexivity.
  - unfold bkey16.
    change (@nil (list (list (list Z)))) with (map (map (map (map (wrap 32)))) []). rewrite map_nth.
    change (@nil (list (list Z))) with (map (map (map (wrap 32))) []). rewrite map_nth.
    change (@nil (list Z)) with (map (map (wrap 32)) []). rewrite map_nth.
    change (@nil Z) with (map (wrap 32) []). rewrite map_nth. apply map_wrap_word.
Qed.
Lemma gad16_ok : gadget_ok 32 gad16.
Proof. unfold gadget_ok, gad16. cbn. lia. Qed.
Example C71_keys : boot_keys 32 16 1 1 gad16 gad16 sk16 s10 (hd [] sk16) (map (map (map (map (fwdFFT 32)))) bkey16) bksk16 2 1 3 3.
Proof.
  rewrite bkey16_fft. unfold bbrk16, bksk16.
  destruct (GenBlindRotateKey 32 4 16 1 exU exG (map (fwdFFT 32) sk16) sk16 s10 gad16 [repeat 7 16; repeat 7 16] (2, 4)%nat) as (brk & (buf' & st1')) eqn:E1.
  destruct (GenDefaultKeySwitchKey 32 exU exG s10 (skipn 2 (hd [] sk16)) gad16 (500, 600)%nat) as (ksk & st2') eqn:E2. cbn [fst].
  eapply (keygen_boot_keys 32 16 1 1 gad16 gad16 sk16 s10 (hd [] sk16) exU exG 3 2 1 4 [repeat 7 16; repeat 7 16] (2, 4)%nat (500, 600)%nat brk buf' st1' ksk st2'); try lia; try reflexivity; try exact gad16_ok; try assumption.
  - exists 4. split; [lia|reflexivity].
  - intros i Hi. assert (i = 0%nat) as -> by lia. reflexivity.
  - split; [reflexivity|]. intros i j Hi Hj. change (length sk16) with 1%nat in Hi. assert (i = 0%nat) as -> by lia. reflexivity.
  - cbn. repeat (apply Forall_cons; [auto|]); apply Forall_nil.
  - cbn. lia.
  - split; [lia|]. split; [lia|]. split; [reflexivity|exact s10_blocks].
  - intros i. unfold exG. pose proof (Z.mod_pos_bound (Z.of_nat i * 5) 7 ltac:(lia)). lia.
  - split; [reflexivity|]. intros i Hi. assert (i = 0 \/ i = 1)%nat as [-> | ->] by lia; reflexivity.
Qed.
(** Modulus 2 and every table function: both orders decrypt every ciphertext with noise up to 2^20 to f m mod 2, portable and AVX2. *)
Example C71_ex : exists e, NewEvaluator (f64Arith cexpT) 16 = Ok e /\ forall K, K = goKern (f64Arith cexpT) e \/ K = avxKern cexpT e -> forall f,
  exists lut0 raw', GenLUTCustomTo 32 16 1 [repeat 9 16] (repeat 9 16) f 2 (2 ^ 30) = Some ([lut0], raw') /\ forall m ee ct, 0 <= m < 2 -> Z.abs ee <= 2 ^ 20 ->
  let boot ksFirst n := BootstrapLUTToK K 32 16 1 (MonomialSubOneFwdFFTTo (f64Arith cexpT) e) (fun v => v) ksFirst (ModSwitch 32 16) gad16 gad16 (map (toFFTGGSW K 32) bkey16) bksk16 2 1 2
    buf16 [repeat 0 16; repeat 0 16] (repeat 9 3) (repeat 9 17) (repeat 9 n) ct [lut0] in
  (lwe_ct 32 2 ct -> eqm (2 ^ 32) (phase s10 ct) (2 ^ 30 * m + ee) -> DecryptLWE 32 2 (2 ^ 30) s10 (boot false 3%nat) = Some (f m mod 2)) /\
  (lwe_ct 32 16 ct -> eqm (2 ^ 32) (phase (hd [] sk16) ct) (2 ^ 30 * m + ee) -> DecryptLWE 32 2 (2 ^ 30) (hd [] sk16) (boot true 17%nat) = Some (f m mod 2)).
Proof.
  destruct (NewEvaluator64 cexpT 16 4 eq_refl ltac:(lia)) as (e & He & _). exists e. split; [exact He|]. intros K HK f.
  assert (V : valid64 16 z16) by (split; [reflexivity|repeat constructor]).
  destruct (boot_message_fft cexpT (cexpT_full 17) cexpT_valid 16 4 eq_refl ltac:(lia) e He K HK (fun v => v) (fun v H => H) 32 1 gad16 gad16 sk16 s10 (hd [] sk16) bkey16 bksk16 2 1 3 3 ltac:(lia) C71_keys bkey16_w 2) with
    (b := buf16) (rotBuf := [repeat 0 16; repeat 0 16]) (ksBuf := repeat 9 3) (extBuf := repeat 9 17) (lutOut := repeat 9 16) (raw := repeat 9 16) (kk := 1) (mu := 2 ^ 32) (f := f) as (lut0 & raw' & A & B); try reflexivity; try lia.
  - cbn. lia.
  - unfold rotErr_le, rotErr. rewrite !INR_IZR_INZ. rewrite pw_m53. cbn [g_level g_logBase gad16].
    change (Z.of_nat 16) with 16. change (Z.of_nat (2 * 2)) with 4. change (Z.of_nat 2) with 2. change (2 ^ (32 - 1)) with 2147483648. change (2 ^ (4 - 1)) with 8. change (2 + 1) with 3. lra.
  - split; [reflexivity|]. intros i Hi. assert (i = 0 \/ i = 1)%nat as [-> | ->] by lia; reflexivity.
  - split; [split; [reflexivity|intros i j Hi Hj; assert (i = 0 \/ i = 1)%nat as [-> | ->] by lia; assert (j = 0 \/ j = 1)%nat as [-> | ->] by (cbn in Hj; lia); exact V]|].
    split; [intros i Hi; assert (i = 0 \/ i = 1)%nat as [-> | ->] by lia; exact V|]. split; [exact V|]. intros i Hi; assert (i = 0 \/ i = 1)%nat as [-> | ->] by lia; exact V.
  - change (Z.of_nat 16) with 16. apply ms_err_exact; try lia. exists (2 ^ 27). reflexivity.
  - change (2 ^ 1) with 2 in *. assert (Hs : scaleOf 32 2 = 2 ^ 30) by (vm_compute; reflexivity). rewrite Hs in *. exists lut0, raw'. split; [exact A|]. intros m ee ct Hm Hee. cbv zeta.
    assert (Hk : ksNoise 32 gad16 (length (hd [] sk16) - length s10) 3 = 117441184) by (vm_compute; reflexivity). 
    assert (Hz : zsum (length s10) (nthZ s10) = 1) by reflexivity. change (Z.of_nat 16) with 16 in B.
    assert (Hmr : forall x, 0 <= x <= 2 ^ 20 + 117441184 -> boot_margin (2 ^ 32) 16 2 (2 ^ 30) m x (2 ^ 32) 1 0).
    { intros x Hx. right. split; [exists 4; reflexivity|]. change (2 ^ 32) with 4294967296. change (2 ^ 30) with 1073741824. change (2 ^ 20) with 1048576 in Hx. lia. }
    split; intros Hct Hph.
    + apply (proj1 (B m ee ct (repeat 9 3) Hm) eq_refl Hct Hph); [rewrite Hz; apply Hmr; lia|]. left. split; [lia|vm_compute; reflexivity].
    + apply (proj2 (B m ee ct (repeat 9 17) Hm) eq_refl Hct Hph); [rewrite Hz, Hk; apply Hmr; lia|]. left. split; [lia|vm_compute; reflexivity].
Qed.
