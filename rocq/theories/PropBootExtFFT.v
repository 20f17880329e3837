(** C71 for every size of the look-up table: bootstrapping of tfhe/bootstrap.go as it is computed, on binary64 transforms. *)
From Coq Require Import Floats.SpecFloat.
From Verif Require Import Base NegaRing ModelNum ModelVec ModelPoly ModelAsm ModelF64 ModelFFT ModelF64Arith ModelSplitFFT ModelFused ModelFusedMul ModelGadget ModelEncoder ModelLWE ModelGLWE ModelBoot ModelProdFFT ModelBlindFFT ModelBootFFT ModelExtFFT ModelBootExtFFT ModelParams
  SpecNum SpecVec SpecPoly SpecFFT SpecRound SpecGadget SpecLWE SpecGLWE SpecBoot SpecProdFFT SpecBlindFFT SpecExtFFT PfPoly PfRoundEx PfSplitF64 PfSplitF64b PfProdFFT2 PfBoot4 PfBlindFFT5 PfExtFFT5 PfBootFFT PfBootExtFFT PropLWE PropBlindFFT PropExtFFT PropBootFFT.
From Coq Require Import Reals Lra Lia.
Import ListNotations.
Open Scope Z_scope.

(** ** C71 *)
(** BootstrapLUTTo, both orders, every look-up table of E N entries (the extended rotation if E > 1): as C71_phase, with the shift of C33 in the margin. *)
Theorem C71_any_size_phase : forall cexp, cexp_near_full (f64Arith cexp) finF val 17 (5 * powerRZ 2 (-52)) -> cexp_valid cexp ->
  forall N logN, Z.of_nat N = 2 ^ logN -> 4 <= logN <= 15 -> forall e, NewEvaluator (f64Arith cexp) N = Ok e ->
  forall K, K = goKern (f64Arith cexp) e \/ K = avxKern cexp e -> forall left, (forall v, valid64 N v -> valid64 N (left v)) ->
  forall w k E p pKS sk s large bk ksk bs bc Ek Eks, 0 < w <= 64 -> boot_keys w N k E p pKS sk s large (map (map (map (map (fwdFFT w)))) bk) ksk bs bc Ek Eks ->
  (forall j r l i, (j < length s)%nat -> (r <= k)%nat -> (l < g_level p)%nat -> (i <= k)%nat -> wpoly w N (nth i (nth l (nth r (nth j bk []) []) []) [])) ->
  let nt := (if Nat.ltb 1 E then 2 * bs else bs)%nat in forall D, Z.of_nat (S k * g_level p + nt) <= 1000000 -> rotErr_le w (g_logBase p) logN N (S k * g_level p) nt D ->
  forall b xb acc0 rotBuf ksBuf extBuf lut f mm scale mu ms, gshape N k rotBuf -> (length acc0 = E /\ forall i, (i < E)%nat -> length (nth i acc0 []) = N) -> ext_bufs N k E (g_level p) xb -> rot_bufs N k (g_level p) b -> length ksBuf = S (length s) -> length extBuf = S (k * N) ->
  lut_ok w N E lut -> 0 < mm -> lut_holds N E (2 ^ w) mm lut f -> ms_err w (Z.of_nat (E * N)) mu ms -> forall m ee ct out, 0 <= m < mm ->
  let B := brNoise w N k p bc (length s) Ek + Z.of_nat bc * (D * (1 + Z.of_nat k * Z.of_nat N)) in
  let boot ksFirst := BootstrapLUTExtK K w N k E (MonomialSubOneFwdFFTTo (f64Arith cexp) e) (MonomialFwdFFTTo (f64Arith cexp) e) (subCmplxTo (f64Arith cexp)) left ksFirst ms p pKS (map (toFFTGGSW K w) bk) ksk bs bc (length s) b xb acc0 rotBuf ksBuf extBuf out ct lut in
  (length out = S (length s) -> lwe_ct w (length s) ct -> eqm (2 ^ w) (phase s ct) (scale * m + ee) ->
   boot_margin (2 ^ w) (Z.of_nat (E * N)) mm scale m (Z.abs ee) mu (zsum (length s) (nthZ s)) (extSlack E) ->
   lwe_ct w (length s) (boot false) /\ dist_le (2 ^ w) (phase s (boot false)) (f m) (B + ksNoise w pKS (length large - length s) Eks)) /\
  (length out = S (length large) -> lwe_ct w (length large) ct -> eqm (2 ^ w) (phase large ct) (scale * m + ee) ->
   boot_margin (2 ^ w) (Z.of_nat (E * N)) mm scale m (Z.abs ee + ksNoise w pKS (length large - length s) Eks) mu (zsum (length s) (nthZ s)) (extSlack E) ->
   lwe_ct w (length large) (boot true) /\ dist_le (2 ^ w) (phase large (boot true)) (f m) B).
Proof. exact boot_phase_fftE. Qed.
Print Assumptions C71_any_size_phase.
(** With GenLUT's table and power-of-two message modulus: the output decrypts to f m. *)
Theorem C71_any_size_message : forall cexp, cexp_near_full (f64Arith cexp) finF val 17 (5 * powerRZ 2 (-52)) -> cexp_valid cexp ->
  forall N logN, Z.of_nat N = 2 ^ logN -> 4 <= logN <= 15 -> forall e, NewEvaluator (f64Arith cexp) N = Ok e ->
  forall K, K = goKern (f64Arith cexp) e \/ K = avxKern cexp e -> forall left, (forall v, valid64 N v -> valid64 N (left v)) ->
  forall w k E p pKS sk s large bk ksk bs bc Ek Eks, 0 < w <= 64 -> boot_keys w N k E p pKS sk s large (map (map (map (map (fwdFFT w)))) bk) ksk bs bc Ek Eks ->
  (forall j r l i, (j < length s)%nat -> (r <= k)%nat -> (l < g_level p)%nat -> (i <= k)%nat -> wpoly w N (nth i (nth l (nth r (nth j bk []) []) []) [])) ->
  let nt := (if Nat.ltb 1 E then 2 * bs else bs)%nat in forall D, Z.of_nat (S k * g_level p + nt) <= 1000000 -> rotErr_le w (g_logBase p) logN N (S k * g_level p) nt D ->
  forall b xb acc0 rotBuf ksBuf extBuf lutOut raw kk mu f, gshape N k rotBuf -> (length acc0 = E /\ forall i, (i < E)%nat -> length (nth i acc0 []) = N) -> ext_bufs N k E (g_level p) xb -> rot_bufs N k (g_level p) b -> length ksBuf = S (length s) -> length extBuf = S (k * N) ->
  length raw = (E * N)%nat -> length lutOut = E -> (forall i, (i < E)%nat -> length (nth i lutOut []) = N) -> 0 <= kk <= w - 2 -> 2 ^ kk * Z.of_nat (E * N) < 2 ^ 52 -> let mm := 2 ^ kk in let scale := scaleOf w mm in let ms := ModSwitch w (Z.of_nat (E * N)) in
  ms_err w (Z.of_nat (E * N)) mu ms ->
  exists lut raw', GenLUTCustomTo w N E lutOut raw f mm scale = Some (lut, raw') /\ forall m ee ct out, 0 <= m < mm ->
  let B := brNoise w N k p bc (length s) Ek + Z.of_nat bc * (D * (1 + Z.of_nat k * Z.of_nat N)) in
  let boot ksFirst := BootstrapLUTExtK K w N k E (MonomialSubOneFwdFFTTo (f64Arith cexp) e) (MonomialFwdFFTTo (f64Arith cexp) e) (subCmplxTo (f64Arith cexp)) left ksFirst ms p pKS (map (toFFTGGSW K w) bk) ksk bs bc (length s) b xb acc0 rotBuf ksBuf extBuf out ct lut in
  (length out = S (length s) -> lwe_ct w (length s) ct -> eqm (2 ^ w) (phase s ct) (scale * m + ee) ->
   boot_margin (2 ^ w) (Z.of_nat (E * N)) mm scale m (Z.abs ee) mu (zsum (length s) (nthZ s)) (extSlack E) ->
   SpecBoot.decodes w scale (B + ksNoise w pKS (length large - length s) Eks) -> DecryptLWE w mm scale s (boot false) = Some (f m mod mm)) /\
  (length out = S (length large) -> lwe_ct w (length large) ct -> eqm (2 ^ w) (phase large ct) (scale * m + ee) ->
   boot_margin (2 ^ w) (Z.of_nat (E * N)) mm scale m (Z.abs ee + ksNoise w pKS (length large - length s) Eks) mu (zsum (length s) (nthZ s)) (extSlack E) ->
   SpecBoot.decodes w scale B -> DecryptLWE w mm scale large (boot true) = Some (f m mod mm)).
Proof. exact boot_message_fftE. Qed.
Print Assumptions C71_any_size_message.

(** Generated keys of rank 16, LWE dimension 2 in two blocks, three gadget levels, tables of 32 entries. *)
Definition gad163 : gadget := mkGadget 16 4 3 32.
Definition xbrk16 := fst (GenBlindRotateKey 32 4 16 1 exU exG (map (fwdFFT 32) sk16) sk16 s10 gad163 [repeat 7 16; repeat 7 16] (2, 4)%nat).
Definition xkey16 := map (map (map (map (map (wrap 32))))) xbrk16.
Lemma s10_bits : block_binary 1 s10.
Proof. split; [exact (proj1 s10_blocks)|]. intros i j Hi Hj Hd. rewrite !Nat.div_1_r in Hd. lia. Qed.
Lemma xkey16_fft : map (map (map (map (fwdFFT 32)))) xkey16 = xbrk16.
Proof. vm_compute. reflexivity. Qed.
Lemma xkey16_w : forall j r l i, (j < 2)%nat -> (r <= 1)%nat -> (l < 3)%nat -> (i <= 1)%nat -> wpoly 32 16 (nth i (nth l (nth r (nth j xkey16 []) []) []) []).
Proof.
  intros j r l i Hj Hr Hl Hi. split.
  - assert (j = 0 \/ j = 1)%nat as [-> | ->] by lia; assert (r = 0 \/ r = 1)%nat as [-> | ->] by lia; assert (l = 0 \/ l = 1 \/ l = 2)%nat as [-> | [-> | ->]] by lia; assert (i = 0 \/ i = 1)%nat as [-> | ->] by lia; vm_compute; reflexivity.
  - unfold xkey16.
    change (@nil (list (list (list Z)))) with (map (map (map (map (wrap 32)))) []). rewrite map_nth.
    change (@nil (list (list Z))) with (map (map (map (wrap 32))) []). rewrite map_nth.
    change (@nil (list Z)) with (map (map (wrap 32)) []). rewrite map_nth.
    change (@nil Z) with (map (wrap 32) []). rewrite map_nth. apply map_wrap_word.
Qed.
Example C71_any_size_keys : boot_keys 32 16 1 2 gad163 gad16 sk16 s10 (hd [] sk16) (map (map (map (map (fwdFFT 32)))) xkey16) bksk16 1 2 3 3.
Proof.
  rewrite xkey16_fft. unfold xbrk16, bksk16.
  destruct (GenBlindRotateKey 32 4 16 1 exU exG (map (fwdFFT 32) sk16) sk16 s10 gad163 [repeat 7 16; repeat 7 16] (2, 4)%nat) as (brk & (buf' & st1')) eqn:E1.
  destruct (GenDefaultKeySwitchKey 32 exU exG s10 (skipn 2 (hd [] sk16)) gad16 (500, 600)%nat) as (ksk & st2') eqn:E2. cbn [fst].
  eapply (keygen_boot_keys 32 16 1 2 gad163 gad16 sk16 s10 (hd [] sk16) exU exG 3 1 2 4 [repeat 7 16; repeat 7 16] (2, 4)%nat (500, 600)%nat brk buf' st1' ksk st2'); try lia; try reflexivity; try exact gad16_ok; try assumption.
  - exists 4. split; [lia|reflexivity].
  - unfold gadget_ok, gad163. cbn. lia.
  - intros i Hi. assert (i = 0%nat) as -> by lia. reflexivity.
  - split; [reflexivity|]. intros i j Hi Hj. change (length sk16) with 1%nat in Hi. assert (i = 0%nat) as -> by lia. reflexivity.
  - cbn. repeat (apply Forall_cons; [auto|]); apply Forall_nil.
  - cbn. lia.
  - split; [lia|]. split; [lia|]. split; [reflexivity|exact s10_bits].
  - intros i. unfold exG. pose proof (Z.mod_pos_bound (Z.of_nat i * 5) 7 ltac:(lia)). lia.
  - split; [reflexivity|]. intros i Hi. assert (i = 0 \/ i = 1)%nat as [-> | ->] by lia; reflexivity.
Qed.
Definition zz3 := [z16; z16; z16].
Definition buf163 : brBuf spec_float := mkBrBuf [zz3; zz3] [z16; z16] z16 [z16; z16].
Definition xbuf163 : extBuf spec_float := mkExtBuf [[zz3; zz3]; [zz3; zz3]] [[z16; z16]; [z16; z16]] z16 [[z16; z16]; [z16; z16]].
(** Modulus 2, table of 32 entries for rank 16, every table function: both orders decrypt every ciphertext with noise up to 2^20 to f m mod 2. *)
Example C71_any_size_ex : exists e, NewEvaluator (f64Arith cexpT) 16 = Ok e /\ forall K, K = goKern (f64Arith cexpT) e \/ K = avxKern cexpT e -> forall f,
  exists lut raw', GenLUTCustomTo 32 16 2 [repeat 9 16; repeat 9 16] (repeat 9 32) f 2 (2 ^ 30) = Some (lut, raw') /\ forall m ee ct, 0 <= m < 2 -> Z.abs ee <= 2 ^ 20 ->
  let boot ksFirst n := BootstrapLUTExtK K 32 16 1 2 (MonomialSubOneFwdFFTTo (f64Arith cexpT) e) (MonomialFwdFFTTo (f64Arith cexpT) e) (subCmplxTo (f64Arith cexpT)) (fun v => v) ksFirst (ModSwitch 32 32) gad163 gad16
    (map (toFFTGGSW K 32) xkey16) bksk16 1 2 2 buf163 xbuf163 [repeat 0 16; repeat 0 16] [repeat 0 16; repeat 0 16] (repeat 9 3) (repeat 9 17) (repeat 9 n) ct lut in
  (lwe_ct 32 2 ct -> eqm (2 ^ 32) (phase s10 ct) (2 ^ 30 * m + ee) -> DecryptLWE 32 2 (2 ^ 30) s10 (boot false 3%nat) = Some (f m mod 2)) /\
  (lwe_ct 32 16 ct -> eqm (2 ^ 32) (phase (hd [] sk16) ct) (2 ^ 30 * m + ee) -> DecryptLWE 32 2 (2 ^ 30) (hd [] sk16) (boot true 17%nat) = Some (f m mod 2)).
Proof.
  destruct (NewEvaluator64 cexpT 16 4 eq_refl ltac:(lia)) as (e & He & _). exists e. split; [exact He|]. intros K HK f.
  assert (V : valid64 16 z16) by (split; [reflexivity|repeat constructor]).
  destruct (boot_message_fftE cexpT (cexpT_full 17) cexpT_valid 16 4 eq_refl ltac:(lia) e He K HK (fun v => v) (fun v H => H) 32 1 2 gad163 gad16 sk16 s10 (hd [] sk16) xkey16 bksk16 1 2 3 3 ltac:(lia) C71_any_size_keys xkey16_w 4) with
    (b := buf163) (xb := xbuf163) (acc0 := [repeat 0 16; repeat 0 16]) (rotBuf := [repeat 0 16; repeat 0 16]) (ksBuf := repeat 9 3) (extBuf := repeat 9 17) (lutOut := [repeat 9 16; repeat 9 16]) (raw := repeat 9 32) (kk := 1) (mu := 2 ^ 32) (f := f) as (lut & raw' & A & B); try reflexivity; try lia.
  - cbn. lia.
  - change (if Nat.ltb 1 2 then 2 * 1 else 1)%nat with 2%nat. unfold rotErr_le, rotErr. rewrite !INR_IZR_INZ. rewrite pw_m53. cbn [g_level g_logBase gad163].
    change (Z.of_nat 16) with 16. change (Z.of_nat (2 * 3)) with 6. change (Z.of_nat 2) with 2. change (2 ^ (32 - 1)) with 2147483648. change (2 ^ (4 - 1)) with 8. change (4 + 1) with 5. lra.
  - split; [reflexivity|]. intros i Hi. assert (i = 0 \/ i = 1)%nat as [-> | ->] by lia; reflexivity.
  - split; [reflexivity|]. intros i Hi. assert (i = 0 \/ i = 1)%nat as [-> | ->] by lia; reflexivity.
  - split; [|split; [|split; [exact V|]]].
    + intros m Hm. assert (m = 0 \/ m = 1)%nat as [-> | ->] by lia; (split; [reflexivity|]); intros i j Hi Hj; assert (i = 0 \/ i = 1)%nat as [-> | ->] by lia; assert (j = 0 \/ j = 1 \/ j = 2)%nat as [-> | [-> | ->]] by (cbn in Hj; lia); exact V.
    + split; [reflexivity|]. intros m i Hm Hi. assert (m = 0 \/ m = 1)%nat as [-> | ->] by lia; assert (i = 0 \/ i = 1)%nat as [-> | ->] by lia; exact V.
    + split; [reflexivity|]. intros m i Hm Hi. assert (m = 0 \/ m = 1)%nat as [-> | ->] by lia; assert (i = 0 \/ i = 1)%nat as [-> | ->] by lia; exact V.
  - split; [split; [reflexivity|intros i j Hi Hj; assert (i = 0 \/ i = 1)%nat as [-> | ->] by lia; assert (j = 0 \/ j = 1 \/ j = 2)%nat as [-> | [-> | ->]] by (cbn in Hj; lia); exact V]|].
    split; [intros i Hi; assert (i = 0 \/ i = 1)%nat as [-> | ->] by lia; exact V|]. split; [exact V|]. intros i Hi; assert (i = 0 \/ i = 1)%nat as [-> | ->] by lia; exact V.
  - intros i Hi. assert (i = 0 \/ i = 1)%nat as [-> | ->] by lia; reflexivity.
  - change (Z.of_nat (2 * 16)) with 32. apply ms_err_exact; try lia. exists (2 ^ 26). reflexivity.
  - change (2 ^ 1) with 2 in *. assert (Hs : scaleOf 32 2 = 2 ^ 30) by (vm_compute; reflexivity). rewrite Hs in *. exists lut, raw'. split; [exact A|]. intros m ee ct Hm Hee. cbv zeta.
    assert (Hk : ksNoise 32 gad16 (length (hd [] sk16) - length s10) 3 = 117441184) by (vm_compute; reflexivity).
    assert (Hz : zsum (length s10) (nthZ s10) = 1) by reflexivity. change (Z.of_nat (2 * 16)) with 32 in B. change (extSlack 2) with 2 in B.
    assert (Hmr : forall x, 0 <= x <= 2 ^ 20 + 117441184 -> boot_margin (2 ^ 32) 32 2 (2 ^ 30) m x (2 ^ 32) 1 2).
    { intros x Hx. right. split; [exists 8; reflexivity|]. change (2 ^ 32) with 4294967296. change (2 ^ 30) with 1073741824. change (2 ^ 20) with 1048576 in Hx. lia. }
    split; intros Hct Hph.
    + apply (proj1 (B m ee ct (repeat 9 3) Hm) eq_refl Hct Hph); [rewrite Hz; apply Hmr; lia|]. left. split; [lia|vm_compute; reflexivity].
    + apply (proj2 (B m ee ct (repeat 9 17) Hm) eq_refl Hct Hph); [rewrite Hz, Hk; apply Hmr; lia|]. left. split; [lia|vm_compute; reflexivity].
Qed.
