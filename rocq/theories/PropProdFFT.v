(** C68: gadget and external products of tfhe/product.go as they are computed, on binary64 transforms. *)
From Coq Require Import Floats.SpecFloat.
From Verif Require Import Base NegaRing ModelNum ModelVec ModelPoly ModelAsm ModelF64 ModelFFT ModelF64Arith ModelSplitFFT ModelFused ModelFusedMul ModelGadget ModelGLWE ModelProdFFT
  SpecNum SpecPoly SpecFFT SpecRound SpecGadget SpecGLWE SpecProdFFT PfRoundEx PfSplitF64 PfSplitF64b PfProdFFT2.
From Coq Require Import Reals Lra Lia.
Import ListNotations.
Open Scope Z_scope.

(** ** C68 *)
(** GadgetProd{,Add,Sub}GLWETo (kd = None, Some false, Some true): for every key and every polynomial, portable loops or AVX2 kernels,
    every coefficient is the one of the exact product up to D. *)
Theorem C68_GadgetProdGLWE : forall cexp, cexp_near (f64Arith cexp) finF val 17 (5 * powerRZ 2 (-52)) -> cexp_valid cexp ->
  forall N logN, Z.of_nat N = 2 ^ logN -> 4 <= logN <= 15 -> forall e, NewEvaluator (f64Arith cexp) N = Ok e ->
  forall K, K = goKern (f64Arith cexp) e \/ K = avxKern cexp e -> forall w k p, 0 < w <= 64 -> gadget_ok w p ->
  forall kd fb o out lev c D, (forall j i, (j < g_level p)%nat -> (i <= k)%nat -> wpoly w N (nth i (nth j lev []) [])) -> length c = N ->
  (forall j, (j < g_level p)%nat -> valid64 N (nth j fb [])) -> (forall i, (i <= k)%nat -> valid64 N (nth i o [])) -> (forall i, (i <= k)%nat -> length (nth i out []) = N) ->
  prodErr_le w (g_logBase p) logN N (g_level p) D -> let levZ := map (map (fwdFFT w)) lev in
  close w N k D (GadgetProdGLWEToK K w k kd p fb o out (toFFTGLev K w lev) c)
    (match kd with None => GadgetProdGLWETo w N k p levZ c | Some false => GadgetProdAddGLWETo w N k p out levZ c | Some true => GadgetProdSubGLWETo w N k p out levZ c end).
Proof. exact gadget_main. Qed.
Print Assumptions C68_GadgetProdGLWE.
(** ExternalProd{,Add,Sub}GLWETo. *)
Theorem C68_ExternalProdGLWE : forall cexp, cexp_near (f64Arith cexp) finF val 17 (5 * powerRZ 2 (-52)) -> cexp_valid cexp ->
  forall N logN, Z.of_nat N = 2 ^ logN -> 4 <= logN <= 15 -> forall e, NewEvaluator (f64Arith cexp) N = Ok e ->
  forall K, K = goKern (f64Arith cexp) e \/ K = avxKern cexp e -> forall w k p, 0 < w <= 64 -> gadget_ok w p ->
  forall kd fm o out ggsw ct D, (forall r j i, (r <= k)%nat -> (j < g_level p)%nat -> (i <= k)%nat -> wpoly w N (nth i (nth j (nth r ggsw []) []) [])) -> (forall i, (i <= k)%nat -> length (nth i ct []) = N) ->
  valid64 N fm -> (forall i, (i <= k)%nat -> valid64 N (nth i o [])) -> (forall i, (i <= k)%nat -> length (nth i out []) = N) ->
  Z.of_nat (S k * g_level p) <= 1000000 -> prodErr_le w (g_logBase p) logN N (S k * g_level p) D -> let ggswZ := map (map (map (fwdFFT w))) ggsw in
  close w N k D (ExternalProdGLWEToK K w k kd p fm o out (toFFTGGSW K w ggsw) ct)
    (match kd with None => ExternalProdGLWETo w N k p ggswZ ct | Some false => ExternalProdAddGLWETo w N k p out ggswZ ct | Some true => ExternalProdSubGLWETo w N k p out ggswZ ct end).
Proof. exact ext_main. Qed.
Print Assumptions C68_ExternalProdGLWE.
(** The phase: C28's bound for the external product, plus D for the body and for each of the k N terms of the mask. *)
Theorem C68_ExternalProdGLWE_phase : forall cexp, cexp_near (f64Arith cexp) finF val 17 (5 * powerRZ 2 (-52)) -> cexp_valid cexp ->
  forall N logN, Z.of_nat N = 2 ^ logN -> 4 <= logN <= 15 -> forall e, NewEvaluator (f64Arith cexp) N = Ok e ->
  forall K, K = goKern (f64Arith cexp) e \/ K = avxKern cexp e -> forall w k p, 0 < w <= 64 -> gadget_ok w p ->
  forall fm o out ggsw ct D sk m M (er : nat -> nat -> npoly N) E, (forall r j i, (r <= k)%nat -> (j < g_level p)%nat -> (i <= k)%nat -> wpoly w N (nth i (nth j (nth r ggsw []) []) [])) ->
  ggsw_enc w N k p sk (map (map (map (fwdFFT w))) ggsw) m er -> pbound M m -> glwe_ct w N k ct -> (forall i, (i < k)%nat -> pbound 1 (pol N (nth i sk []))) ->
  (forall i j, (i <= k)%nat -> (j < g_level p)%nat -> pbound E (er i j)) -> valid64 N fm -> (forall i, (i <= k)%nat -> valid64 N (nth i o [])) -> gshape N k out ->
  Z.of_nat (S k * g_level p) <= 1000000 -> prodErr_le w (g_logBase p) logN N (S k * g_level p) D ->
  let r := ExternalProdGLWEToK K w k None p fm o out (toFFTGGSW K w ggsw) ct in
  glwe_ct w N k r /\
  pdist_le (2 ^ w) (gphase N k sk r) (pmul m (gphase N k sk ct))
    (D * (1 + Z.of_nat k * Z.of_nat N) + (Z.of_nat N * (M * (2 ^ (w - Z.of_nat (g_level p) * g_logBase p) / 2 * (1 + Z.of_nat k * Z.of_nat N))) + rowNoise N p (Z.of_nat k + 1) E)).
Proof. exact ext_phase. Qed.
Print Assumptions C68_ExternalProdGLWE_phase.

(** The bound for the external products of ParamsBinary (587 of 2^32) and ParamsUint2 (899 * 2^42 of 2^64), params_list.go:5-30, 81-105. *)
Example C68_ex_ParamsBinary : prodErr_le 32 6 9 512 9 587 /\ prodErr_le 64 18 9 512 4 (899 * 2 ^ 42).
Proof.
  assert (S : sqrt (INR 512 / 2) = 16%R). { rewrite INR_IZR_INZ. change (Z.of_nat 512) with 512. replace (512 / 2)%R with (16 * 16)%R by lra. apply sqrt_square. lra. }
  unfold prodErr_le, prodErr. rewrite S, !INR_IZR_INZ. rewrite pw_m53.
  change (Z.of_nat 512) with 512. change (Z.of_nat 9) with 9. change (Z.of_nat 4) with 4. change (2 ^ (32 - 1)) with 2147483648. change (2 ^ (6 - 1)) with 32. change (2 ^ (64 - 1)) with 9223372036854775808. change (2 ^ (18 - 1)) with 131072.
  change (587 + 1) with 588. change (899 * 2 ^ 42 + 1) with 3953843813482497. split; lra.
Qed.
(** Rank 16, rank 1, uint32, base 2^4, level 2: the rounding error is below 1, and the binary64 product is the exact one for every key and every ciphertext. *)
Definition p4 : gadget := mkGadget 16 4 2 32.
Definition z16 : list spec_float := repeat (S754_zero false) 16.
Example C68_ex_exact : forall ggsw ct, (forall r j i, (r <= 1)%nat -> (j < 2)%nat -> (i <= 1)%nat -> wpoly 32 16 (nth i (nth j (nth r ggsw []) []) [])) -> (forall i, (i <= 1)%nat -> length (nth i ct []) = 16%nat) ->
  exists e, NewEvaluator (f64Arith cexpT) 16 = Ok e /\ forall K, K = goKern (f64Arith cexpT) e \/ K = avxKern cexpT e ->
  close 32 16 1 0 (ExternalProdGLWEToK K 32 1 None p4 z16 [z16; z16] ct (toFFTGGSW K 32 ggsw) ct) (ExternalProdGLWETo 32 16 1 p4 (map (map (map (fwdFFT 32))) ggsw) ct).
Proof.
  intros ggsw ct HG Hc. destruct (NewEvaluator64 cexpT 16 4 eq_refl ltac:(lia)) as (e & He & _). exists e. split; [exact He|]. intros K HK.
  assert (V : valid64 16 z16) by (split; [reflexivity|repeat constructor]).
  apply (ext_main cexpT (cexpT_near 17) cexpT_valid 16 4 eq_refl ltac:(lia) e He K HK 32 1 p4 ltac:(lia)) with (kd := None); try assumption.
  - unfold gadget_ok, p4. cbn. lia.
  - intros [|[|i]] Hi; [exact V|exact V|lia].
  - cbn. lia.
  - unfold prodErr_le, prodErr. cbn [g_level g_logBase p4]. rewrite !INR_IZR_INZ. rewrite pw_m53.
    change (Z.of_nat 16) with 16. change (Z.of_nat (2 * 2)) with 4. change (2 ^ (32 - 1)) with 2147483648. change (2 ^ (4 - 1)) with 8. change (0 + 1) with 1.
    assert (S : (0 <= sqrt (16 / 2) <= 3)%R). { split; [apply sqrt_pos|]. apply Rsqr_incr_0; [|apply sqrt_pos|lra]. rewrite Rsqr_sqrt by lra. unfold Rsqr. lra. }
    set (s := sqrt (16 / 2)) in *. clearbody s. lra.
Qed.
