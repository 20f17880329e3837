(** Property C53 (ManyLUT) and the shipped parameter sets of xtfhe (C58). *)
From Verif Require Import Base NegaRing SpecNum ModelNum ModelFloat ModelVec ModelPoly SpecPoly ModelGadget SpecGadget ModelEncoder ModelLWE SpecLWE ModelParams SpecParams ModelGLWE SpecGLWE
  ModelBoot SpecBoot PfBoot4 ModelManyLUT SpecManyLUT PfManyLUT ModelXParams PfXParams PropLWE PropGLWE PropBoot.

(** ** C53 *)
(** Generation does not panic and writes f_i(m) at position j + i for every multiple j of LUTCount in the box
    of m, and 0 for missing functions, when 2 * messageModulus * LUTCount divides the rank. *)
Theorem C53_GenLUT : forall w N C mm f lut, 0 < w -> (0 < N)%nat -> (0 < C)%nat -> 0 < mm < 2 ^ 52 -> 2 * mm < 2 ^ w -> mm * Z.of_nat N < 2 ^ 52 ->
  (2 * mm * Z.of_nat C | Z.of_nat N) -> (length f <= C)%nat -> length lut = N ->
  exists r, MLGenLUTCustomFullTo w N C lut f mm = Some r /\ length r = N /\
    ((forall i m, (i < C)%nat -> 0 <= m < mm -> uword w (funOf f i m)) -> Forall (uword w) r) /\ many_hold N C (2 ^ w) mm r (funOf f).
Proof. exact MLGenLUT_spec. Qed.
Print Assumptions C53_GenLUT.
Example C53_GenLUT_ex : (2 * 2 * Z.of_nat 2 | Z.of_nat 16) /\
  MLGenLUTCustomFullTo 32 16 2 (repeat 9 16) [(fun x => 10 + x); (fun x => 20 + x)] 2 = Some [10; 20; 10; 20; 11; 21; 11; 21; 11; 21; 11; 21; 2 ^ 32 - 10; 2 ^ 32 - 20; 2 ^ 32 - 10; 2 ^ 32 - 20].
Proof. split; [now exists 2|vm_compute; reflexivity]. Qed.

(** The switched value is a multiple of LUTCount within half a LUTCount of x * 2N / Q. *)
Theorem C53_ModSwitch : forall w logN logC, 0 <= logC <= logN -> logN + 1 < w ->
  forall x, uword w x -> let R := MLModSwitch w logN logC x in
  0 <= R <= 2 * 2 ^ logN /\ (2 ^ logC | R) /\ 2 * Z.abs (R * 2 ^ w - x * (2 * 2 ^ logN)) <= 2 ^ logC * 2 ^ w.
Proof. exact MLModSwitch_spec. Qed.
Print Assumptions C53_ModSwitch.
Example C53_ModSwitch_ex : MLModSwitch 32 5 1 (2 ^ 32 - 1) = 64 /\ MLModSwitch 32 5 1 (3 * 2 ^ 27) = 6 /\ MLModSwitch 32 5 2 (5 * 2 ^ 26) = 4.
Proof. vm_compute. repeat split. Qed.

(** One bootstrap gives every f_i(m) within the noise of one blind rotation (and key switch), in both orders;
    extra output ciphertexts are left alone. *)
Theorem C53_phase : forall w, 0 < w -> forall logN logC N C k, Z.of_nat N = 2 ^ logN -> Z.of_nat C = 2 ^ logC -> 0 <= logC <= logN -> logN + 1 < w ->
  forall p pKS sk s large brk ksk bs bc Ek Eks, boot_keys w N k 1 p pKS sk s large brk ksk bs bc Ek Eks ->
  forall rotBuf ksBuf extBuf lut mm scale F m ee ct outs, gshape N k rotBuf -> length ksBuf = S (length s) -> length extBuf = S (k * N) ->
  wpoly w N lut -> many_hold N C (2 ^ w) mm lut F -> 0 <= m < mm -> (2 * mm | Z.of_nat N) -> (C <= length outs)%nat ->
  ((forall i, (i < C)%nat -> length (nth i outs []) = S (length s)) -> lwe_ct w (length s) ct -> eqm (2 ^ w) (phase s ct) (scale * m + ee) ->
   many_margin (2 ^ w) (Z.of_nat N) (Z.of_nat C) mm scale m (Z.abs ee) (zsum (length s) (nthZ s)) ->
   exists r, MLBootstrapLUTTo w N k C false (MLModSwitch w logN logC) p pKS brk ksk bs bc (length s) rotBuf ksBuf extBuf outs ct lut = Some r /\ length r = length outs /\
   (forall i, (C <= i)%nat -> nth i r [] = nth i outs []) /\
   forall i, (i < C)%nat -> lwe_ct w (length s) (nth i r []) /\
     dist_le (2 ^ w) (phase s (nth i r [])) (F i m) (brNoise w N k p bc (length s) Ek + ksNoise w pKS (length large - length s) Eks)) /\
  ((forall i, (i < C)%nat -> length (nth i outs []) = S (length large)) -> lwe_ct w (length large) ct -> eqm (2 ^ w) (phase large ct) (scale * m + ee) ->
   many_margin (2 ^ w) (Z.of_nat N) (Z.of_nat C) mm scale m (Z.abs ee + ksNoise w pKS (length large - length s) Eks) (zsum (length s) (nthZ s)) ->
   exists r, MLBootstrapLUTTo w N k C true (MLModSwitch w logN logC) p pKS brk ksk bs bc (length s) rotBuf ksBuf extBuf outs ct lut = Some r /\ length r = length outs /\
   (forall i, (C <= i)%nat -> nth i r [] = nth i outs []) /\
   forall i, (i < C)%nat -> lwe_ct w (length large) (nth i r []) /\ dist_le (2 ^ w) (phase large (nth i r [])) (F i m) (brNoise w N k p bc (length s) Ek)).
Proof. exact ml_boot. Qed.
Print Assumptions C53_phase.

(** Table generation, one bootstrap, decryption: message f_i(m) mod messageModulus in output i. *)
Theorem C53_message : forall w logN logC N C k p pKS sk s large brk ksk bs bc Ek Eks, 0 < w -> Z.of_nat N = 2 ^ logN -> Z.of_nat C = 2 ^ logC -> 0 <= logC <= logN -> logN + 1 < w ->
  boot_keys w N k 1 p pKS sk s large brk ksk bs bc Ek Eks ->
  forall rotBuf ksBuf extBuf lut0 kk f, gshape N k rotBuf -> length ksBuf = S (length s) -> length extBuf = S (k * N) -> length lut0 = N ->
  0 <= kk <= w - 2 -> 2 ^ kk * Z.of_nat N < 2 ^ 52 -> let mm := 2 ^ kk in let scale := scaleOf w mm in let ms := MLModSwitch w logN logC in
  (2 * mm * Z.of_nat C | Z.of_nat N) -> (length f <= C)%nat ->
  exists lut, MLGenLUTCustomTo w N C lut0 f mm scale = Some lut /\ forall m ee ct outs, 0 <= m < mm -> (C <= length outs)%nat ->
  ((forall i, (i < C)%nat -> length (nth i outs []) = S (length s)) -> lwe_ct w (length s) ct -> eqm (2 ^ w) (phase s ct) (scale * m + ee) ->
   many_margin (2 ^ w) (Z.of_nat N) (Z.of_nat C) mm scale m (Z.abs ee) (zsum (length s) (nthZ s)) ->
   decodes w scale (brNoise w N k p bc (length s) Ek + ksNoise w pKS (length large - length s) Eks) ->
   exists r, MLBootstrapLUTTo w N k C false ms p pKS brk ksk bs bc (length s) rotBuf ksBuf extBuf outs ct lut = Some r /\
   forall i, (i < C)%nat -> DecryptLWE w mm scale s (nth i r []) = Some (funOf f i m mod mm)) /\
  ((forall i, (i < C)%nat -> length (nth i outs []) = S (length large)) -> lwe_ct w (length large) ct -> eqm (2 ^ w) (phase large ct) (scale * m + ee) ->
   many_margin (2 ^ w) (Z.of_nat N) (Z.of_nat C) mm scale m (Z.abs ee + ksNoise w pKS (length large - length s) Eks) (zsum (length s) (nthZ s)) ->
   decodes w scale (brNoise w N k p bc (length s) Ek) ->
   exists r, MLBootstrapLUTTo w N k C true ms p pKS brk ksk bs bc (length s) rotBuf ksBuf extBuf outs ct lut = Some r /\
   forall i, (i < C)%nat -> DecryptLWE w mm scale large (nth i r []) = Some (funOf f i m mod mm)).
Proof. exact ml_message. Qed.
Print Assumptions C53_message.

(** Generated keys of rank 16, modulus 2, two tables: the hypotheses hold and the run gives 1 - m and m. *)
Definition mlsk : list (list Z) := [bs4 ++ repeat 1 5 ++ repeat 0 7].
Definition mlgad : gadget := {| g_base := 64; g_logBase := 6; g_level := 4; g_sizeT := 32 |}.
Example mlgad_ok : gadget_ok 32 mlgad.
Proof. unfold gadget_ok. vm_compute. repeat split; discriminate || lia. Qed.
Definition mlbuf : list (list Z) := [repeat 7 16; repeat 7 16].
Definition mlbrk := fst (GenBlindRotateKey 32 4 16 1 exU exG (map (fwdFFT 32) mlsk) mlsk bs4 mlgad mlbuf (2, 4)%nat).
Definition mlksk := fst (GenDefaultKeySwitchKey 32 exU exG bs4 (skipn 4 (hd [] mlsk)) mlgad (500, 600)%nat).
Lemma mlkeys : boot_keys 32 16 1 1 mlgad mlgad mlsk bs4 (hd [] mlsk) mlbrk mlksk 2 2 3 3.
Proof.
  unfold mlbrk, mlksk.
  destruct (GenBlindRotateKey 32 4 16 1 exU exG (map (fwdFFT 32) mlsk) mlsk bs4 mlgad mlbuf (2, 4)%nat) as (brk & (buf' & st1')) eqn:E1.
  destruct (GenDefaultKeySwitchKey 32 exU exG bs4 (skipn 4 (hd [] mlsk)) mlgad (500, 600)%nat) as (ksk & st2') eqn:E2. cbn [fst].
  eapply (keygen_boot_keys 32 16 1 1 mlgad mlgad mlsk bs4 (hd [] mlsk) exU exG 3 2 2 4 mlbuf (2, 4)%nat (500, 600)%nat brk buf' st1' ksk st2'); try lia; try reflexivity; try exact mlgad_ok; try exact exG_bound; try assumption.
  - exists 4. split; [lia|reflexivity].
  - intros i Hi. assert (i = 0%nat) as -> by lia. reflexivity.
  - split; [reflexivity|]. intros i j Hi Hj. change (length mlsk) with 1%nat in Hi. assert (i = 0%nat) as -> by lia. reflexivity.
  - cbn. repeat (apply Forall_cons; [auto|]); apply Forall_nil.
  - cbn. lia.
  - split; [lia|]. split; [lia|]. split; [reflexivity|exact bs4_blocks].
  - split; [reflexivity|]. intros i Hi. assert (i = 0 \/ i = 1)%nat as [-> | ->] by lia; reflexivity.
Qed.
Example C53_ex : (2 * 2 * Z.of_nat 2 | Z.of_nat 16) /\ 2 ^ 1 * Z.of_nat 16 < 2 ^ 52 /\
  many_margin (2 ^ 32) 16 2 2 (scaleOf 32 2) 1 (3 + ksNoise 32 mlgad 12 3) (zsum 4 (nthZ bs4)) /\
  decodes 32 (scaleOf 32 2) (brNoise 32 16 1 mlgad 2 4 3 + ksNoise 32 mlgad 12 3).
Proof. split; [now exists 2|]. split; [reflexivity|]. split; [vm_compute; reflexivity|left; vm_compute; split; [discriminate|reflexivity]]. Qed.
Definition mlct (m : Z) : list Z := fst (EncryptLWETo 32 exU exG 2 (scaleOf 32 2) bs4 (repeat 9 5) m (20, 40)%nat).
Lemma mlct_ok m : m = 0 \/ m = 1 -> lwe_ct 32 4 (mlct m) /\ Z.abs (phase bs4 (mlct m) - scaleOf 32 (2 ^ 1) * m) mod 2 ^ 32 <= 3.
Proof.
  intros [-> | ->]; (split; [|vm_compute; discriminate]).
  - assert (exists c, mlct 0 = c /\ lwe_ct 32 4 c) as (c & -> & Hc); [|exact Hc].
    eexists. split; [vm_compute; reflexivity|]. split; [reflexivity|]. repeat (apply Forall_cons; [split; [discriminate|reflexivity]|]); apply Forall_nil.
  - assert (exists c, mlct 1 = c /\ lwe_ct 32 4 c) as (c & -> & Hc); [|exact Hc].
    eexists. split; [vm_compute; reflexivity|]. split; [reflexivity|]. repeat (apply Forall_cons; [split; [discriminate|reflexivity]|]); apply Forall_nil.
Qed.
(** Both messages, encrypted with the small key, through one bootstrap. *)
Example C53_run : forall m, m = 0 \/ m = 1 -> let ct := mlct m in
  exists lut r, MLGenLUTCustomTo 32 16 2 (repeat 9 16) [(fun x => 1 - x); (fun x => x)] 2 (scaleOf 32 2) = Some lut /\
    MLBootstrapLUTTo 32 16 1 2 false (MLModSwitch 32 4 1) mlgad mlgad mlbrk mlksk 2 2 4 mlbuf (repeat 9 5) (repeat 9 17) (repeat (repeat 9 5) 2) ct lut = Some r /\
    DecryptLWE 32 2 (scaleOf 32 2) bs4 (nth 0 r []) = Some (1 - m) /\ DecryptLWE 32 2 (scaleOf 32 2) bs4 (nth 1 r []) = Some m.
Proof.
  intros m Hm ct. destruct C53_ex as (H1 & H2 & H3 & H4).
  destruct (C53_message 32 4 1 16 2 1 mlgad mlgad mlsk bs4 (hd [] mlsk) mlbrk mlksk 2 2 3 3 ltac:(lia) eq_refl (eq_refl : Z.of_nat 2 = 2 ^ 1) ltac:(lia) ltac:(lia) mlkeys mlbuf (repeat 9 5) (repeat 9 17) (repeat 9 16) 1 [(fun x => 1 - x); (fun x => x)]) as (lut & El & H);
    try reflexivity; try lia; try exact H1; try exact H2.
  { split; [reflexivity|]. intros i Hi. assert (i = 0 \/ i = 1)%nat as [-> | ->] by lia; reflexivity. }
  assert (exists ee, eqm (2 ^ 32) (phase bs4 ct) (scaleOf 32 (2 ^ 1) * m + ee) /\ Z.abs ee <= 3) as (ee & He & Be).
  { destruct (mlct_ok m Hm) as (_ & B). fold ct in B. set (x := phase bs4 ct - scaleOf 32 (2 ^ 1) * m) in *. exists ((Z.sgn x) * (Z.abs x mod 2 ^ 32)). split.
    - exists (Z.sgn x * (Z.abs x / 2 ^ 32)). pose proof (Z.div_mod (Z.abs x) (2 ^ 32) ltac:(lia)) as D. pose proof (Z.sgn_abs x) as SA. assert (x = Z.sgn x * Z.abs x) as E by (destruct x; cbn; lia). unfold x in E at 1. nia.
    - pose proof (Z.mod_pos_bound (Z.abs x) (2 ^ 32)). destruct x; cbn [Z.sgn Z.abs] in *; lia. }
  destruct (H m ee ct (repeat (repeat 9 5) 2)) as (HA & _); [lia|cbn; lia|].
  destruct HA as (r & Er & Hr).
  - intros i Hi. assert (i = 0 \/ i = 1)%nat as [-> | ->] by lia; reflexivity.
  - exact (proj1 (mlct_ok m Hm)).
  - exact He.
  - unfold many_margin in *. change (2 ^ 1) with 2. change (Z.of_nat 16) with 16. change (Z.of_nat 2) with 2. change (length bs4) with 4%nat.
    assert (0 <= ksNoise 32 mlgad 12 3) by (vm_compute; discriminate). assert (0 <= Z.abs (2 ^ 32 - 2 * 2 * scaleOf 32 2)) by apply Z.abs_nonneg.
    set (A := Z.abs (2 ^ 32 - 2 * 2 * scaleOf 32 2)) in *. assert (2 * 16 * m * A <= 2 * 16 * 1 * A) by (destruct Hm as [-> | ->]; lia).
    eapply Z.le_lt_trans; [|exact H3]. apply Z.add_le_mono_r. apply Z.add_le_mono; [assumption|]. apply Z.mul_le_mono_nonneg_l; lia.
  - exact H4.
  - exists lut, r. split; [exact El|]. split; [exact Er|]. split; rewrite Hr by lia; f_equal; destruct Hm as [-> | ->]; reflexivity.
Qed.

(** Findings.  Without the divisibility the code goes wrong, though Compile accepts the parameters (it only asks
    for a power-of-two LUTCount) and messageModulus is the caller's choice. *)
Definition mlOne (mm C : Z) : mlParamsLit := mkMlLit (mkLit 16 1 16 0 (f64_of_dec 1 3) (f64_of_dec 1 3) 1 mm (mkGadgetLit 64 3) (mkGadgetLit 8 4) 1) C.
Definition mlGen (p : mlParams) (f : list (Z -> Z)) : option (list Z) :=
  MLGenLUTCustomFullTo 32 (Z.to_nat (p_polyRank (mlp_base p))) (Z.to_nat (mlp_lutCount p)) (repeat 0 (Z.to_nat (p_polyRank (mlp_base p)))) f (p_messageModulus (mlp_base p)).
(** A message modulus that does not divide the rank: the last row is written past the end and the call panics. *)
Theorem C53_modulus_refuted : exists p g f, MLCompile 32 p = Ok g /\ (length f <= Z.to_nat (mlp_lutCount g))%nat /\ mlGen g f = None.
Proof. exists (mlOne 3 4). eexists. exists [(fun x => x)]. split; [vm_compute; reflexivity|]. split; [vm_compute; lia|vm_compute; reflexivity]. Qed.
Print Assumptions C53_modulus_refuted.
(** Even power-of-two moduli panic when modulus * LUTCount exceeds the rank ... *)
Theorem C53_lut_count_refuted : exists p g f, MLCompile 32 p = Ok g /\ (length f <= Z.to_nat (mlp_lutCount g))%nat /\ p_messageModulus (mlp_base g) = 2 /\ mlGen g f = None.
Proof. exists (mlOne 2 32). eexists. exists [(fun x => x)]. split; [vm_compute; reflexivity|]. split; [vm_compute; lia|]. split; vm_compute; reflexivity. Qed.
Print Assumptions C53_lut_count_refuted.
(** ... and when it equals the rank the call succeeds with the functions in the wrong places: the noiseless
    message 1 (position 8) finds f_1 where f_0 should be. *)
Theorem C53_half_box_refuted : exists p g f r, MLCompile 32 p = Ok g /\ (length f <= Z.to_nat (mlp_lutCount g))%nat /\ mlGen g f = Some r /\
  p_messageModulus (mlp_base g) = 2 /\ p_polyRank (mlp_base g) = 16 /\ funOf f 0 1 = 10 /\ funOf f 4 1 = 20 /\ nthZ r 8 = 20.
Proof.
  exists (mlOne 2 8). eexists. exists [(fun x => 10); (fun x => 0); (fun x => 0); (fun x => 0); (fun x => 20)]. eexists.
  split; [vm_compute; reflexivity|]. split; [vm_compute; lia|]. split; [vm_compute; reflexivity|]. vm_compute. repeat split.
Qed.
Print Assumptions C53_half_box_refuted.

(** ** C58: the parameter sets shipped with xtfhe *)
Theorem C58_many_lut : Forall (fun l => exists g, MLCompile 32 l = Ok g /\ ml_good 32 l g) [ParamsBinaryLUT2; ParamsBinaryCompactLUT2] /\
  Forall (fun l => exists g, MLCompile 64 l = Ok g /\ ml_good 64 l g) [ParamsUint2LUT4; ParamsUint3LUT2].
Proof. exact shippedML. Qed.
Print Assumptions C58_many_lut.
Theorem C58_circuit_bootstrap : Forall (cb_good 64) [ParamsCircuitBootstrapMedium; ParamsCircuitBootstrapLarge].
Proof. exact shippedCB. Qed.
Print Assumptions C58_circuit_bootstrap.
(** tooLarge is the outcome of the float64 Log2 test on the key deviation (3.2 with tail 12, against 2^8). *)
Theorem C58_fhew : forall tooLarge, tooLarge (fl_SecretKeyStdDev ParamsFHEWBinary) = false ->
  exists g, FHEWCompile tooLarge 64 ParamsFHEWBinary = Ok g /\ base_good 64 (fl_Base ParamsFHEWBinary) (fp_base g) /\ p_blockSize (fp_base g) = 1 /\ 0 < fp_windowSize g.
Proof. exact shippedFHEW. Qed.
Print Assumptions C58_fhew.
Theorem C58_sanitization : exists g, SanCompile 64 ParamsSanitizeBinary = Ok g /\ base_good 64 (sl_Base ParamsSanitizeBinary) (sp_base g) /\ p_glweRank (sp_base g) = 1 /\ p_order (sp_base g) = OrderKeySwitchBlindRotate.
Proof. exact shippedSan. Qed.
Print Assumptions C58_sanitization.
Theorem C58_bfv : exists g, CompileGadget 64 ParamsBFVKeySwitchLogN11 = Ok g /\ gadget_ok 64 g.
Proof. exact shippedBFV. Qed.
Print Assumptions C58_bfv.
Example C58_x_ex : exists g, MLCompile 64 ParamsUint2LUT4 = Ok g /\ mlp_logLUTCount g = 2 /\ p_polyRank (mlp_base g) = 2048.
Proof. eexists. split; [vm_compute; reflexivity|]. vm_compute. repeat split. Qed.
