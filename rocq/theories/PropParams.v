(** Properties C41 and C58: compiled parameters. *)
From Verif Require Import Base ModelNum ModelFloat ModelGadget ModelParams SpecNum SpecGadget SpecParams PfGadget PfParams.

(** ** C41 *)
Theorem C41_Compile_sound : forall w p g, 0 < w <= 64 -> lit_sane w p -> Compile w p = Ok g -> params_ok w g.
Proof. exact Compile_sound. Qed.
Print Assumptions C41_Compile_sound.
(** The compiled values are the literal's, with the two documented defaults. *)
Theorem C41_Compile_fields : forall w p g, Compile w p = Ok g ->
  p_lweDimension g = l_LWEDimension p /\ p_glweRank g = l_GLWERank p /\ p_polyRank g = l_PolyRank p /\
  p_lutSize g = (if l_LUTSize p =? 0 then l_PolyRank p else l_LUTSize p) /\
  p_blockSize g = (if l_BlockSize p =? 0 then 1 else l_BlockSize p) /\
  p_lweStdDev g = l_LWEStdDev p /\ p_glweStdDev g = l_GLWEStdDev p /\
  p_messageModulus g = l_MessageModulus p /\ p_scale g = scaleOf w (l_MessageModulus p) /\ p_order g = l_Order p /\
  CompileGadget w (l_BlindRotate p) = Ok (p_blindRotate g) /\ CompileGadget w (l_KeySwitch p) = Ok (p_keySwitch g).
Proof. exact Compile_fields. Qed.
Print Assumptions C41_Compile_fields.
Theorem C41_Compile_complete : forall w p, 0 < w <= 64 -> lit_sane w p -> lit_valid w p -> exists g, Compile w p = Ok g.
Proof. exact Compile_complete. Qed.
Print Assumptions C41_Compile_complete.
Theorem C41_Literal_roundtrip : forall w p g, 0 < w <= 64 -> lit_sane w p -> Compile w p = Ok g -> Compile w (Literal g) = Ok g.
Proof. exact Compile_Literal. Qed.
Print Assumptions C41_Literal_roundtrip.
(** Power-of-two message modulus up to Q/2: the scale is exactly Q/(2 mm). *)
Theorem C41_scale_pow2 : forall w k, 0 < w -> 0 <= k <= w - 1 -> scale_exact w (2 ^ k) (scaleOf w (2 ^ k)).
Proof. exact scale_pow2_exact. Qed.
Print Assumptions C41_scale_pow2.
Theorem C41_multi_key : forall w p g, 0 < w <= 64 -> lit_sane w (ml_Sub p) ->
  uword w (gl_base (ml_Acc p)) -> uword w (gl_base (ml_Relin p)) ->
  0 <= gl_level (ml_Acc p) * 64 < 2 ^ 63 -> 0 <= gl_level (ml_Relin p) * 64 < 2 ^ 63 ->
  MkCompile w p = Ok g ->
  params_ok w (mp_sub g) /\ 1 <= mp_partyCount g /\ p_glweRank (mp_sub g) = 1 /\
  p_lutSize (mp_sub g) = p_polyRank (mp_sub g) /\ gadget_ok w (mp_acc g) /\ gadget_ok w (mp_relin g) /\
  MkCompile w (MkLiteral g) = Ok g.
Proof. exact MkCompile_sound. Qed.
Print Assumptions C41_multi_key.

Example C41_ex : lit_sane 32 ParamsBinary /\ lit_sane 64 ParamsUint8 /\
  exists g, Compile 64 ParamsUint8 = Ok g /\ p_lutExtendFactor g = 9 /\ p_blockCount g = 145 /\ p_scale g = 2 ^ 55.
Proof.
  split; [sane|]. split; [sane|].
  eexists. split; [vm_compute; reflexivity|]. vm_compute. repeat split; reflexivity.
Qed.

(** Findings.  The int product GLWERank*PolyRank may wrap: the compiled glweDimension is then not the product. *)
Definition bigRank : paramsLit :=
  mkLit 16 (2 ^ 60 + 1) 16 0 (f64_of_dec 1 3) (f64_of_dec 1 3) 1 2 (mkGadgetLit 64 3) (mkGadgetLit 8 4) 1.
Theorem C41_overflow_refuted : exists p g, Compile 32 p = Ok g /\ p_glweDimension g <> p_glweRank g * p_polyRank g.
Proof. exists bigRank. eexists. split; [vm_compute; reflexivity|]. vm_compute. discriminate. Qed.
Print Assumptions C41_overflow_refuted.
(** NaN passes the [<= 0] checks on the standard deviations. *)
Theorem C41_NaN_refuted : exists p g, lit_sane 32 p /\ Compile 32 p = Ok g /\ f64_nan (p_lweStdDev g) = true /\ f64_nan (p_glweStdDev g) = true.
Proof.
  exists (mkLit 16 1 16 0 (2047 * 2 ^ 52 + 1) (2047 * 2 ^ 52 + 1) 1 2 (mkGadgetLit 64 3) (mkGadgetLit 8 4) 1).
  eexists. split; [sane|]. split; [vm_compute; reflexivity|]. split; vm_compute; reflexivity.
Qed.
Print Assumptions C41_NaN_refuted.
(** MessageModulus = 0 is accepted (the scale then is an unspecified float-to-integer conversion of +Inf). *)
Theorem C41_zero_modulus_refuted : exists p g, lit_sane 32 p /\ Compile 32 p = Ok g /\ p_messageModulus g = 0.
Proof.
  exists (mkLit 16 1 16 0 (f64_of_dec 1 3) (f64_of_dec 1 3) 1 0 (mkGadgetLit 64 3) (mkGadgetLit 8 4) 1).
  eexists. split; [sane|]. split; vm_compute; reflexivity.
Qed.
Print Assumptions C41_zero_modulus_refuted.
(** PolyRank below 16 is accepted although poly.NewEvaluator and poly.NewPoly panic on it (MinRank = 16). *)
Theorem C41_small_rank_refuted : exists p g, lit_sane 32 p /\ Compile 32 p = Ok g /\ p_polyRank g < 16.
Proof.
  exists (mkLit 2 1 2 0 (f64_of_dec 1 3) (f64_of_dec 1 3) 1 2 (mkGadgetLit 64 3) (mkGadgetLit 8 4) 1).
  eexists. split; [sane|]. split; vm_compute; reflexivity.
Qed.
Print Assumptions C41_small_rank_refuted.

(** ** C58 *)
Theorem C58_uint32 : Forall (compiles 32) paramsList_uint32.
Proof. exact shipped32. Qed.
Print Assumptions C58_uint32.
Theorem C58_uint64 : Forall (compiles 64) paramsList_uint64.
Proof. exact shipped64. Qed.
Print Assumptions C58_uint64.
Theorem C58_multi_key : Forall (mkcompiles 64) mkParamsList.
Proof. exact shippedMk. Qed.
Print Assumptions C58_multi_key.
Example C58_ex : length paramsList_uint32 = 3%nat /\ length paramsList_uint64 = 7%nat /\ length mkParamsList = 5%nat.
Proof. repeat split. Qed.
