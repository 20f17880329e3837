(** C41, extended schemes: what Compile of the xtfhe parameter literals accepts. *)
From Verif Require Import Base ModelNum ModelFloat ModelGadget ModelParams ModelXParams SpecNum SpecGadget SpecParams PfXParams PfXParams2.

(** Exactly the literals whose base set compiles, with one table entry per coefficient and a power of two of tables, compile;
    the logarithm stored is the right one. *)
Theorem C41_ManyLUT_iff : forall w p g, 0 < w <= 64 -> lit_sane w (mll_Base p) ->
  (MLCompile w p = Ok g <->
   Compile w (mll_Base p) = Ok (mlp_base g) /\ p_lutSize (mlp_base g) = p_polyRank (mlp_base g) /\
   mlp_lutCount g = mll_LUTCount p /\ 0 <= mlp_logLUTCount g /\ mlp_lutCount g = 2 ^ mlp_logLUTCount g).
Proof. exact ml_compile. Qed.
Print Assumptions C41_ManyLUT_iff.
Theorem C41_CircuitBootstrap_sound : forall w p g, 0 < w <= 64 -> lit_sane w (mll_Base (cbl_ManyLUT p)) ->
  (forall l, In l [cbl_SchemeSwitch p; cbl_Trace p; cbl_Output p] -> uword w (gl_base l) /\ 0 <= gl_level l * 64 < 2 ^ 63) ->
  CBCompile w p = Ok g ->
  params_ok w (mlp_base (cbp_manyLUT g)) /\ p_lutSize (mlp_base (cbp_manyLUT g)) = p_polyRank (mlp_base (cbp_manyLUT g)) /\
  0 <= mlp_logLUTCount (cbp_manyLUT g) /\ mll_LUTCount (cbl_ManyLUT p) = 2 ^ mlp_logLUTCount (cbp_manyLUT g) /\
  gadget_ok w (cbp_schemeSwitch g) /\ gadget_ok w (cbp_trace g) /\ gadget_ok w (cbp_output g).
Proof. exact cb_sound. Qed.
Print Assumptions C41_CircuitBootstrap_sound.
Theorem C41_FHEW_iff : forall tooLarge w p g, uword 64 (fl_SecretKeyStdDev p) ->
  (FHEWCompile tooLarge w p = Ok g <->
   Compile w (fl_Base p) = Ok (fp_base g) /\ p_blockSize (fp_base g) = 1 /\ p_lutSize (fp_base g) = p_polyRank (fp_base g) /\
   fp_secretKeyStdDev g = fl_SecretKeyStdDev p /\ fp_windowSize g = fl_WindowSize p /\
   f64_pos_or_nan (fp_secretKeyStdDev g) /\ tooLarge (fp_secretKeyStdDev g) = false /\ 1 <= fp_windowSize g).
Proof. exact fhew_compile. Qed.
Print Assumptions C41_FHEW_iff.
Theorem C41_Sanitization_iff : forall w p g, uword 64 (sl_RandSigma p) -> uword 64 (sl_RandTau p) -> uword 64 (sl_LinEvalSigma p) -> uword 64 (sl_LinEvalTau p) ->
  (SanCompile w p = Ok g <->
   Compile w (sl_Base p) = Ok (sp_base g) /\ p_glweRank (sp_base g) = 1 /\ p_lutSize (sp_base g) = p_polyRank (sp_base g) /\ p_order (sp_base g) = OrderKeySwitchBlindRotate /\
   sp_randSigma g = sl_RandSigma p /\ sp_randTau g = sl_RandTau p /\ sp_linEvalSigma g = sl_LinEvalSigma p /\ sp_linEvalTau g = sl_LinEvalTau p /\
   f64_pos_or_nan (sp_randSigma g) /\ f64_pos_or_nan (sp_randTau g) /\ f64_pos_or_nan (sp_linEvalSigma g) /\ f64_pos_or_nan (sp_linEvalTau g)).
Proof. exact san_compile. Qed.
Print Assumptions C41_Sanitization_iff.

(** A small literal that compiles, and neighbours that do not. *)
Definition xlit (blk order : Z) : paramsLit := mkLit 12 1 16 0 (2 ^ 61) (2 ^ 61) blk 4 (mkGadgetLit 16 2) (mkGadgetLit 4 3) order.
Definition isOk {A} (r : res A) : bool := match r with Ok _ => true | _ => false end.
Example C41_xparams_ex :
  (isOk (MLCompile 32 (mkMlLit (xlit 3 0) 2)), isOk (MLCompile 32 (mkMlLit (xlit 3 0) 3))) = (true, false) /\
  (isOk (FHEWCompile (fun _ => false) 32 (mkFhewLit (xlit 0 0) (2 ^ 61) 5)), isOk (FHEWCompile (fun _ => false) 32 (mkFhewLit (xlit 0 0) (2 ^ 61) 0)),
   isOk (FHEWCompile (fun _ => false) 32 (mkFhewLit (xlit 3 0) (2 ^ 61) 5)), isOk (FHEWCompile (fun _ => false) 32 (mkFhewLit (xlit 0 0) (2 ^ 63) 5))) = (true, false, false, false) /\
  (isOk (SanCompile 32 (mkSanLit (xlit 3 0) 5 6 7 8)), isOk (SanCompile 32 (mkSanLit (xlit 3 1) 5 6 7 8)), isOk (SanCompile 32 (mkSanLit (xlit 3 0) 5 6 0 8))) = (true, false, false) /\
  (isOk (CBCompile 32 (mkCbLit (mkMlLit (xlit 3 0) 2) (mkGadgetLit 16 2) (mkGadgetLit 4 3) (mkGadgetLit 8 2))), isOk (CBCompile 32 (mkCbLit (mkMlLit (xlit 3 0) 2) (mkGadgetLit 16 2) (mkGadgetLit 4 3) (mkGadgetLit 9 2)))) = (true, false).
Proof. vm_compute. repeat split. Qed.
(** Finding: the number of tables is not compared with the number of coefficients: 2^40 tables on 16 coefficients compile. *)
Theorem C41_ManyLUT_count_refuted : exists p g, lit_sane 32 (mll_Base p) /\ MLCompile 32 p = Ok g /\ p_polyRank (mlp_base g) < mlp_lutCount g.
Proof.
  exists (mkMlLit (xlit 3 0) (2 ^ 40)). destruct (MLCompile 32 (mkMlLit (xlit 3 0) (2 ^ 40))) as [g| |] eqn:E; [|vm_compute in E; discriminate..].
  exists g. split; [unfold lit_sane, sword, uword; cbn; lia|]. split; [reflexivity|]. vm_compute in E. injection E as <-. reflexivity.
Qed.
Print Assumptions C41_ManyLUT_count_refuted.
