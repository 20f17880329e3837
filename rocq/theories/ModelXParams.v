(** Parameters of xtfhe: manylut_params.go, circuit_bootstrap_params.go, fhew_params.go, sanitization_params.go
    and the shipped sets of the *_params_list.go files.  No proofs in this file. *)
From Verif Require Import Base ModelNum ModelFloat ModelGadget ModelParams.

(** manylut_params.go:11-19, 43-51. *)
Record mlParamsLit : Type := mkMlLit { mll_Base : paramsLit; mll_LUTCount : Z }.
Record mlParams : Type := mkMlParams { mlp_base : params; mlp_lutCount : Z; mlp_logLUTCount : Z }.
(** manylut_params.go:24-40 Compile. *)
Definition MLCompile (w : Z) (p : mlParamsLit) : res mlParams :=
  match Compile w (mll_Base p) with
  | Ok b =>
    if negb (p_polyRank b =? p_lutSize b) then Panic
    else if negb (IsPowerOfTwo (mll_LUTCount p)) then Panic
    else match Log2 (mll_LUTCount p) with Ok l => Ok (mkMlParams b (mll_LUTCount p) l) | _ => Panic end
  | _ => Panic
  end.

(** circuit_bootstrap_params.go:8-19, 35-45. *)
Record cbParamsLit : Type := mkCbLit { cbl_ManyLUT : mlParamsLit; cbl_SchemeSwitch : gadgetLit; cbl_Trace : gadgetLit; cbl_Output : gadgetLit }.
Record cbParams : Type := mkCbParams { cbp_manyLUT : mlParams; cbp_schemeSwitch : gadget; cbp_trace : gadget; cbp_output : gadget }.
(** circuit_bootstrap_params.go:24-32 Compile. *)
Definition CBCompile (w : Z) (p : cbParamsLit) : res cbParams :=
  match MLCompile w (cbl_ManyLUT p), CompileGadget w (cbl_SchemeSwitch p), CompileGadget w (cbl_Trace p), CompileGadget w (cbl_Output p) with
  | Ok m, Ok s, Ok t, Ok o => Ok (mkCbParams m s t o)
  | _, _, _, _ => Panic
  end.

(** fhew_params.go:13-23, 54-66. *)
Record fhewParamsLit : Type := mkFhewLit { fl_Base : paramsLit; fl_SecretKeyStdDev : Z; fl_WindowSize : Z }.
Record fhewParams : Type := mkFhewParams { fp_base : params; fp_secretKeyStdDev : Z; fp_windowSize : Z }.
(** fhew_params.go:28-52 Compile.  tooLarge stands for the float64 comparison
    [math.Log2(SecretKeyStdDev)+logQ+math.Log2(GaussianTailCut) > ShortLogBound] (42), which uses the runtime's Log2. *)
Definition FHEWCompile (tooLarge : Z -> bool) (w : Z) (p : fhewParamsLit) : res fhewParams :=
  match Compile w (fl_Base p) with
  | Ok b =>
    if negb (p_blockSize b =? 1) then Panic
    else if negb (p_polyRank b =? p_lutSize b) then Panic
    else if f64_le0 (fl_SecretKeyStdDev p) then Panic
    else if tooLarge (fl_SecretKeyStdDev p) then Panic
    else if fl_WindowSize p <=? 0 then Panic
    else Ok (mkFhewParams b (fl_SecretKeyStdDev p) (fl_WindowSize p))
  | _ => Panic
  end.

(** sanitization_params.go:11-30, 70-93 (floatQ = 2^w is exact and left out). *)
Record sanParamsLit : Type := mkSanLit { sl_Base : paramsLit; sl_RandSigma : Z; sl_RandTau : Z; sl_LinEvalSigma : Z; sl_LinEvalTau : Z }.
Record sanParams : Type := mkSanParams { sp_base : params; sp_randSigma : Z; sp_randTau : Z; sp_linEvalSigma : Z; sp_linEvalTau : Z }.
(** sanitization_params.go:35-67 Compile. *)
Definition SanCompile (w : Z) (p : sanParamsLit) : res sanParams :=
  match Compile w (sl_Base p) with
  | Ok b =>
    if negb (p_glweRank b =? 1) then Panic
    else if negb (p_polyRank b =? p_lutSize b) then Panic
    else if negb (p_order b =? OrderKeySwitchBlindRotate) then Panic
    else if f64_le0 (sl_RandSigma p) then Panic
    else if f64_le0 (sl_RandTau p) then Panic
    else if f64_le0 (sl_LinEvalSigma p) then Panic
    else if f64_le0 (sl_LinEvalTau p) then Panic
    else Ok (mkSanParams b (sl_RandSigma p) (sl_RandTau p) (sl_LinEvalSigma p) (sl_LinEvalTau p))
  | _ => Panic
  end.

(** ** Shipped parameter sets *)
(** manylut_params_list.go:7-34 (uint32). *)
Definition ParamsBinaryLUT2 : mlParamsLit :=
  mkMlLit (mkLit 687 1 1024 1024
    (f64_of_dec 2024849643226141 20)
    (f64_of_dec 444843247619562 22)
    3 2 (mkGadgetLit 64 3) (mkGadgetLit 8 4) 1) 2.
(** manylut_params_list.go:38-64 (uint32). *)
Definition ParamsBinaryCompactLUT2 : mlParamsLit :=
  mkMlLit (mkLit 687 1 1024 1024
    (f64_of_dec 2024849643226141 20)
    (f64_of_dec 444843247619562 22)
    3 2 (mkGadgetLit 64 3) (mkGadgetLit 16 3) 0) 2.
(** manylut_params_list.go:67-94 (uint64). *)
Definition ParamsUint2LUT4 : mlParamsLit :=
  mkMlLit (mkLit 804 1 2048 2048
    (f64_of_dec 2433797421598353 21)
    (f64_of_dec 3472576015484159 31)
    4 4 (mkGadgetLit 8388608 1) (mkGadgetLit 64 2) 0) 4.
(** manylut_params_list.go:97-126 (uint64). *)
Definition ParamsUint3LUT2 : mlParamsLit :=
  mkMlLit (mkLit 804 1 2048 2048
    (f64_of_dec 2433797421598353 21)
    (f64_of_dec 3472576015484159 31)
    4 8 (mkGadgetLit 8388608 1) (mkGadgetLit 64 2) 0) 2.
(** circuit_bootstrap_params_list.go:8-47 (uint64). *)
Definition ParamsCircuitBootstrapMedium : cbParamsLit :=
  mkCbLit (mkMlLit (mkLit 571 1 2048 0
    (f64_of_dec 16996595057126976 20)
    (f64_of_dec 3472576015484159 31)
    0 2 (mkGadgetLit 32768 2) (mkGadgetLit 4 5) 1) 4)
    (mkGadgetLit 131072 2) (mkGadgetLit 8192 3) (mkGadgetLit 16 4).
(** circuit_bootstrap_params_list.go:51-90 (uint64). *)
Definition ParamsCircuitBootstrapLarge : cbParamsLit :=
  mkCbLit (mkMlLit (mkLit 571 1 2048 0
    (f64_of_dec 16996595057126976 20)
    (f64_of_dec 3472576015484159 31)
    0 2 (mkGadgetLit 32768 2) (mkGadgetLit 4 5) 1) 4)
    (mkGadgetLit 131072 2) (mkGadgetLit 256 6) (mkGadgetLit 32 4).
(** fhew_params_list.go:7-33 (uint64). *)
Definition ParamsFHEWBinary : fhewParamsLit :=
  mkFhewLit (mkLit 447 1 1024 0
    (f64_of_dec 143051147460938 18)
    (f64_of_dec 393811205889363 23)
    0 2 (mkGadgetLit 1024 3) (mkGadgetLit 8 4) 1)
    (f64_of_dec 17347234759768072 35) 10.
(** sanitization_params_list.go:7-36 (uint64). *)
Definition ParamsSanitizeBinary : sanParamsLit :=
  mkSanLit (mkLit 612 1 2048 0
    (f64_of_dec 7905932600864546 20)
    (f64_of_dec 3472576015484159 31)
    1 2 (mkGadgetLit 2048 3) (mkGadgetLit 8 4) 0)
    (f64_of_dec 8449279779330043 32) (f64_of_dec 570793820594853 24) (f64_of_dec 12106655611491527 33) (f64_of_dec 8864348118988643 18).
(** bfv_params_list.go:8-11 (uint64). *)
Definition ParamsBFVKeySwitchLogN11 : gadgetLit :=
  mkGadgetLit 512 4.
