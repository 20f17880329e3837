(** Specification vocabulary for parameters (C41, C58). *)
From Verif Require Import Base ModelNum ModelGadget SpecNum SpecGadget ModelParams.

(** A float64 bit pattern that is a positive number, +Inf, or NaN. *)
Definition f64_pos_or_nan (x : Z) : Prop := f64_nan x = true \/ 0 < x < 2 ^ 63.

(** What the algorithms rely on. *)
Definition params_ok (w : Z) (p : params) : Prop :=
  1 <= p_lweDimension p <= p_glweDimension p /\
  p_glweDimension p = p_glweRank p * p_polyRank p /\
  1 <= p_glweRank p /\
  0 <= p_logPolyRank p /\ p_polyRank p = 2 ^ p_logPolyRank p /\
  1 <= p_lutExtendFactor p /\ p_lutSize p = p_lutExtendFactor p * p_polyRank p /\
  1 <= p_blockSize p /\ 1 <= p_blockCount p /\ p_lweDimension p = p_blockSize p * p_blockCount p /\
  f64_pos_or_nan (p_lweStdDev p) /\ f64_pos_or_nan (p_glweStdDev p) /\
  gadget_ok w (p_blindRotate p) /\ gadget_ok w (p_keySwitch p) /\
  (p_order p = OrderKeySwitchBlindRotate \/ p_order p = OrderBlindRotateKeySwitch) /\
  p_logQ p = w.

(** The scale is the distance between encoded messages: mm of them fill half of the torus. *)
Definition scale_exact (w mm scale : Z) : Prop := scale * mm = 2 ^ (w - 1).

(** A literal whose fields are Go values and whose products do not overflow a 64-bit int. *)
Definition lit_sane (w : Z) (p : paramsLit) : Prop :=
  sword 64 (l_LWEDimension p) /\ sword 64 (l_PolyRank p) /\ sword 64 (l_GLWERank p) /\
  sword 64 (l_LUTSize p) /\ sword 64 (l_BlockSize p) /\ uword 64 (l_LWEStdDev p) /\ uword 64 (l_GLWEStdDev p) /\
  uword w (l_MessageModulus p) /\ uword w (gl_base (l_BlindRotate p)) /\ uword w (gl_base (l_KeySwitch p)) /\
  sword 64 (l_GLWERank p * l_PolyRank p) /\
  0 <= gl_level (l_BlindRotate p) * 64 < 2 ^ 63 /\ 0 <= gl_level (l_KeySwitch p) * 64 < 2 ^ 63.

(** The conditions on a literal stated in the documentation of ParametersLiteral. *)
Definition lit_valid (w : Z) (p : paramsLit) : Prop :=
  let blk := if l_BlockSize p =? 0 then 1 else l_BlockSize p in
  1 <= l_LWEDimension p <= l_GLWERank p * l_PolyRank p /\ 1 <= l_GLWERank p /\
  power_of_two (l_PolyRank p) /\
  (l_LUTSize p = 0 \/ exists e, 1 <= e /\ l_LUTSize p = e * l_PolyRank p) /\
  0 < l_LWEStdDev p < 2 ^ 63 /\ 0 < l_GLWEStdDev p < 2 ^ 63 /\
  1 <= blk /\ (blk | l_LWEDimension p) /\
  (l_Order p = 0 \/ l_Order p = 1) /\
  (exists br, CompileGadget w (l_BlindRotate p) = Ok br) /\ (exists ks, CompileGadget w (l_KeySwitch p) = Ok ks).

(** Shipped sets (C58). *)
Definition compiles (w : Z) (p : paramsLit) : Prop :=
  exists g, Compile w p = Ok g /\ params_ok w g /\ scale_exact w (p_messageModulus g) (p_scale g) /\
            16 <= p_polyRank g /\ Compile w (Literal g) = Ok g.
Definition mkcompiles (w : Z) (p : mkParamsLit) : Prop :=
  exists g, MkCompile w p = Ok g /\ params_ok w (mp_sub g) /\ scale_exact w (p_messageModulus (mp_sub g)) (p_scale (mp_sub g)) /\
            16 <= p_polyRank (mp_sub g) /\ 2 <= mp_partyCount g /\ p_glweRank (mp_sub g) = 1 /\
            p_lutSize (mp_sub g) = p_polyRank (mp_sub g) /\ gadget_ok w (mp_acc g) /\ gadget_ok w (mp_relin g).
