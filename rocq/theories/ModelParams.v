(** Model of tfhe/params.go (parameters), tfhe/params_list.go, mktfhe/params.go and
    mktfhe/params_list.go.  No proofs in this file.
    Go [int] fields are Z (64-bit; products wrap), a float64 is its 64-bit pattern. *)
From Verif Require Import Base ModelNum ModelFloat ModelGadget.

(** ** float64 bit patterns *)
(** [x <= 0] on a bit pattern: false for NaN, true for zeros and negative numbers. *)
Definition f64_nan (x : Z) : bool := (Z.land (Z.shiftr x 52) 2047 =? 2047) && negb (Z.land x (2 ^ 52 - 1) =? 0).
Definition f64_le0 (x : Z) : bool := negb (f64_nan x) && ((2 ^ 63 <=? x) || (x =? 0)).
(** The bit pattern of the decimal constant n / 10^k, 0 < n/10^k in the normal range (how the Go
    compiler reads the literals of params_list.go). *)
Definition f64_of_dec (n k : Z) : Z :=
  let d := 10 ^ k in
  let e := flexp n d in
  let '(a, b) := scale2 n d e in
  let m := rne a b in
  if m =? 2 ^ 53 then (e + 53 + 1023) * 2 ^ 52 else (e + 52 + 1023) * 2 ^ 52 + (m - 2 ^ 52).

(** tfhe/params.go:207-225 BootstrapOrder. *)
Definition OrderKeySwitchBlindRotate : Z := 0.
Definition OrderBlindRotateKeySwitch : Z := 1.

(** tfhe/params.go:241-300 ParametersLiteral. *)
Record paramsLit : Type := mkLit {
  l_LWEDimension : Z; l_GLWERank : Z; l_PolyRank : Z; l_LUTSize : Z;
  l_LWEStdDev : Z; l_GLWEStdDev : Z; l_BlockSize : Z; l_MessageModulus : Z;
  l_BlindRotate : gadgetLit; l_KeySwitch : gadgetLit; l_Order : Z }.

(** tfhe/params.go:440-485 Parameters (floatQ = 2^logQ is exact and left out). *)
Record params : Type := mkParams {
  p_lweDimension : Z; p_glweDimension : Z; p_glweRank : Z; p_polyRank : Z; p_logPolyRank : Z;
  p_lutSize : Z; p_lutExtendFactor : Z; p_lweStdDev : Z; p_glweStdDev : Z;
  p_blockSize : Z; p_blockCount : Z; p_messageModulus : Z; p_scale : Z; p_logQ : Z;
  p_blindRotate : gadget; p_keySwitch : gadget; p_order : Z }.

(** params.go:416 DivRound(1<<(size-1), MessageModulus).  MessageModulus = 0 divides by zero in
    float64 and converts +Inf to T, which Go leaves unspecified; the model returns 0 there and no
    theorem depends on that value. *)
Definition scaleOf (w mm : Z) : Z := if mm =? 0 then 0 else wrap w (DivRound (2 ^ (w - 1)) mm).

(** tfhe/params.go:378-437 Compile. *)
Definition Compile (w : Z) (p0 : paramsLit) : res params :=
  let lut := if l_LUTSize p0 =? 0 then l_PolyRank p0 else l_LUTSize p0 in
  let blk := if l_BlockSize p0 =? 0 then 1 else l_BlockSize p0 in
  let dim := swrap 64 (l_GLWERank p0 * l_PolyRank p0) in
  if l_LWEDimension p0 <=? 0 then Panic
  else if dim <? l_LWEDimension p0 then Panic
  else if l_GLWERank p0 <=? 0 then Panic
  else if lut <? l_PolyRank p0 then Panic
  else if f64_le0 (l_LWEStdDev p0) then Panic
  else if f64_le0 (l_GLWEStdDev p0) then Panic
  else if blk <=? 0 then Panic
  else if negb (Z.rem (l_LWEDimension p0) blk =? 0) then Panic
  else if l_PolyRank p0 =? 0 then Panic (* division by zero in the next check *)
  else if negb (Z.rem lut (l_PolyRank p0) =? 0) then Panic
  else if negb (IsPowerOfTwo (l_PolyRank p0)) then Panic
  else if negb ((l_Order p0 =? 0) || (l_Order p0 =? 1)) then Panic
  else match Log2 (l_PolyRank p0), CompileGadget w (l_BlindRotate p0), CompileGadget w (l_KeySwitch p0) with
       | Ok lN, Ok br, Ok ks =>
         Ok (mkParams (l_LWEDimension p0) dim (l_GLWERank p0) (l_PolyRank p0) lN
               lut (lut / l_PolyRank p0) (l_LWEStdDev p0) (l_GLWEStdDev p0)
               blk (l_LWEDimension p0 / blk) (l_MessageModulus p0) (scaleOf w (l_MessageModulus p0)) w
               br ks (l_Order p0))
       | _, _, _ => Panic
       end.

(** tfhe/params.go:629-648 Literal. *)
Definition Literal (p : params) : paramsLit :=
  mkLit (p_lweDimension p) (p_glweRank p) (p_polyRank p) (p_lutSize p) (p_lweStdDev p) (p_glweStdDev p)
        (p_blockSize p) (p_messageModulus p) (GadgetLiteral (p_blindRotate p)) (GadgetLiteral (p_keySwitch p)) (p_order p).

(** tfhe/params.go:488-493 DefaultLWEDimension, 620-626 IsPublicKeyEncryptable. *)
Definition DefaultLWEDimension (p : params) : Z :=
  if p_order p =? OrderBlindRotateKeySwitch then p_lweDimension p else p_glweDimension p.
Definition IsPublicKeyEncryptable (p : params) : bool := p_order p =? OrderKeySwitchBlindRotate.

(** mktfhe/params.go:15-33 ParametersLiteral, 139-153 Parameters. *)
Record mkParamsLit : Type := mkMkLit { ml_Sub : paramsLit; ml_PartyCount : Z; ml_Acc : gadgetLit; ml_Relin : gadgetLit }.
Record mkParams_ : Type := mkMkParams { mp_sub : params; mp_partyCount : Z; mp_acc : gadget; mp_relin : gadget }.

(** mktfhe/params.go:117-137 Compile. *)
Definition MkCompile (w : Z) (p : mkParamsLit) : res mkParams_ :=
  match Compile w (ml_Sub p) with
  | Ok sub =>
    if ml_PartyCount p <=? 0 then Panic
    else if negb (p_glweRank sub =? 1) then Panic
    else if negb (p_lutSize sub =? p_polyRank sub) then Panic
    else match CompileGadget w (ml_Acc p), CompileGadget w (ml_Relin p) with
         | Ok a, Ok r => Ok (mkMkParams sub (ml_PartyCount p) a r)
         | _, _ => Panic
         end
  | _ => Panic
  end.
(** mktfhe/params.go:284-293 Literal. *)
Definition MkLiteral (p : mkParams_) : mkParamsLit :=
  mkMkLit (Literal (mp_sub p)) (mp_partyCount p) (GadgetLiteral (mp_acc p)) (GadgetLiteral (mp_relin p)).

(** ** Shipped parameter sets *)
(** tfhe/params_list.go:5-28 (uint32). *)
Definition ParamsBinary : paramsLit :=
  mkLit 687 2 512 512
    (f64_of_dec 2120846893069971872305794214 32)
    (f64_of_dec 2685935683878752834630074 32)
    3 2 (mkGadgetLit 64 3) (mkGadgetLit 8 4) 1.
(** tfhe/params_list.go:32-55 (uint32). *)
Definition ParamsBinaryCompact : paramsLit :=
  mkLit 687 2 512 512
    (f64_of_dec 2120846893069971872305794214 32)
    (f64_of_dec 2685935683878752834630074 32)
    3 2 (mkGadgetLit 64 3) (mkGadgetLit 16 3) 0.
(** tfhe/params_list.go:58-78 (uint32). *)
Definition ParamsBinaryOriginal : paramsLit :=
  mkLit 630 1 1024 0
    (f64_of_dec 30517578125 15)
    (f64_of_dec 298023223876953125 25)
    0 2 (mkGadgetLit 128 3) (mkGadgetLit 4 8) 1.
(** tfhe/params_list.go:81-104 (uint64). *)
Definition ParamsUint2 : paramsLit :=
  mkLit 687 3 512 512
    (f64_of_dec 2120846893069971872305794214 32)
    (f64_of_dec 231841227527049948463 32)
    3 4 (mkGadgetLit 262144 1) (mkGadgetLit 16 3) 0.
(** tfhe/params_list.go:107-130 (uint64). *)
Definition ParamsUint3 : paramsLit :=
  mkLit 820 2 1024 1024
    (f64_of_dec 251676160959795544987084234 32)
    (f64_of_dec 22204460492503131 32)
    4 8 (mkGadgetLit 8388608 1) (mkGadgetLit 64 2) 0.
(** tfhe/params_list.go:133-156 (uint64). *)
Definition ParamsUint4 : paramsLit :=
  mkLit 820 1 2048 2048
    (f64_of_dec 251676160959795544987084234 32)
    (f64_of_dec 22204460492503131 32)
    4 16 (mkGadgetLit 4194304 1) (mkGadgetLit 32 3) 0.
(** tfhe/params_list.go:159-182 (uint64). *)
Definition ParamsUint5 : paramsLit :=
  mkLit 1071 1 2048 2048
    (f64_of_dec 7088226765410429399593757 32)
    (f64_of_dec 22204460492503131 32)
    7 32 (mkGadgetLit 4194304 1) (mkGadgetLit 64 3) 0.
(** tfhe/params_list.go:185-208 (uint64). *)
Definition ParamsUint6 : paramsLit :=
  mkLit 1071 1 2048 4096
    (f64_of_dec 7088226765410429399593757 32)
    (f64_of_dec 22204460492503131 32)
    7 64 (mkGadgetLit 4194304 1) (mkGadgetLit 64 3) 0.
(** tfhe/params_list.go:211-234 (uint64). *)
Definition ParamsUint7 : paramsLit :=
  mkLit 1160 1 2048 8192
    (f64_of_dec 1966220007498402695211596 32)
    (f64_of_dec 22204460492503131 32)
    8 128 (mkGadgetLit 4194304 1) (mkGadgetLit 128 3) 0.
(** tfhe/params_list.go:237-260 (uint64). *)
Definition ParamsUint8 : paramsLit :=
  mkLit 1160 1 2048 18432
    (f64_of_dec 1966220007498402695211596 32)
    (f64_of_dec 22204460492503131 32)
    8 256 (mkGadgetLit 4194304 1) (mkGadgetLit 128 3) 0.
Definition paramsList_uint32 : list paramsLit := [ParamsBinary; ParamsBinaryCompact; ParamsBinaryOriginal].
Definition paramsList_uint64 : list paramsLit := [ParamsUint2; ParamsUint3; ParamsUint4; ParamsUint5; ParamsUint6; ParamsUint7; ParamsUint8].
(** mktfhe/params_list.go:7-42 (uint64). *)
Definition ParamsBinaryParty2 : mkParamsLit :=
  mkMkLit (mkLit 560 1 2048 0
    (f64_of_dec 305 7)
    (f64_of_dec 463 20)
    2 2 (mkGadgetLit 4096 3) (mkGadgetLit 4 8) 1)
    2 (mkGadgetLit 64 2) (mkGadgetLit 1024 3).
(** mktfhe/params_list.go:45-80 (uint64). *)
Definition ParamsBinaryParty4 : mkParamsLit :=
  mkMkLit (mkLit 560 1 2048 0
    (f64_of_dec 305 7)
    (f64_of_dec 463 20)
    2 2 (mkGadgetLit 256 5) (mkGadgetLit 4 8) 1)
    4 (mkGadgetLit 256 2) (mkGadgetLit 64 7).
(** mktfhe/params_list.go:83-118 (uint64). *)
Definition ParamsBinaryParty8 : mkParamsLit :=
  mkMkLit (mkLit 560 1 2048 0
    (f64_of_dec 305 7)
    (f64_of_dec 463 20)
    2 2 (mkGadgetLit 512 4) (mkGadgetLit 4 8) 1)
    8 (mkGadgetLit 64 3) (mkGadgetLit 16 8).
(** mktfhe/params_list.go:121-156 (uint64). *)
Definition ParamsBinaryParty16 : mkParamsLit :=
  mkMkLit (mkLit 560 1 2048 0
    (f64_of_dec 305 7)
    (f64_of_dec 463 20)
    2 2 (mkGadgetLit 256 5) (mkGadgetLit 4 8) 1)
    16 (mkGadgetLit 64 3) (mkGadgetLit 16 9).
(** mktfhe/params_list.go:159-194 (uint64). *)
Definition ParamsBinaryParty32 : mkParamsLit :=
  mkMkLit (mkLit 560 1 2048 0
    (f64_of_dec 305 7)
    (f64_of_dec 463 20)
    2 2 (mkGadgetLit 128 6) (mkGadgetLit 4 8) 1)
    32 (mkGadgetLit 128 3) (mkGadgetLit 4 16).
Definition mkParamsList : list mkParamsLit := [ParamsBinaryParty2; ParamsBinaryParty4; ParamsBinaryParty8; ParamsBinaryParty16; ParamsBinaryParty32].
