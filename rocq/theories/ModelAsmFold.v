(** The AVX2 kernels of math/poly/asm_fold_amd64.s, transcribed instruction by instruction, with the argument frames of the
    stubs (asm_fold_stub_amd64.go).  No proofs in this file. *)
From Coq Require Import String Floats.SpecFloat.
From Verif Require Import Base ModelNum ModelAsm ModelAsmInt ModelF64.
Import ListNotations.
Open Scope string_scope.
Open Scope Z_scope.

(** math/poly/asm_fold_amd64.s:7-26, the constants; the decimal literals are rounded to float64 by the assembler. *)
Definition foldData (s : string) : option Z :=
  if string_dec s "EXP2_52" then Some (bits64 (BN 4503599627370496 0 false))
  else if string_dec s "EXP2_84_63" then Some (bits64 (BN 19342822337206104000000000 0 false))
  else if string_dec s "EXP2_84_63_52" then Some (bits64 (BN 19342822341709703000000000 0 false))
  else if string_dec s "MANT_MASK" then Some 4503599627370495
  else if string_dec s "BIT_MANT_MASK" then Some 4503599627370496
  else if string_dec s "EXP_MASK" then Some 2047
  else if string_dec s "EXP_SHIFT" then Some 1086
  else None.

Section Frames.
Context {A : Type}.
(** The frame of func(a []T, b []U), T and U of ea and eb bytes. *)
Definition frameTU (a : gslice) (ea : Z) (b : gslice) (eb : Z) (o : Z) : option (Z * word A) :=
  let f (g : gslice) (e p : Z) := if p =? 0 then Some (8, WP (gb g) (e * go g)) else if p =? 8 then Some (8, WI (gn g)) else if p =? 16 then Some (8, WI (gc g)) else None in
  if o <? 24 then f a ea o else if o <? 48 then f b eb (o - 24) else None.
(** The frame of func(coeffs []float64, q, qInv float64). *)
Definition frameQ (a : gslice) (q qInv : A) (o : Z) : option (Z * word A) :=
  if o =? 0 then Some (8, WP (gb a) (8 * go a)) else if o =? 8 then Some (8, WI (gn a)) else if o =? 16 then Some (8, WI (gc a))
  else if o =? 24 then Some (8, WF q) else if o =? 32 then Some (8, WF qInv) else None.
End Frames.

(** math/poly/asm_fold_amd64.s:30-54, func foldPolyToUint32AVX2(fpOut []float64, p []uint32). *)
Definition foldPolyToUint32AVX2 : prog :=
  [("",
     [Ins MOVQ [FP 0; R AX]; Ins MOVQ [FP 24; R CX]; Ins MOVQ [FP 8; R DX]; Ins MOVQ [R DX; R BX];
      Ins SHRQ [I 1; R BX]; Ins XORQ [R SI; R SI]; Ins XORQ [R DI; R DI]; JMP "loop_end"]);
   ("loop_body",
     [Ins VMOVDQU [MI 0 CX DI 4; X 0]; Ins VMOVDQU [MI 0 CX BX 4; X 1]; Ins VCVTDQ2PD [X 0; Y 0];
      Ins VCVTDQ2PD [X 1; Y 1]; Ins VMOVUPD [Y 0; MI 0 AX SI 8]; Ins VMOVUPD [Y 1; MI 32 AX SI 8];
      Ins ADDQ [I 8; R SI]; Ins ADDQ [I 4; R DI]; Ins ADDQ [I 4; R BX]]);
   ("loop_end",
     [Ins CMPQ [R SI; R DX]; JL "loop_body"; RET])].

(** math/poly/asm_fold_amd64.s:58-93, func foldPolyToUint64AVX2(fpOut []float64, p []uint64). *)
Definition foldPolyToUint64AVX2 : prog :=
  [("",
     [Ins MOVQ [FP 0; R AX]; Ins MOVQ [FP 24; R CX]; Ins MOVQ [FP 8; R DX]; Ins MOVQ [R DX; R BX];
      Ins SHRQ [I 1; R BX]; Ins VBROADCASTSD [SB "EXP2_52"; Y 0]; Ins VBROADCASTSD [SB "EXP2_84_63"; Y 1];
      Ins VBROADCASTSD [SB "EXP2_84_63_52"; Y 2]; Ins XORQ [R SI; R SI]; Ins XORQ [R DI; R DI]; JMP "loop_end"]);
   ("loop_body",
     [Ins VMOVDQU [MI 0 CX DI 8; Y 3]; Ins VMOVDQU [MI 0 CX BX 8; Y 4]; Ins VPBLENDD [I 85; Y 3; Y 0; Y 5];
      Ins VPSRLQ [I 32; Y 3; Y 3]; Ins VPXOR [Y 1; Y 3; Y 3]; Ins VSUBPD [Y 2; Y 3; Y 3]; Ins VADDPD [Y 3; Y 5; Y 3];
      Ins VPBLENDD [I 85; Y 4; Y 0; Y 5]; Ins VPSRLQ [I 32; Y 4; Y 4]; Ins VPXOR [Y 1; Y 4; Y 4];
      Ins VSUBPD [Y 2; Y 4; Y 4]; Ins VADDPD [Y 4; Y 5; Y 4]; Ins VMOVUPD [Y 3; MI 0 AX SI 8];
      Ins VMOVUPD [Y 4; MI 32 AX SI 8]; Ins ADDQ [I 8; R SI]; Ins ADDQ [I 4; R DI]; Ins ADDQ [I 4; R BX]]);
   ("loop_end",
     [Ins CMPQ [R SI; R DX]; JL "loop_body"; RET])].

(** math/poly/asm_fold_amd64.s:97-118, func floatModQInPlaceAVX2(coeffs []float64, q float64, qInv float64). *)
Definition floatModQInPlaceAVX2 : prog :=
  [("",
     [Ins MOVQ [FP 0; R AX]; Ins MOVQ [FP 8; R CX]; Ins VBROADCASTSD [FP 24; Y 0]; Ins VBROADCASTSD [FP 32; Y 1];
      Ins XORQ [R DX; R DX]; JMP "loop_end"]);
   ("loop_body",
     [Ins VMOVUPD [MI 0 AX DX 8; Y 2]; Ins VMULPD [Y 1; Y 2; Y 2]; Ins VROUNDPD [I 0; Y 2; Y 3];
      Ins VSUBPD [Y 3; Y 2; Y 2]; Ins VMULPD [Y 0; Y 2; Y 2]; Ins VROUNDPD [I 0; Y 2; Y 2];
      Ins VMOVUPD [Y 2; MI 0 AX DX 8]; Ins ADDQ [I 4; R DX]]);
   ("loop_end",
     [Ins CMPQ [R DX; R CX]; JL "loop_body"; RET])].

(** math/poly/asm_fold_amd64.s:122-146, func unfoldPolyToUint32AVX2(pOut []uint32, fp []float64). *)
Definition unfoldPolyToUint32AVX2 : prog :=
  [("",
     [Ins MOVQ [FP 0; R AX]; Ins MOVQ [FP 24; R CX]; Ins MOVQ [FP 32; R DX]; Ins MOVQ [R DX; R BX];
      Ins SHRQ [I 1; R BX]; Ins XORQ [R SI; R SI]; Ins XORQ [R DI; R DI]; JMP "loop_end"]);
   ("loop_body",
     [Ins VMOVUPD [MI 0 CX SI 8; Y 0]; Ins VMOVUPD [MI 32 CX SI 8; Y 1]; Ins VCVTPD2DQY [Y 0; X 0];
      Ins VCVTPD2DQY [Y 1; X 1]; Ins VMOVDQU [X 0; MI 0 AX DI 4]; Ins VMOVDQU [X 1; MI 0 AX BX 4];
      Ins ADDQ [I 8; R SI]; Ins ADDQ [I 4; R DI]; Ins ADDQ [I 4; R BX]]);
   ("loop_end",
     [Ins CMPQ [R SI; R DX]; JL "loop_body"; RET])].

(** math/poly/asm_fold_amd64.s:150-178, func unfoldPolyAddToUint32AVX2(pOut []uint32, fp []float64). *)
Definition unfoldPolyAddToUint32AVX2 : prog :=
  [("",
     [Ins MOVQ [FP 0; R AX]; Ins MOVQ [FP 24; R CX]; Ins MOVQ [FP 32; R DX]; Ins MOVQ [R DX; R BX];
      Ins SHRQ [I 1; R BX]; Ins XORQ [R SI; R SI]; Ins XORQ [R DI; R DI]; JMP "loop_end"]);
   ("loop_body",
     [Ins VMOVUPD [MI 0 CX SI 8; Y 0]; Ins VMOVUPD [MI 32 CX SI 8; Y 1]; Ins VCVTPD2DQY [Y 0; X 0];
      Ins VCVTPD2DQY [Y 1; X 1]; Ins VMOVDQU [MI 0 AX DI 4; X 2]; Ins VMOVDQU [MI 0 AX BX 4; X 3];
      Ins VPADDD [X 0; X 2; X 2]; Ins VPADDD [X 1; X 3; X 3]; Ins VMOVDQU [X 2; MI 0 AX DI 4];
      Ins VMOVDQU [X 3; MI 0 AX BX 4]; Ins ADDQ [I 8; R SI]; Ins ADDQ [I 4; R DI]; Ins ADDQ [I 4; R BX]]);
   ("loop_end",
     [Ins CMPQ [R SI; R DX]; JL "loop_body"; RET])].

(** math/poly/asm_fold_amd64.s:182-210, func unfoldPolySubToUint32AVX2(pOut []uint32, fp []float64). *)
Definition unfoldPolySubToUint32AVX2 : prog :=
  [("",
     [Ins MOVQ [FP 0; R AX]; Ins MOVQ [FP 24; R CX]; Ins MOVQ [FP 32; R DX]; Ins MOVQ [R DX; R BX];
      Ins SHRQ [I 1; R BX]; Ins XORQ [R SI; R SI]; Ins XORQ [R DI; R DI]; JMP "loop_end"]);
   ("loop_body",
     [Ins VMOVUPD [MI 0 CX SI 8; Y 0]; Ins VMOVUPD [MI 32 CX SI 8; Y 1]; Ins VCVTPD2DQY [Y 0; X 0];
      Ins VCVTPD2DQY [Y 1; X 1]; Ins VMOVDQU [MI 0 AX DI 4; X 2]; Ins VMOVDQU [MI 0 AX BX 4; X 3];
      Ins VPSUBD [X 0; X 2; X 2]; Ins VPSUBD [X 1; X 3; X 3]; Ins VMOVDQU [X 2; MI 0 AX DI 4];
      Ins VMOVDQU [X 3; MI 0 AX BX 4]; Ins ADDQ [I 8; R SI]; Ins ADDQ [I 4; R DI]; Ins ADDQ [I 4; R BX]]);
   ("loop_end",
     [Ins CMPQ [R SI; R DX]; JL "loop_body"; RET])].

(** math/poly/asm_fold_amd64.s:214-263, func unfoldPolyToUint64AVX2(pOut []uint64, fp []float64). *)
Definition unfoldPolyToUint64AVX2 : prog :=
  [("",
     [Ins MOVQ [FP 0; R AX]; Ins MOVQ [FP 24; R CX]; Ins MOVQ [FP 32; R DX]; Ins MOVQ [R DX; R BX];
      Ins SHRQ [I 1; R BX]; Ins VBROADCASTSD [SB "MANT_MASK"; Y 0]; Ins VBROADCASTSD [SB "BIT_MANT_MASK"; Y 1];
      Ins VBROADCASTSD [SB "EXP_MASK"; Y 2]; Ins VBROADCASTSD [SB "EXP_SHIFT"; Y 3]; Ins VPXOR [Y 4; Y 4; Y 4];
      Ins XORQ [R SI; R SI]; Ins XORQ [R DI; R DI]; JMP "loop_end"]);
   ("loop_body",
     [Ins VMOVUPD [MI 0 CX SI 8; Y 5]; Ins VMOVUPD [MI 32 CX SI 8; Y 6]; Ins VANDPD [Y 0; Y 5; Y 7];
      Ins VORPD [Y 1; Y 7; Y 7]; Ins VPSRLQ [I 52; Y 5; Y 8]; Ins VANDPD [Y 2; Y 8; Y 8];
      Ins VPSRLQ [I 63; Y 5; Y 5]; Ins VPSUBQ [Y 5; Y 4; Y 5]; Ins VPSLLQ [I 11; Y 7; Y 7];
      Ins VPSUBQ [Y 8; Y 3; Y 8]; Ins VPSRLVQ [Y 8; Y 7; Y 7]; Ins VPSUBQ [Y 7; Y 4; Y 8];
      Ins VPBLENDVB [Y 5; Y 8; Y 7; Y 5]; Ins VANDPD [Y 0; Y 6; Y 7]; Ins VORPD [Y 1; Y 7; Y 7];
      Ins VPSRLQ [I 52; Y 6; Y 8]; Ins VANDPD [Y 2; Y 8; Y 8]; Ins VPSRLQ [I 63; Y 6; Y 6];
      Ins VPSUBQ [Y 6; Y 4; Y 6]; Ins VPSLLQ [I 11; Y 7; Y 7]; Ins VPSUBQ [Y 8; Y 3; Y 8];
      Ins VPSRLVQ [Y 8; Y 7; Y 7]; Ins VPSUBQ [Y 7; Y 4; Y 8]; Ins VPBLENDVB [Y 6; Y 8; Y 7; Y 6];
      Ins VMOVDQU [Y 5; MI 0 AX DI 8]; Ins VMOVDQU [Y 6; MI 0 AX BX 8]; Ins ADDQ [I 8; R SI]; Ins ADDQ [I 4; R DI];
      Ins ADDQ [I 4; R BX]]);
   ("loop_end",
     [Ins CMPQ [R SI; R DX]; JL "loop_body"; RET])].

(** math/poly/asm_fold_amd64.s:267-320, func unfoldPolyAddToUint64AVX2(pOut []uint64, fp []float64). *)
Definition unfoldPolyAddToUint64AVX2 : prog :=
  [("",
     [Ins MOVQ [FP 0; R AX]; Ins MOVQ [FP 24; R CX]; Ins MOVQ [FP 32; R DX]; Ins MOVQ [R DX; R BX];
      Ins SHRQ [I 1; R BX]; Ins VBROADCASTSD [SB "MANT_MASK"; Y 0]; Ins VBROADCASTSD [SB "BIT_MANT_MASK"; Y 1];
      Ins VBROADCASTSD [SB "EXP_MASK"; Y 2]; Ins VBROADCASTSD [SB "EXP_SHIFT"; Y 3]; Ins VPXOR [Y 4; Y 4; Y 4];
      Ins XORQ [R SI; R SI]; Ins XORQ [R DI; R DI]; JMP "loop_end"]);
   ("loop_body",
     [Ins VMOVUPD [MI 0 CX SI 8; Y 5]; Ins VMOVUPD [MI 32 CX SI 8; Y 6]; Ins VANDPD [Y 0; Y 5; Y 7];
      Ins VORPD [Y 1; Y 7; Y 7]; Ins VPSRLQ [I 52; Y 5; Y 8]; Ins VANDPD [Y 2; Y 8; Y 8];
      Ins VPSRLQ [I 63; Y 5; Y 5]; Ins VPSUBQ [Y 5; Y 4; Y 5]; Ins VPSLLQ [I 11; Y 7; Y 7];
      Ins VPSUBQ [Y 8; Y 3; Y 8]; Ins VPSRLVQ [Y 8; Y 7; Y 7]; Ins VPSUBQ [Y 7; Y 4; Y 8];
      Ins VPBLENDVB [Y 5; Y 8; Y 7; Y 5]; Ins VANDPD [Y 0; Y 6; Y 7]; Ins VORPD [Y 1; Y 7; Y 7];
      Ins VPSRLQ [I 52; Y 6; Y 8]; Ins VANDPD [Y 2; Y 8; Y 8]; Ins VPSRLQ [I 63; Y 6; Y 6];
      Ins VPSUBQ [Y 6; Y 4; Y 6]; Ins VPSLLQ [I 11; Y 7; Y 7]; Ins VPSUBQ [Y 8; Y 3; Y 8];
      Ins VPSRLVQ [Y 8; Y 7; Y 7]; Ins VPSUBQ [Y 7; Y 4; Y 8]; Ins VPBLENDVB [Y 6; Y 8; Y 7; Y 6];
      Ins VMOVDQU [MI 0 AX DI 8; Y 7]; Ins VMOVDQU [MI 0 AX BX 8; Y 8]; Ins VPADDQ [Y 5; Y 7; Y 7];
      Ins VPADDQ [Y 6; Y 8; Y 8]; Ins VMOVDQU [Y 7; MI 0 AX DI 8]; Ins VMOVDQU [Y 8; MI 0 AX BX 8];
      Ins ADDQ [I 8; R SI]; Ins ADDQ [I 4; R DI]; Ins ADDQ [I 4; R BX]]);
   ("loop_end",
     [Ins CMPQ [R SI; R DX]; JL "loop_body"; RET])].

(** math/poly/asm_fold_amd64.s:324-377, func unfoldPolySubToUint64AVX2(pOut []uint64, fp []float64). *)
Definition unfoldPolySubToUint64AVX2 : prog :=
  [("",
     [Ins MOVQ [FP 0; R AX]; Ins MOVQ [FP 24; R CX]; Ins MOVQ [FP 32; R DX]; Ins MOVQ [R DX; R BX];
      Ins SHRQ [I 1; R BX]; Ins VBROADCASTSD [SB "MANT_MASK"; Y 0]; Ins VBROADCASTSD [SB "BIT_MANT_MASK"; Y 1];
      Ins VBROADCASTSD [SB "EXP_MASK"; Y 2]; Ins VBROADCASTSD [SB "EXP_SHIFT"; Y 3]; Ins VPXOR [Y 4; Y 4; Y 4];
      Ins XORQ [R SI; R SI]; Ins XORQ [R DI; R DI]; JMP "loop_end"]);
   ("loop_body",
     [Ins VMOVUPD [MI 0 CX SI 8; Y 5]; Ins VMOVUPD [MI 32 CX SI 8; Y 6]; Ins VANDPD [Y 0; Y 5; Y 7];
      Ins VORPD [Y 1; Y 7; Y 7]; Ins VPSRLQ [I 52; Y 5; Y 8]; Ins VANDPD [Y 2; Y 8; Y 8];
      Ins VPSRLQ [I 63; Y 5; Y 5]; Ins VPSUBQ [Y 5; Y 4; Y 5]; Ins VPSLLQ [I 11; Y 7; Y 7];
      Ins VPSUBQ [Y 8; Y 3; Y 8]; Ins VPSRLVQ [Y 8; Y 7; Y 7]; Ins VPSUBQ [Y 7; Y 4; Y 8];
      Ins VPBLENDVB [Y 5; Y 8; Y 7; Y 5]; Ins VANDPD [Y 0; Y 6; Y 7]; Ins VORPD [Y 1; Y 7; Y 7];
      Ins VPSRLQ [I 52; Y 6; Y 8]; Ins VANDPD [Y 2; Y 8; Y 8]; Ins VPSRLQ [I 63; Y 6; Y 6];
      Ins VPSUBQ [Y 6; Y 4; Y 6]; Ins VPSLLQ [I 11; Y 7; Y 7]; Ins VPSUBQ [Y 8; Y 3; Y 8];
      Ins VPSRLVQ [Y 8; Y 7; Y 7]; Ins VPSUBQ [Y 7; Y 4; Y 8]; Ins VPBLENDVB [Y 6; Y 8; Y 7; Y 6];
      Ins VMOVDQU [MI 0 AX DI 8; Y 7]; Ins VMOVDQU [MI 0 AX BX 8; Y 8]; Ins VPSUBQ [Y 5; Y 7; Y 7];
      Ins VPSUBQ [Y 6; Y 8; Y 8]; Ins VMOVDQU [Y 7; MI 0 AX DI 8]; Ins VMOVDQU [Y 8; MI 0 AX BX 8];
      Ins ADDQ [I 8; R SI]; Ins ADDQ [I 4; R DI]; Ins ADDQ [I 4; R BX]]);
   ("loop_end",
     [Ins CMPQ [R SI; R DX]; JL "loop_body"; RET])].

