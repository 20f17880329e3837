(** The AVX2 kernels of math/poly/asm_vec_cmplx_amd64.s and math/poly/asm_fft_amd64.s, transcribed instruction by
    instruction, with the argument frames of the stubs (asm_vec_cmplx_stub_amd64.go, asm_fft_stub_amd64.go).
    No proofs in this file. *)
From Coq Require Import String.
From Verif Require Import Base ModelNum ModelAsm ModelAsmInt.
Import ListNotations.
Open Scope string_scope.
Open Scope Z_scope.

(** math/poly/asm_vec_cmplx_amd64.s:9-27, func addCmplxToAVX2(vOut []float64, v0 []float64, v1 []float64). *)
Definition addCmplxToAVX2 : prog :=
  [("",
     [Ins MOVQ [FP 0; R AX]; Ins MOVQ [FP 24; R CX]; Ins MOVQ [FP 48; R DX]; Ins MOVQ [FP 8; R BX];
      Ins XORQ [R SI; R SI]; JMP "loop_end"]);
   ("loop_body",
     [Ins VMOVUPD [MI 0 CX SI 8; Y 0]; Ins VMOVUPD [MI 0 DX SI 8; Y 1]; Ins VADDPD [Y 1; Y 0; Y 0];
      Ins VMOVUPD [Y 0; MI 0 AX SI 8]; Ins ADDQ [I 4; R SI]]);
   ("loop_end",
     [Ins CMPQ [R SI; R BX]; JL "loop_body"; RET])].

(** math/poly/asm_vec_cmplx_amd64.s:31-49, func subCmplxToAVX2(vOut []float64, v0 []float64, v1 []float64). *)
Definition subCmplxToAVX2 : prog :=
  [("",
     [Ins MOVQ [FP 0; R AX]; Ins MOVQ [FP 24; R CX]; Ins MOVQ [FP 48; R DX]; Ins MOVQ [FP 8; R BX];
      Ins XORQ [R SI; R SI]; JMP "loop_end"]);
   ("loop_body",
     [Ins VMOVUPD [MI 0 CX SI 8; Y 0]; Ins VMOVUPD [MI 0 DX SI 8; Y 1]; Ins VSUBPD [Y 1; Y 0; Y 0];
      Ins VMOVUPD [Y 0; MI 0 AX SI 8]; Ins ADDQ [I 4; R SI]]);
   ("loop_end",
     [Ins CMPQ [R SI; R BX]; JL "loop_body"; RET])].

(** math/poly/asm_vec_cmplx_amd64.s:53-70, func negCmplxToAVX2(vOut []float64, v []float64). *)
Definition negCmplxToAVX2 : prog :=
  [("",
     [Ins MOVQ [FP 0; R AX]; Ins MOVQ [FP 24; R CX]; Ins MOVQ [FP 8; R DX]; Ins VXORPD [Y 0; Y 0; Y 0];
      Ins XORQ [R BX; R BX]; JMP "loop_end"]);
   ("loop_body",
     [Ins VMOVUPD [MI 0 CX BX 8; Y 1]; Ins VSUBPD [Y 1; Y 0; Y 1]; Ins VMOVUPD [Y 1; MI 0 AX BX 8];
      Ins ADDQ [I 4; R BX]]);
   ("loop_end",
     [Ins CMPQ [R BX; R DX]; JL "loop_body"; RET])].

(** math/poly/asm_vec_cmplx_amd64.s:74-91, func floatMulCmplxToAVX2(vOut []float64, v []float64, c float64). *)
Definition floatMulCmplxToAVX2 : prog :=
  [("",
     [Ins MOVQ [FP 0; R AX]; Ins MOVQ [FP 24; R CX]; Ins MOVQ [FP 8; R DX]; Ins VBROADCASTSD [FP 48; Y 0];
      Ins XORQ [R BX; R BX]; JMP "loop_end"]);
   ("loop_body",
     [Ins VMOVUPD [MI 0 CX BX 8; Y 1]; Ins VMULPD [Y 0; Y 1; Y 1]; Ins VMOVUPD [Y 1; MI 0 AX BX 8];
      Ins ADDQ [I 4; R BX]]);
   ("loop_end",
     [Ins CMPQ [R BX; R DX]; JL "loop_body"; RET])].

(** math/poly/asm_vec_cmplx_amd64.s:95-113, func floatMulAddCmplxToAVX2(vOut []float64, v []float64, c float64). *)
Definition floatMulAddCmplxToAVX2 : prog :=
  [("",
     [Ins MOVQ [FP 0; R AX]; Ins MOVQ [FP 24; R CX]; Ins MOVQ [FP 8; R DX]; Ins VBROADCASTSD [FP 48; Y 0];
      Ins XORQ [R BX; R BX]; JMP "loop_end"]);
   ("loop_body",
     [Ins VMOVUPD [MI 0 CX BX 8; Y 1]; Ins VMOVUPD [MI 0 AX BX 8; Y 2]; Ins VFMADD231PD [Y 0; Y 1; Y 2];
      Ins VMOVUPD [Y 2; MI 0 AX BX 8]; Ins ADDQ [I 4; R BX]]);
   ("loop_end",
     [Ins CMPQ [R BX; R DX]; JL "loop_body"; RET])].

(** math/poly/asm_vec_cmplx_amd64.s:117-135, func floatMulSubCmplxToAVX2(vOut []float64, v []float64, c float64). *)
Definition floatMulSubCmplxToAVX2 : prog :=
  [("",
     [Ins MOVQ [FP 0; R AX]; Ins MOVQ [FP 24; R CX]; Ins MOVQ [FP 8; R DX]; Ins VBROADCASTSD [FP 48; Y 0];
      Ins XORQ [R BX; R BX]; JMP "loop_end"]);
   ("loop_body",
     [Ins VMOVUPD [MI 0 CX BX 8; Y 1]; Ins VMOVUPD [MI 0 AX BX 8; Y 2]; Ins VFNMADD231PD [Y 0; Y 1; Y 2];
      Ins VMOVUPD [Y 2; MI 0 AX BX 8]; Ins ADDQ [I 4; R BX]]);
   ("loop_end",
     [Ins CMPQ [R BX; R DX]; JL "loop_body"; RET])].

(** math/poly/asm_vec_cmplx_amd64.s:139-162, func cmplxMulCmplxToAVX2(vOut []float64, v []float64, c complex128). *)
Definition cmplxMulCmplxToAVX2 : prog :=
  [("",
     [Ins MOVQ [FP 0; R AX]; Ins MOVQ [FP 24; R CX]; Ins MOVQ [FP 8; R DX]; Ins VBROADCASTSD [FP 48; Y 0];
      Ins VBROADCASTSD [FP 56; Y 1]; Ins XORQ [R BX; R BX]; JMP "loop_end"]);
   ("loop_body",
     [Ins VMOVUPD [MI 0 CX BX 8; Y 2]; Ins VMOVUPD [MI 32 CX BX 8; Y 3]; Ins VMULPD [Y 0; Y 2; Y 4];
      Ins VFNMADD231PD [Y 1; Y 3; Y 4]; Ins VMULPD [Y 0; Y 3; Y 3]; Ins VFMADD231PD [Y 1; Y 2; Y 3];
      Ins VMOVUPD [Y 4; MI 0 AX BX 8]; Ins VMOVUPD [Y 3; MI 32 AX BX 8]; Ins ADDQ [I 8; R BX]]);
   ("loop_end",
     [Ins CMPQ [R BX; R DX]; JL "loop_body"; RET])].

(** math/poly/asm_vec_cmplx_amd64.s:166-191, func cmplxMulAddCmplxToAVX2(vOut []float64, v []float64, c complex128). *)
Definition cmplxMulAddCmplxToAVX2 : prog :=
  [("",
     [Ins MOVQ [FP 0; R AX]; Ins MOVQ [FP 24; R CX]; Ins MOVQ [FP 8; R DX]; Ins VBROADCASTSD [FP 48; Y 0];
      Ins VBROADCASTSD [FP 56; Y 1]; Ins XORQ [R BX; R BX]; JMP "loop_end"]);
   ("loop_body",
     [Ins VMOVUPD [MI 0 CX BX 8; Y 2]; Ins VMOVUPD [MI 32 CX BX 8; Y 3]; Ins VMOVUPD [MI 0 AX BX 8; Y 4];
      Ins VMOVUPD [MI 32 AX BX 8; Y 5]; Ins VFMADD231PD [Y 0; Y 2; Y 4]; Ins VFNMADD231PD [Y 1; Y 3; Y 4];
      Ins VFMADD231PD [Y 0; Y 3; Y 5]; Ins VFMADD231PD [Y 1; Y 2; Y 5]; Ins VMOVUPD [Y 4; MI 0 AX BX 8];
      Ins VMOVUPD [Y 5; MI 32 AX BX 8]; Ins ADDQ [I 8; R BX]]);
   ("loop_end",
     [Ins CMPQ [R BX; R DX]; JL "loop_body"; RET])].

(** math/poly/asm_vec_cmplx_amd64.s:195-220, func cmplxMulSubCmplxToAVX2(vOut []float64, v []float64, c complex128). *)
Definition cmplxMulSubCmplxToAVX2 : prog :=
  [("",
     [Ins MOVQ [FP 0; R AX]; Ins MOVQ [FP 24; R CX]; Ins MOVQ [FP 8; R DX]; Ins VBROADCASTSD [FP 48; Y 0];
      Ins VBROADCASTSD [FP 56; Y 1]; Ins XORQ [R BX; R BX]; JMP "loop_end"]);
   ("loop_body",
     [Ins VMOVUPD [MI 0 CX BX 8; Y 2]; Ins VMOVUPD [MI 32 CX BX 8; Y 3]; Ins VMOVUPD [MI 0 AX BX 8; Y 4];
      Ins VMOVUPD [MI 32 AX BX 8; Y 5]; Ins VFNMADD231PD [Y 0; Y 2; Y 4]; Ins VFMADD231PD [Y 1; Y 3; Y 4];
      Ins VFNMADD231PD [Y 0; Y 3; Y 5]; Ins VFNMADD231PD [Y 1; Y 2; Y 5]; Ins VMOVUPD [Y 4; MI 0 AX BX 8];
      Ins VMOVUPD [Y 5; MI 32 AX BX 8]; Ins ADDQ [I 8; R BX]]);
   ("loop_end",
     [Ins CMPQ [R BX; R DX]; JL "loop_body"; RET])].

(** math/poly/asm_vec_cmplx_amd64.s:224-248, func mulCmplxToAVX2(vOut []float64, v0 []float64, v1 []float64). *)
Definition mulCmplxToAVX2 : prog :=
  [("",
     [Ins MOVQ [FP 0; R AX]; Ins MOVQ [FP 24; R CX]; Ins MOVQ [FP 48; R DX]; Ins MOVQ [FP 8; R BX];
      Ins XORQ [R SI; R SI]; JMP "loop_end"]);
   ("loop_body",
     [Ins VMOVUPD [MI 0 CX SI 8; Y 0]; Ins VMOVUPD [MI 32 CX SI 8; Y 1]; Ins VMOVUPD [MI 0 DX SI 8; Y 2];
      Ins VMOVUPD [MI 32 DX SI 8; Y 3]; Ins VMULPD [Y 0; Y 2; Y 4]; Ins VFNMADD231PD [Y 1; Y 3; Y 4];
      Ins VMULPD [Y 0; Y 3; Y 0]; Ins VFMADD231PD [Y 1; Y 2; Y 0]; Ins VMOVUPD [Y 4; MI 0 AX SI 8];
      Ins VMOVUPD [Y 0; MI 32 AX SI 8]; Ins ADDQ [I 8; R SI]]);
   ("loop_end",
     [Ins CMPQ [R SI; R BX]; JL "loop_body"; RET])].

(** math/poly/asm_vec_cmplx_amd64.s:252-278, func mulAddCmplxToAVX2(vOut []float64, v0 []float64, v1 []float64). *)
Definition mulAddCmplxToAVX2 : prog :=
  [("",
     [Ins MOVQ [FP 0; R AX]; Ins MOVQ [FP 24; R CX]; Ins MOVQ [FP 48; R DX]; Ins MOVQ [FP 8; R BX];
      Ins XORQ [R SI; R SI]; JMP "loop_end"]);
   ("loop_body",
     [Ins VMOVUPD [MI 0 CX SI 8; Y 0]; Ins VMOVUPD [MI 32 CX SI 8; Y 1]; Ins VMOVUPD [MI 0 DX SI 8; Y 2];
      Ins VMOVUPD [MI 32 DX SI 8; Y 3]; Ins VMOVUPD [MI 0 AX SI 8; Y 4]; Ins VMOVUPD [MI 32 AX SI 8; Y 5];
      Ins VFMADD231PD [Y 0; Y 2; Y 4]; Ins VFNMADD231PD [Y 1; Y 3; Y 4]; Ins VFMADD231PD [Y 0; Y 3; Y 5];
      Ins VFMADD231PD [Y 1; Y 2; Y 5]; Ins VMOVUPD [Y 4; MI 0 AX SI 8]; Ins VMOVUPD [Y 5; MI 32 AX SI 8];
      Ins ADDQ [I 8; R SI]]);
   ("loop_end",
     [Ins CMPQ [R SI; R BX]; JL "loop_body"; RET])].

(** math/poly/asm_vec_cmplx_amd64.s:282-308, func mulSubCmplxToAVX2(vOut []float64, v0 []float64, v1 []float64). *)
Definition mulSubCmplxToAVX2 : prog :=
  [("",
     [Ins MOVQ [FP 0; R AX]; Ins MOVQ [FP 24; R CX]; Ins MOVQ [FP 48; R DX]; Ins MOVQ [FP 8; R BX];
      Ins XORQ [R SI; R SI]; JMP "loop_end"]);
   ("loop_body",
     [Ins VMOVUPD [MI 0 CX SI 8; Y 0]; Ins VMOVUPD [MI 32 CX SI 8; Y 1]; Ins VMOVUPD [MI 0 DX SI 8; Y 2];
      Ins VMOVUPD [MI 32 DX SI 8; Y 3]; Ins VMOVUPD [MI 0 AX SI 8; Y 4]; Ins VMOVUPD [MI 32 AX SI 8; Y 5];
      Ins VFNMADD231PD [Y 0; Y 2; Y 4]; Ins VFMADD231PD [Y 1; Y 3; Y 4]; Ins VFNMADD231PD [Y 0; Y 3; Y 5];
      Ins VFNMADD231PD [Y 1; Y 2; Y 5]; Ins VMOVUPD [Y 4; MI 0 AX SI 8]; Ins VMOVUPD [Y 5; MI 32 AX SI 8];
      Ins ADDQ [I 8; R SI]]);
   ("loop_end",
     [Ins CMPQ [R SI; R BX]; JL "loop_body"; RET])].

(** math/poly/asm_fft_amd64.s:9-161, func fwdFFTInPlaceAVX2(coeffs []float64, tw []complex128). *)
Definition fwdFFTInPlaceAVX2 : prog :=
  [("",
     [Ins MOVQ [FP 0; R AX]; Ins MOVQ [FP 24; R CX]; Ins MOVQ [FP 8; R DX]; Ins XORQ [R BX; R BX];
      Ins MOVQ [R DX; R SI]; Ins SHRQ [I 1; R SI]; Ins VBROADCASTSD [MI 0 CX BX 8; Y 0];
      Ins VBROADCASTSD [MI 8 CX BX 8; Y 1]; Ins ADDQ [I 2; R BX]; Ins XORQ [R DI; R DI]; Ins MOVQ [R SI; R R8];
      JMP "first_loop_end"]);
   ("first_loop_body",
     [Ins VMOVUPD [MI 0 AX DI 8; Y 2]; Ins VMOVUPD [MI 32 AX DI 8; Y 3]; Ins VMOVUPD [MI 0 AX R8 8; Y 4];
      Ins VMOVUPD [MI 32 AX R8 8; Y 5]; Ins VMULPD [Y 0; Y 4; Y 6]; Ins VFNMADD231PD [Y 1; Y 5; Y 6];
      Ins VMULPD [Y 1; Y 4; Y 7]; Ins VFMADD231PD [Y 0; Y 5; Y 7]; Ins VSUBPD [Y 6; Y 2; Y 4];
      Ins VSUBPD [Y 7; Y 3; Y 5]; Ins VADDPD [Y 6; Y 2; Y 2]; Ins VADDPD [Y 7; Y 3; Y 3];
      Ins VMOVUPD [Y 2; MI 0 AX DI 8]; Ins VMOVUPD [Y 3; MI 32 AX DI 8]; Ins VMOVUPD [Y 4; MI 0 AX R8 8];
      Ins VMOVUPD [Y 5; MI 32 AX R8 8]; Ins ADDQ [I 8; R DI]; Ins ADDQ [I 8; R R8]]);
   ("first_loop_end",
     [Ins CMPQ [R DI; R SI]; JL "first_loop_body"; Ins MOVQ [R DX; R SI]; Ins SHRQ [I 4; R SI];
      Ins MOVQ [R DX; R R9]; Ins SHRQ [I 1; R R9]; Ins MOVQ [I 2; R R10]; JMP "m_loop_end"]);
   ("m_loop_body",
     [Ins SHRQ [I 1; R R9]; Ins XORQ [R R11; R R11]; JMP "i_loop_end"]);
   ("i_loop_body",
     [Ins MOVQ [R R9; R DI]; Ins IMULQ [R R11; R DI]; Ins SHLQ [I 1; R DI]; Ins MOVQ [R DI; R R12];
      Ins ADDQ [R R9; R R12]; Ins VBROADCASTSD [MI 0 CX BX 8; Y 0]; Ins VBROADCASTSD [MI 8 CX BX 8; Y 1];
      Ins ADDQ [I 2; R BX]; Ins MOVQ [R R12; R R8]; JMP "j_loop_end"]);
   ("j_loop_body",
     [Ins VMOVUPD [MI 0 AX DI 8; Y 2]; Ins VMOVUPD [MI 32 AX DI 8; Y 3]; Ins VMOVUPD [MI 0 AX R8 8; Y 4];
      Ins VMOVUPD [MI 32 AX R8 8; Y 5]; Ins VMULPD [Y 0; Y 4; Y 6]; Ins VFNMADD231PD [Y 1; Y 5; Y 6];
      Ins VMULPD [Y 1; Y 4; Y 7]; Ins VFMADD231PD [Y 0; Y 5; Y 7]; Ins VSUBPD [Y 6; Y 2; Y 4];
      Ins VSUBPD [Y 7; Y 3; Y 5]; Ins VADDPD [Y 6; Y 2; Y 2]; Ins VADDPD [Y 7; Y 3; Y 3];
      Ins VMOVUPD [Y 2; MI 0 AX DI 8]; Ins VMOVUPD [Y 3; MI 32 AX DI 8]; Ins VMOVUPD [Y 4; MI 0 AX R8 8];
      Ins VMOVUPD [Y 5; MI 32 AX R8 8]; Ins ADDQ [I 8; R DI]; Ins ADDQ [I 8; R R8]]);
   ("j_loop_end",
     [Ins CMPQ [R DI; R R12]; JL "j_loop_body"; Ins ADDQ [I 1; R R11]]);
   ("i_loop_end",
     [Ins CMPQ [R R11; R R10]; JL "i_loop_body"; Ins SHLQ [I 1; R R10]]);
   ("m_loop_end",
     [Ins CMPQ [R R10; R SI]; JLE "m_loop_body"; Ins XORQ [R DI; R DI]; JMP "last_loop_2_end"]);
   ("last_loop_2_body",
     [Ins VMOVUPD [MI 0 CX BX 8; X 0]; Ins VSHUFPD [I 3; X 0; X 0; X 1]; Ins VSHUFPD [I 0; X 0; X 0; X 0];
      Ins ADDQ [I 2; R BX]; Ins VMOVUPD [MI 0 AX DI 8; X 2]; Ins VMOVUPD [MI 16 AX DI 8; X 3];
      Ins VMOVUPD [MI 32 AX DI 8; X 4]; Ins VMOVUPD [MI 48 AX DI 8; X 5]; Ins VMULPD [X 0; X 3; X 6];
      Ins VFNMADD231PD [X 1; X 5; X 6]; Ins VMULPD [X 1; X 3; X 1]; Ins VFMADD231PD [X 0; X 5; X 1];
      Ins VSUBPD [X 6; X 2; X 3]; Ins VSUBPD [X 1; X 4; X 5]; Ins VADDPD [X 6; X 2; X 2]; Ins VADDPD [X 1; X 4; X 4];
      Ins VMOVUPD [X 2; MI 0 AX DI 8]; Ins VMOVUPD [X 3; MI 16 AX DI 8]; Ins VMOVUPD [X 4; MI 32 AX DI 8];
      Ins VMOVUPD [X 5; MI 48 AX DI 8]; Ins ADDQ [I 8; R DI]]);
   ("last_loop_2_end",
     [Ins CMPQ [R DI; R DX]; JL "last_loop_2_body"; Ins VXORPD [Y 0; Y 0; Y 0]; Ins XORQ [R DI; R DI];
      JMP "last_loop_1_end"]);
   ("last_loop_1_body",
     [Ins VMOVUPD [MI 0 CX BX 8; Y 2]; Ins VSHUFPD [I 5; Y 2; Y 2; Y 3]; Ins ADDQ [I 4; R BX];
      Ins VMOVUPD [MI 0 AX DI 8; Y 6]; Ins VMOVUPD [MI 32 AX DI 8; Y 1]; Ins VSHUFPD [I 15; Y 6; Y 6; Y 4];
      Ins VSHUFPD [I 15; Y 1; Y 1; Y 5]; Ins VMULPD [Y 3; Y 5; Y 5]; Ins VFMADDSUB231PD [Y 2; Y 4; Y 5];
      Ins VSHUFPD [I 0; Y 6; Y 6; Y 2]; Ins VSHUFPD [I 0; Y 1; Y 1; Y 3]; Ins VSHUFPD [I 0; Y 5; Y 5; Y 1];
      Ins VSHUFPD [I 15; Y 5; Y 5; Y 4]; Ins VSUBPD [Y 1; Y 0; Y 1]; Ins VSUBPD [Y 4; Y 0; Y 4];
      Ins VADDSUBPD [Y 1; Y 2; Y 1]; Ins VADDSUBPD [Y 4; Y 3; Y 2]; Ins VMOVUPD [Y 1; MI 0 AX DI 8];
      Ins VMOVUPD [Y 2; MI 32 AX DI 8]; Ins ADDQ [I 8; R DI]]);
   ("last_loop_1_end",
     [Ins CMPQ [R DI; R DX]; JL "last_loop_1_body"; RET])].

(** math/poly/asm_fft_amd64.s:165-317, func invFFTInPlaceAVX2(coeffs []float64, twInv []complex128, scale float64). *)
Definition invFFTInPlaceAVX2 : prog :=
  [("",
     [Ins MOVQ [FP 0; R AX]; Ins MOVQ [FP 24; R CX]; Ins MOVQ [FP 8; R DX]; Ins XORQ [R BX; R BX];
      Ins XORQ [R SI; R SI]; JMP "first_loop_1_end"]);
   ("first_loop_1_body",
     [Ins VMOVUPD [MI 0 CX BX 8; Y 0]; Ins VSHUFPD [I 5; Y 0; Y 0; Y 1]; Ins ADDQ [I 4; R BX];
      Ins VMOVUPD [MI 0 AX SI 8; Y 2]; Ins VMOVUPD [MI 32 AX SI 8; Y 3]; Ins VHADDPD [Y 2; Y 2; Y 4];
      Ins VHADDPD [Y 3; Y 3; Y 5]; Ins VSHUFPD [I 0; Y 3; Y 2; Y 6]; Ins VSHUFPD [I 15; Y 3; Y 2; Y 2];
      Ins VSUBPD [Y 2; Y 6; Y 2]; Ins VSHUFPD [I 0; Y 2; Y 2; Y 3]; Ins VSHUFPD [I 15; Y 2; Y 2; Y 2];
      Ins VMULPD [Y 1; Y 2; Y 1]; Ins VFMADDSUB231PD [Y 0; Y 3; Y 1]; Ins VSHUFPD [I 0; Y 1; Y 4; Y 0];
      Ins VSHUFPD [I 15; Y 1; Y 5; Y 1]; Ins VMOVUPD [Y 0; MI 0 AX SI 8]; Ins VMOVUPD [Y 1; MI 32 AX SI 8];
      Ins ADDQ [I 8; R SI]]);
   ("first_loop_1_end",
     [Ins CMPQ [R SI; R DX]; JL "first_loop_1_body"; Ins XORQ [R SI; R SI]; JMP "first_loop_2_end"]);
   ("first_loop_2_body",
     [Ins VMOVUPD [MI 0 CX BX 8; X 0]; Ins VSHUFPD [I 3; X 0; X 0; X 1]; Ins VSHUFPD [I 0; X 0; X 0; X 0];
      Ins ADDQ [I 2; R BX]; Ins VMOVUPD [MI 0 AX SI 8; X 2]; Ins VMOVUPD [MI 16 AX SI 8; X 3];
      Ins VMOVUPD [MI 32 AX SI 8; X 4]; Ins VMOVUPD [MI 48 AX SI 8; X 5]; Ins VSUBPD [X 3; X 2; X 6];
      Ins VADDPD [X 3; X 2; X 2]; Ins VSUBPD [X 5; X 4; X 7]; Ins VADDPD [X 5; X 4; X 4]; Ins VMULPD [X 0; X 6; X 3];
      Ins VFNMADD231PD [X 1; X 7; X 3]; Ins VMULPD [X 1; X 6; X 5]; Ins VFMADD231PD [X 0; X 7; X 5];
      Ins VMOVUPD [X 2; MI 0 AX SI 8]; Ins VMOVUPD [X 3; MI 16 AX SI 8]; Ins VMOVUPD [X 4; MI 32 AX SI 8];
      Ins VMOVUPD [X 5; MI 48 AX SI 8]; Ins ADDQ [I 8; R SI]]);
   ("first_loop_2_end",
     [Ins CMPQ [R SI; R DX]; JL "first_loop_2_body"; Ins MOVQ [I 8; R SI]; Ins MOVQ [R DX; R DI];
      Ins SHRQ [I 4; R DI]; JMP "m_loop_end"]);
   ("m_loop_body",
     [Ins XORQ [R R8; R R8]; JMP "i_loop_end"]);
   ("i_loop_body",
     [Ins MOVQ [R SI; R R9]; Ins IMULQ [R R8; R R9]; Ins SHLQ [I 1; R R9]; Ins MOVQ [R R9; R R10];
      Ins ADDQ [R SI; R R10]; Ins VBROADCASTSD [MI 0 CX BX 8; Y 0]; Ins VBROADCASTSD [MI 8 CX BX 8; Y 1];
      Ins ADDQ [I 2; R BX]; Ins MOVQ [R R10; R R11]; JMP "j_loop_end"]);
   ("j_loop_body",
     [Ins VMOVUPD [MI 0 AX R9 8; Y 2]; Ins VMOVUPD [MI 32 AX R9 8; Y 3]; Ins VMOVUPD [MI 0 AX R11 8; Y 4];
      Ins VMOVUPD [MI 32 AX R11 8; Y 5]; Ins VSUBPD [Y 4; Y 2; Y 6]; Ins VADDPD [Y 4; Y 2; Y 2];
      Ins VSUBPD [Y 5; Y 3; Y 7]; Ins VADDPD [Y 5; Y 3; Y 3]; Ins VMULPD [Y 0; Y 6; Y 4];
      Ins VFNMADD231PD [Y 1; Y 7; Y 4]; Ins VMULPD [Y 1; Y 6; Y 5]; Ins VFMADD231PD [Y 0; Y 7; Y 5];
      Ins VMOVUPD [Y 2; MI 0 AX R9 8]; Ins VMOVUPD [Y 3; MI 32 AX R9 8]; Ins VMOVUPD [Y 4; MI 0 AX R11 8];
      Ins VMOVUPD [Y 5; MI 32 AX R11 8]; Ins ADDQ [I 8; R R9]; Ins ADDQ [I 8; R R11]]);
   ("j_loop_end",
     [Ins CMPQ [R R9; R R10]; JL "j_loop_body"; Ins ADDQ [I 1; R R8]]);
   ("i_loop_end",
     [Ins CMPQ [R R8; R DI]; JL "i_loop_body"; Ins SHLQ [I 1; R SI]; Ins SHRQ [I 1; R DI]]);
   ("m_loop_end",
     [Ins CMPQ [R DI; I 2]; JGE "m_loop_body"; Ins VBROADCASTSD [FP 48; Y 0]; Ins VBROADCASTSD [MI 0 CX BX 8; Y 1];
      Ins VBROADCASTSD [MI 8 CX BX 8; Y 6]; Ins MOVQ [R DX; R CX]; Ins SHRQ [I 1; R CX]; Ins XORQ [R R9; R R9];
      Ins MOVQ [R CX; R R11]; JMP "last_loop_end"]);
   ("last_loop_body",
     [Ins VMOVUPD [MI 0 AX R9 8; Y 2]; Ins VMOVUPD [MI 32 AX R9 8; Y 3]; Ins VMOVUPD [MI 0 AX R11 8; Y 4];
      Ins VMOVUPD [MI 32 AX R11 8; Y 5]; Ins VSUBPD [Y 4; Y 2; Y 7]; Ins VADDPD [Y 4; Y 2; Y 2];
      Ins VSUBPD [Y 5; Y 3; Y 8]; Ins VADDPD [Y 5; Y 3; Y 3]; Ins VMULPD [Y 1; Y 7; Y 4];
      Ins VFNMADD231PD [Y 6; Y 8; Y 4]; Ins VMULPD [Y 6; Y 7; Y 5]; Ins VFMADD231PD [Y 1; Y 8; Y 5];
      Ins VMULPD [Y 0; Y 2; Y 2]; Ins VMULPD [Y 0; Y 3; Y 3]; Ins VMULPD [Y 0; Y 4; Y 4]; Ins VMULPD [Y 0; Y 5; Y 5];
      Ins VMOVUPD [Y 2; MI 0 AX R9 8]; Ins VMOVUPD [Y 3; MI 32 AX R9 8]; Ins VMOVUPD [Y 4; MI 0 AX R11 8];
      Ins VMOVUPD [Y 5; MI 32 AX R11 8]; Ins ADDQ [I 8; R R9]; Ins ADDQ [I 8; R R11]]);
   ("last_loop_end",
     [Ins CMPQ [R R9; R CX]; JL "last_loop_body"; RET])].


Section Frames.
Context {A : Type}.
(** These files have no constants. *)
Definition noData (s : string) : option Z := None.
(** The frame of func(vOut, v []float64) and func(coeffs []float64, tw []complex128). *)
Definition frame2 (a b : gslice) (o : Z) : option (Z * word A) :=
  let f (g : gslice) (p : Z) := if p =? 0 then Some (8, WP (gb g) (8 * go g)) else if p =? 8 then Some (8, WI (gn g)) else if p =? 16 then Some (8, WI (gc g)) else None in
  if o <? 24 then f a o else if o <? 48 then f b (o - 24) else None.
(** The frame of func(vOut, v []float64, c complex128). *)
Definition frame2cc (a b : gslice) (re im : A) (o : Z) : option (Z * word A) :=
  if o <? 48 then frame2 a b o else if o =? 48 then Some (8, WF re) else if o =? 56 then Some (8, WF im) else None.
End Frames.
