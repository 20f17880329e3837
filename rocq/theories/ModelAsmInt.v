(** The AVX2 kernels of math/vec/asm_vec_amd64.s and tfhe/asm_decompose_amd64.s, transcribed instruction by
    instruction (the labels and the order of the blocks are those of the files), with the argument frames the Go
    wrappers math/vec/asm_vec_amd64.go and tfhe/asm_decompose_amd64.go pass.  No proofs in this file. *)
From Coq Require Import String.
From Verif Require Import Base ModelNum ModelAsm.
Import ListNotations.
Open Scope string_scope.
Open Scope Z_scope.

(** math/vec/asm_vec_amd64.s:7 MASK_HI, tfhe/asm_decompose_amd64.s:7 ONE. *)
Definition intData (s : string) : option Z :=
  if String.eqb s "MASK_HI" then Some 18446744069414584320 else if String.eqb s "ONE" then Some 1 else None.

(** math/vec/asm_vec_amd64.s:12-45, func addToUint32AVX2(vOut []uint32, v0 []uint32, v1 []uint32). *)
Definition addToUint32AVX2 : prog :=
  [("",
     [Ins MOVQ [FP 0; R AX]; Ins MOVQ [FP 24; R CX]; Ins MOVQ [FP 48; R DX]; Ins MOVQ [FP 8; R BX];
      Ins MOVQ [R BX; R SI]; Ins SHRQ [I 3; R SI]; Ins SHLQ [I 3; R SI]; Ins XORQ [R DI; R DI]; JMP "loop_end"]);
   ("loop_body",
     [Ins VMOVDQU [MI 0 CX DI 4; Y 0]; Ins VMOVDQU [MI 0 DX DI 4; Y 1]; Ins VPADDD [Y 1; Y 0; Y 0];
      Ins VMOVDQU [Y 0; MI 0 AX DI 4]; Ins ADDQ [I 8; R DI]]);
   ("loop_end",
     [Ins CMPQ [R DI; R SI]; JL "loop_body"; JMP "leftover_loop_end"]);
   ("leftover_loop_body",
     [Ins MOVL [MI 0 CX DI 4; R SI]; Ins MOVL [MI 0 DX DI 4; R R8]; Ins ADDL [R R8; R SI];
      Ins MOVL [R SI; MI 0 AX DI 4]; Ins ADDQ [I 1; R DI]]);
   ("leftover_loop_end",
     [Ins CMPQ [R DI; R BX]; JL "leftover_loop_body"; RET])].

(** math/vec/asm_vec_amd64.s:49-82, func subToUint32AVX2(vOut []uint32, v0 []uint32, v1 []uint32). *)
Definition subToUint32AVX2 : prog :=
  [("",
     [Ins MOVQ [FP 0; R AX]; Ins MOVQ [FP 24; R CX]; Ins MOVQ [FP 48; R DX]; Ins MOVQ [FP 8; R BX];
      Ins MOVQ [R BX; R SI]; Ins SHRQ [I 3; R SI]; Ins SHLQ [I 3; R SI]; Ins XORQ [R DI; R DI]; JMP "loop_end"]);
   ("loop_body",
     [Ins VMOVDQU [MI 0 CX DI 4; Y 0]; Ins VMOVDQU [MI 0 DX DI 4; Y 1]; Ins VPSUBD [Y 1; Y 0; Y 0];
      Ins VMOVDQU [Y 0; MI 0 AX DI 4]; Ins ADDQ [I 8; R DI]]);
   ("loop_end",
     [Ins CMPQ [R DI; R SI]; JL "loop_body"; JMP "leftover_loop_end"]);
   ("leftover_loop_body",
     [Ins MOVL [MI 0 CX DI 4; R SI]; Ins MOVL [MI 0 DX DI 4; R R8]; Ins SUBL [R R8; R SI];
      Ins MOVL [R SI; MI 0 AX DI 4]; Ins ADDQ [I 1; R DI]]);
   ("leftover_loop_end",
     [Ins CMPQ [R DI; R BX]; JL "leftover_loop_body"; RET])].

(** math/vec/asm_vec_amd64.s:86-119, func addToUint64AVX2(vOut []uint64, v0 []uint64, v1 []uint64). *)
Definition addToUint64AVX2 : prog :=
  [("",
     [Ins MOVQ [FP 0; R AX]; Ins MOVQ [FP 24; R CX]; Ins MOVQ [FP 48; R DX]; Ins MOVQ [FP 8; R BX];
      Ins MOVQ [R BX; R SI]; Ins SHRQ [I 2; R SI]; Ins SHLQ [I 2; R SI]; Ins XORQ [R DI; R DI]; JMP "loop_end"]);
   ("loop_body",
     [Ins VMOVDQU [MI 0 CX DI 8; Y 0]; Ins VMOVDQU [MI 0 DX DI 8; Y 1]; Ins VPADDQ [Y 1; Y 0; Y 0];
      Ins VMOVDQU [Y 0; MI 0 AX DI 8]; Ins ADDQ [I 4; R DI]]);
   ("loop_end",
     [Ins CMPQ [R DI; R SI]; JL "loop_body"; JMP "leftover_loop_end"]);
   ("leftover_loop_body",
     [Ins MOVQ [MI 0 CX DI 8; R SI]; Ins MOVQ [MI 0 DX DI 8; R R8]; Ins ADDQ [R R8; R SI];
      Ins MOVQ [R SI; MI 0 AX DI 8]; Ins ADDQ [I 1; R DI]]);
   ("leftover_loop_end",
     [Ins CMPQ [R DI; R BX]; JL "leftover_loop_body"; RET])].

(** math/vec/asm_vec_amd64.s:123-156, func subToUint64AVX2(vOut []uint64, v0 []uint64, v1 []uint64). *)
Definition subToUint64AVX2 : prog :=
  [("",
     [Ins MOVQ [FP 0; R AX]; Ins MOVQ [FP 24; R CX]; Ins MOVQ [FP 48; R DX]; Ins MOVQ [FP 8; R BX];
      Ins MOVQ [R BX; R SI]; Ins SHRQ [I 2; R SI]; Ins SHLQ [I 2; R SI]; Ins XORQ [R DI; R DI]; JMP "loop_end"]);
   ("loop_body",
     [Ins VMOVDQU [MI 0 CX DI 8; Y 0]; Ins VMOVDQU [MI 0 DX DI 8; Y 1]; Ins VPSUBQ [Y 1; Y 0; Y 0];
      Ins VMOVDQU [Y 0; MI 0 AX DI 8]; Ins ADDQ [I 4; R DI]]);
   ("loop_end",
     [Ins CMPQ [R DI; R SI]; JL "loop_body"; JMP "leftover_loop_end"]);
   ("leftover_loop_body",
     [Ins MOVQ [MI 0 CX DI 8; R SI]; Ins MOVQ [MI 0 DX DI 8; R R8]; Ins SUBQ [R R8; R SI];
      Ins MOVQ [R SI; MI 0 AX DI 8]; Ins ADDQ [I 1; R DI]]);
   ("leftover_loop_end",
     [Ins CMPQ [R DI; R BX]; JL "leftover_loop_body"; RET])].

(** math/vec/asm_vec_amd64.s:160-192, func scalarMulToUint32AVX2(vOut []uint32, v []uint32, c uint32). *)
Definition scalarMulToUint32AVX2 : prog :=
  [("",
     [Ins MOVQ [FP 0; R AX]; Ins MOVQ [FP 24; R CX]; Ins MOVQ [FP 8; R DX]; Ins MOVQ [R DX; R BX];
      Ins SHRQ [I 3; R BX]; Ins SHLQ [I 3; R BX]; Ins MOVL [FP 48; R SI]; Ins VPBROADCASTD [FP 48; Y 0];
      Ins XORQ [R DI; R DI]; JMP "loop_end"]);
   ("loop_body",
     [Ins VMOVDQU [MI 0 CX DI 4; Y 1]; Ins VPMULLD [Y 0; Y 1; Y 1]; Ins VMOVDQU [Y 1; MI 0 AX DI 4];
      Ins ADDQ [I 8; R DI]]);
   ("loop_end",
     [Ins CMPQ [R DI; R BX]; JL "loop_body"; JMP "leftover_loop_end"]);
   ("leftover_loop_body",
     [Ins MOVL [MI 0 CX DI 4; R BX]; Ins IMULL [R SI; R BX]; Ins MOVL [R BX; MI 0 AX DI 4]; Ins ADDQ [I 1; R DI]]);
   ("leftover_loop_end",
     [Ins CMPQ [R DI; R DX]; JL "leftover_loop_body"; RET])].

(** math/vec/asm_vec_amd64.s:196-232, func scalarMulAddToUint32AVX2(vOut []uint32, v []uint32, c uint32). *)
Definition scalarMulAddToUint32AVX2 : prog :=
  [("",
     [Ins MOVQ [FP 0; R AX]; Ins MOVQ [FP 24; R CX]; Ins MOVQ [FP 8; R DX]; Ins MOVQ [R DX; R BX];
      Ins SHRQ [I 3; R BX]; Ins SHLQ [I 3; R BX]; Ins MOVL [FP 48; R SI]; Ins VPBROADCASTD [FP 48; Y 0];
      Ins XORQ [R DI; R DI]; JMP "loop_end"]);
   ("loop_body",
     [Ins VMOVDQU [MI 0 CX DI 4; Y 1]; Ins VPMULLD [Y 0; Y 1; Y 1]; Ins VMOVDQU [MI 0 AX DI 4; Y 2];
      Ins VPADDD [Y 1; Y 2; Y 2]; Ins VMOVDQU [Y 2; MI 0 AX DI 4]; Ins ADDQ [I 8; R DI]]);
   ("loop_end",
     [Ins CMPQ [R DI; R BX]; JL "loop_body"; JMP "leftover_loop_end"]);
   ("leftover_loop_body",
     [Ins MOVL [MI 0 CX DI 4; R BX]; Ins IMULL [R SI; R BX]; Ins MOVL [MI 0 AX DI 4; R R8]; Ins ADDL [R BX; R R8];
      Ins MOVL [R R8; MI 0 AX DI 4]; Ins ADDQ [I 1; R DI]]);
   ("leftover_loop_end",
     [Ins CMPQ [R DI; R DX]; JL "leftover_loop_body"; RET])].

(** math/vec/asm_vec_amd64.s:236-272, func scalarMulSubToUint32AVX2(vOut []uint32, v []uint32, c uint32). *)
Definition scalarMulSubToUint32AVX2 : prog :=
  [("",
     [Ins MOVQ [FP 0; R AX]; Ins MOVQ [FP 24; R CX]; Ins MOVQ [FP 8; R DX]; Ins MOVQ [R DX; R BX];
      Ins SHRQ [I 3; R BX]; Ins SHLQ [I 3; R BX]; Ins MOVL [FP 48; R SI]; Ins VPBROADCASTD [FP 48; Y 0];
      Ins XORQ [R DI; R DI]; JMP "loop_end"]);
   ("loop_body",
     [Ins VMOVDQU [MI 0 CX DI 4; Y 1]; Ins VPMULLD [Y 0; Y 1; Y 1]; Ins VMOVDQU [MI 0 AX DI 4; Y 2];
      Ins VPSUBD [Y 1; Y 2; Y 2]; Ins VMOVDQU [Y 2; MI 0 AX DI 4]; Ins ADDQ [I 8; R DI]]);
   ("loop_end",
     [Ins CMPQ [R DI; R BX]; JL "loop_body"; JMP "leftover_loop_end"]);
   ("leftover_loop_body",
     [Ins MOVL [MI 0 CX DI 4; R BX]; Ins IMULL [R SI; R BX]; Ins MOVL [MI 0 AX DI 4; R R8]; Ins SUBL [R BX; R R8];
      Ins MOVL [R R8; MI 0 AX DI 4]; Ins ADDQ [I 1; R DI]]);
   ("leftover_loop_end",
     [Ins CMPQ [R DI; R DX]; JL "leftover_loop_body"; RET])].

(** math/vec/asm_vec_amd64.s:276-315, func scalarMulToUint64AVX2(vOut []uint64, v []uint64, c uint64). *)
Definition scalarMulToUint64AVX2 : prog :=
  [("",
     [Ins VPBROADCASTQ [SB "MASK_HI"; Y 0]; Ins MOVQ [FP 0; R AX]; Ins MOVQ [FP 24; R CX]; Ins MOVQ [FP 8; R DX];
      Ins MOVQ [R DX; R BX]; Ins SHRQ [I 2; R BX]; Ins SHLQ [I 2; R BX]; Ins MOVQ [FP 48; R SI];
      Ins VPBROADCASTQ [FP 48; Y 1]; Ins VPSHUFD [I 177; Y 1; Y 2]; Ins XORQ [R DI; R DI]; JMP "loop_end"]);
   ("loop_body",
     [Ins VMOVDQU [MI 0 CX DI 8; Y 3]; Ins VPMULUDQ [Y 1; Y 3; Y 4]; Ins VPMULLD [Y 2; Y 3; Y 3];
      Ins VPSLLQ [I 32; Y 3; Y 5]; Ins VPAND [Y 0; Y 3; Y 3]; Ins VPADDQ [Y 5; Y 3; Y 3]; Ins VPADDQ [Y 4; Y 3; Y 3];
      Ins VMOVDQU [Y 3; MI 0 AX DI 8]; Ins ADDQ [I 4; R DI]]);
   ("loop_end",
     [Ins CMPQ [R DI; R BX]; JL "loop_body"; JMP "leftover_loop_end"]);
   ("leftover_loop_body",
     [Ins MOVQ [MI 0 CX DI 8; R BX]; Ins IMULQ [R SI; R BX]; Ins MOVQ [R BX; MI 0 AX DI 8]; Ins ADDQ [I 1; R DI]]);
   ("leftover_loop_end",
     [Ins CMPQ [R DI; R DX]; JL "leftover_loop_body"; RET])].

(** math/vec/asm_vec_amd64.s:319-362, func scalarMulAddToUint64AVX2(vOut []uint64, v []uint64, c uint64). *)
Definition scalarMulAddToUint64AVX2 : prog :=
  [("",
     [Ins VPBROADCASTQ [SB "MASK_HI"; Y 0]; Ins MOVQ [FP 0; R AX]; Ins MOVQ [FP 24; R CX]; Ins MOVQ [FP 8; R DX];
      Ins MOVQ [R DX; R BX]; Ins SHRQ [I 2; R BX]; Ins SHLQ [I 2; R BX]; Ins MOVQ [FP 48; R SI];
      Ins VPBROADCASTQ [FP 48; Y 1]; Ins VPSHUFD [I 177; Y 1; Y 2]; Ins XORQ [R DI; R DI]; JMP "loop_end"]);
   ("loop_body",
     [Ins VMOVDQU [MI 0 CX DI 8; Y 3]; Ins VPMULUDQ [Y 1; Y 3; Y 4]; Ins VPMULLD [Y 2; Y 3; Y 3];
      Ins VPSLLQ [I 32; Y 3; Y 5]; Ins VPAND [Y 0; Y 3; Y 3]; Ins VPADDQ [Y 5; Y 3; Y 3]; Ins VPADDQ [Y 4; Y 3; Y 3];
      Ins VMOVDQU [MI 0 AX DI 8; Y 4]; Ins VPADDQ [Y 3; Y 4; Y 4]; Ins VMOVDQU [Y 4; MI 0 AX DI 8];
      Ins ADDQ [I 4; R DI]]);
   ("loop_end",
     [Ins CMPQ [R DI; R BX]; JL "loop_body"; JMP "leftover_loop_end"]);
   ("leftover_loop_body",
     [Ins MOVQ [MI 0 CX DI 8; R BX]; Ins IMULQ [R SI; R BX]; Ins MOVQ [MI 0 AX DI 8; R R8]; Ins ADDQ [R BX; R R8];
      Ins MOVQ [R R8; MI 0 AX DI 8]; Ins ADDQ [I 1; R DI]]);
   ("leftover_loop_end",
     [Ins CMPQ [R DI; R DX]; JL "leftover_loop_body"; RET])].

(** math/vec/asm_vec_amd64.s:366-409, func scalarMulSubToUint64AVX2(vOut []uint64, v []uint64, c uint64). *)
Definition scalarMulSubToUint64AVX2 : prog :=
  [("",
     [Ins VPBROADCASTQ [SB "MASK_HI"; Y 0]; Ins MOVQ [FP 0; R AX]; Ins MOVQ [FP 24; R CX]; Ins MOVQ [FP 8; R DX];
      Ins MOVQ [R DX; R BX]; Ins SHRQ [I 2; R BX]; Ins SHLQ [I 2; R BX]; Ins MOVQ [FP 48; R SI];
      Ins VPBROADCASTQ [FP 48; Y 1]; Ins VPSHUFD [I 177; Y 1; Y 2]; Ins XORQ [R DI; R DI]; JMP "loop_end"]);
   ("loop_body",
     [Ins VMOVDQU [MI 0 CX DI 8; Y 3]; Ins VPMULUDQ [Y 1; Y 3; Y 4]; Ins VPMULLD [Y 2; Y 3; Y 3];
      Ins VPSLLQ [I 32; Y 3; Y 5]; Ins VPAND [Y 0; Y 3; Y 3]; Ins VPADDQ [Y 5; Y 3; Y 3]; Ins VPADDQ [Y 4; Y 3; Y 3];
      Ins VMOVDQU [MI 0 AX DI 8; Y 4]; Ins VPSUBQ [Y 3; Y 4; Y 4]; Ins VMOVDQU [Y 4; MI 0 AX DI 8];
      Ins ADDQ [I 4; R DI]]);
   ("loop_end",
     [Ins CMPQ [R DI; R BX]; JL "loop_body"; JMP "leftover_loop_end"]);
   ("leftover_loop_body",
     [Ins MOVQ [MI 0 CX DI 8; R BX]; Ins IMULQ [R SI; R BX]; Ins MOVQ [MI 0 AX DI 8; R R8]; Ins SUBQ [R BX; R R8];
      Ins MOVQ [R R8; MI 0 AX DI 8]; Ins ADDQ [I 1; R DI]]);
   ("leftover_loop_end",
     [Ins CMPQ [R DI; R DX]; JL "leftover_loop_body"; RET])].

(** math/vec/asm_vec_amd64.s:413-446, func mulToUint32AVX2(vOut []uint32, v0 []uint32, v1 []uint32). *)
Definition mulToUint32AVX2 : prog :=
  [("",
     [Ins MOVQ [FP 0; R AX]; Ins MOVQ [FP 24; R CX]; Ins MOVQ [FP 48; R DX]; Ins MOVQ [FP 8; R BX];
      Ins MOVQ [R BX; R SI]; Ins SHRQ [I 3; R SI]; Ins SHLQ [I 3; R SI]; Ins XORQ [R DI; R DI]; JMP "loop_end"]);
   ("loop_body",
     [Ins VMOVDQU [MI 0 CX DI 4; Y 0]; Ins VMOVDQU [MI 0 DX DI 4; Y 1]; Ins VPMULLD [Y 1; Y 0; Y 0];
      Ins VMOVDQU [Y 0; MI 0 AX DI 4]; Ins ADDQ [I 8; R DI]]);
   ("loop_end",
     [Ins CMPQ [R DI; R SI]; JL "loop_body"; JMP "leftover_loop_end"]);
   ("leftover_loop_body",
     [Ins MOVL [MI 0 CX DI 4; R SI]; Ins MOVL [MI 0 DX DI 4; R R8]; Ins IMULL [R R8; R SI];
      Ins MOVL [R SI; MI 0 AX DI 4]; Ins ADDQ [I 1; R DI]]);
   ("leftover_loop_end",
     [Ins CMPQ [R DI; R BX]; JL "leftover_loop_body"; RET])].

(** math/vec/asm_vec_amd64.s:450-487, func mulAddToUint32AVX2(vOut []uint32, v0 []uint32, v1 []uint32). *)
Definition mulAddToUint32AVX2 : prog :=
  [("",
     [Ins MOVQ [FP 0; R AX]; Ins MOVQ [FP 24; R CX]; Ins MOVQ [FP 48; R DX]; Ins MOVQ [FP 8; R BX];
      Ins MOVQ [R BX; R SI]; Ins SHRQ [I 3; R SI]; Ins SHLQ [I 3; R SI]; Ins XORQ [R DI; R DI]; JMP "loop_end"]);
   ("loop_body",
     [Ins VMOVDQU [MI 0 CX DI 4; Y 0]; Ins VMOVDQU [MI 0 DX DI 4; Y 1]; Ins VPMULLD [Y 1; Y 0; Y 0];
      Ins VMOVDQU [MI 0 AX DI 4; Y 1]; Ins VPADDD [Y 0; Y 1; Y 1]; Ins VMOVDQU [Y 1; MI 0 AX DI 4];
      Ins ADDQ [I 8; R DI]]);
   ("loop_end",
     [Ins CMPQ [R DI; R SI]; JL "loop_body"; JMP "leftover_loop_end"]);
   ("leftover_loop_body",
     [Ins MOVL [MI 0 CX DI 4; R SI]; Ins MOVL [MI 0 DX DI 4; R R8]; Ins IMULL [R R8; R SI];
      Ins MOVL [MI 0 AX DI 4; R R8]; Ins ADDL [R SI; R R8]; Ins MOVL [R R8; MI 0 AX DI 4]; Ins ADDQ [I 1; R DI]]);
   ("leftover_loop_end",
     [Ins CMPQ [R DI; R BX]; JL "leftover_loop_body"; RET])].

(** math/vec/asm_vec_amd64.s:491-528, func mulSubToUint32AVX2(vOut []uint32, v0 []uint32, v1 []uint32). *)
Definition mulSubToUint32AVX2 : prog :=
  [("",
     [Ins MOVQ [FP 0; R AX]; Ins MOVQ [FP 24; R CX]; Ins MOVQ [FP 48; R DX]; Ins MOVQ [FP 8; R BX];
      Ins MOVQ [R BX; R SI]; Ins SHRQ [I 3; R SI]; Ins SHLQ [I 3; R SI]; Ins XORQ [R DI; R DI]; JMP "loop_end"]);
   ("loop_body",
     [Ins VMOVDQU [MI 0 CX DI 4; Y 0]; Ins VMOVDQU [MI 0 DX DI 4; Y 1]; Ins VPMULLD [Y 1; Y 0; Y 0];
      Ins VMOVDQU [MI 0 AX DI 4; Y 1]; Ins VPSUBD [Y 0; Y 1; Y 1]; Ins VMOVDQU [Y 1; MI 0 AX DI 4];
      Ins ADDQ [I 8; R DI]]);
   ("loop_end",
     [Ins CMPQ [R DI; R SI]; JL "loop_body"; JMP "leftover_loop_end"]);
   ("leftover_loop_body",
     [Ins MOVL [MI 0 CX DI 4; R SI]; Ins MOVL [MI 0 DX DI 4; R R8]; Ins IMULL [R R8; R SI];
      Ins MOVL [MI 0 AX DI 4; R R8]; Ins SUBL [R SI; R R8]; Ins MOVL [R R8; MI 0 AX DI 4]; Ins ADDQ [I 1; R DI]]);
   ("leftover_loop_end",
     [Ins CMPQ [R DI; R BX]; JL "leftover_loop_body"; RET])].

(** math/vec/asm_vec_amd64.s:532-572, func mulToUint64AVX2(vOut []uint64, v0 []uint64, v1 []uint64). *)
Definition mulToUint64AVX2 : prog :=
  [("",
     [Ins VPBROADCASTQ [SB "MASK_HI"; Y 0]; Ins MOVQ [FP 0; R AX]; Ins MOVQ [FP 24; R CX]; Ins MOVQ [FP 48; R DX];
      Ins MOVQ [FP 8; R BX]; Ins MOVQ [R BX; R SI]; Ins SHRQ [I 2; R SI]; Ins SHLQ [I 2; R SI];
      Ins XORQ [R DI; R DI]; JMP "loop_end"]);
   ("loop_body",
     [Ins VMOVDQU [MI 0 CX DI 8; Y 1]; Ins VMOVDQU [MI 0 DX DI 8; Y 2]; Ins VPSHUFD [I 177; Y 1; Y 3];
      Ins VPMULUDQ [Y 1; Y 2; Y 1]; Ins VPMULLD [Y 3; Y 2; Y 2]; Ins VPSLLQ [I 32; Y 2; Y 3];
      Ins VPAND [Y 0; Y 2; Y 2]; Ins VPADDQ [Y 3; Y 2; Y 2]; Ins VPADDQ [Y 1; Y 2; Y 2];
      Ins VMOVDQU [Y 2; MI 0 AX DI 8]; Ins ADDQ [I 4; R DI]]);
   ("loop_end",
     [Ins CMPQ [R DI; R SI]; JL "loop_body"; JMP "leftover_loop_end"]);
   ("leftover_loop_body",
     [Ins MOVQ [MI 0 CX DI 8; R SI]; Ins MOVQ [MI 0 DX DI 8; R R8]; Ins IMULQ [R R8; R SI];
      Ins MOVQ [R SI; MI 0 AX DI 8]; Ins ADDQ [I 1; R DI]]);
   ("leftover_loop_end",
     [Ins CMPQ [R DI; R BX]; JL "leftover_loop_body"; RET])].

(** math/vec/asm_vec_amd64.s:576-620, func mulAddToUint64AVX2(vOut []uint64, v0 []uint64, v1 []uint64). *)
Definition mulAddToUint64AVX2 : prog :=
  [("",
     [Ins VPBROADCASTQ [SB "MASK_HI"; Y 0]; Ins MOVQ [FP 0; R AX]; Ins MOVQ [FP 24; R CX]; Ins MOVQ [FP 48; R DX];
      Ins MOVQ [FP 8; R BX]; Ins MOVQ [R BX; R SI]; Ins SHRQ [I 2; R SI]; Ins SHLQ [I 2; R SI];
      Ins XORQ [R DI; R DI]; JMP "loop_end"]);
   ("loop_body",
     [Ins VMOVDQU [MI 0 CX DI 8; Y 1]; Ins VMOVDQU [MI 0 DX DI 8; Y 2]; Ins VPSHUFD [I 177; Y 1; Y 3];
      Ins VPMULUDQ [Y 1; Y 2; Y 1]; Ins VPMULLD [Y 3; Y 2; Y 2]; Ins VPSLLQ [I 32; Y 2; Y 3];
      Ins VPAND [Y 0; Y 2; Y 2]; Ins VPADDQ [Y 3; Y 2; Y 2]; Ins VPADDQ [Y 1; Y 2; Y 2];
      Ins VMOVDQU [MI 0 AX DI 8; Y 1]; Ins VPADDQ [Y 2; Y 1; Y 1]; Ins VMOVDQU [Y 1; MI 0 AX DI 8];
      Ins ADDQ [I 4; R DI]]);
   ("loop_end",
     [Ins CMPQ [R DI; R SI]; JL "loop_body"; JMP "leftover_loop_end"]);
   ("leftover_loop_body",
     [Ins MOVQ [MI 0 CX DI 8; R SI]; Ins MOVQ [MI 0 DX DI 8; R R8]; Ins IMULQ [R R8; R SI];
      Ins MOVQ [MI 0 AX DI 8; R R8]; Ins ADDQ [R SI; R R8]; Ins MOVQ [R R8; MI 0 AX DI 8]; Ins ADDQ [I 1; R DI]]);
   ("leftover_loop_end",
     [Ins CMPQ [R DI; R BX]; JL "leftover_loop_body"; RET])].

(** math/vec/asm_vec_amd64.s:624-668, func mulSubToUint64AVX2(vOut []uint64, v0 []uint64, v1 []uint64). *)
Definition mulSubToUint64AVX2 : prog :=
  [("",
     [Ins VPBROADCASTQ [SB "MASK_HI"; Y 0]; Ins MOVQ [FP 0; R AX]; Ins MOVQ [FP 24; R CX]; Ins MOVQ [FP 48; R DX];
      Ins MOVQ [FP 8; R BX]; Ins MOVQ [R BX; R SI]; Ins SHRQ [I 2; R SI]; Ins SHLQ [I 2; R SI];
      Ins XORQ [R DI; R DI]; JMP "loop_end"]);
   ("loop_body",
     [Ins VMOVDQU [MI 0 CX DI 8; Y 1]; Ins VMOVDQU [MI 0 DX DI 8; Y 2]; Ins VPSHUFD [I 177; Y 1; Y 3];
      Ins VPMULUDQ [Y 1; Y 2; Y 1]; Ins VPMULLD [Y 3; Y 2; Y 2]; Ins VPSLLQ [I 32; Y 2; Y 3];
      Ins VPAND [Y 0; Y 2; Y 2]; Ins VPADDQ [Y 3; Y 2; Y 2]; Ins VPADDQ [Y 1; Y 2; Y 2];
      Ins VMOVDQU [MI 0 AX DI 8; Y 1]; Ins VPSUBQ [Y 2; Y 1; Y 1]; Ins VMOVDQU [Y 1; MI 0 AX DI 8];
      Ins ADDQ [I 4; R DI]]);
   ("loop_end",
     [Ins CMPQ [R DI; R SI]; JL "loop_body"; JMP "leftover_loop_end"]);
   ("leftover_loop_body",
     [Ins MOVQ [MI 0 CX DI 8; R SI]; Ins MOVQ [MI 0 DX DI 8; R R8]; Ins IMULQ [R R8; R SI];
      Ins MOVQ [MI 0 AX DI 8; R R8]; Ins SUBQ [R SI; R R8]; Ins MOVQ [R R8; MI 0 AX DI 8]; Ins ADDQ [I 1; R DI]]);
   ("leftover_loop_end",
     [Ins CMPQ [R DI; R BX]; JL "leftover_loop_body"; RET])].


(** tfhe/asm_decompose_amd64.s:12-68, func decomposePolyToUint32AVX2(dcmpOut [][]uint32, p []uint32, base uint32, logBase uint32, logLastBaseQ uint32). *)
Definition decomposePolyToUint32AVX2 : prog :=
  [("",
     [Ins MOVQ [FP 0; R AX]; Ins MOVQ [FP 24; R CX]; Ins MOVQ [FP 32; R DX]; Ins MOVQ [FP 8; R BX];
      Ins VPBROADCASTD [FP 48; Y 0]; Ins VPBROADCASTD [FP 52; Y 1]; Ins VPBROADCASTD [FP 56; Y 2];
      Ins VPBROADCASTD [SB "ONE"; Y 3]; Ins VPSUBD [Y 3; Y 0; Y 4]; Ins VPSRLD [I 1; Y 0; Y 0];
      Ins VPSUBD [Y 3; Y 1; Y 5]; Ins XORQ [R SI; R SI]; JMP "N_loop_end"]);
   ("N_loop_body",
     [Ins VMOVDQU [MI 0 CX SI 4; Y 6]; Ins VPSRLVD [Y 2; Y 6; Y 7]; Ins VPSLLD [I 1; Y 6; Y 6];
      Ins VPSRLVD [Y 2; Y 6; Y 6]; Ins VANDPD [Y 3; Y 6; Y 6]; Ins VPADDD [Y 6; Y 7; Y 6]; Ins MOVQ [R BX; R DI];
      Ins SUBQ [I 1; R DI]; Ins MOVQ [R DI; R R8]; Ins ADDQ [R DI; R R8]; Ins ADDQ [R DI; R R8];
      JMP "level_loop_end"]);
   ("level_loop_body",
     [Ins VANDPD [Y 4; Y 6; Y 7]; Ins VPSRLVD [Y 1; Y 6; Y 6]; Ins VPSRLVD [Y 5; Y 7; Y 8];
      Ins VPADDD [Y 8; Y 6; Y 6]; Ins VANDPD [Y 0; Y 7; Y 8]; Ins VPSLLD [I 1; Y 8; Y 8]; Ins VPSUBD [Y 8; Y 7; Y 7];
      Ins MOVQ [MI 0 AX R8 8; R R9]; Ins VMOVDQU [Y 7; MI 0 R9 SI 4]; Ins SUBQ [I 1; R DI]; Ins SUBQ [I 3; R R8]]);
   ("level_loop_end",
     [Ins CMPQ [R DI; I 1]; JGE "level_loop_body"; Ins VANDPD [Y 4; Y 6; Y 6]; Ins VANDPD [Y 0; Y 6; Y 7];
      Ins VPSLLD [I 1; Y 7; Y 7]; Ins VPSUBD [Y 7; Y 6; Y 6]; Ins MOVQ [M 0 AX; R DI];
      Ins VMOVDQU [Y 6; MI 0 DI SI 4]; Ins ADDQ [I 8; R SI]]);
   ("N_loop_end",
     [Ins CMPQ [R SI; R DX]; JL "N_loop_body"; RET])].

(** tfhe/asm_decompose_amd64.s:72-128, func decomposePolyToUint64AVX2(dcmpOut [][]uint64, p []uint64, base uint64, logBase uint64, logLastBaseQ uint64). *)
Definition decomposePolyToUint64AVX2 : prog :=
  [("",
     [Ins MOVQ [FP 0; R AX]; Ins MOVQ [FP 24; R CX]; Ins MOVQ [FP 32; R DX]; Ins MOVQ [FP 8; R BX];
      Ins VPBROADCASTQ [FP 48; Y 0]; Ins VPBROADCASTQ [FP 56; Y 1]; Ins VPBROADCASTQ [FP 64; Y 2];
      Ins VPBROADCASTQ [SB "ONE"; Y 3]; Ins VPSUBQ [Y 3; Y 0; Y 4]; Ins VPSRLQ [I 1; Y 0; Y 0];
      Ins VPSUBQ [Y 3; Y 1; Y 5]; Ins XORQ [R SI; R SI]; JMP "N_loop_end"]);
   ("N_loop_body",
     [Ins VMOVDQU [MI 0 CX SI 8; Y 6]; Ins VPSRLVQ [Y 2; Y 6; Y 7]; Ins VPSLLQ [I 1; Y 6; Y 6];
      Ins VPSRLVQ [Y 2; Y 6; Y 6]; Ins VANDPD [Y 3; Y 6; Y 6]; Ins VPADDQ [Y 6; Y 7; Y 6]; Ins MOVQ [R BX; R DI];
      Ins SUBQ [I 1; R DI]; Ins MOVQ [R DI; R R8]; Ins ADDQ [R DI; R R8]; Ins ADDQ [R DI; R R8];
      JMP "level_loop_end"]);
   ("level_loop_body",
     [Ins VANDPD [Y 4; Y 6; Y 7]; Ins VPSRLVQ [Y 1; Y 6; Y 6]; Ins VPSRLVQ [Y 5; Y 7; Y 8];
      Ins VPADDQ [Y 8; Y 6; Y 6]; Ins VANDPD [Y 0; Y 7; Y 8]; Ins VPSLLQ [I 1; Y 8; Y 8]; Ins VPSUBQ [Y 8; Y 7; Y 7];
      Ins MOVQ [MI 0 AX R8 8; R R9]; Ins VMOVDQU [Y 7; MI 0 R9 SI 8]; Ins SUBQ [I 1; R DI]; Ins SUBQ [I 3; R R8]]);
   ("level_loop_end",
     [Ins CMPQ [R DI; I 1]; JGE "level_loop_body"; Ins VANDPD [Y 4; Y 6; Y 6]; Ins VANDPD [Y 0; Y 6; Y 7];
      Ins VPSLLQ [I 1; Y 7; Y 7]; Ins VPSUBQ [Y 7; Y 6; Y 6]; Ins MOVQ [M 0 AX; R DI];
      Ins VMOVDQU [Y 6; MI 0 DI SI 8]; Ins ADDQ [I 4; R SI]]);
   ("N_loop_end",
     [Ins CMPQ [R SI; R DX]; JL "N_loop_body"; RET])].


Section Frames.
Context {A : Type}.
(** A slice argument: base pointer, length, capacity (8 bytes each). *)
Record gslice := mkG { gb : nat; go : Z; gn : Z; gc : Z }.
(** The frame of func(vOut, v0, v1 []T): stack layout of Go's ABI0 (math/vec/asm_vec_stub_amd64.go). *)
Definition frame3 (a b c : gslice) (e : Z) (o : Z) : option (Z * word A) :=
  let f (g : gslice) (p : Z) := if p =? 0 then Some (8, WP (gb g) (e * go g)) else if p =? 8 then Some (8, WI (gn g)) else if p =? 16 then Some (8, WI (gc g)) else None in
  if o <? 24 then f a o else if o <? 48 then f b (o - 24) else f c (o - 48).
(** The frame of func(vOut, v []T, c T). *)
Definition frame2c (a b : gslice) (e : Z) (c : word A) (o : Z) : option (Z * word A) :=
  let f (g : gslice) (p : Z) := if p =? 0 then Some (8, WP (gb g) (e * go g)) else if p =? 8 then Some (8, WI (gn g)) else if p =? 16 then Some (8, WI (gc g)) else None in
  if o <? 24 then f a o else if o <? 48 then f b (o - 24) else if o =? 48 then Some (e, c) else None.
(** The frame of decomposePolyTo(dcmpOut [][]T, p []T, base, logBase, logLastBaseQ T). *)
Definition frameD (a b : gslice) (e base logBase logLast : Z) (o : Z) : option (Z * word A) :=
  if o =? 0 then Some (8, WP (gb a) (8 * go a)) else if o =? 8 then Some (8, WI (gn a)) else if o =? 16 then Some (8, WI (gc a))
  else if o =? 24 then Some (8, WP (gb b) (e * go b)) else if o =? 32 then Some (8, WI (gn b)) else if o =? 40 then Some (8, WI (gc b))
  else if o =? 48 then Some (e, WI base) else if o =? 48 + e then Some (e, WI logBase) else if o =? 48 + 2 * e then Some (e, WI logLast) else None.
End Frames.
