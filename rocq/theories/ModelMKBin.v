(** Model of mktfhe/binary_evaluator.go, binary_encryptor.go and binary_decryptor.go.  No proofs in this file.
    NOT, AND, NAND, OR and NOR are the loops and constants of tfhe/binary_evaluator.go (ModelBinary.v) over
    DefaultLWEDimension()+1 = P*n+1 or P*N+1 elements; XOR and XNOR use another constant.  The Parallel variants
    run the same loops and BootstrapLUTParallelTo. *)
From Verif Require Import Base ModelNum ModelVec ModelLWE ModelGadget ModelBoot SpecBinary ModelBinary ModelMK.

(** binary_evaluator.go:223-230 XORTo, 261-268 XNORTo: the body constant is 1 << (LogQ - 3). *)
Definition MKXORTo (w : Z) (n : nat) (boot : list Z -> list Z -> list Z) (s : store) (out a b : nat) : store :=
  bootSelf boot (addBody w (gateLoop n (fun x y => wrap w (2 * wrap w (x + y))) s out a b) out (Z.shiftl 1 (w - 3))) out.
Definition MKXNORTo (w : Z) (n : nat) (boot : list Z -> list Z -> list Z) (s : store) (out a b : nat) : store :=
  bootSelf boot (subBody w (gateLoop n (fun x y => wrap w (2 * wrap w (wrap w (- x) - y))) s out a b) out (Z.shiftl 1 (w - 3))) out.

Definition mkRunGate (w : Z) (n : nat) (boot : list Z -> list Z -> list Z) (g : gate) : store -> nat -> nat -> nat -> store :=
  match g with
  | gAND => ANDTo w n boot | gNAND => NANDTo w n boot | gOR => ORTo w n boot | gNOR => NORTo w n boot | gXOR => MKXORTo w n boot | gXNOR => MKXNORTo w n boot
  end.
Definition mkStepC (w : Z) (n : nat) (s : store) (ib : instr * (list Z -> list Z -> list Z)) : store :=
  match fst ib with INot o a => NOTTo w n s o a | IGate g o a b => mkRunGate w n (snd ib) g s o a b end.
Definition mkRunC (w : Z) (n : nat) (p : list (instr * (list Z -> list Z -> list Z))) (s : store) : store := fold_left (mkStepC w n) p s.

(** The buffers of Evaluator.BootstrapLUTTo. *)
Record mkBootBufs := mkMB { mb_rins : list (list Z); mb_acc0s : list (list (list Z)); mb_accbs : list (list (list Z)); mb_faccbs : list (list (list (list Z)));
  mb_buf : list (list Z); mb_rbuf : list (list Z); mb_rot : list (list Z); mb_ks : list Z; mb_ext : list Z }.
(** binary_evaluator.go:22-34 (NewBinaryEvaluator; the sub parameters have LUTSize = PolyRank, so one table polynomial):
    e.Evaluator.BootstrapLUTTo(ctOut, ctOut, e.signLUT). *)
Definition mkBoot (w : Z) (N P : nat) (order : bool) (ms : Z -> Z) (pa pr pBR pKS : gadget) (bm : list bool) (eks : list evalKey) (bs bc n : nat) (b : mkBootBufs) (lut : list (list Z)) (out ct : list Z) : list Z :=
  MKBootstrapLUTTo w N P order ms pa pr pBR pKS bm eks bs bc n (mb_rins b) (mb_acc0s b) (mb_accbs b) (mb_faccbs b) (mb_buf b) (mb_rbuf b) (mb_rot b) (mb_ks b) (mb_ext b) out ct lut.
Definition mkBootSign (w : Z) (N P : nat) (order : bool) (ms : Z -> Z) (pa pr pBR pKS : gadget) (bm : list bool) (eks : list evalKey) (bs bc n : nat) (b : mkBootBufs) : list Z -> list Z -> list Z :=
  mkBoot w N P order ms pa pr pBR pKS bm eks bs bc n b (signLUT w N 1).

(** binary_encryptor.go:54-56 EncryptLWEBoolTo. *)
Definition MKEncryptLWEBoolTo (w : Z) (U G : nat -> Z) (sk sub : list Z) (idx : nat) (ctOut : list Z) (m : bool) (st : rst) :=
  MKEncryptLWEPlaintextTo w U G sk sub idx ctOut (EncodeLWEBool w m) st.
(** binary_decryptor.go:36-38 DecryptLWEBool, 42-51 DecryptLWEBits. *)
Definition MKDecryptLWEBool (w : Z) (n : nat) (bm : list bool) (keys : list (list Z)) (ct : list Z) : bool := DecodeLWEBool w (MKDecryptLWEPlaintext w n bm keys ct).
Definition MKDecryptLWEBits (w : Z) (n : nat) (bm : list bool) (keys cts : list (list Z)) : Z :=
  forN 0 (length cts) (fun d m =>
    let i := (length cts - 1 - d)%nat in
    let m := swrap 64 (Z.shiftl m 1) in
    if MKDecryptLWEBool w n bm keys (nth i cts []) then swrap 64 (m + 1) else m) 0.
