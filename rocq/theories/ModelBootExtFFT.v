(** Model: bootstrapping on transforms for every size of the look-up table (tfhe/bootstrap.go:27-62).
    No proofs in this file. *)
From Verif Require Import Base ModelNum ModelVec ModelPoly ModelFFT ModelSplitFFT ModelGadget ModelLWE ModelGLWE ModelBoot ModelProdFFT ModelBlindFFT ModelBootFFT ModelExtFFT.

Section BootExt.
Context {F : Type}.
Variable K : kern F.
Variables (w : Z) (N k E : nat).
Variables monoS monoM : list F -> Z -> list F.
Variable fsub : list F -> list F -> list F -> list F.
Variable left : list F -> list F.
(** bootstrap.go:53-62 BlindRotateTo; lutSize is E N.  The Go buffers are shared by the three loops: here b and xb are two
    arbitrary old contents, acc0 the old bodies of ctAcc. *)
Definition BlindRotateExtK (ms : Z -> Z) (p : gadget) (bk : list (list (list (list (list F))))) (bs blockCount n : nat) (b : brBuf F) (xb : extBuf F) (acc0 ctOut : list (list Z)) (ct : list Z) (lut : list (list Z)) : list (list Z) :=
  if Nat.ltb N (E * N) then blindRotateExtendedToK K w N k E monoS monoM fsub left ms p bk bs blockCount n xb acc0 ct lut
  else BlindRotateToK K w N k monoS left ms p bk bs blockCount n b ctOut ct lut.
(** bootstrap.go:27-38 BootstrapLUTTo. *)
Definition BootstrapLUTExtK (ksFirst : bool) (ms : Z -> Z) (pBR pKS : gadget) (bk : list (list (list (list (list F))))) (ksk : list (list (list Z))) (bs blockCount n : nat)
    (b : brBuf F) (xb : extBuf F) (acc0 rotBuf : list (list Z)) (ksBuf extBuf ctOut ct : list Z) (lut : list (list Z)) : list Z :=
  if ksFirst then
    let c := DefaultKeySwitchTo w n (k * N) pKS ksBuf ct ksk in
    let r := BlindRotateExtK ms pBR bk bs blockCount n b xb acc0 rotBuf c lut in
    AsLWECiphertextTo w N 0 ctOut r
  else
    let r := BlindRotateExtK ms pBR bk bs blockCount n b xb acc0 rotBuf ct lut in
    let c := AsLWECiphertextTo w N 0 extBuf r in
    DefaultKeySwitchTo w n (k * N) pKS ctOut c ksk.
End BootExt.
