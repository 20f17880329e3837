(** Model: bootstrapping on Fourier transforms as they are computed (ModelBlindFFT.v), tables of the size of the ring (LUTSize = PolyRank).
    No proofs in this file. *)
From Verif Require Import Base ModelNum ModelVec ModelPoly ModelFFT ModelSplitFFT ModelGadget ModelLWE ModelGLWE ModelBoot ModelProdFFT ModelBlindFFT.

Section BootFFT.
Context {F : Type}.
Variable K : kern F.
Variables (w : Z) (N k : nat).
Variable mono : list F -> Z -> list F.
Variable left : list F -> list F.
(** bootstrap.go:53-62 BlindRotateTo, without the case lutSize > polyRank; b are the buffers. *)
Definition BlindRotateToK (ms : Z -> Z) (p : gadget) (bk : list (list (list (list (list F))))) (bs blockCount n : nat) (b : brBuf F) (ctOut : list (list Z)) (ct : list Z) (lut : list (list Z)) : list (list Z) :=
  if Nat.ltb 1 bs then blindRotateBlockToK K w N k mono left ms p bk bs blockCount b ctOut ct (nth 0 lut [])
  else blindRotateOriginalToK K w N k mono left ms p bk n b ctOut ct (nth 0 lut []).
(** bootstrap.go:27-38 BootstrapLUTTo; b, ksBuf, rotBuf and extBuf are old buffer contents. *)
Definition BootstrapLUTToK (ksFirst : bool) (ms : Z -> Z) (pBR pKS : gadget) (bk : list (list (list (list (list F))))) (ksk : list (list (list Z))) (bs blockCount n : nat)
    (b : brBuf F) (rotBuf : list (list Z)) (ksBuf extBuf ctOut ct : list Z) (lut : list (list Z)) : list Z :=
  if ksFirst then
    let c := DefaultKeySwitchTo w n (k * N) pKS ksBuf ct ksk in
    let r := BlindRotateToK ms pBR bk bs blockCount n b rotBuf c lut in
    AsLWECiphertextTo w N 0 ctOut r
  else
    let r := BlindRotateToK ms pBR bk bs blockCount n b rotBuf ct lut in
    let c := AsLWECiphertextTo w N 0 extBuf r in
    DefaultKeySwitchTo w n (k * N) pKS ctOut c ksk.
End BootFFT.
