(** Model: blind rotation of tfhe/bootstrap.go on the transforms themselves (ModelBoot.v has the same functions on exact integer
    polynomials).  [K] are the functions of fft.go and fft_ops.go as in ModelProdFFT.v; [mono] is MonomialSubOneFwdFFTTo, [left] is
    what InvFFTAddToUnsafe leaves in the vector it inverts.  The buffers of the evaluator are threaded through.  No proofs in this file. *)
From Verif Require Import Base ModelNum ModelPoly ModelFFT ModelSplitFFT ModelGadget ModelGLWE ModelBoot ModelProdFFT.
Import ListNotations.
Open Scope Z_scope.

(** The buffers of bootstrap.go:15-50 (entry 0): ctAccFFTDcmp, ctFFTBlockAcc, fMono, ctFFTAcc. *)
Record brBuf (F : Type) := mkBrBuf { b_dcmp : list (list (list F)); b_blk : list (list F); b_mono : list F; b_acc : list (list F) }.
Arguments mkBrBuf {F}. Arguments b_dcmp {F}. Arguments b_blk {F}. Arguments b_mono {F}. Arguments b_acc {F}.

Section BlindFFT.
Context {F : Type}.
Variable K : kern F.
Variables (w : Z) (N k : nat).
Variable mono : list F -> Z -> list F.
Variable left : list F -> list F.
Notation buf := (brBuf F).

(** product.go:276-287 ExternalProdFFTGLWETo. *)
Definition ExternalProdFFTGLWEToK (p : gadget) (o : list (list F)) (ggsw : list (list (list (list F)))) (fd : list (list (list F))) : list (list F) :=
  let acc := fgMulK K k o (nth 0 (nth 0 ggsw []) []) (nth 0 (nth 0 fd []) []) in
  let acc := forN 1 (g_level p - 1) (fun j o => fgMulAddK K k o (nth j (nth 0 ggsw []) []) (nth j (nth 0 fd []) [])) acc in
  forN 1 k (fun i o => forN 0 (g_level p) (fun j o => fgMulAddK K k o (nth j (nth i ggsw []) []) (nth j (nth i fd []) [])) o) acc.

(** bootstrap.go:284-286, 288-291, 303-305, 307-310: one secret bit: product, X^d - 1, and the product (first bit of the block) or multiply-add. *)
Definition rotTerm (first : bool) (prod : list (list F) -> list (list F)) (d : Z) (b : buf) : buf :=
  let blk := prod (b_blk b) in
  let m := mono (b_mono b) d in
  mkBrBuf (b_dcmp b) blk m ((if first then fgMulK K k else fgMulAddK K k) (b_acc b) blk m).
(** bootstrap.go:284-291, 303-311: the bits lo .. lo+n-1. *)
Definition rotTerms (prod : nat -> list (list F) -> list (list F)) (d : nat -> Z) (lo n : nat) (b : buf) : buf :=
  forN (lo + 1) (n - 1) (fun j b => rotTerm false (prod j) (d j) b) (rotTerm true (prod lo) (d lo) b).
(** bootstrap.go:293-295, 313-315. *)
Definition rotEnd (st : list (list Z) * buf) : list (list Z) * buf :=
  let '(out, b) := st in
  (gInvK K w k (Some false) out (b_acc b), mkBrBuf (b_dcmp b) (b_blk b) (b_mono b) (map left (b_acc b))).

(** bootstrap.go:278-295 (335-341 with one bit): the first block, on the trivial ciphertext. *)
Definition firstBlockK (ms : Z -> Z) (p : gadget) (bk : list (list (list (list (list F))))) (bs : nat) (ct : list Z) (st : list (list Z) * buf) : list (list Z) * buf :=
  let '(out, b) := st in
  let b := mkBrBuf (upd (b_dcmp b) 0 (fdigitsK K w p (nth 0 (b_dcmp b) []) (nth 0 out []))) (b_blk b) (b_mono b) (b_acc b) in
  rotEnd (out, rotTerms (fun j o => GadgetProdFFTGLWEToK K k p o (nth 0 (nth j bk []) []) (nth 0 (b_dcmp b) [])) (fun j => - ms (nthZ ct (j + 1))) 0 bs b).
(** bootstrap.go:298-315: block i. *)
Definition laterBlockK (ms : Z -> Z) (p : gadget) (bk : list (list (list (list (list F))))) (bs : nat) (ct : list Z) (i : nat) (st : list (list Z) * buf) : list (list Z) * buf :=
  let '(out, b) := st in
  let b := mkBrBuf (tab (S k) (fun j => fdigitsK K w p (nth j (b_dcmp b) []) (nth j out []))) (b_blk b) (b_mono b) (b_acc b) in
  rotEnd (out, rotTerms (fun j o => ExternalProdFFTGLWEToK p o (nth j bk []) (b_dcmp b)) (fun j => - ms (nthZ ct (j + 1))) (i * bs) bs b).
(** bootstrap.go:270-317 blindRotateBlockTo; [b] are the buffers before the call. *)
Definition blindRotateBlockToK (ms : Z -> Z) (p : gadget) (bk : list (list (list (list (list F))))) (bs blockCount : nat) (b : buf) (ctOut : list (list Z)) (ct lut0 : list Z) : list (list Z) :=
  let out := rotInit w N k lut0 (- ms (nthZ ct 0)) ctOut in
  fst (forN 1 (blockCount - 1) (fun i st => laterBlockK ms p bk bs ct i st) (firstBlockK ms p bk bs ct (out, b))).
(** bootstrap.go:321-357 blindRotateOriginalTo: the loops over the bits of a block are gone. *)
Definition blindRotateOriginalToK (ms : Z -> Z) (p : gadget) (bk : list (list (list (list (list F))))) (n : nat) (b : buf) (ctOut : list (list Z)) (ct lut0 : list Z) : list (list Z) :=
  let out := rotInit w N k lut0 (- ms (nthZ ct 0)) ctOut in
  let b := mkBrBuf (upd (b_dcmp b) 0 (fdigitsK K w p (nth 0 (b_dcmp b) []) (nth 0 out []))) (b_blk b) (b_mono b) (b_acc b) in
  let st := rotEnd (out, rotTerm true (fun o => GadgetProdFFTGLWEToK K k p o (nth 0 (nth 0 bk []) []) (nth 0 (b_dcmp b) [])) (- ms (nthZ ct 1)) b) in
  fst (forN 1 (n - 1) (fun i st => let '(out, b) := st in
    let b := mkBrBuf (tab (S k) (fun j => fdigitsK K w p (nth j (b_dcmp b) []) (nth j out []))) (b_blk b) (b_mono b) (b_acc b) in
    rotEnd (out, rotTerm true (fun o => ExternalProdFFTGLWEToK p o (nth i bk []) (b_dcmp b)) (- ms (nthZ ct (i + 1))) b)) st).
End BlindFFT.
