(** Model: the blind rotation of tables longer than the ring (tfhe/bootstrap.go:66-266) on the transforms themselves; ModelBoot.v has the same
    function on exact integer polynomials.  [K] are the functions of fft.go and fft_ops.go as in ModelProdFFT.v; [monoS] is
    MonomialSubOneFwdFFTTo, [monoM] is MonomialFwdFFTTo, [fsub] is SubFFTPolyTo, [left] is what InvFFTAddToUnsafe leaves in the vector it
    inverts.  The buffers of the evaluator are threaded through.  No proofs in this file. *)
From Verif Require Import Base ModelNum ModelPoly ModelFFT ModelSplitFFT ModelGadget ModelGLWE ModelBoot ModelProdFFT ModelBlindFFT.
Import ListNotations.
Open Scope Z_scope.

(** evaluator.go:44-66, the buffers used by bootstrap.go:66-266: ctAccFFTDcmp, ctFFTBlockAcc, fMono, ctFFTAcc. *)
Record extBuf (F : Type) := mkExtBuf { x_dcmp : list (list (list (list F))); x_blk : list (list (list F)); x_mono : list F; x_acc : list (list (list F)) }.
Arguments mkExtBuf {F}. Arguments x_dcmp {F}. Arguments x_blk {F}. Arguments x_mono {F}. Arguments x_acc {F}.

Section ExtFFT.
Context {F : Type}.
Variable K : kern F.
Variables (w : Z) (N k E : nat).
Variables monoS monoM : list F -> Z -> list F.
Variable fsub : list F -> list F -> list F -> list F.
Variable left : list F -> list F.
Notation buf := (extBuf F).
Notation EZ := (Z.of_nat E).

(** fft_glwe_ops.go:29-33 SubFFTGLWETo. *)
Definition fgSubK (o x y : list (list F)) : list (list F) := tab (S k) (fun i => fsub (nth i o []) (nth i x []) (nth i y [])).
(** FFTPolyMulFFTGLWETo for the first bit of a block, FFTPolyMulAddFFTGLWETo for the others. *)
Definition mulK (first : bool) := if first then fgMulK K k else fgMulAddK K k.

(** bootstrap.go:94-117, 119-145, 161-183, 185-211: one secret bit, on every component. *)
Definition extTerm (first : bool) (prod : nat -> list (list F) -> list (list F)) (a2N : Z) (b : buf) : buf :=
  let mono := Z.quot a2N EZ in
  let idx := Z.to_nat (Z.rem a2N EZ) in
  let blk := tab E (fun kk => prod kk (nth kk (x_blk b) [])) in
  if Nat.eqb idx 0 then
    let m := monoS (x_mono b) mono in
    mkExtBuf (x_dcmp b) blk m (tab E (fun kk => mulK first (nth kk (x_acc b) []) (nth kk blk []) m))
  else
    let m1 := monoM (x_mono b) (mono + 1) in
    let m2 := monoM m1 mono in
    mkExtBuf (x_dcmp b) blk m2 (tab E (fun kk =>
      let r := if Nat.ltb kk idx then mulK first (nth kk (x_acc b) []) (nth (E - idx + kk) blk []) m1
               else mulK first (nth kk (x_acc b) []) (nth (kk - idx) blk []) m2 in
      fgSubK r r (nth kk blk []))).
(** bootstrap.go:94-145, 161-211: the bits lo .. lo+n-1. *)
Definition extTerms (prod : nat -> nat -> list (list F) -> list (list F)) (rot : nat -> Z) (lo n : nat) (b : buf) : buf :=
  forN (lo + 1) (n - 1) (fun j b => extTerm false (prod j) (rot j) b) (extTerm true (prod lo) (rot lo) b).
(** bootstrap.go:147-151, 213-217. *)
Definition extEnd (st : list (list (list Z)) * buf) : list (list (list Z)) * buf :=
  let '(out, b) := st in
  (tab E (fun j => gInvK K w k (Some false) (nth j out []) (nth j (x_acc b) [])), mkExtBuf (x_dcmp b) (x_blk b) (x_mono b) (map (map left) (x_acc b))).

(** bootstrap.go:86-151: the first block, on trivial ciphertexts. *)
Definition extFirstK (p : gadget) (bk : list (list (list (list (list F))))) (bs : nat) (rot : nat -> Z) (st : list (list (list Z)) * buf) : list (list (list Z)) * buf :=
  let '(out, b) := st in
  let b := mkExtBuf (tab E (fun j => upd (nth j (x_dcmp b) []) 0 (fdigitsK K w p (nth 0 (nth j (x_dcmp b) []) []) (nth 0 (nth j out []) [])))) (x_blk b) (x_mono b) (x_acc b) in
  extEnd (out, extTerms (fun j kk o => GadgetProdFFTGLWEToK K k p o (nth 0 (nth j bk []) []) (nth 0 (nth kk (x_dcmp b) []) [])) rot 0 bs b).
(** bootstrap.go:154-161, 220-227: all decompositions. *)
Definition extDcmp (p : gadget) (out : list (list (list Z))) (b : buf) : buf :=
  mkExtBuf (tab E (fun j => tab (S k) (fun r => fdigitsK K w p (nth r (nth j (x_dcmp b) []) []) (nth r (nth j out []) [])))) (x_blk b) (x_mono b) (x_acc b).
(** bootstrap.go:153-217: block i. *)
Definition extLaterK (p : gadget) (bk : list (list (list (list (list F))))) (bs : nat) (rot : nat -> Z) (i : nat) (st : list (list (list Z)) * buf) : list (list (list Z)) * buf :=
  let '(out, b) := st in
  let b := extDcmp p out b in
  extEnd (out, extTerms (fun j kk o => ExternalProdFFTGLWEToK K k p o (nth j bk []) (nth kk (x_dcmp b) [])) rot (i * bs) bs b).
(** bootstrap.go:229-260: one secret bit of the last block, component 0 only. *)
Definition extTerm0 (first : bool) (prod : nat -> list (list F) -> list (list F)) (a2N : Z) (b : buf) : buf :=
  let mono := Z.quot a2N EZ in
  let idx := Z.to_nat (Z.rem a2N EZ) in
  let blk := upd (x_blk b) 0 (prod O (nth 0 (x_blk b) [])) in
  if Nat.eqb idx 0 then
    let m := monoS (x_mono b) mono in
    mkExtBuf (x_dcmp b) blk m (upd (x_acc b) 0 (mulK first (nth 0 (x_acc b) []) (nth 0 blk []) m))
  else
    let blk := upd blk (E - idx) (prod (E - idx)%nat (nth (E - idx) blk [])) in
    let m := monoM (x_mono b) (mono + 1) in
    let r := mulK first (nth 0 (x_acc b) []) (nth (E - idx) blk []) m in
    mkExtBuf (x_dcmp b) blk m (upd (x_acc b) 0 (fgSubK r r (nth 0 blk []))).
(** bootstrap.go:220-265: the last block and the copy to ctOut. *)
Definition extLastK (p : gadget) (bk : list (list (list (list (list F))))) (bs n : nat) (rot : nat -> Z) (st : list (list (list Z)) * buf) : list (list Z) :=
  let '(out, b) := st in
  let b := extDcmp p out b in
  let prod j kk o := ExternalProdFFTGLWEToK K k p o (nth j bk []) (nth kk (x_dcmp b) []) in
  let b := forN (n - bs + 1) (bs - 1) (fun j b => extTerm0 false (prod j) (rot j) b) (extTerm0 true (prod (n - bs)%nat) (rot (n - bs)%nat) b) in
  gInvK K w k (Some false) (nth 0 out []) (nth 0 (x_acc b) []).
(** bootstrap.go:66-266 blindRotateExtendedTo; [acc0] are the old bodies of ctAcc, [b] the buffers before the call. *)
Definition blindRotateExtendedToK (ms : Z -> Z) (p : gadget) (bk : list (list (list (list (list F))))) (bs blockCount n : nat) (b : buf) (acc0 : list (list Z)) (ct : list Z) (lut : list (list Z)) : list (list Z) :=
  let L2 := 2 * (EZ * Z.of_nat N) in
  let rot j := L2 - ms (nthZ ct (S j)) in
  let bodies := extInit w N E acc0 lut (L2 - ms (nthZ ct 0)) in
  let out := tab E (fun i => nth i bodies [] :: repeat (repeat 0 N) k) in
  extLastK p bk bs n rot (forN 1 (blockCount - 2) (fun i st => extLaterK p bk bs rot i st) (extFirstK p bk bs rot (out, b))).
End ExtFFT.
