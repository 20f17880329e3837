(** Model: gadget and external products of tfhe/product.go on the transforms themselves (ModelGLWE.v has the same functions on exact
    integer polynomials, with the transforms left out).  [K] are the functions of fft.go and fft_ops.go, as portable loops or as AVX2
    kernels (ModelSplitFFT.v, ModelFusedMul.v).  No proofs in this file. *)
From Verif Require Import Base ModelNum ModelPoly ModelFFT ModelSplitFFT ModelGadget ModelGLWE.
Import ListNotations.

Section ProdFFT.
Context {F : Type}.
Variable K : kern F.
Variable w : Z. (* bits of T *)
Variable k : nat. (* glweRank *)
(** fft_glwe_ops.go:144-148, 151-155 FFTPolyMulFFTGLWETo, FFTPolyMulAddFFTGLWETo. *)
Definition fgMulK (o ct : list (list F)) (fp : list F) : list (list F) := tab (S k) (fun i => kmul K (nth i o []) (nth i ct []) fp).
Definition fgMulAddK (o ct : list (list F)) (fp : list F) : list (list F) := tab (S k) (fun i => kacc K (nth i o []) (nth i ct []) fp).
(** InvFFTToUnsafe (None), InvFFTAddToUnsafe (Some false), InvFFTSubToUnsafe (Some true) into the k+1 polynomials of out. *)
Definition gInvK (kd : option bool) (out : list (list Z)) (f : list (list F)) : list (list Z) :=
  tab (S k) (fun i => kinv K kd false w (nth i out []) (nth i f [])).
(** fft_glwe_conv.go:67-71, 95-99, 123-127: FwdFFTTo of every polynomial of a GLWE, GLev, GGSW ciphertext, into fresh vectors. *)
Definition toFFTGLWE (ct : list (list Z)) : list (list F) := map (kfwd K false w (kzero K)) ct.
Definition toFFTGLev (lev : list (list (list Z))) : list (list (list F)) := map toFFTGLWE lev.
Definition toFFTGGSW (ggsw : list (list (list (list Z)))) : list (list (list (list F))) := map toFFTGLev ggsw.

(** product.go:57-63: the transformed digits; [fb] is the buffer fpDcmp. *)
Definition fdigitsK (p : gadget) (fb : list (list F)) (c : list Z) : list (list F) :=
  tab (g_level p) (fun j => kfwd K false w (nth j fb []) (nth j (DecomposePoly w p c) [])).
(** product.go:114-120 GadgetProdFFTGLWETo; [o] is ctFFTGLWEOut. *)
Definition GadgetProdFFTGLWEToK (p : gadget) (o : list (list F)) (lev : list (list (list F))) (fd : list (list F)) : list (list F) :=
  forN 1 (g_level p - 1) (fun j o => fgMulAddK o (nth j lev []) (nth j fd [])) (fgMulK o (nth 0 lev []) (nth 0 fd [])).
(** product.go:54-72, 74-92, 94-112 GadgetProd{,Add,Sub}GLWETo; [o] is e.buf.ctFFTProdGLWE. *)
Definition GadgetProdGLWEToK (kd : option bool) (p : gadget) (fb o : list (list F)) (out : list (list Z)) (lev : list (list (list F))) (c : list Z) : list (list Z) :=
  gInvK kd out (GadgetProdFFTGLWEToK p o lev (fdigitsK p fb c)).

(** product.go:210-229, 232-251, 254-273 ExternalProd{,Add,Sub}GLWETo; [fm] is e.buf.fpMul, [o] is e.buf.ctFFTProdGLWE. *)
Definition extProdGLWEK (p : gadget) (fm : list F) (o : list (list F)) (ggsw : list (list (list (list F)))) (ct : list (list Z)) : list (list F) :=
  let d0 := DecomposePoly w p (nth 0 ct []) in
  let acc := fgMulK o (nth 0 (nth 0 ggsw []) []) (kfwd K false w fm (nth 0 d0 [])) in
  let acc := forN 1 (g_level p - 1) (fun j o => fgMulAddK o (nth j (nth 0 ggsw []) []) (kfwd K false w fm (nth j d0 []))) acc in
  forN 1 k (fun i o =>
    let d := DecomposePoly w p (nth i ct []) in
    forN 0 (g_level p) (fun j o => fgMulAddK o (nth j (nth i ggsw []) []) (kfwd K false w fm (nth j d []))) o) acc.
Definition ExternalProdGLWEToK (kd : option bool) (p : gadget) (fm : list F) (o : list (list F)) (out : list (list Z)) (ggsw : list (list (list (list F)))) (ct : list (list Z)) : list (list Z) :=
  gInvK kd out (extProdGLWEK p fm o ggsw ct).
End ProdFFT.
