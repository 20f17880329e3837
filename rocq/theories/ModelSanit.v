(** Model of xtfhe/sanitization.go and Sample of sanitization_sampler.go.  No proofs in this file.

    Compile asks for GLWERank 1, PolyRank = LUTSize and key switching first (sanitization_params.go:36-42).  [D i] is the i-th
    sample of RandGaussianSampler, [R i] of RoundedGaussianSampler with RandTauQ, [L1 i] and [L0 i] of the two
    LinEvalGaussianSamplers, [RL i] of RoundedGaussianSampler with LinEvalTauQ, as integers before the conversion to T.
    A state (d, r) counts the draws from D and R, l the calls of SanitizeLUTTo.  Arguments are different from the
    sanitizer's buffers.  None is a panic. *)
From Verif Require Import Base ModelNum ModelVec ModelPoly ModelGadget ModelEncoder ModelLWE ModelGLWE ModelBoot.

(** sort.Search of the Go library: least index in [i, j) where f holds, by bisection; each round shrinks j - i. *)
Fixpoint searchLoop (f : nat -> bool) (fuel i j : nat) : nat :=
  match fuel with
  | O => i
  | S fuel => if Nat.ltb i j then let h := ((i + j) / 2)%nat in if f h then searchLoop f fuel i h else searchLoop f fuel (S h) j else i
  end.
Definition sortSearch (n : nat) (f : nat -> bool) : nat := searchLoop f n 0 n.
(** sanitization_sampler.go:75-83 Sample; r is the uniform word.  The table is built with floating-point exponentials
    (33-53) and is a parameter here. *)
Definition CDTSample (w : Z) (table : list Z) (offset r : Z) : Z :=
  wrap w (swrap 64 (Z.of_nat (sortSearch (length table) (fun i => r <? nthZ table i)) + offset)).

Section Sanit.
Variables (w logN : Z) (N k : nat) (D R : nat -> Z).

(** 85-89, 92-94: SampleVecTo, SamplePolyTo; 97-101 SamplePolyAddTo. *)
Definition cdtPoly (p : list Z) (d : nat) : list Z := tab (length p) (fun i => wrap w (D (d + i)%nat)).
Definition cdtPolyAdd (p : list Z) (d : nat) : list Z := tab (length p) (fun i => wrap w (nthZ p i + wrap w (D (d + i)%nat))).

(** sanitization.go:115-120, 131-136: the product of the first public encryption of zero with a sampled polynomial, the
    mask with samples added; pG and c are the old pGaussian and ctRandGLWE. *)
Definition randCore (gpk : list (list (list Z))) (pG : list Z) (c : list (list Z)) (d : nat) : list (list Z) :=
  let g := cdtPoly pG d in
  let c := upd c 0 (MulPolyTo false w logN N (nth 0 (nth 0 gpk []) []) g) in
  let c := upd c 1 (MulPolyTo false w logN N (nth 1 (nth 0 gpk []) []) g) in
  upd c 1 (cdtPolyAdd (nth 1 c []) (d + length pG)).

(** 112-125 ReRandGLWETo: the output, and the new ctRandGLWE and state. *)
Definition ReRandGLWETo gpk pG cR (ctOut ct : list (list Z)) (st : rst) : list (list Z) * (list (list Z) * rst) :=
  let o := tab (length ctOut) (fun i => go_copy (nth i ctOut []) (nth i ct [])) in
  let c := randCore gpk pG cR (fst st) in
  let c := upd c 0 (fst (samplePolyAdd w R (nth 0 c []) st)) in
  (forN 0 (S k) (fun i o => upd o i (vadd w (nth i o []) (nth i c []))) o, (c, ((fst st + 2 * N)%nat, (snd st + N)%nat))).

(** 128-142 ReRandLWETo; lR is the old ctRandLWE. *)
Definition ReRandLWETo gpk pG cR (lR ctOut ct : list Z) (st : rst) : list Z * (list (list Z) * (list Z * rst)) :=
  let o := go_copy ctOut ct in
  let c := randCore gpk pG cR (fst st) in
  let lR := AsLWECiphertextTo w N 0 lR c in
  let o := vadd w o lR in
  (upd o 0 (wrap w (nthZ o 0 + wrap w (R (snd st)))), (c, (lR, ((fst st + 2 * N)%nat, S (snd st))))).

(** 171-175: the polynomial of the randomized linear evaluation for message modulus mm. *)
Variables (L1 L0 RL : nat -> Z).
Definition linPoly (mm : Z) (pG : list Z) (l : nat) : list Z :=
  let g := upd pG 0 (wrap w (L1 l)) in
  let g := firstn 1 g ++ tab (length g - 1) (fun i => wrap w (L0 (l * (length g - 1) + i)%nat)) in
  let g := vscale w (wrap w (2 * mm)) g in
  upd g 0 (wrap w (nthZ g 0 + 1)).

(** 163-182 SanitizeLUTTo; reBuf, ksBuf and rotBuf are the old ctReRand, ctKeySwitch and ctRotate. *)
Definition SanitizeLUTTo (mm : Z) (ms : Z -> Z) (pBR pKS : gadget) brk (ksk : list (list (list Z))) (bs bc n : nat) gpk pG cR (lR reBuf ksBuf : list Z) (rotBuf : list (list Z))
    (ctOut ct : list Z) (lut : list (list Z)) (st : rst) (l : nat) : option (list Z) :=
  let c := fst (ReRandLWETo gpk pG cR lR reBuf ct st) in
  let body := nthZ c 0 in
  let c := DefaultKeySwitchTo w n (k * N) pKS ksBuf (upd c 0 0) ksk in
  let r := BlindRotateTo w N k 1 ms pBR brk bs bc n rotBuf rotBuf c lut in
  match MonomialMulPolyInPlace w N (linPoly mm pG l) (- ms body) with
  | None => None
  | Some g =>
    let r := forN 0 (S k) (fun i r => upd r i (MulPolyTo false w logN N (nth i r []) g)) r in
    let o := AsLWECiphertextTo w N 0 ctOut r in
    Some (upd o 0 (wrap w (nthZ o 0 + wrap w (RL l))))
  end.
(** 151-154 SanitizeFuncTo (145-148, 157-161: the same with a fresh output). *)
Definition SanitizeFuncTo (mm scale : Z) ms pBR pKS brk ksk bs bc n gpk pG cR lR reBuf ksBuf rotBuf ctOut ct (lutBuf : list (list Z)) (raw : list Z) (f : Z -> Z) st l : option (list Z) :=
  match GenLUTCustomTo w N 1 lutBuf raw f mm scale with
  | None => None
  | Some (lut, _) => SanitizeLUTTo mm ms pBR pKS brk ksk bs bc n gpk pG cR lR reBuf ksBuf rotBuf ctOut ct lut st l
  end.
End Sanit.
