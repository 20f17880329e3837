(** Model of xtfhe/bfv_evaluator.go and xtfhe/bfv_keygen.go.  No proofs in this file.

    Transforms are exact integer polynomials, as in ModelGLWE.v.  In TensorTo the transform of a product is
    multiplied by the float 1/float64(scale) and rounded by InvFFTToUnsafe; here the coefficient is the
    correctly rounded quotient of the exact integer by the scale.  (The factor itself is exact for a power of
    two, which every scale of the library is; the rounding errors of the complex transform at the size of
    a tensor product are not modelled.)

    The map GaloisKeys is a function to option; a missing key is the zero key, on which keyswitch.go:44
    panics (None).  ciphertext arguments and the evaluator's buffers are different ciphertexts. *)
From Verif Require Import Base ModelNum ModelVec ModelPoly ModelGadget ModelEncoder ModelLWE ModelGLWE.

(** math.Round(x/y) for y > 0: nearest integer, halves away from zero. *)
Definition roundQuot (x y : Z) : Z :=
  if 0 <=? x then (2 * x + y) / (2 * y) else - ((2 * - x + y) / (2 * y)).

(** bfv_evaluator.go:31-42, the integer buffers and ctFFTTensor. *)
Record bfvBuf := mkBFVBuf { bb_tensor : list (list Z); bb_fftTensor : list (list Z); bb_permute : list (list Z); bb_pack : list (list Z) }.

Section BFV.
Variables (w : Z) (N k : nat).

(** 57 and 104: the rank of a tensored ciphertext. *)
Definition tensorRank : nat := k * (k + 3) / 2.
(** 56-69 newBFVEvaluatorBuffer. *)
Definition newBFVBuf : bfvBuf :=
  mkBFVBuf (repeat (repeat 0 N) (S tensorRank)) (repeat (repeat 0 N) (S tensorRank)) (repeat (repeat 0 N) (S k)) (repeat (repeat 0 N) (S k)).

(** 92-105: the products; the counter is tensorIdx. *)
Definition tensorFFT (f0 f1 t : list (list Z)) : nat * list (list Z) :=
  forN 0 (S k) (fun i s =>
    let '(idx, t) := s in
    let t := upd t idx (fmul N (nth i f0 []) (nth i f1 [])) in
    forN (S i) (k - i) (fun j s =>
      let '(idx, t) := s in
      let t := upd t idx (fmul N (nth i f0 []) (nth j f1 [])) in
      let t := upd t idx (fmulAdd N (nth idx t []) (nth j f0 []) (nth i f1 [])) in
      (S idx, t)) (S idx, t)) (0%nat, t).

(** 91-111 TensorTo: the new content of ctOut and the new buffers. *)
Definition TensorTo (scale : Z) (buf : bfvBuf) (ctOut ct0 ct1 : list (list Z)) : list (list Z) * bfvBuf :=
  let f0 := map (fwdFFT w) ct0 in
  let f1 := map (fwdFFT w) ct1 in
  let t := snd (tensorFFT f0 f1 (bb_fftTensor buf)) in
  let out := forN 0 (S tensorRank) (fun i o => upd o i (invFFT w (map (fun x => roundQuot x scale) (nth i t [])))) (bb_tensor buf) in
  (ctOut, mkBFVBuf out t (bb_permute buf) (bb_pack buf)).
(** 82-87 Tensor. *)
Definition Tensor (scale : Z) (buf : bfvBuf) (ct0 ct1 : list (list Z)) : list (list Z) * bfvBuf :=
  TensorTo scale buf (repeat (repeat 0 N) (S tensorRank)) ct0 ct1.

(** 123-131 RelinearizeTo (the buffers are not written). *)
Definition RelinearizeTo (p : gadget) (rlk : list (list (list (list Z)))) (buf : bfvBuf) (ctOut ct : list (list Z)) : list (list Z) :=
  let o := forN 0 (S k) (fun i o => upd o i (go_copy (nth i o []) (nth i (bb_tensor buf) []))) ctOut in
  forN 0 (S tensorRank - S k) (fun ii o => GadgetProdAddGLWETo w N k p o (nth ii rlk []) (nth (S k + ii) (bb_tensor buf) [])) o.
(** 115-119 Relinearize. *)
Definition Relinearize (p : gadget) rlk (buf : bfvBuf) (ct : list (list Z)) : list (list Z) :=
  RelinearizeTo p rlk buf (repeat (repeat 0 N) (S k)) ct.

(** 141-144 MulTo. *)
Definition BFVMulTo (scale : Z) (p : gadget) rlk (buf : bfvBuf) (ctOut ct0 ct1 : list (list Z)) : list (list Z) * bfvBuf :=
  let buf := snd (TensorTo scale buf (bb_tensor buf) ct0 ct1) in
  (RelinearizeTo p rlk buf ctOut (bb_tensor buf), buf).

(** 158-161 PermuteTo; None is a panic. *)
Definition BFVPermuteTo (p : gadget) (gal : Z -> option (list (list (list (list Z))))) (buf : bfvBuf) (ctOut ct : list (list Z)) (d : Z) : option (list (list Z) * bfvBuf) :=
  match PermuteGLWETo w N k (fun y => if Nat.eqb y 0 then bb_permute buf else ct) 0 1 d with
  | None => None
  | Some s =>
    match gal d with
    | None => None
    | Some ksk => Some (KeySwitchGLWETo w N k p ctOut (s 0%nat) ksk, mkBFVBuf (bb_tensor buf) (bb_fftTensor buf) (s 0%nat) (bb_pack buf))
    end
  end.

(** 172-180: the LWE ciphertext as a GLWE ciphertext. *)
Definition packInit (ctOut : list (list Z)) (ct : list Z) : list (list Z) :=
  let o := upd ctOut 0 (upd (repeat 0 (length (nth 0 ctOut []))) 0 (nthZ ct 0)) in
  forN 0 k (fun i o =>
    let o := upd o (S i) (upd (nth (S i) o []) 0 (nthZ ct (1 + i * N))) in
    forN 1 (N - 1) (fun j o => upd o (S i) (upd (nth (S i) o []) (N - j) (wrap w (- nthZ ct (1 + i * N + j))))) o) o.
(** 183-187: every coefficient halved. *)
Definition halveGLWE (c : list (list Z)) : list (list Z) :=
  forN 0 (S k) (fun j o => forN 0 N (fun l o => upd o j (upd (nth j o []) l (DivRoundBits w (nthZ (nth j o []) l) 1))) o) c.
(** 182-190: one step of the trace. *)
Definition packStep (p : gadget) gal (i : nat) (s : option (list (list Z) * bfvBuf)) : option (list (list Z) * bfvBuf) :=
  match s with
  | None => None
  | Some (o, buf) =>
    let o := halveGLWE o in
    match BFVPermuteTo p gal buf (bb_pack buf) o (2 ^ (Z.of_nat i + 1) + 1) with
    | None => None
    | Some (pk, buf) =>
      option_map (fun s : gstore => (s 0%nat, mkBFVBuf (bb_tensor buf) (bb_fftTensor buf) (bb_permute buf) pk))
        (AddGLWETo w k (fun y => if Nat.eqb y 0 then o else pk) 0 0 1)
    end
  end.
(** 171-191 PackTo. *)
Definition PackTo (logN : nat) (p : gadget) gal (buf : bfvBuf) (ctOut : list (list Z)) (ct : list Z) : option (list (list Z) * bfvBuf) :=
  forN 0 logN (packStep p gal) (Some (packInit ctOut ct, buf)).

(* ------------------------------------------------------------------ *)
(** ** bfv_keygen.go *)

(** 59-73: the products of key polynomials; the counter is skOutIdx; fsk is SecretKey.FFTGLWEKey. *)
Definition relinKeyPolys (fsk : list (list Z)) : list (list Z) :=
  let rank := (k * (k + 1) / 2)%nat in
  let '(_, f) := forN 0 k (fun i s =>
    forN i (k - i) (fun j s =>
      let '(idx, f) := s in (S idx, upd f idx (fmul N (nth i fsk []) (nth j fsk [])))) s) (0%nat, repeat (repeat 0 N) rank) in
  forN 0 rank (fun i o => upd o i (invFFT w (nth i f []))) (repeat (repeat 0 N) rank).
(** 58-76 GenRelinKey; ctbuf is the encryptor's ciphertext buffer. *)
Definition GenRelinKey (logN : Z) (U G : nat -> Z) (fsk : list (list Z)) (p : gadget) (ctbuf : list (list Z)) (st : rst) :=
  GenGLWEKeySwitchKey w logN N k U G fsk (relinKeyPolys fsk) p ctbuf st.

(** 84-86: the key polynomials at X^d. *)
Definition permuteKey (sk skOut : list (list Z)) (d : Z) : option (list (list Z)) :=
  forN 0 k (fun i o => match o with None => None | Some o => option_map (upd o i) (PermutePolyTo w N (nth i o []) (nth i sk []) d) end) (Some skOut).
(** 94-103 GenGaloisKeysTo (79-91 GenGaloisKeys starts from the empty map); None is a panic. *)
Fixpoint galoisLoop (logN : Z) (U G : nat -> Z) (sk fsk : list (list Z)) (p : gadget) (idx : list Z) (gal : Z -> option (list (list (list (list Z)))))
    (skOut : list (list Z)) (ctbuf : list (list Z)) (st : rst) :=
  match idx with
  | [] => Some (gal, (ctbuf, st))
  | d :: idx =>
    match permuteKey sk skOut d with
    | None => None
    | Some skOut =>
      let '(ksk, (ctbuf, st)) := GenGLWEKeySwitchKey w logN N k U G fsk skOut p ctbuf st in
      galoisLoop logN U G sk fsk p idx (fun x => if x =? d then Some ksk else gal x) skOut ctbuf st
    end
  end.
Definition GenGaloisKeysTo logN U G sk fsk p idx gal ctbuf st := galoisLoop logN U G sk fsk p idx gal (repeat (repeat 0 N) k) ctbuf st.
Definition GenGaloisKeys logN U G sk fsk p idx ctbuf st := GenGaloisKeysTo logN U G sk fsk p idx (fun _ => None) ctbuf st.
(** 107-111 and 117-121: the indices for packing. *)
Definition packAuts (logN : nat) : list Z := tab logN (fun i => 2 ^ (Z.of_nat (logN - i)) + 1).
Definition GenGaloisKeysForPack (logN : nat) U G sk fsk p ctbuf st := GenGaloisKeys (Z.of_nat logN) U G sk fsk p (packAuts logN) ctbuf st.
End BFV.
