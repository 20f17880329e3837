(** Property C54 (BFV multiplication, automorphisms and packing on GLWE ciphertexts). *)
From Verif Require Import Base NegaRing SpecNum ModelNum ModelVec ModelPoly SpecPoly ModelGadget SpecGadget ModelEncoder ModelLWE SpecLWE ModelGLWE SpecGLWE
  ModelBFV SpecBFV PfBFV PfBFV2 PfBFV4 PropLWE PropGLWE.

(** ** Keys *)
(** One key-switching key from s(X^d) to s is stored under each requested odd d, and no other entry of the map changes. *)
Theorem C54_GenGaloisKeysTo : forall w N k n sk logN U G p E idx gal buf st, 0 < w -> 0 <= n <= 62 -> Z.of_nat N = 2 ^ n -> 0 < splitBitsShort logN -> gadget_ok w p ->
  0 <= E -> (forall i, Z.abs (G i) <= E) -> length sk = k -> (forall i, (i < k)%nat -> wpoly w N (nth i sk [])) -> gshape N k buf ->
  Forall (fun d => Z.odd d = true) idx ->
  exists gal' buf' st', GenGaloisKeysTo w N k logN U G sk (map (fwdFFT w) sk) p idx gal buf st = Some (gal', (buf', st')) /\
    (forall d, In d idx -> exists ksk, gal' d = Some ksk /\ galois_key w N k p sk d ksk E) /\ (forall d, ~ In d idx -> gal' d = gal d).
Proof. exact GenGaloisKeysTo_spec. Qed.
Print Assumptions C54_GenGaloisKeysTo.
(** GenRelinKey encrypts every product s_i * s_j, i <= j, in the order in which TensorTo produces them. *)
Theorem C54_GenRelinKey : forall w N k n sk logN U G p E buf st rlk buf' st', 0 < w -> 0 <= n <= 62 -> Z.of_nat N = 2 ^ n -> 0 < splitBitsShort logN -> gadget_ok w p ->
  0 <= E -> (forall i, Z.abs (G i) <= E) -> skey N k sk -> gshape N k buf ->
  GenRelinKey w N k logN U G (map (fwdFFT w) sk) p buf st = (rlk, (buf', st')) -> relin_key w N k p sk rlk E.
Proof. exact GenRelinKey_spec. Qed.
Print Assumptions C54_GenRelinKey.

(** ** Automorphisms *)
(** PermuteTo returns an encryption under the same key of the phase at X^d. *)
Theorem C54_Permute : forall w N k n sk p d gal buf out ct ksk E, 0 < w -> 0 <= n <= 62 -> Z.of_nat N = 2 ^ n -> gadget_ok w p ->
  Z.odd d = true -> (1 <= k)%nat -> gal d = Some ksk -> galois_key w N k p sk d ksk E ->
  (forall i, (i < k)%nat -> pbound 1 (pol N (nth i sk []))) -> glwe_ct w N k (bb_permute buf) -> gshape N k out -> glwe_ct w N k ct ->
  exists o b', BFVPermuteTo w N k p gal buf out ct d = Some (o, mkBFVBuf (bb_tensor buf) (bb_fftTensor buf) b' (bb_pack buf)) /\ glwe_ct w N k b' /\
    glwe_ct w N k o /\ pdist_le (2 ^ w) (gphase N k sk o) (psubst d (gphase N k sk ct)) (switchNoise w N k p 1 E).
Proof. exact Permute_spec. Qed.
Print Assumptions C54_Permute.
(** An odd d without a key panics, as does an even d. *)
Theorem C54_Permute_panics : forall w N k p d gal buf out ct, gal d = None \/ Z.odd d = false -> BFVPermuteTo w N k p gal buf out ct d = None.
Proof. exact Permute_panics. Qed.
Print Assumptions C54_Permute_panics.

(** ** Packing *)
(** With the keys for packing, PackTo returns a GLWE encryption of the constant polynomial whose value is the phase of the LWE ciphertext. *)
Theorem C54_Pack : forall w N k n sk p logN gal buf s out ct E, 1 < w -> 0 <= n <= 61 -> Z.of_nat N = 2 ^ n -> gadget_ok w p ->
  Z.of_nat logN = n -> (1 <= k)%nat -> length sk = k -> flat N sk s ->
  (forall d, In d (packAuts logN) -> exists ksk, gal d = Some ksk /\ galois_key w N k p sk d ksk E) ->
  (forall i, (i < k)%nat -> pbound 1 (pol N (nth i sk []))) -> glwe_ct w N k (bb_permute buf) -> gshape N k (bb_pack buf) -> gshape N k out -> lwe_ct w (k * N) ct ->
  exists o buf', PackTo w N k logN p gal buf out ct = Some (o, buf') /\ glwe_ct w N k o /\
    pdist_le (2 ^ w) (gphase N k sk o) (pconst (phase s ct)) (n * packNoise w N k p E).
Proof. exact Pack_keys. Qed.
Print Assumptions C54_Pack.

(** ** Multiplication *)
(** For messages m0 and m1 at a scale dividing Q, MulTo returns an encryption of m0 * m1 at that scale. *)
Theorem C54_Mul : forall w N k scale sk p pm rlk buf out ct0 ct1 E (m0 e0 m1 e1 : npoly N) M0 B0 M1 B1, 0 < w -> (0 < N)%nat -> 0 < scale -> gadget_ok w p ->
  (forall i, (i < k)%nat -> pbound 1 (pol N (nth i sk []))) ->
  2 ^ w = scale * pm -> relin_key w N k p sk rlk E -> gshape N k out ->
  length (bb_tensor buf) = length (pairs (S k)) -> length (bb_fftTensor buf) = length (pairs (S k)) -> glwe_ct w N k ct0 -> glwe_ct w N k ct1 ->
  peq (2 ^ w) (gphase N k sk ct0) (padd (pscale scale m0) e0) -> peq (2 ^ w) (gphase N k sk ct1) (padd (pscale scale m1) e1) ->
  pbound M0 m0 -> pbound B0 e0 -> pbound M1 m1 -> pbound B1 e1 ->
  let o := fst (BFVMulTo w N k scale p rlk buf out ct0 ct1) in
  glwe_ct w N k o /\ pdist_le (2 ^ w) (gphase N k sk o) (pscale scale (pmul m0 m1)) (mulNoise w N k p scale M0 B0 M1 B1 E / (2 * scale)).
Proof. intros w N k scale sk p pm rlk buf out ct0 ct1 E m0 e0 m1 e1 M0 B0 M1 B1 Hw HN Hsc Hok Hb. exact (Mul_spec w N k Hw HN scale Hsc sk p Hok Hb pm rlk buf out ct0 ct1 E m0 e0 m1 e1 M0 B0 M1 B1). Qed.
Print Assumptions C54_Mul.
(** The fresh buffers have the sizes the theorems ask for. *)
Theorem C54_buffers : forall w N k, 0 < w -> let b := newBFVBuf N k in bfv_buf_ok w N k (bb_tensor b) (bb_fftTensor b) (bb_permute b) (bb_pack b).
Proof. exact newBFVBuf_ok. Qed.
Print Assumptions C54_buffers.

(** ** Concrete case: w = 32, N = 4, k = 2, plaintext modulus 16. *)
Definition bfvbuf := newBFVBuf 4 2.
Definition bfvrlk := fst (GenRelinKey 32 4 2 2 exU exG gfsk exgad gz (60, 70)%nat).
Definition bfvgal := match GenGaloisKeysForPack 32 4 2 2 exU exG gsk gfsk exgad gz (60, 70)%nat with Some (g, _) => g | None => fun _ => None end.
Definition bfvdec (ct : list (list Z)) := map (fun x => DivRoundBits 32 x 28 mod 16) (gdec ct).
(** (1 + 2 X)(3 X^3) = 3 X^3 - 6. *)
Example C54_Mul_ex : let ct0 := genc [2 ^ 28; 2 ^ 29; 0; 0] (50, 60)%nat in let ct1 := genc [0; 0; 0; 3 * 2 ^ 28] (150, 160)%nat in
  bfvdec (fst (BFVMulTo 32 4 2 (2 ^ 28) exgad bfvrlk bfvbuf gz ct0 ct1)) = [10; 0; 0; 3].
Proof. vm_compute. reflexivity. Qed.
(** With the bound on the samples the noise stays below half the scale. *)
Example C54_Mul_noise_ex : mulNoise 32 4 2 exgad (2 ^ 28) 2 3 3 3 3 / (2 * 2 ^ 28) < 2 ^ 27 /\ 2 ^ 32 = 2 ^ 28 * 16 /\ (forall i, Z.abs (exG i) <= 3).
Proof. split; [vm_compute; reflexivity|]. split; [reflexivity|]. intros i. unfold exG. pose proof (Z.mod_pos_bound (Z.of_nat i * 5) 7). lia. Qed.
Example C54_Permute_ex : option_map (fun r => bfvdec (fst r)) (BFVPermuteTo 32 4 2 exgad bfvgal bfvbuf gz (genc [2 ^ 28; 2 ^ 29; 0; 3 * 2 ^ 28] (50, 60)%nat) 3) = Some [1; 3; 0; 2].
Proof. vm_compute. reflexivity. Qed.
Example C54_Pack_ex : let ct := AsLWECiphertextTo 32 4 1 (repeat 9 9) (genc [2 ^ 28; 5 * 2 ^ 28; 0; 3 * 2 ^ 28] (50, 60)%nat) in
  option_map (fun r => bfvdec (fst r)) (PackTo 32 4 2 2 exgad bfvgal bfvbuf gz ct) = Some [5; 0; 0; 0] /\ 2 * packNoise 32 4 2 exgad 3 < 2 ^ 27.
Proof. vm_compute. split; reflexivity. Qed.

(** ** Findings *)
(** bfv_evaluator.go:82-111: the result is written to the evaluator's buffer, not to ctOut: Tensor always returns zeros. *)
Theorem C54_Tensor_refuted : exists scale ct0 ct1, scale = 2 ^ 28 /\ bfvdec ct0 = [1; 2; 0; 0] /\ bfvdec ct1 = [0; 0; 0; 3] /\
  fst (Tensor 32 4 2 scale bfvbuf ct0 ct1) = repeat (repeat 0 4) 6.
Proof. exists (2 ^ 28), (genc [2 ^ 28; 2 ^ 29; 0; 0] (50, 60)%nat), (genc [0; 0; 0; 3 * 2 ^ 28] (150, 160)%nat). vm_compute. repeat split. Qed.
Print Assumptions C54_Tensor_refuted.
(** For every input. *)
Theorem C54_Tensor_always_zero : forall w N k scale buf ct0 ct1, fst (Tensor w N k scale buf ct0 ct1) = repeat (repeat 0 N) (S (tensorRank k)).
Proof. exact Tensor_zero. Qed.
Print Assumptions C54_Tensor_always_zero.
(** bfv_evaluator.go:123-131: the argument is not read; two tensors with different messages give the same ciphertext. *)
Theorem C54_Relinearize_refuted : exists t0 t1, t0 <> t1 /\ length t0 = 6%nat /\ length t1 = 6%nat /\
  Relinearize 32 4 2 exgad bfvrlk bfvbuf t0 = Relinearize 32 4 2 exgad bfvrlk bfvbuf t1 /\ bfvdec (Relinearize 32 4 2 exgad bfvrlk bfvbuf t0) = [0; 0; 0; 0] /\
  bfvdec (firstn 3 t0) = [1; 2; 0; 0].
Proof.
  exists (genc [2 ^ 28; 2 ^ 29; 0; 0] (50, 60)%nat ++ repeat (repeat 0 4) 3), (genc [0; 0; 0; 3 * 2 ^ 28] (50, 60)%nat ++ repeat (repeat 0 4) 3).
  split; [vm_compute; discriminate|]. vm_compute. repeat split.
Qed.
Print Assumptions C54_Relinearize_refuted.
(** For every input. *)
Theorem C54_Relinearize_ignores : forall w N k p rlk buf t0 t1, Relinearize w N k p rlk buf t0 = Relinearize w N k p rlk buf t1.
Proof. exact Relinearize_ignores. Qed.
Print Assumptions C54_Relinearize_ignores.
