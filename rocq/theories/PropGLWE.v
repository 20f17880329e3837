(** Properties C21, C22, C23, C28 (GLWE parts), C25, C27 and C29. *)
From Verif Require Import Base NegaRing ModelNum ModelVec ModelPoly ModelGadget ModelParams ModelEncoder ModelLWE ModelGLWE
  SpecNum SpecPoly SpecGadget SpecParams SpecLWE SpecGLWE PfGLWE PfGLWE2 PfGLWE3 PfGLWE4 PropLWE.

(** A small concrete setting: rank 2, 4 coefficients, 32-bit torus (exU, exG, exgad from PropLWE). *)
Definition gsk : list (list Z) := [[1; 0; 1; 1]; [0; 1; 1; 0]].
Definition gskIn : list (list Z) := [[1; 1; 0; 0]; [0; 0; 1; 1]; [1; 0; 1; 0]].
Definition gfsk := map (fwdFFT 32) gsk.
Definition gz : list (list Z) := repeat [7; 7; 7; 7] 3.
Definition genc (pt : list Z) (st : nat * nat) := fst (EncryptGLWEPlaintextTo 32 2 4 2 exU exG gfsk gz pt st).
Definition gdec (ct : list (list Z)) := DecryptGLWEPhaseTo 32 2 4 2 gfsk [9; 9; 9; 9] ct.
Example gsk_ok : skey 4 2 gsk /\ gshape 4 2 gz /\ 0 < splitBitsShort 2 /\ 0 < splitBits 2.
Proof.
  split; [split; [reflexivity|]|split; [split; [reflexivity|]|split; vm_compute; reflexivity]].
  - intros i Hi. destruct i as [|[|]]; [reflexivity|reflexivity|lia].
  - intros i Hi. destruct i as [|[|[|]]]; [reflexivity|reflexivity|reflexivity|lia].
Qed.

(** ** C21.  fsk = map (fwdFFT w) sk is the transformed key (FwdFFTGLWESecretKeyTo). *)
Theorem C21_GLWE_phase : forall w N k sk logN U G out pt st ct' st', 0 < w -> (0 < N)%nat -> 0 < splitBitsShort logN -> 
  skey N k sk -> gshape N k out -> length pt = N ->
  EncryptGLWEPlaintextTo w logN N k U G (map (fwdFFT w) sk) out pt st = (ct', st') ->
  glwe_ct w N k ct' /\ peq (2 ^ w) (gphase N k sk ct') (padd (pol N pt) (noisep N G (snd st))) /\
  st' = ((fst st + k * N)%nat, (snd st + N)%nat) /\
  (forall i j, (i < k)%nat -> (j < N)%nat -> nthZ (nth (S i) ct' []) j = U (fst st + i * N + j)%nat mod 2 ^ w).
Proof. intros w N k sk logN U G out pt st ct' st' Hw HN Hl. exact (EncryptGLWEPlaintextTo_spec w Hw N HN k sk logN Hl U G out pt st ct' st'). Qed.
Print Assumptions C21_GLWE_phase.
Theorem C21_GLWE_decrypt_phase : forall w N k sk logN U G out pt st ct' st' ptOut, 0 < w -> (0 < N)%nat -> 0 < splitBitsShort logN -> 
  skey N k sk -> gshape N k out -> length pt = N -> length ptOut = N ->
  EncryptGLWEPlaintextTo w logN N k U G (map (fwdFFT w) sk) out pt st = (ct', st') ->
  forall i, (i < N)%nat -> nthZ (DecryptGLWEPhaseTo w logN N k (map (fwdFFT w) sk) ptOut ct') i = (nthZ pt i + G (snd st + i)%nat) mod 2 ^ w.
Proof. intros w N k sk logN U G out pt st ct' st' ptOut Hw HN Hl. exact (EncDec_GLWE w Hw N HN k sk logN Hl U G out pt st ct' st' ptOut). Qed.
Print Assumptions C21_GLWE_decrypt_phase.
(** Decryption computes the phase of every ciphertext. *)
Theorem C21_GLWE_decrypt_any : forall w N k sk logN out ct, 0 < w -> (0 < N)%nat -> 0 < splitBitsShort logN -> 
  skey N k sk -> length out = N -> glwe_ct w N k ct ->
  wpoly w N (DecryptGLWEPhaseTo w logN N k (map (fwdFFT w) sk) out ct) /\
  peq (2 ^ w) (pol N (DecryptGLWEPhaseTo w logN N k (map (fwdFFT w) sk) out ct)) (gphase N k sk ct).
Proof. intros w N k sk logN out ct Hw HN Hl. exact (DecryptGLWEPhaseTo_spec w Hw N HN k sk logN Hl (fun _ => 0) (fun _ => 0) out ct). Qed.
Print Assumptions C21_GLWE_decrypt_any.
Theorem C21_GLWE_overwrites : forall w N k sk logN U G out1 out2 pt st, 0 < w -> (0 < N)%nat -> 0 < splitBitsShort logN -> 
  skey N k sk -> gshape N k out1 -> gshape N k out2 -> length pt = N ->
  EncryptGLWEPlaintextTo w logN N k U G (map (fwdFFT w) sk) out1 pt st = EncryptGLWEPlaintextTo w logN N k U G (map (fwdFFT w) sk) out2 pt st.
Proof. intros w N k sk logN U G out1 out2 pt st Hw HN Hl. exact (EncryptGLWEPlaintextTo_over w Hw N HN k sk logN Hl U G out1 out2 pt st). Qed.
Print Assumptions C21_GLWE_overwrites.
Theorem C21_GLWE_message_small : forall w n N k sk logN U G buf buf2 out mo messages st ct' st', (0 < N)%nat -> 0 < splitBitsShort logN -> 0 < w <= 52 -> 0 <= n <= w - 2 ->
  let mm := 2 ^ n in let scale := scaleOf w mm in
  skey N k sk -> gshape N k out -> length buf = N -> length buf2 = N -> length mo = N ->
  (forall i, (i < N)%nat -> - scale <= 2 * G (snd st + i)%nat < scale) ->
  EncryptGLWETo w logN N k U G mm scale (map (fwdFFT w) sk) buf out messages st = (ct', st') ->
  exists o, DecryptGLWETo w logN N k mm scale (map (fwdFFT w) sk) buf2 mo ct' = Some o /\ length o = N /\
    forall i, (i < N)%nat -> nthZ o i = nthZ messages i mod mm.
Proof. intros w n N k sk logN U G buf buf2 out mo messages st ct' st' HN Hl. exact (EncDec_GLWE_small w n N HN k sk logN Hl U G buf buf2 out mo messages st ct' st'). Qed.
Print Assumptions C21_GLWE_message_small.
Theorem C21_GLWE_message_large : forall w n N k sk logN U G buf buf2 out mo messages st ct' st', (0 < N)%nat -> 0 < splitBitsShort logN -> 0 < w <= 64 -> 0 <= n <= w - 2 ->
  let mm := 2 ^ n in let scale := scaleOf w mm in
  skey N k sk -> gshape N k out -> length buf = N -> length buf2 = N -> length mo = N ->
  (forall i, (i < N)%nat -> 2 * Z.abs (G (snd st + i)%nat) + 2 ^ 13 + 2 < scale) ->
  EncryptGLWETo w logN N k U G mm scale (map (fwdFFT w) sk) buf out messages st = (ct', st') ->
  exists o, DecryptGLWETo w logN N k mm scale (map (fwdFFT w) sk) buf2 mo ct' = Some o /\ length o = N /\
    forall i, (i < N)%nat -> nthZ o i = nthZ messages i mod mm.
Proof. intros w n N k sk logN U G buf buf2 out mo messages st ct' st' HN Hl. exact (EncDec_GLWE_large w n N HN k sk logN Hl U G buf buf2 out mo messages st ct' st'). Qed.
Print Assumptions C21_GLWE_message_large.
(** Transformed ciphertexts: the inverse transform gives back exactly the ciphertext that was encrypted. *)
Theorem C21_FFTGLWE : forall w N k sk logN U G buf out pt st f buf' st', 0 < w -> (0 < N)%nat -> 0 < splitBitsShort logN -> 
  skey N k sk -> gshape N k buf -> length out = S k -> length pt = N ->
  EncryptFFTGLWEPlaintextTo w logN N k U G (map (fwdFFT w) sk) buf out pt st = (f, (buf', st')) ->
  EncryptGLWEPlaintextTo w logN N k U G (map (fwdFFT w) sk) buf pt st = (buf', st') /\
  f = map (fwdFFT w) buf' /\ map (invFFT w) f = buf' /\ gshape N k f /\
  peq (2 ^ w) (gphase N k sk f) (padd (pol N pt) (noisep N G (snd st))).
Proof. intros w N k sk logN U G buf out pt st f buf' st' Hw HN Hl. exact (EncryptFFTGLWEPlaintextTo_spec w Hw N HN k sk logN Hl U G buf out pt st f buf' st'). Qed.
Print Assumptions C21_FFTGLWE.
Theorem C21_FFTGLWE_decrypt : forall w N k sk logN buf out ct, 0 < w -> (0 < N)%nat -> 0 < splitBitsShort logN -> 
  skey N k sk -> length buf = S k -> length out = N -> gshape N k ct ->
  wpoly w N (DecryptFFTGLWEPhaseTo w logN N k (map (fwdFFT w) sk) buf out ct) /\
  peq (2 ^ w) (pol N (DecryptFFTGLWEPhaseTo w logN N k (map (fwdFFT w) sk) buf out ct)) (gphase N k sk ct).
Proof. intros w N k sk logN buf out ct Hw HN Hl. exact (DecryptFFTGLWEPhaseTo_spec w Hw N HN k sk logN Hl (fun _ => 0) (fun _ => 0) buf out ct). Qed.
Print Assumptions C21_FFTGLWE_decrypt.
Example C21_GLWE_ex : gdec (genc [2 ^ 28; 0; 2 ^ 30; 5] (2, 4)%nat) = [2 ^ 28 + 3; 1; 2 ^ 30 - 1; 2] /\
  DecryptGLWETo 32 2 4 2 8 (2 ^ 28) gfsk [1; 1; 1; 1] [0; 0; 0; 0]
    (fst (EncryptGLWETo 32 2 4 2 exU exG 8 (2 ^ 28) gfsk [1; 2; 3; 4] gz [3; -1; 9] (0, 0)%nat)) = Some [3; 7; 1; 0].
Proof. vm_compute. split; reflexivity. Qed.

(** ** C22.  [s] maps ciphertext variables to values, so out may be a or b (same-or-disjoint aliasing). *)
Theorem C22_AddGLWE : forall w N k sk s out a b, 0 < w -> (0 < N)%nat -> glwe_ct w N k (s out) -> glwe_ct w N k (s a) -> glwe_ct w N k (s b) ->
  gopok w N k sk s out (AddGLWETo w k s out a b) (padd (gphase N k sk (s a)) (gphase N k sk (s b))).
Proof. intros w N k sk s out a b Hw HN. exact (AddGLWETo_spec w Hw N HN k sk s out a b). Qed.
Print Assumptions C22_AddGLWE.
Theorem C22_SubGLWE : forall w N k sk s out a b, 0 < w -> (0 < N)%nat -> glwe_ct w N k (s out) -> glwe_ct w N k (s a) -> glwe_ct w N k (s b) ->
  gopok w N k sk s out (SubGLWETo w k s out a b) (psub (gphase N k sk (s a)) (gphase N k sk (s b))).
Proof. intros w N k sk s out a b Hw HN. exact (SubGLWETo_spec w Hw N HN k sk s out a b). Qed.
Print Assumptions C22_SubGLWE.
Theorem C22_NegGLWE : forall w N k sk s out a, 0 < w -> (0 < N)%nat -> glwe_ct w N k (s out) -> glwe_ct w N k (s a) ->
  gopok w N k sk s out (NegGLWETo w k s out a) (popp (gphase N k sk (s a))).
Proof. intros w N k sk s out a Hw HN. exact (NegGLWETo_spec w Hw N HN k sk s out a). Qed.
Print Assumptions C22_NegGLWE.
Theorem C22_ScalarMulGLWE : forall w N k sk s out a c, 0 < w -> (0 < N)%nat -> glwe_ct w N k (s out) -> glwe_ct w N k (s a) -> 
  gopok w N k sk s out (ScalarMulGLWETo w k s out a c) (pscale c (gphase N k sk (s a))).
Proof. intros w N k sk s out a c Hw HN Ho Ha. exact (ScalarMulGLWETo_spec w Hw N HN k sk s out a Ho Ha c). Qed.
Print Assumptions C22_ScalarMulGLWE.
Theorem C22_ScalarMulAddGLWE : forall w N k sk s out a c, 0 < w -> (0 < N)%nat -> glwe_ct w N k (s out) -> glwe_ct w N k (s a) -> 
  gopok w N k sk s out (ScalarMulAddGLWETo w k s out a c) (padd (gphase N k sk (s out)) (pscale c (gphase N k sk (s a)))).
Proof. intros w N k sk s out a c Hw HN Ho Ha. exact (ScalarMulAddGLWETo_spec w Hw N HN k sk s out a Ho Ha c). Qed.
Print Assumptions C22_ScalarMulAddGLWE.
Theorem C22_ScalarMulSubGLWE : forall w N k sk s out a c, 0 < w -> (0 < N)%nat -> glwe_ct w N k (s out) -> glwe_ct w N k (s a) -> 
  gopok w N k sk s out (ScalarMulSubGLWETo w k s out a c) (psub (gphase N k sk (s out)) (pscale c (gphase N k sk (s a)))).
Proof. intros w N k sk s out a c Hw HN Ho Ha. exact (ScalarMulSubGLWETo_spec w Hw N HN k sk s out a Ho Ha c). Qed.
Print Assumptions C22_ScalarMulSubGLWE.
Theorem C22_PolyMulGLWE : forall w N k sk s out a logN p, 0 < w -> (0 < N)%nat -> 0 < splitBits logN -> glwe_ct w N k (s out) -> glwe_ct w N k (s a) -> wpoly w N p ->
  gopok w N k sk s out (PolyMulGLWETo w logN N k s out a p) (pmul (pol N p) (gphase N k sk (s a))).
Proof. intros w N k sk s out a logN p Hw HN Hl Ho Ha. exact (PolyMulGLWETo_spec w Hw N HN k sk s out a Ho Ha logN Hl p). Qed.
Print Assumptions C22_PolyMulGLWE.
Theorem C22_PolyMulAddGLWE : forall w N k sk s out a logN p, 0 < w -> (0 < N)%nat -> 0 < splitBits logN -> glwe_ct w N k (s out) -> glwe_ct w N k (s a) -> wpoly w N p ->
  gopok w N k sk s out (PolyMulAddGLWETo w logN N k s out a p) (padd (gphase N k sk (s out)) (pmul (pol N p) (gphase N k sk (s a)))).
Proof. intros w N k sk s out a logN p Hw HN Hl Ho Ha. exact (PolyMulAddGLWETo_spec w Hw N HN k sk s out a Ho Ha logN Hl p). Qed.
Print Assumptions C22_PolyMulAddGLWE.
Theorem C22_PolyMulSubGLWE : forall w N k sk s out a logN p, 0 < w -> (0 < N)%nat -> 0 < splitBits logN -> glwe_ct w N k (s out) -> glwe_ct w N k (s a) -> wpoly w N p ->
  gopok w N k sk s out (PolyMulSubGLWETo w logN N k s out a p) (psub (gphase N k sk (s out)) (pmul (pol N p) (gphase N k sk (s a)))).
Proof. intros w N k sk s out a logN p Hw HN Hl Ho Ha. exact (PolyMulSubGLWETo_spec w Hw N HN k sk s out a Ho Ha logN Hl p). Qed.
Print Assumptions C22_PolyMulSubGLWE.
Theorem C22_FFTPolyMulGLWE : forall w N k sk s out a fp, 0 < w -> (0 < N)%nat -> glwe_ct w N k (s out) -> glwe_ct w N k (s a) -> 
  gopok w N k sk s out (FFTPolyMulGLWETo w N k s out a fp) (pmul (pol N fp) (gphase N k sk (s a))).
Proof. intros w N k sk s out a fp Hw HN Ho Ha. exact (FFTPolyMulGLWETo_spec w Hw N HN k sk s out a Ho Ha fp). Qed.
Print Assumptions C22_FFTPolyMulGLWE.
Theorem C22_FFTPolyMulAddGLWE : forall w N k sk s out a fp, 0 < w -> (0 < N)%nat -> glwe_ct w N k (s out) -> glwe_ct w N k (s a) -> 
  gopok w N k sk s out (FFTPolyMulAddGLWETo w N k s out a fp) (padd (gphase N k sk (s out)) (pmul (pol N fp) (gphase N k sk (s a)))).
Proof. intros w N k sk s out a fp Hw HN Ho Ha. exact (FFTPolyMulAddGLWETo_spec w Hw N HN k sk s out a Ho Ha fp). Qed.
Print Assumptions C22_FFTPolyMulAddGLWE.
Theorem C22_FFTPolyMulSubGLWE : forall w N k sk s out a fp, 0 < w -> (0 < N)%nat -> glwe_ct w N k (s out) -> glwe_ct w N k (s a) -> 
  gopok w N k sk s out (FFTPolyMulSubGLWETo w N k s out a fp) (psub (gphase N k sk (s out)) (pmul (pol N fp) (gphase N k sk (s a)))).
Proof. intros w N k sk s out a fp Hw HN Ho Ha. exact (FFTPolyMulSubGLWETo_spec w Hw N HN k sk s out a Ho Ha fp). Qed.
Print Assumptions C22_FFTPolyMulSubGLWE.
(** Monomial products and permutations: the code requires the output not to overlap the input, except for the in-place versions. *)
Theorem C22_MonomialMulGLWE : forall w N k sk s out a n d, 0 < w -> (0 < N)%nat -> out <> a -> glwe_ct w N k (s out) -> glwe_ct w N k (s a) -> 0 <= n -> Z.of_nat N = 2 ^ n ->
  gopok w N k sk s out (MonomialMulGLWETo w N k s out a d) (pmul (pmono d) (gphase N k sk (s a))).
Proof. intros w N k sk s out a n d Hw HN _ Ho Ha Hn HNn. exact (MonomialMulGLWETo_spec w Hw N HN k sk s out a Ho Ha n Hn HNn d). Qed.
Print Assumptions C22_MonomialMulGLWE.
Theorem C22_MonomialMulAddGLWE : forall w N k sk s out a n d, 0 < w -> (0 < N)%nat -> out <> a -> glwe_ct w N k (s out) -> glwe_ct w N k (s a) -> 0 <= n -> Z.of_nat N = 2 ^ n ->
  gopok w N k sk s out (MonomialMulAddGLWETo w N k s out a d) (padd (gphase N k sk (s out)) (pmul (pmono d) (gphase N k sk (s a)))).
Proof. intros w N k sk s out a n d Hw HN _ Ho Ha Hn HNn. exact (MonomialMulAddGLWETo_spec w Hw N HN k sk s out a Ho Ha n Hn HNn d). Qed.
Print Assumptions C22_MonomialMulAddGLWE.
Theorem C22_MonomialMulSubGLWE : forall w N k sk s out a n d, 0 < w -> (0 < N)%nat -> out <> a -> glwe_ct w N k (s out) -> glwe_ct w N k (s a) -> 0 <= n -> Z.of_nat N = 2 ^ n ->
  gopok w N k sk s out (MonomialMulSubGLWETo w N k s out a d) (psub (gphase N k sk (s out)) (pmul (pmono d) (gphase N k sk (s a)))).
Proof. intros w N k sk s out a n d Hw HN _ Ho Ha Hn HNn. exact (MonomialMulSubGLWETo_spec w Hw N HN k sk s out a Ho Ha n Hn HNn d). Qed.
Print Assumptions C22_MonomialMulSubGLWE.
Theorem C22_MonomialMulGLWEInPlace : forall w N k sk s a n d, 0 < w -> (0 < N)%nat -> glwe_ct w N k (s a) -> 0 <= n -> Z.of_nat N = 2 ^ n ->
  gopok w N k sk s a (MonomialMulGLWEInPlace w N k s a d) (pmul (pmono d) (gphase N k sk (s a))).
Proof. intros w N k sk s a n d Hw HN Ha Hn HNn. exact (MonomialMulGLWEInPlace_spec w Hw N HN k sk s a Ha n Hn HNn d). Qed.
Print Assumptions C22_MonomialMulGLWEInPlace.
(** perm_key w N k d sk sk': every polynomial of sk' is s_i(X^d). *)
Theorem C22_PermuteGLWE : forall w N k n d sk sk' s out a, 0 < w -> 0 <= n <= 62 -> Z.of_nat N = 2 ^ n -> Z.odd d = true -> out <> a ->
  perm_key w N k d sk sk' -> glwe_ct w N k (s out) -> glwe_ct w N k (s a) ->
  gopok w N k sk' s out (PermuteGLWETo w N k s out a d) (psubst d (gphase N k sk (s a))).
Proof. intros w N k n d sk sk' s out a Hw Hn HN Hd _. exact (PermuteGLWETo_spec w N k n d Hw Hn HN Hd sk sk' s out a). Qed.
Print Assumptions C22_PermuteGLWE.
Theorem C22_PermuteAddGLWE : forall w N k n d sk sk' s out a, 0 < w -> 0 <= n <= 62 -> Z.of_nat N = 2 ^ n -> Z.odd d = true -> out <> a ->
  perm_key w N k d sk sk' -> glwe_ct w N k (s out) -> glwe_ct w N k (s a) ->
  gopok w N k sk' s out (PermuteAddGLWETo w N k s out a d) (padd (gphase N k sk' (s out)) (psubst d (gphase N k sk (s a)))).
Proof. intros w N k n d sk sk' s out a Hw Hn HN Hd _. exact (PermuteAddGLWETo_spec w N k n d Hw Hn HN Hd sk sk' s out a). Qed.
Print Assumptions C22_PermuteAddGLWE.
Theorem C22_PermuteSubGLWE : forall w N k n d sk sk' s out a, 0 < w -> 0 <= n <= 62 -> Z.of_nat N = 2 ^ n -> Z.odd d = true -> out <> a ->
  perm_key w N k d sk sk' -> glwe_ct w N k (s out) -> glwe_ct w N k (s a) ->
  gopok w N k sk' s out (PermuteSubGLWETo w N k s out a d) (psub (gphase N k sk' (s out)) (psubst d (gphase N k sk (s a)))).
Proof. intros w N k n d sk sk' s out a Hw Hn HN Hd _. exact (PermuteSubGLWETo_spec w N k n d Hw Hn HN Hd sk sk' s out a). Qed.
Print Assumptions C22_PermuteSubGLWE.
Theorem C22_PermuteGLWEInPlace : forall w N k n d sk sk' s a buf, 0 < w -> 0 <= n <= 62 -> Z.of_nat N = 2 ^ n -> Z.odd d = true ->
  length buf = N -> perm_key w N k d sk sk' -> glwe_ct w N k (s a) ->
  gopok w N k sk' s a (PermuteGLWEInPlace w N k s a buf d) (psubst d (gphase N k sk (s a))).
Proof. intros w N k n d sk sk' s a buf Hw Hn HN Hd. exact (PermuteGLWEInPlace_spec w N k n d Hw Hn HN Hd sk sk' s a buf). Qed.
Print Assumptions C22_PermuteGLWEInPlace.
Theorem C22_AddPlainGLWE : forall w N k sk s out a pt, 0 < w -> (0 < N)%nat -> glwe_ct w N k (s out) -> glwe_ct w N k (s a) -> length pt = N ->
  gopok w N k sk s out (AddPlainGLWETo w k s out a pt) (padd (gphase N k sk (s a)) (pol N pt)).
Proof. intros w N k sk s out a pt Hw HN Ho Ha. exact (AddPlainGLWETo_spec w Hw N HN k sk s out a O Ho Ha pt). Qed.
Print Assumptions C22_AddPlainGLWE.
Theorem C22_SubPlainGLWE : forall w N k sk s out a pt, 0 < w -> (0 < N)%nat -> glwe_ct w N k (s out) -> glwe_ct w N k (s a) -> length pt = N ->
  gopok w N k sk s out (SubPlainGLWETo w k s out a pt) (psub (gphase N k sk (s a)) (pol N pt)).
Proof. intros w N k sk s out a pt Hw HN Ho Ha. exact (SubPlainGLWETo_spec w Hw N HN k sk s out a O Ho Ha pt). Qed.
Print Assumptions C22_SubPlainGLWE.
(** 3 * (ct1 + ct1) * X^5 - ct2, written over ct1. *)
Example C22_GLWE_ex :
  let s := fun i => genc [Z.of_nat i * 1000; 0; 0; 7000] (i, i)%nat in
  match AddGLWETo 32 2 s 1 1 1 with Some s1 =>
  match ScalarMulGLWETo 32 2 s1 1 1 3 with Some s2 =>
  match MonomialMulGLWEInPlace 32 4 2 s2 1 5 with Some s3 =>
  match SubGLWETo 32 2 s3 1 1 2 with Some s4 =>
    gdec (s 1%nat) = [1002; 0; 2 ^ 32 - 2; 7003] /\
    gdec (s2 1%nat) = [6012; 0; 2 ^ 32 - 12; 42018] /\
    gdec (s4 1%nat) = [42018 - 2000; 2 ^ 32 - 6012 + 2; 2 ^ 32 - 3; 2 ^ 32 + 12 - 7001] /\ s4 2%nat = s 2%nat
  | None => False end | None => False end | None => False end | None => False end.
Proof. vm_compute. repeat split. Qed.

(** ** C23, GLev and GGSW *)
Theorem C23_EncryptGLev : forall w N k sk logN U G p out pt st lev st', 0 < w -> (0 < N)%nat -> 0 < splitBitsShort logN -> gadget_ok w p ->
  skey N k sk -> lshape N k p out -> length pt = N ->
  EncryptGLevPolyTo w logN N k U G (map (fwdFFT w) sk) p out pt st = (lev, st') ->
  glev_enc w N k p sk lev (pol N pt) (fun j => noisep N G (snd st + j * N)) /\
  (forall j, (j < g_level p)%nat -> glwe_ct w N k (nth j lev [])) /\
  st' = ((fst st + g_level p * (k * N))%nat, (snd st + g_level p * N)%nat).
Proof. intros w N k sk logN U G p out pt st lev st' Hw HN Hl Hp. exact (EncryptGLevPolyTo_spec w Hw N HN k sk logN Hl U G p Hp out pt st lev st'). Qed.
Print Assumptions C23_EncryptGLev.
Theorem C23_DecryptGLevPoly : forall w N k sk logN p pOut lev m e, 0 < w -> (0 < N)%nat -> 0 < splitBitsShort logN -> gadget_ok w p ->
  skey N k sk -> length pOut = N -> glev_enc w N k p sk lev m e -> glwe_ct w N k (nth 0 lev []) ->
  (forall i, (i < N)%nat -> - 2 ^ (w - g_logBase p) <= 2 * cf (e O) (Z.of_nat i) < 2 ^ (w - g_logBase p)) ->
  length (DecryptGLevPolyTo w logN N k (map (fwdFFT w) sk) p pOut lev) = N /\
  forall i, (i < N)%nat -> nthZ (DecryptGLevPolyTo w logN N k (map (fwdFFT w) sk) p pOut lev) i = cf m (Z.of_nat i) mod g_base p.
Proof. intros w N k sk logN p pOut lev m e Hw HN Hl Hp. exact (DecryptGLevPolyTo_spec w Hw N HN k sk logN Hl (fun _ => 0) (fun _ => 0) p Hp pOut lev m e). Qed.
Print Assumptions C23_DecryptGLevPoly.
Theorem C23_DecryptGLev : forall w N k sk logN p mm buf mo lev m e, 0 < w -> (0 < N)%nat -> 0 < splitBitsShort logN -> gadget_ok w p ->
  0 < mm -> g_base p <= 2 ^ 63 \/ mm <= 2 ^ 63 -> skey N k sk -> length buf = N ->
  glev_enc w N k p sk lev m e -> glwe_ct w N k (nth 0 lev []) ->
  (forall i, (i < N)%nat -> - 2 ^ (w - g_logBase p) <= 2 * cf (e O) (Z.of_nat i) < 2 ^ (w - g_logBase p)) ->
  forall i, (i < N)%nat -> (i < length mo)%nat ->
    nthZ (DecryptGLevTo w logN N k mm (map (fwdFFT w) sk) p buf mo lev) i = (cf m (Z.of_nat i) mod g_base p) mod mm.
Proof. intros w N k sk logN p mm buf mo lev m e Hw HN Hl Hp. exact (DecryptGLevTo_spec w Hw N HN k sk logN Hl (fun _ => 0) (fun _ => 0) p Hp mm buf mo lev m e). Qed.
Print Assumptions C23_DecryptGLev.
Theorem C23_EncryptGGSW : forall w N k sk logN U G p out pt st ggsw st', 0 < w -> (0 < N)%nat -> 0 < splitBitsShort logN -> gadget_ok w p ->
  skey N k sk -> length out = S k -> (forall i, (i <= k)%nat -> lshape N k p (nth i out [])) -> wpoly w N pt ->
  EncryptGGSWPolyTo w logN N k U G (map (fwdFFT w) sk) p out pt st = (ggsw, st') ->
  ggsw_enc w N k p sk ggsw (pol N pt) (fun i j => noisep N G (snd st + (i * g_level p + j) * N)) /\
  (forall i j, (i <= k)%nat -> (j < g_level p)%nat -> glwe_ct w N k (nth j (nth i ggsw []) [])) /\
  st' = ((fst st + S k * (g_level p * (k * N)))%nat, (snd st + S k * (g_level p * N))%nat).
Proof. intros w N k sk logN U G p out pt st ggsw st' Hw HN Hl Hp. exact (EncryptGGSWPolyTo_spec w Hw N HN k sk logN Hl U G p Hp out pt st ggsw st'). Qed.
Print Assumptions C23_EncryptGGSW.
Theorem C23_DecryptGGSW : forall w N k sk logN p pOut ggsw m (e : nat -> nat -> npoly N), 0 < w -> (0 < N)%nat -> 0 < splitBitsShort logN -> gadget_ok w p ->
  skey N k sk -> length pOut = N -> ggsw_enc w N k p sk ggsw m e -> glwe_ct w N k (nth 0 (nth 0 ggsw []) []) ->
  (forall i, (i < N)%nat -> - 2 ^ (w - g_logBase p) <= 2 * cf (e O O) (Z.of_nat i) < 2 ^ (w - g_logBase p)) ->
  forall i, (i < N)%nat -> nthZ (DecryptGGSWPolyTo w logN N k (map (fwdFFT w) sk) p pOut ggsw) i = cf m (Z.of_nat i) mod g_base p.
Proof. intros w N k sk logN p pOut ggsw m e Hw HN Hl Hp Hs Lo (_ & He & _) Hc Hn. exact (proj2 (DecryptGLevPolyTo_spec w Hw N HN k sk logN Hl (fun _ => 0) (fun _ => 0) p Hp pOut _ m (e O) Hs Lo He Hc Hn)). Qed.
Print Assumptions C23_DecryptGGSW.
Theorem C23_EncryptFFTGGSW : forall w N k sk logN U G p buf out pt st ggsw buf' st', 0 < w -> (0 < N)%nat -> 0 < splitBitsShort logN -> gadget_ok w p ->
  skey N k sk -> gshape N k buf -> length out = S k -> (forall i, (i <= k)%nat -> lshape N k p (nth i out [])) -> wpoly w N pt ->
  EncryptFFTGGSWPolyTo w logN N k U G (map (fwdFFT w) sk) p buf out pt st = (ggsw, (buf', st')) ->
  ggsw_enc w N k p sk ggsw (pol N pt) (fun i j => noisep N G (snd st + (i * g_level p + j) * N)) /\ gshape N k buf' /\
  st' = ((fst st + S k * (g_level p * (k * N)))%nat, (snd st + S k * (g_level p * N))%nat).
Proof. intros w N k sk logN U G p buf out pt st ggsw buf' st' Hw HN Hl Hp. exact (EncryptFFTGGSWPolyTo_spec w Hw N HN k sk logN Hl U G p Hp buf out pt st ggsw buf' st'). Qed.
Print Assumptions C23_EncryptFFTGGSW.
Theorem C23_EncryptFFTGLev : forall w N k sk logN U G p buf out pt st lev buf' st', 0 < w -> (0 < N)%nat -> 0 < splitBitsShort logN -> gadget_ok w p ->
  skey N k sk -> gshape N k buf -> lshape N k p out -> length pt = N ->
  EncryptFFTGLevPolyTo w logN N k U G (map (fwdFFT w) sk) p buf out pt st = (lev, (buf', st')) ->
  glev_enc w N k p sk lev (pol N pt) (fun j => noisep N G (snd st + j * N)) /\ gshape N k buf' /\
  st' = ((fst st + g_level p * (k * N))%nat, (snd st + g_level p * N)%nat).
Proof. intros w N k sk logN U G p buf out pt st lev buf' st' Hw HN Hl Hp. exact (EncryptFFTGLevPolyTo_spec w Hw N HN k sk logN Hl U G p Hp buf out pt st lev buf' st'). Qed.
Print Assumptions C23_EncryptFFTGLev.
Definition exggsw (pt : list Z) := fst (EncryptGGSWPolyTo 32 2 4 2 exU exG gfsk exgad (repeat (repeat gz 3) 3) pt (2, 4)%nat).
Example C23_GGSW_ex : DecryptGGSWPolyTo 32 2 4 2 gfsk exgad [9; 9; 9; 9] (exggsw [5; 0; 18; 1]) = [5; 0; 2; 1].
Proof. vm_compute. reflexivity. Qed.

(** ** C25 *)
Theorem C25_key : forall N sk skOut, (0 < N)%nat -> length skOut = (length sk * N)%nat -> (forall i, (i < length sk)%nat -> length (nth i sk []) = N) ->
  flat N sk (AsLWEKeyTo N skOut sk).
Proof. intros N sk skOut HN. exact (AsLWEKeyTo_spec N HN sk skOut). Qed.
Print Assumptions C25_key.
Theorem C25_extract : forall w N k sk s idx out ct, 0 < w -> (0 < N)%nat -> length sk = k -> flat N sk s -> glwe_ct w N k ct -> (idx < N)%nat -> length out = S (k * N) ->
  lwe_ct w (k * N) (AsLWECiphertextTo w N idx out ct) /\
  eqm (2 ^ w) (phase s (AsLWECiphertextTo w N idx out ct)) (cf (gphase N k sk ct) (Z.of_nat idx)).
Proof. intros w N k sk s idx out ct Hw HN. exact (extract_spec w Hw N HN k sk s idx out ct). Qed.
Print Assumptions C25_extract.
Example C25_ex : let ct := genc [2 ^ 28; 0; 2 ^ 30; 5] (2, 4)%nat in let s := AsLWEKeyTo 4 (repeat 9 8) gsk in
  s = [1; 0; 1; 1; 0; 1; 1; 0] /\
  map (fun i => DecryptLWEPhase 32 s (AsLWECiphertextTo 32 4 i (repeat 9 9) ct)) [0; 1; 2; 3]%nat = gdec ct.
Proof. vm_compute. split; reflexivity. Qed.

(** ** C27 *)
Theorem C27_GenGLWEKeySwitchKey : forall w N k sk logN U G p skIn buf st ksk buf' st', 0 < w -> (0 < N)%nat -> 0 < splitBitsShort logN -> gadget_ok w p ->
  skey N k sk -> gshape N k buf -> (forall i, (i < length skIn)%nat -> length (nth i skIn []) = N) ->
  GenGLWEKeySwitchKey w logN N k U G (map (fwdFFT w) sk) skIn p buf st = (ksk, (buf', st')) ->
  gksk_enc w N k p sk skIn ksk (fun i j => noisep N G (snd st + (i * g_level p + j) * N)).
Proof. intros w N k sk logN U G p skIn buf st ksk buf' st' Hw HN Hl Hp. exact (GenGLWEKeySwitchKey_spec w Hw N HN k sk logN Hl U G p Hp skIn buf st ksk buf' st'). Qed.
Print Assumptions C27_GenGLWEKeySwitchKey.
Theorem C27_KeySwitch : forall w N k sk p skIn out ct ksk e, 0 < w -> (0 < N)%nat -> gadget_ok w p ->
  (1 <= length skIn)%nat -> gshape N k out -> glwe_ct w N (length skIn) ct -> gksk_enc w N k p sk skIn ksk e ->
  glwe_ct w N k (KeySwitchGLWETo w N k p out ct ksk) /\
  exists D r, (forall i, (i < length skIn)%nat -> is_pdcmp w N p (nth (S i) ct []) (D i) (r i)) /\
  peq (2 ^ w) (gphase N k sk (KeySwitchGLWETo w N k p out ct ksk))
    (padd (psub (gphase N (length skIn) skIn ct) (psum (length skIn) (fun i => pmul (pol N (nth i skIn [])) (r i))))
          (psum (length skIn) (fun i => psum (g_level p) (fun j => pmul (D i j) (e i j))))).
Proof. intros w N k sk p skIn out ct ksk e Hw HN Hp. exact (KeySwitch_exact w Hw N HN k sk p Hp skIn out ct ksk e). Qed.
Print Assumptions C27_KeySwitch.
Theorem C27_KeySwitch_bound : forall w N k sk p skIn out ct ksk e E, 0 < w -> (0 < N)%nat -> gadget_ok w p ->
  (1 <= length skIn)%nat -> gshape N k out -> glwe_ct w N (length skIn) ct -> gksk_enc w N k p sk skIn ksk e ->
  (forall i, (i < length skIn)%nat -> pbound 1 (pol N (nth i skIn []))) ->
  (forall i j, (i < length skIn)%nat -> (j < g_level p)%nat -> pbound E (e i j)) ->
  pdist_le (2 ^ w) (gphase N k sk (KeySwitchGLWETo w N k p out ct ksk)) (gphase N (length skIn) skIn ct)
    (Z.of_nat (length skIn) * (Z.of_nat N * (2 ^ (w - Z.of_nat (g_level p) * g_logBase p) / 2)) + rowNoise N p (Z.of_nat (length skIn)) E).
Proof. intros w N k sk p skIn out ct ksk e E Hw HN Hp. exact (KeySwitch_bound w Hw N HN k sk p Hp skIn out ct ksk e E). Qed.
Print Assumptions C27_KeySwitch_bound.
(** From the rank 3 key gskIn to the rank 2 key gsk; the phase moves by less than the bound. *)
Example C27_ex :
  let ct := fst (EncryptGLWEPlaintextTo 32 2 4 3 exU exG (map (fwdFFT 32) gskIn) (repeat [7; 7; 7; 7] 4) [2 ^ 28; 0; 2 ^ 30; 5] (2, 4)%nat) in
  let ksk := fst (GenGLWEKeySwitchKey 32 2 4 2 exU exG gfsk gskIn exgad gz (60, 70)%nat) in
  let bound := 3 * (4 * 2 ^ 19) + rowNoise 4 exgad 3 3 in
  let out := gdec (KeySwitchGLWETo 32 4 2 exgad gz ct ksk) in let inp := DecryptGLWEPhaseTo 32 2 4 3 (map (fwdFFT 32) gskIn) [0; 0; 0; 0] ct in
  out <> inp /\ forallb (fun i => Z.abs (swrap 32 (nthZ out i - nthZ inp i)) <=? bound) [0; 1; 2; 3]%nat = true /\ bound < 2 ^ 24.
Proof. vm_compute. split; [discriminate|split; reflexivity]. Qed.

(** ** C28, GLWE *)
Theorem C28_ExternalProdGLWE : forall w N k sk p ggsw m (e : nat -> nat -> npoly N) ct out, 0 < w -> (0 < N)%nat -> gadget_ok w p ->
  ggsw_enc w N k p sk ggsw m e -> glwe_ct w N k ct -> gshape N k out ->
  exists (D : nat -> nat -> npoly N) (r : nat -> npoly N) v, (forall i, (i <= k)%nat -> is_pdcmp w N p (nth i ct []) (D i) (r i)) /\
    v = padd (pmul m (psub (gphase N k sk ct) (padd (r O) (psum k (fun i => pmul (r (S i)) (pol N (nth i sk [])))))))
           (psum (S k) (fun i => psum (g_level p) (fun j => pmul (D i j) (e i j)))) /\
    (glwe_ct w N k (ExternalProdGLWETo w N k p ggsw ct) /\ peq (2 ^ w) (gphase N k sk (ExternalProdGLWETo w N k p ggsw ct)) v) /\
    (glwe_ct w N k (ExternalProdAddGLWETo w N k p out ggsw ct) /\ peq (2 ^ w) (gphase N k sk (ExternalProdAddGLWETo w N k p out ggsw ct)) (padd (gphase N k sk out) v)) /\
    (glwe_ct w N k (ExternalProdSubGLWETo w N k p out ggsw ct) /\ peq (2 ^ w) (gphase N k sk (ExternalProdSubGLWETo w N k p out ggsw ct)) (psub (gphase N k sk out) v)).
Proof. intros w N k sk p ggsw m e ct out Hw HN Hp. exact (ExternalProd_exact w Hw N HN k sk p Hp ggsw m e ct out). Qed.
Print Assumptions C28_ExternalProdGLWE.
(** The accumulating variants add or subtract exactly the ciphertext the plain product returns. *)
Theorem C28_ExternalProdGLWE_addsub : forall w N k p out ggsw ct i, (0 < N)%nat -> (i <= k)%nat ->
  nth i (ExternalProdAddGLWETo w N k p out ggsw ct) [] = vadd w (nth i out []) (nth i (ExternalProdGLWETo w N k p ggsw ct) []) /\
  nth i (ExternalProdSubGLWETo w N k p out ggsw ct) [] = vsub w (nth i out []) (nth i (ExternalProdGLWETo w N k p ggsw ct) []).
Proof. intros w N k p out ggsw ct i HN Hi. exact (conj (ExternalProdAdd_value w N HN k p out ggsw ct i Hi) (ExternalProdSub_value w N HN k p out ggsw ct i Hi)). Qed.
Print Assumptions C28_ExternalProdGLWE_addsub.
Theorem C28_ExternalProdGLWE_bound : forall w N k sk p ggsw m M (e : nat -> nat -> npoly N) ct E, 0 < w -> (0 < N)%nat -> gadget_ok w p ->
  ggsw_enc w N k p sk ggsw m e -> pbound M m -> glwe_ct w N k ct -> (forall i, (i < k)%nat -> pbound 1 (pol N (nth i sk []))) ->
  (forall i j, (i <= k)%nat -> (j < g_level p)%nat -> pbound E (e i j)) ->
  pdist_le (2 ^ w) (gphase N k sk (ExternalProdGLWETo w N k p ggsw ct)) (pmul m (gphase N k sk ct))
    (Z.of_nat N * (M * (2 ^ (w - Z.of_nat (g_level p) * g_logBase p) / 2 * (1 + Z.of_nat k * Z.of_nat N))) + rowNoise N p (Z.of_nat k + 1) E).
Proof. intros w N k sk p ggsw m M e ct E Hw HN Hp. exact (ExternalProd_bound_poly w Hw N HN k sk p Hp ggsw m M e ct E). Qed.
Print Assumptions C28_ExternalProdGLWE_bound.
Theorem C28_ExternalProdGLWE_bound_const : forall w N k sk p ggsw c (e : nat -> nat -> npoly N) ct E, 0 < w -> (0 < N)%nat -> gadget_ok w p ->
  ggsw_enc w N k p sk ggsw (pconst c) e -> glwe_ct w N k ct -> (forall i, (i < k)%nat -> pbound 1 (pol N (nth i sk []))) ->
  (forall i j, (i <= k)%nat -> (j < g_level p)%nat -> pbound E (e i j)) ->
  pdist_le (2 ^ w) (gphase N k sk (ExternalProdGLWETo w N k p ggsw ct)) (pscale c (gphase N k sk ct))
    (Z.abs c * (2 ^ (w - Z.of_nat (g_level p) * g_logBase p) / 2 * (1 + Z.of_nat k * Z.of_nat N)) + rowNoise N p (Z.of_nat k + 1) E).
Proof. intros w N k sk p ggsw c e ct E Hw HN Hp. exact (ExternalProd_bound_const w Hw N HN k sk p Hp ggsw c e ct E). Qed.
Print Assumptions C28_ExternalProdGLWE_bound_const.
Theorem C28_GadgetProdGLWE : forall w N k sk p lev m (e : nat -> npoly N) c out, 0 < w -> (0 < N)%nat -> gadget_ok w p ->
  glev_enc w N k p sk lev m e -> wpoly w N c -> gshape N k out ->
  exists D r v, is_pdcmp w N p c D r /\ v = padd (pmul m (psub (pol N c) r)) (psum (g_level p) (fun j => pmul (D j) (e j))) /\
    (glwe_ct w N k (GadgetProdGLWETo w N k p lev c) /\ peq (2 ^ w) (gphase N k sk (GadgetProdGLWETo w N k p lev c)) v) /\
    (glwe_ct w N k (GadgetProdAddGLWETo w N k p out lev c) /\ peq (2 ^ w) (gphase N k sk (GadgetProdAddGLWETo w N k p out lev c)) (padd (gphase N k sk out) v)) /\
    (glwe_ct w N k (GadgetProdSubGLWETo w N k p out lev c) /\ peq (2 ^ w) (gphase N k sk (GadgetProdSubGLWETo w N k p out lev c)) (psub (gphase N k sk out) v)).
Proof. intros w N k sk p lev m e c out Hw HN Hp. exact (GadgetProd_exact w Hw N HN k sk p Hp lev m e c out). Qed.
Print Assumptions C28_GadgetProdGLWE.
(** The same for the products that stay in the transformed domain. *)
Theorem C28_ExternalProdFFTGLWE : forall w N k sk p ggsw m (e : nat -> nat -> npoly N) ct out fd, 0 < w -> (0 < N)%nat -> gadget_ok w p ->
  ggsw_enc w N k p sk ggsw m e -> glwe_ct w N k ct -> gshape N k out -> (forall i, (i <= k)%nat -> nth i fd [] = fdigits w p (nth i ct [])) ->
  exists (D : nat -> nat -> npoly N) (r : nat -> npoly N) v, (forall i, (i <= k)%nat -> is_pdcmp w N p (nth i ct []) (D i) (r i)) /\
    v = padd (pmul m (psub (gphase N k sk ct) (padd (r O) (psum k (fun i => pmul (r (S i)) (pol N (nth i sk [])))))))
           (psum (S k) (fun i => psum (g_level p) (fun j => pmul (D i j) (e i j)))) /\
    (gshape N k (ExternalProdFFTGLWETo N k p ggsw fd) /\ peq (2 ^ w) (gphase N k sk (ExternalProdFFTGLWETo N k p ggsw fd)) v) /\
    (gshape N k (ExternalProdAddFFTGLWETo N k p out ggsw fd) /\ peq (2 ^ w) (gphase N k sk (ExternalProdAddFFTGLWETo N k p out ggsw fd)) (padd (gphase N k sk out) v)) /\
    (gshape N k (ExternalProdSubFFTGLWETo N k p out ggsw fd) /\ peq (2 ^ w) (gphase N k sk (ExternalProdSubFFTGLWETo N k p out ggsw fd)) (psub (gphase N k sk out) v)).
Proof. intros w N k sk p ggsw m e ct out fd Hw HN Hp. exact (ExternalProdFFT_exact w Hw N HN k sk p Hp ggsw m e ct out fd). Qed.
Print Assumptions C28_ExternalProdFFTGLWE.
Theorem C28_GadgetProdFFTGLWE : forall w N k sk p lev m (e : nat -> npoly N) c out, 0 < w -> (0 < N)%nat -> gadget_ok w p ->
  glev_enc w N k p sk lev m e -> wpoly w N c -> gshape N k out ->
  exists D r v, is_pdcmp w N p c D r /\ v = padd (pmul m (psub (pol N c) r)) (psum (g_level p) (fun j => pmul (D j) (e j))) /\
    (gshape N k (GadgetProdFFTGLWETo N k p lev (fdigits w p c)) /\ peq (2 ^ w) (gphase N k sk (GadgetProdFFTGLWETo N k p lev (fdigits w p c))) v) /\
    (gshape N k (GadgetProdAddFFTGLWETo N k p out lev (fdigits w p c)) /\ peq (2 ^ w) (gphase N k sk (GadgetProdAddFFTGLWETo N k p out lev (fdigits w p c))) (padd (gphase N k sk out) v)) /\
    (gshape N k (GadgetProdSubFFTGLWETo N k p out lev (fdigits w p c)) /\ peq (2 ^ w) (gphase N k sk (GadgetProdSubFFTGLWETo N k p out lev (fdigits w p c))) (psub (gphase N k sk out) v)).
Proof. intros w N k sk p lev m e c out Hw HN Hp. exact (GadgetProdFFT_exact w Hw N HN k sk p Hp lev m e c out). Qed.
Print Assumptions C28_GadgetProdFFTGLWE.
Example C28_FFT_ex : let ct := genc [2 ^ 28; 0; 2 ^ 26; 0] (50, 60)%nat in
  map (fun x => DivRoundBits 32 x 24 mod 256) (gdec (gInv 32 2 (ExternalProdSubFFTGLWETo 4 2 exgad (map (fwdFFT 32) (genc [2 ^ 29; 0; 0; 0] (1, 2)%nat)) (exggsw [0; 2; 0; 0]) (map (fdigits 32 exgad) ct)))) = [32; 224; 0; 248].
Proof. vm_compute. reflexivity. Qed.
(** GGSW(2 X) times a ciphertext. *)
Example C28_GLWE_ex : let ct := genc [2 ^ 28; 0; 2 ^ 26; 0] (50, 60)%nat in
  map (fun x => DivRoundBits 32 x 24 mod 256) (gdec (ExternalProdGLWETo 32 4 2 exgad (exggsw [0; 2; 0; 0]) ct)) = [0; 32; 0; 8].
Proof. vm_compute. reflexivity. Qed.

(** ** C29; out may be c0 *)
Theorem C29_CMux : forall w N k sk p s out c0 c1 ggsw m (e : nat -> nat -> npoly N), 0 < w -> (0 < N)%nat -> gadget_ok w p ->
  glwe_ct w N k (s out) -> glwe_ct w N k (s c0) -> glwe_ct w N k (s c1) -> out <> c1 -> ggsw_enc w N k p sk ggsw m e ->
  let s' := CMuxTo w N k p s out c0 c1 ggsw in
  glwe_ct w N k (s' out) /\ (forall y, y <> out -> s' y = s y) /\
  exists (D : nat -> nat -> npoly N) (r : nat -> npoly N),
    (forall i, (i <= k)%nat -> (forall j, (j < g_level p)%nat -> pbound (2 ^ (g_logBase p - 1)) (D i j)) /\ pbound (2 ^ (w - Z.of_nat (g_level p) * g_logBase p) / 2) (r i)) /\
    peq (2 ^ w) (gphase N k sk (s' out)) (padd (gphase N k sk (s c0))
      (padd (pmul m (psub (psub (gphase N k sk (s c1)) (gphase N k sk (s c0))) (padd (r O) (psum k (fun i => pmul (r (S i)) (pol N (nth i sk [])))))))
        (psum (S k) (fun i => psum (g_level p) (fun j => pmul (D i j) (e i j)))))).
Proof. intros w N k sk p s out c0 c1 ggsw m e Hw HN Hp. exact (CMux_exact w Hw N HN k sk p Hp s out c0 c1 ggsw m e). Qed.
Print Assumptions C29_CMux.
Theorem C29_CMux_select : forall w N k sk p s out c0 c1 ggsw c (e : nat -> nat -> npoly N) E, 0 < w -> (0 < N)%nat -> gadget_ok w p ->
  glwe_ct w N k (s out) -> glwe_ct w N k (s c0) -> glwe_ct w N k (s c1) -> out <> c1 -> (c = 0 \/ c = 1) ->
  ggsw_enc w N k p sk ggsw (pconst c) e -> (forall i, (i < k)%nat -> pbound 1 (pol N (nth i sk []))) ->
  (forall i j, (i <= k)%nat -> (j < g_level p)%nat -> pbound E (e i j)) ->
  pdist_le (2 ^ w) (gphase N k sk (CMuxTo w N k p s out c0 c1 ggsw out)) (gphase N k sk (s (if c =? 0 then c0 else c1)))
    (2 ^ (w - Z.of_nat (g_level p) * g_logBase p) / 2 * (1 + Z.of_nat k * Z.of_nat N) + rowNoise N p (Z.of_nat k + 1) E).
Proof. intros w N k sk p s out c0 c1 ggsw c e E Hw HN Hp. exact (CMux_bound w Hw N HN k sk p Hp s out c0 c1 ggsw c e E). Qed.
Print Assumptions C29_CMux_select.
(** Variables 0 and 1 hold different messages; out = c0 = 0 works for both selectors. *)
Definition exsel (b : Z) := exggsw [b; 0; 0; 0].
Definition cms (i : nat) : list (list Z) := match i with 0%nat => genc [2 ^ 28; 0; 0; 0] (50, 60)%nat | _ => genc [0; 3 * 2 ^ 28; 0; 0] (80, 90)%nat end.
Definition high (ct : list (list Z)) := map (fun x => DivRoundBits 32 x 24 mod 256) (gdec ct).
Example C29_ex : high (CMuxTo 32 4 2 exgad cms 0 0 1 (exsel 0) 0%nat) = [16; 0; 0; 0] /\
  high (CMuxTo 32 4 2 exgad cms 0 0 1 (exsel 1) 0%nat) = [0; 48; 0; 0] /\
  high (CMuxTo 32 4 2 exgad cms 2 0 1 (exsel 1) 2%nat) = [0; 48; 0; 0].
Proof. vm_compute. repeat split. Qed.
(** With out = c1 the difference is taken after c1 has been overwritten: selecting 1 returns c0. *)
Theorem C29_alias_c1_refuted : exists w N k p s out c0 c1 ggsw,
  ggsw = exsel 1 /\ out = c1 /\ w = 32 /\ N = 4%nat /\ k = 2%nat /\ p = exgad /\ s = cms /\
  high (s c0) = [16; 0; 0; 0] /\ high (s c1) = [0; 48; 0; 0] /\ high (CMuxTo w N k p s out c0 c1 ggsw out) = [16; 0; 0; 0].
Proof. exists 32, 4%nat, 2%nat, exgad, cms, 1%nat, 0%nat, 1%nat, (exsel 1). repeat match goal with |- _ /\ _ => split; [vm_compute; reflexivity|] end. vm_compute. reflexivity. Qed.
Print Assumptions C29_alias_c1_refuted.
