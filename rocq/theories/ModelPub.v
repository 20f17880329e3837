(** Model of public key encryption: tfhe/encryptor.go GenPublicKey, encryptor_public.go, lwe_enc_public.go, glwe_enc_public.go,
    fft_glwe_enc_public.go.  No proofs in this file.

    A LWEPublicKey or GLWEPublicKey is the list of its glweRank GLWE ciphertexts.  [B i] is the i-th sample of the PublicEncryptor's
    binary sampler and [G i] of its Gaussian sampler; a state (b, g) counts the draws of both.  Parameters have glweRank >= 1
    (params.go), so Value[0] exists. *)
From Verif Require Import Base ModelNum ModelVec ModelPoly ModelGadget ModelEncoder ModelLWE ModelGLWE.

Section Gen.
Variables (w logN : Z) (N k : nat) (U G : nat -> Z).
(** csprng/gaussian_sampler.go:112-118 SamplePolyTo. *)
Definition samplePolyG (p : list Z) (st : rst) : list Z * rst :=
  (tab (length p) (fun i => wrap w (G (snd st + i))), (fst st, (snd st + length p)%nat)).
Definition zeroPK : list (list (list Z)) := repeat (repeat (repeat 0 N) (S k)) k.
(** encryptor.go:164-166: the GLWE part. *)
Definition GenGLWEPublicKey (fsk : list (list Z)) (st : rst) : list (list (list Z)) * rst :=
  forN 0 k (fun i s =>
    let '(pk, st) := s in
    let '(ct, st) := EncryptGLWEBody w logN N k U G fsk (nth i pk []) st in
    (upd pk i ct, st)) (zeroPK, st).
(** encryptor.go:168-173: the reversed key, transformed. vec.ReverseTo panics on different lengths. *)
Definition reversedKey (sk : list (list Z)) : list (list Z) :=
  forN 0 k (fun i r => match ReverseTo 0 (nth i r []) (nth i sk []) with Some v => upd r i v | None => r end) (repeat (repeat 0 N) k).
(** encryptor.go:175-181: the LWE part. *)
Definition GenLWEPublicKey (sk : list (list Z)) (st : rst) : list (list (list Z)) * rst :=
  let fskRev := map (fwdFFT w) (reversedKey sk) in
  forN 0 k (fun i s =>
    let '(pk, st) := s in
    let c := nth i pk [] in
    let '(b, st) := samplePolyG (nth 0 c []) st in
    let '(c, st) :=
      forN 1 k (fun j s =>
        let '(c, st) := s in
        let '(m, st) := sampleVec w U (length (nth j c [])) st in
        let c := upd c j m in
        (upd c 0 (ShortFFTPolyMulSubPolyTo false w logN N (nth 0 c []) (nth j c []) (nth (j - 1) fskRev [])), st)) (upd c 0 b, st) in
    (upd pk i c, st)) (zeroPK, st).
(** encryptor.go:157-184 GenPublicKey; the encryptability check is IsPublicKeyEncryptable of ModelParams.v. *)
Definition GenPublicKey (sk : list (list Z)) (st : rst) : (list (list (list Z)) * list (list (list Z))) * rst :=
  let '(g, st) := GenGLWEPublicKey (map (fwdFFT w) sk) st in
  let '(l, st) := GenLWEPublicKey sk st in ((l, g), st).
End Gen.

Section Pub.
Variables (w logN : Z) (N k : nat) (B G : nat -> Z).
(** csprng/binary_sampler.go SamplePolyTo. *)
Definition samplePolyB (p : list Z) (st : rst) : list Z * rst :=
  (tab (length p) (fun i => wrap w (B (fst st + i))), ((fst st + length p)%nat, snd st)).

(** glwe_enc_public.go:31-50 EncryptGLWEBody; aux is e.buf.auxKey. Returns the ciphertext and the new aux. *)
Definition PubEncryptGLWEBody (pk : list (list (list Z))) (aux ct : list (list Z)) (st : rst) : list (list Z) * (list (list Z) * rst) :=
  let '(aux, st) := forN 0 k (fun i s => let '(a, st) := s in let '(v, st) := samplePolyB (nth i a []) st in (upd a i v, st)) (aux, st) in
  let faux := map (fwdFFT w) aux in
  let mulAdd i j c := upd c j (ShortFFTPolyMulAddPolyTo false w logN N (nth j c []) (nth j (nth i pk []) []) (nth i faux [])) in
  let ct := mulAdd O O ct in
  let ct := forN 1 k (fun j c => mulAdd O j c) ct in
  let ct := forN 1 (k - 1) (fun i c => forN 0 (S k) (fun j c => mulAdd i j c) c) ct in
  let '(ct, st) := forN 0 (S k) (fun j s => let '(c, st) := s in let '(v, st) := samplePolyAdd w G (nth j c []) st in (upd c j v, st)) (ct, st) in
  (ct, (aux, st)).
(** glwe_enc_public.go:24-27 EncryptGLWEPlaintextTo. *)
Definition PubEncryptGLWEPlaintextTo pk aux (ctOut : list (list Z)) (pt : list Z) (st : rst) :=
  PubEncryptGLWEBody pk aux (upd ctOut 0 (go_copy (nth 0 ctOut []) pt)) st.

(** The slices ct.Value[1+j*polyRank : 1+(j+1)*polyRank] of an LWE ciphertext, read and written. *)
Definition seg (ct : list Z) (j : nat) : list Z := firstn N (skipn (1 + j * N) ct).
Definition setSeg (ct : list Z) (j : nat) (v : list Z) : list Z := firstn (1 + j * N) ct ++ v ++ skipn (1 + j * N + N) ct.
(** lwe_enc_public.go:33-59 EncryptLWEBody. *)
Definition PubEncryptLWEBody (pk : list (list (list Z))) (aux : list (list Z)) (ct : list Z) (st : rst) : list Z * (list (list Z) * rst) :=
  let '(ct, (aux, st)) :=
    forN 0 k (fun i s =>
      let '(c, (a, st)) := s in
      let '(v, st) := samplePolyB (nth i a []) st in
      (upd c 0 (wrap w (nthZ c 0 + dot w v (nth 0 (nth i pk []) []))), (upd a i v, st))) (ct, (aux, st)) in
  let '(e, st) := sampleG w G st in
  let ct := upd ct 0 (wrap w (nthZ ct 0 + e)) in
  let aux := forN 0 k (fun i a => upd a i (ReverseInPlace 0 (nth i a []))) aux in
  let faux := map (fwdFFT w) aux in
  let ct := forN 0 k (fun i c => forN 0 k (fun j c =>
      setSeg c j (ShortFFTPolyMulAddPolyTo false w logN N (seg c j) (nth (j + 1) (nth i pk []) []) (nth i faux []))) c) ct in
  let '(ct, st) := forN 0 k (fun j s => let '(c, st) := s in let '(v, st) := samplePolyAdd w G (seg c j) st in (setSeg c j v, st)) (ct, st) in
  (ct, (aux, st)).
(** lwe_enc_public.go:26-29 EncryptLWEPlaintextTo. *)
Definition PubEncryptLWEPlaintextTo pk aux (ctOut : list Z) (pt : Z) (st : rst) := PubEncryptLWEBody pk aux (upd ctOut 0 pt) st.

(** encryptor_public.go: the encryptor's buffers (pt: buf.ptGLWE, ct: buf.ctGLWE, aux: buf.auxKey; auxFourierKey is always overwritten first) and samplers. *)
Record pub : Type := mkPub { pu_pt : list Z; pu_ct : list (list Z); pu_aux : list (list Z); pu_st : rst }.
(** encryptor_public.go:86-95 newPublicEncryptorBuffer, fresh samplers. *)
Definition newPub : pub := mkPub (repeat 0 N) (repeat (repeat 0 N) (S k)) (repeat (repeat 0 N) k) (O, O).

(** One call. lwe_enc_public.go:8-16, glwe_enc_public.go:4-14, fft_glwe_enc_public.go:4-24.
    The methods without "To" pass a fresh all-zero output (NewLWECiphertext, NewGLWECiphertext). *)
Inductive pcall : Type := PLWE (out : list Z) (message : Z) | PGLWE (out : list (list Z)) (messages : list Z) | PFFT (out : list (list Z)) (messages : list Z).
Inductive pres : Type := RLWE (ct : list Z) | RGLWE (ct : list (list Z)) | RFFT (ct : list (list Z)).
Definition pstep (mm scale : Z) (lpk gpk : list (list (list Z))) (c : pcall) (e : pub) : pres * pub :=
  match c with
  | PLWE out m =>
    let '(ct, (aux, st)) := PubEncryptLWEPlaintextTo lpk (pu_aux e) out (EncodeLWECustom w m mm scale) (pu_st e) in
    (RLWE ct, mkPub (pu_pt e) (pu_ct e) aux st)
  | PGLWE out ms =>
    let pt := EncodeGLWECustomTo w N (pu_pt e) ms mm scale in
    let '(ct, (aux, st)) := PubEncryptGLWEPlaintextTo gpk (pu_aux e) out pt (pu_st e) in
    (RGLWE ct, mkPub pt (pu_ct e) aux st)
  | PFFT out ms =>
    let pt := EncodeGLWECustomTo w N (repeat 0 N) ms mm scale in
    let '(ct, (aux, st)) := PubEncryptGLWEPlaintextTo gpk (pu_aux e) (pu_ct e) pt (pu_st e) in
    (RFFT (FwdFFTGLWECiphertextTo w out ct), mkPub (pu_pt e) ct aux st)
  end.
Fixpoint prun (mm scale : Z) (lpk gpk : list (list (list Z))) (cs : list pcall) (e : pub) : list pres * pub :=
  match cs with
  | [] => ([], e)
  | c :: cs => let '(r, e) := pstep mm scale lpk gpk c e in let '(rs, e) := prun mm scale lpk gpk cs e in (r :: rs, e)
  end.
(** The outputs EncryptLWE and EncryptGLWE allocate (lwe_enc_public.go:20, glwe_enc_public.go:5). *)
Definition freshLWE : list Z := repeat 0 (1 + k * N).
Definition freshGLWE : list (list Z) := repeat (repeat 0 N) (S k).
End Pub.
