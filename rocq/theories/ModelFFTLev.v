(** Model of decryption of transformed GLev, GGSW and uni-encryptions and of the conversions between transformed and standard
    ciphertexts and keys: tfhe/fft_glwe_enc.go, tfhe/fft_glwe_conv.go, mktfhe/fft_glwe_enc.go, mktfhe/fft_glwe_conv.go.
    No proofs in this file.  Conventions as in ModelGLWE.v: a transformed polynomial is the integer polynomial its transform stands
    for (exact arithmetic); the gadget p is the GadgetParams field of the ciphertext named in the code. *)
From Verif Require Import Base ModelNum ModelVec ModelPoly ModelGadget ModelEncoder ModelLWE ModelGLWE ModelMK.

Section Conv.
Variable w : Z.

(** tfhe/fft_glwe_conv.go:39-43, 53-57: the loops run over the output key. *)
Definition FwdFFTGLWESecretKeyTo (skOut sk : list (list Z)) : list (list Z) :=
  forN 0 (length skOut) (fun i o => upd o i (fwdFFT w (nth i sk []))) skOut.
Definition InvFFTGLWESecretKeyTo (skOut sk : list (list Z)) : list (list Z) :=
  forN 0 (length skOut) (fun i o => upd o i (invFFT w (nth i sk []))) skOut.

(** tfhe/fft_glwe_conv.go:95-99, 109-113: the levels of the output; p is ctOut.GadgetParams. *)
Definition FwdFFTGLevCiphertextTo (p : gadget) (ctOut ct : list (list (list Z))) : list (list (list Z)) :=
  forN 0 (g_level p) (fun i o => upd o i (FwdFFTGLWECiphertextTo w (nth i o []) (nth i ct []))) ctOut.
Definition InvFFTGLevCiphertextTo (p : gadget) (ctOut ct : list (list (list Z))) : list (list (list Z)) :=
  forN 0 (g_level p) (fun i o => upd o i (InvFFTGLWECiphertextTo w (nth i o []) (nth i ct []))) ctOut.

(** tfhe/fft_glwe_conv.go:123-127, 137-141: the rows of the input. *)
Definition FwdFFTGGSWCiphertextTo (p : gadget) (ctOut ct : list (list (list (list Z)))) : list (list (list (list Z))) :=
  forN 0 (length ct) (fun i o => upd o i (FwdFFTGLevCiphertextTo p (nth i o []) (nth i ct []))) ctOut.
Definition InvFFTGGSWCiphertextTo (p : gadget) (ctOut ct : list (list (list (list Z)))) : list (list (list (list Z))) :=
  forN 0 (length ct) (fun i o => upd o i (InvFFTGLevCiphertextTo p (nth i o []) (nth i ct []))) ctOut.

(** One of the four assignments of mktfhe/fft_glwe_conv.go:93-99: component i of level j through f. *)
Definition setPart (f : list Z -> list Z) (i j : nat) (o ct : list (list (list Z))) : list (list (list Z)) :=
  upd o j (upd (nth j o []) i (f (nth i (nth j ct []) []))).
(** mktfhe/fft_glwe_conv.go:92-100 and 110-118; a UniEncryption is the pair of its GLev ciphertexts; p is ct.GadgetParams. *)
Definition convUniTo (f : list Z -> list Z) (p : gadget) (out ct : list (list (list Z)) * list (list (list Z))) :=
  forN 0 (g_level p) (fun j o =>
    let o := (setPart f 0 j (fst o) (fst ct), snd o) in
    let o := (setPart f 1 j (fst o) (fst ct), snd o) in
    let o := (fst o, setPart f 0 j (snd o) (snd ct)) in
    (fst o, setPart f 1 j (snd o) (snd ct))) out.
Definition FwdFFTUniEncryptionTo := convUniTo (fwdFFT w).
Definition InvFFTUniEncryptionTo := convUniTo (invFFT w).
End Conv.

Section Enc.
Variables (w logN : Z) (N k : nat) (U G : nat -> Z).

(** tfhe/fft_glwe_enc.go:63-71 EncryptFFTGLevTo and 129-137 EncryptFFTGGSWTo; mb is e.buf.ptGLWE, buf is e.buf.ctGLWE. *)
Definition EncryptFFTGLevTo (mm : Z) fsk p buf ctOut mb messages st :=
  EncryptFFTGLevPolyTo w logN N k U G fsk p buf ctOut (messagePoly w N mm mb messages) st.
Definition EncryptFFTGGSWTo (mm : Z) fsk p buf ctOut mb messages st :=
  EncryptFFTGGSWPolyTo w logN N k U G fsk p buf ctOut (messagePoly w N mm mb messages) st.

(** tfhe/fft_glwe_enc.go:114-119 DecryptFFTGLevPolyTo; buf is e.buf.ctGLWE. *)
Definition DecryptFFTGLevPolyTo (fsk : list (list Z)) (p : gadget) (buf : list (list Z)) (pOut : list Z) (ct : list (list (list Z))) : list Z :=
  forN 0 N (fun i o => upd o i (DivRoundBits w (nthZ o i) (LogFirstBaseQ p) mod g_base p))
    (DecryptFFTGLWEPhaseTo w logN N k fsk buf pOut (nth 0 ct [])).
(** tfhe/fft_glwe_enc.go:97-104 DecryptFFTGLevTo; mb is e.buf.ptGLWE. *)
Definition DecryptFFTGLevTo (mm : Z) fsk p buf (mb messagesOut : list Z) ct : list Z :=
  let pt := DecryptFFTGLevPolyTo fsk p buf mb ct in
  forN 0 (Nat.min N (length messagesOut)) (fun i o => upd o i (swrap 64 (nthZ pt i mod mm))) messagesOut.
(** tfhe/fft_glwe_enc.go:160-177 DecryptFFTGGSW, DecryptFFTGGSWTo, DecryptFFTGGSWPoly, DecryptFFTGGSWPolyTo: the first row. *)
Definition DecryptFFTGGSWPolyTo fsk p buf pOut (ct : list (list (list (list Z)))) := DecryptFFTGLevPolyTo fsk p buf pOut (nth 0 ct []).
Definition DecryptFFTGGSWTo (mm : Z) fsk p buf mb mo (ct : list (list (list (list Z)))) := DecryptFFTGLevTo mm fsk p buf mb mo (nth 0 ct []).
End Enc.

Section Uni.
Variables (w logN : Z) (N : nat) (U G : nat -> Z).

(** mktfhe/fft_glwe_enc.go:18-26 FFTUniEncryptTo; mb is e.buf.ptGLWE, sub is e.buf.ctSubGLWE, aux the sampled auxiliary key. *)
Definition FFTUniEncryptTo (mm : Z) (fsk : list Z) (p : gadget) crs (aux : list Z) sub out0 out1 (mb messages : list Z) (st : rst) :=
  FFTUniEncryptPolyTo w logN N U G fsk p crs aux sub out0 out1 (messagePoly w N mm mb messages) st.
(** mktfhe/fft_glwe_enc.go:82-92 FFTUniDecryptPolyTo; aux is e.buf.auxKey.Value[0], buf is e.SubEncryptor.buf.ctGLWE. *)
Definition FFTUniDecryptPolyTo (fsk : list Z) (p : gadget) (buf sub : list (list Z)) (aux pOut : list Z) (c0 c1 : list (list (list Z))) : list Z :=
  let aux := DecryptFFTGLevPolyTo w logN N 1 [fsk] p buf aux c1 in
  let faux := fwdFFT w aux in
  let sub := InvFFTGLWECiphertextTo w sub (nth 0 c0 []) in
  let o := go_copy pOut (nth 0 sub []) in
  let o := ShortFFTPolyMulSubPolyTo false w logN N o (nth 1 sub []) faux in
  forN 0 N (fun i o => upd o i (DivRoundBits w (nthZ o i) (LogFirstBaseQ p))) o.
(** mktfhe/fft_glwe_enc.go:65-72 FFTUniDecryptTo; mb is e.buf.ptGLWE. *)
Definition FFTUniDecryptTo (mm : Z) fsk p buf sub (aux mb messagesOut : list Z) c0 c1 : list Z :=
  let pt := FFTUniDecryptPolyTo fsk p buf sub aux mb c0 c1 in
  forN 0 (Nat.min N (length messagesOut)) (fun i o => upd o i (swrap 64 (nthZ pt i mod mm))) messagesOut.
End Uni.
