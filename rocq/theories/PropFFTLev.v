(** Property C75: decryption and conversion of transformed GLev and GGSW ciphertexts, uni-encryptions and keys. *)
From Verif Require Import Base NegaRing ModelNum ModelVec ModelPoly SpecNum SpecPoly ModelGadget SpecGadget ModelEncoder ModelLWE SpecLWE ModelGLWE SpecGLWE ModelMK SpecMK ModelFFTLev SpecFFTLev
  PfGLWE PfMK5 PfMK10 PfFFTLev PfFFTLev2 PropLWE PropGLWE ExMK.

(** Going to transformed form and back returns the same words, whatever the outputs contained. *)
Theorem C75_glev_back : forall w N k p o1 o2 ct, 0 < w -> (0 < N)%nat -> lshape N k p o1 -> lshape N k p o2 -> lev_words w N k p ct ->
  InvFFTGLevCiphertextTo w p o2 (FwdFFTGLevCiphertextTo w p o1 ct) = ct.
Proof. exact (fun w N k p o1 o2 ct Hw HN => glev_roundtrip w Hw N HN k p o1 o2 ct). Qed.
Print Assumptions C75_glev_back.
Theorem C75_ggsw_back : forall w N k p o1 o2 ct, 0 < w -> (0 < N)%nat -> gsw_shape N k p o1 -> gsw_shape N k p o2 -> gsw_words w N k p ct ->
  InvFFTGGSWCiphertextTo w p o2 (FwdFFTGGSWCiphertextTo w p o1 ct) = ct.
Proof. exact (fun w N k p o1 o2 ct Hw HN => ggsw_roundtrip w Hw N HN k p o1 o2 ct). Qed.
Print Assumptions C75_ggsw_back.
Theorem C75_uni_back : forall w N p o1 o2 ct, 0 < w -> (0 < N)%nat -> lshape N 1 p (fst o1) -> lshape N 1 p (snd o1) -> lshape N 1 p (fst o2) -> lshape N 1 p (snd o2) ->
  lev_words w N 1 p (fst ct) -> lev_words w N 1 p (snd ct) -> InvFFTUniEncryptionTo w p o2 (FwdFFTUniEncryptionTo w p o1 ct) = ct.
Proof. exact (fun w N p o1 o2 ct Hw HN => uni_roundtrip w Hw N HN p o1 o2 ct). Qed.
Print Assumptions C75_uni_back.
Theorem C75_key_back : forall w N k sk o1 o2, 0 < w -> (0 < N)%nat -> skey N k sk -> (forall i, (i < k)%nat -> wpoly w N (nth i sk [])) -> length o1 = k -> length o2 = k ->
  InvFFTGLWESecretKeyTo w o2 (FwdFFTGLWESecretKeyTo w o1 sk) = sk.
Proof. exact (fun w N k sk o1 o2 Hw HN => key_roundtrip w Hw N HN k sk o1 o2). Qed.
Print Assumptions C75_key_back.

(** Both conversions keep what is encrypted and the noise; the inverse ones produce words. *)
Theorem C75_glev_forward : forall w N k p sk o lev m e, (0 < N)%nat -> lshape N k p o -> glev_enc w N k p sk lev m e ->
  glev_enc w N k p sk (FwdFFTGLevCiphertextTo w p o lev) m e.
Proof. exact (fun w N k p sk o lev m e HN => glev_forward w N HN k p sk o lev m e). Qed.
Print Assumptions C75_glev_forward.
Theorem C75_glev_inverse : forall w N k p sk o lev m e, 0 < w -> (0 < N)%nat -> lshape N k p o -> glev_enc w N k p sk lev m e ->
  glev_enc w N k p sk (InvFFTGLevCiphertextTo w p o lev) m e /\ lev_words w N k p (InvFFTGLevCiphertextTo w p o lev).
Proof. exact (fun w N k p sk o lev m e Hw HN => glev_inverse w Hw N HN k p sk o lev m e). Qed.
Print Assumptions C75_glev_inverse.
Theorem C75_ggsw_forward : forall w N k p sk o ct m e, (0 < N)%nat -> gsw_shape N k p o -> ggsw_enc w N k p sk ct m e ->
  ggsw_enc w N k p sk (FwdFFTGGSWCiphertextTo w p o ct) m e.
Proof. exact (fun w N k p sk o ct m e HN => ggsw_forward w N HN k p sk o ct m e). Qed.
Print Assumptions C75_ggsw_forward.
Theorem C75_ggsw_inverse : forall w N k p sk o ct m e, 0 < w -> (0 < N)%nat -> gsw_shape N k p o -> ggsw_enc w N k p sk ct m e ->
  ggsw_enc w N k p sk (InvFFTGGSWCiphertextTo w p o ct) m e /\ gsw_words w N k p (InvFFTGGSWCiphertextTo w p o ct).
Proof. exact (fun w N k p sk o ct m e Hw HN => ggsw_inverse w Hw N HN k p sk o ct m e). Qed.
Print Assumptions C75_ggsw_inverse.
Theorem C75_uni_forward : forall w N p s o a r u0 u1 m e e', (0 < N)%nat -> lshape N 1 p (fst o) -> lshape N 1 p (snd o) -> uni_enc w N p a s r u0 u1 m e e' ->
  let x := FwdFFTUniEncryptionTo w p o (u0, u1) in uni_enc w N p a s r (fst x) (snd x) m e e'.
Proof. exact (fun w N p s o a r u0 u1 m e e' HN => uni_forward w N HN p s o a r u0 u1 m e e'). Qed.
Print Assumptions C75_uni_forward.
Theorem C75_uni_inverse : forall w N p s o a r u0 u1 m e e', 0 < w -> (0 < N)%nat -> lshape N 1 p (fst o) -> lshape N 1 p (snd o) -> uni_enc w N p a s r u0 u1 m e e' ->
  let x := InvFFTUniEncryptionTo w p o (u0, u1) in uni_enc w N p a s r (fst x) (snd x) m e e' /\ lev_words w N 1 p (fst x) /\ lev_words w N 1 p (snd x).
Proof. exact (fun w N p s o a r u0 u1 m e e' Hw HN => uni_inverse w Hw N HN p s o a r u0 u1 m e e'). Qed.
Print Assumptions C75_uni_inverse.

(** Encrypting to transformed form is encrypting with the same randomness and then transforming. *)
Theorem C75_commute : forall w N logN U G p k sk buf o1 o2 o3 pt st, 0 < w -> (0 < N)%nat -> 0 < splitBitsShort logN -> skey N k sk -> gshape N k buf -> lshape N k p o1 -> lshape N k p o2 -> lshape N k p o3 -> length pt = N ->
  let r := EncryptGLevPolyTo w logN N k U G (map (fwdFFT w) sk) p o1 pt st in
  let f := EncryptFFTGLevPolyTo w logN N k U G (map (fwdFFT w) sk) p buf o2 pt st in
  fst f = FwdFFTGLevCiphertextTo w p o3 (fst r) /\ snd (snd f) = snd r.
Proof. exact (fun w N logN U G p k sk buf o1 o2 o3 pt st Hw HN Hl Hsk => commute_lev' w Hw N HN logN Hl U G p k sk Hsk buf o1 o2 o3 pt st). Qed.
Print Assumptions C75_commute.
Theorem C75_commute_ggsw : forall w N logN U G p k sk buf o1 o2 o3 pt st, 0 < w -> (0 < N)%nat -> 0 < splitBitsShort logN -> skey N k sk -> gshape N k buf -> gsw_shape N k p o1 -> gsw_shape N k p o2 -> gsw_shape N k p o3 -> wpoly w N pt ->
  let r := EncryptGGSWPolyTo w logN N k U G (map (fwdFFT w) sk) p o1 pt st in
  let f := EncryptFFTGGSWPolyTo w logN N k U G (map (fwdFFT w) sk) p buf o2 pt st in
  fst f = FwdFFTGGSWCiphertextTo w p o3 (fst r) /\ snd (snd f) = snd r.
Proof. exact (fun w N logN U G p k sk buf o1 o2 o3 pt st Hw HN Hl Hsk => commute_gsw' w Hw N HN logN Hl U G p k sk Hsk buf o1 o2 o3 pt st). Qed.
Print Assumptions C75_commute_ggsw.

(** Decryption of a transformed GLev ciphertext; stale buffers do not matter. *)
Theorem C75_decrypt_poly : forall w N k p sk logN buf pOut f m e, 0 < w -> (0 < N)%nat -> 0 < splitBitsShort logN -> gadget_ok w p ->
  skey N k sk -> length buf = S k -> length pOut = N -> glev_enc w N k p sk f m e -> small_noise w N p (e 0%nat) ->
  length (DecryptFFTGLevPolyTo w logN N k (map (fwdFFT w) sk) p buf pOut f) = N /\
  forall i, (i < N)%nat -> nthZ (DecryptFFTGLevPolyTo w logN N k (map (fwdFFT w) sk) p buf pOut f) i = cf m (Z.of_nat i) mod g_base p.
Proof. exact (fun w N k p sk logN buf pOut f m e Hw HN Hl Hok => DecryptFFTGLevPolyTo_spec w Hw N HN k p sk logN Hl Hok buf pOut f m e). Qed.
Print Assumptions C75_decrypt_poly.
Theorem C75_decrypt_same : forall w N k p sk logN o buf pOut lev, 0 < w -> (0 < N)%nat -> gadget_ok w p -> lshape N k p o -> length buf = S k -> lev_words w N k p lev ->
  DecryptFFTGLevPolyTo w logN N k (map (fwdFFT w) sk) p buf pOut (FwdFFTGLevCiphertextTo w p o lev) = DecryptGLevPolyTo w logN N k (map (fwdFFT w) sk) p pOut lev.
Proof. exact (fun w N k p sk logN o buf pOut lev Hw HN Hok => decrypt_same w Hw N HN k p sk logN Hok o buf pOut lev). Qed.
Print Assumptions C75_decrypt_same.
(** Messages come back modulo the message modulus, and absent ones as 0. *)
Theorem C75_glev_messages : forall w N logN U G p k sk mm buf o mb ms st f buf' st' buf2 mb2, 0 < w -> (0 < N)%nat -> 0 < splitBitsShort logN -> gadget_ok w p -> skey N k sk ->
  0 < mm <= g_base p -> mm <= 2 ^ w -> mm <= 2 ^ 63 -> gshape N k buf -> lshape N k p o -> length mb = N -> length buf2 = S k -> length mb2 = N ->
  EncryptFFTGLevTo w logN N k U G mm (map (fwdFFT w) sk) p buf o mb ms st = (f, (buf', st')) ->
  (forall i, (snd st <= i < snd st + N)%nat -> - 2 ^ (w - g_logBase p) <= 2 * G i < 2 ^ (w - g_logBase p)) ->
  forall out i, (i < N)%nat -> (i < length out)%nat ->
  nthZ (DecryptFFTGLevTo w logN N k mm (map (fwdFFT w) sk) p buf2 mb2 out f) i = if (i <? length ms)%nat then wrap w (nthZ ms i) mod mm else 0.
Proof. exact (fun w N logN U G p k sk mm buf o mb ms st f buf' st' buf2 mb2 Hw HN Hl Hok Hsk => lev_roundtrip_msgs w Hw N HN logN Hl U G p Hok k sk Hsk mm buf o mb ms st f buf' st' buf2 mb2). Qed.
Print Assumptions C75_glev_messages.
Theorem C75_ggsw_messages : forall w N logN U G p k sk mm buf o mb ms st f buf' st' buf2 mb2, 0 < w -> (0 < N)%nat -> 0 < splitBitsShort logN -> gadget_ok w p -> skey N k sk ->
  0 < mm <= g_base p -> mm <= 2 ^ w -> mm <= 2 ^ 63 -> gshape N k buf -> gsw_shape N k p o -> length mb = N -> length buf2 = S k -> length mb2 = N ->
  EncryptFFTGGSWTo w logN N k U G mm (map (fwdFFT w) sk) p buf o mb ms st = (f, (buf', st')) ->
  (forall i, (snd st <= i < snd st + N)%nat -> - 2 ^ (w - g_logBase p) <= 2 * G i < 2 ^ (w - g_logBase p)) ->
  forall out i, (i < N)%nat -> (i < length out)%nat ->
  nthZ (DecryptFFTGGSWTo w logN N k mm (map (fwdFFT w) sk) p buf2 mb2 out f) i = if (i <? length ms)%nat then wrap w (nthZ ms i) mod mm else 0.
Proof. exact (fun w N logN U G p k sk mm buf o mb ms st f buf' st' buf2 mb2 Hw HN Hl Hok Hsk => gsw_roundtrip_msgs w Hw N HN logN Hl U G p Hok k sk Hsk mm buf o mb ms st f buf' st' buf2 mb2). Qed.
Print Assumptions C75_ggsw_messages.

(** Transformed uni-encryptions: polynomials modulo the base (the code does not reduce), messages exactly when the modulus divides the base. *)
Theorem C75_uni_decrypt : forall w N logN p s crs buf sub auxOld pOut r u0 u1 m e e', 0 < w -> (0 < N)%nat -> 0 < splitBitsShort logN -> gadget_ok w p -> length s = N -> (forall i, (i < g_level p)%nat -> wpoly w N (nth i crs [])) ->
  length buf = 2%nat -> length sub = 2%nat -> length auxOld = N -> length pOut = N -> uni_enc w N p (fun j => pol N (nth j crs [])) s r u0 u1 m e e' ->
  (forall i, (i < N)%nat -> 0 <= cf r (Z.of_nat i) <= 1) -> small_noise w N p (e 0%nat) -> small_noise w N p (e' 0%nat) ->
  let o := FFTUniDecryptPolyTo w logN N (fwdFFT w s) p buf sub auxOld pOut u0 u1 in
  length o = N /\ forall i, (i < N)%nat -> nthZ o i mod g_base p = cf m (Z.of_nat i) mod g_base p.
Proof. exact (fun w N logN p s crs buf sub auxOld pOut r u0 u1 m e e' Hw HN Hl Hok Hs Hc => FFTUniDecrypt_spec w Hw N HN logN Hl (fun _ => 0) (fun _ => 0) p Hok s Hs crs Hc buf sub auxOld pOut r u0 u1 m e e'). Qed.
Print Assumptions C75_uni_decrypt.
Theorem C75_uni_messages : forall w N logN U G p s crs mm aux out0 out1 mb ms st sub u0 u1 sub' st' buf sub2 auxOld pOut mo, 0 < w -> (0 < N)%nat -> 0 < splitBitsShort logN -> gadget_ok w p -> length s = N -> (forall i, (i < g_level p)%nat -> wpoly w N (nth i crs [])) ->
  0 < mm < 2 ^ 63 -> mm <= 2 ^ w -> (mm | g_base p) -> length mb = N -> length aux = N -> binary aux -> gshape N 1 sub -> lshape N 1 p out0 -> lshape N 1 p out1 ->
  FFTUniEncryptTo w logN N U G mm (fwdFFT w s) p crs aux sub out0 out1 mb ms st = ((u0, u1), (sub', st')) ->
  (forall i, (snd st <= i < snd st + 2 * g_level p * N)%nat -> - 2 ^ (w - g_logBase p) <= 2 * G i < 2 ^ (w - g_logBase p)) ->
  length buf = 2%nat -> length sub2 = 2%nat -> length auxOld = N -> length pOut = N -> length mo = N ->
  let o := FFTUniDecryptTo w logN N mm (fwdFFT w s) p buf sub2 auxOld pOut mo u0 u1 in
  length o = N /\ forall i, (i < N)%nat -> nthZ o i = if (i <? length ms)%nat then wrap w (nthZ ms i) mod mm else 0.
Proof. exact (fun w N logN U G p s crs mm aux out0 out1 mb ms st sub u0 u1 sub' st' buf sub2 auxOld pOut mo Hw HN Hl Hok Hs Hc => FFTUniRoundtrip w Hw N HN logN Hl U G p Hok s Hs crs Hc mm aux out0 out1 mb ms st sub u0 u1 sub' st' buf sub2 auxOld pOut mo). Qed.
Print Assumptions C75_uni_messages.

(** Non-vacuity, on the concrete setting of PropGLWE.v (rank 2, four coefficients) with junk in every buffer. *)
Definition lz : list (list (list Z)) := repeat gz 3.
Example C75_shapes : lshape 4 2 exgad lz /\ gsw_shape 4 2 exgad (repeat lz 3).
Proof.
  assert (lshape 4 2 exgad lz) as H. { split; [reflexivity|]. intros [|[|[|j]]] Hj; try (exact (proj1 (proj2 gsk_ok))). change (g_level exgad) with 3%nat in Hj. lia. }
  split; [exact H|]. split; [reflexivity|]. intros [|[|[|i]]] Hi; try exact H. lia.
Qed.
Example C75_glev_ex : let f := fst (EncryptFFTGLevTo 32 2 4 2 exU exG 8 gfsk exgad gz lz [5; 5; 5; 5] [3; -1; 12] (0, 0)%nat) in
  DecryptFFTGLevTo 32 2 4 2 8 gfsk exgad gz [6; 6; 6; 6] [9; 9; 9; 9; 9] f = [3; 7; 4; 0; 9].
Proof. vm_compute. reflexivity. Qed.
Example C75_uni_ex : let u := fst (FFTUniEncryptTo 64 3 8 (xU 0) (xG 0) 16 (fwdFFT 64 (nth 0 xkeys [])) xpr xcrs (xaux 0) (repeat (repeat 7 8) 2) (repeat (repeat (repeat 3 8) 2) 3) (repeat (repeat (repeat 4 8) 2) 3) (repeat 4 8) [3; -1; 20] (2, 4)%nat) in
  FFTUniDecryptTo 64 3 8 16 (fwdFFT 64 (nth 0 xkeys [])) xpr (repeat (repeat 1 8) 2) (repeat (repeat 2 8) 2) (repeat 5 8) (repeat 6 8) (repeat 7 8) (fst u) (snd u) = [3; 15; 4; 0; 0; 0; 0; 0].
Proof. vm_compute. reflexivity. Qed.
(** FINDING (as for UniDecryptPolyTo, C60): FFTUniDecryptPolyTo does not reduce, so an encryption of 0 may decrypt to the base. *)
Theorem C75_uni_poly_refuted : exists u0 u1 rest i, FFTUniEncryptTo 64 3 8 (xU 0) (xG 0) 16 (fwdFFT 64 (nth 0 xkeys [])) xpr xcrs (xaux 0) (repeat (repeat 7 8) 2) (repeat (repeat (repeat 3 8) 2) 3) (repeat (repeat (repeat 4 8) 2) 3) (repeat 4 8) [] (2, 4)%nat = ((u0, u1), rest) /\
  nthZ (FFTUniDecryptPolyTo 64 3 8 (fwdFFT 64 (nth 0 xkeys [])) xpr (repeat (repeat 1 8) 2) (repeat (repeat 2 8) 2) (repeat 5 8) (repeat 6 8) u0 u1) i = g_base xpr.
Proof. exact fft_uni_poly_refuted. Qed.
Print Assumptions C75_uni_poly_refuted.
