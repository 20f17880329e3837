(** Property C46: public key encryption (tfhe). *)
From Verif Require Import Base NegaRing ModelNum ModelVec ModelPoly ModelGadget ModelParams ModelEncoder ModelLWE ModelGLWE ModelPub
  SpecNum SpecPoly SpecGadget SpecParams SpecLWE SpecGLWE SpecPub PfPub PfPub2 PfPub3 PropLWE PropGLWE PropBoot.

(** The setting of the examples: rank 2, 4 coefficients, 32-bit torus, messages modulo 8. *)
Definition puB (i : nat) : Z := Z.of_nat (i * i + i / 3) mod 2.
Definition pus : list Z := [1; 0; 1; 1; 0; 1; 1; 0].
Definition pukeys := GenPublicKey 32 2 4 2 exU exG gsk (2, 4)%nat.
Definition pulpk := fst (fst pukeys).
Definition pugpk := snd (fst pukeys).
Definition purun (cs : list pcall) := prun 32 2 4 2 puB exG 8 (scaleOf 32 8) pulpk pugpk cs (newPub 4 2).
Definition pudec (r : pres) : option (list Z) :=
  match r with
  | RLWE c => match DecryptLWE 32 8 (scaleOf 32 8) pus c with Some m => Some [m] | None => None end
  | RGLWE c => DecryptGLWETo 32 2 4 2 8 (scaleOf 32 8) gfsk [1; 1; 1; 1] [0; 0; 0; 0] c
  | RFFT f => DecodeGLWECustomTo 32 4 [0; 0; 0; 0] (DecryptFFTGLWEPhaseTo 32 2 4 2 gfsk (repeat [] 3) [1; 1; 1; 1] f) 8 (scaleOf 32 8)
  end.
Example pubset_ex : pubset 32 3 2 4 2 exU exG puB exG gsk pus 3 pulpk pugpk.
Proof.
  unfold pubset. split; [lia|]. split; [lia|]. split; [vm_compute; reflexivity|]. split; [apply gsk_ok|].
  split. { split; [reflexivity|]. intros [|[|i]] [|[|[|[|j]]]] Hi Hj; cbn in Hi; try lia; reflexivity. }
  split. { intros [|[|i]] Hi; try lia; unfold binary; cbn [nth gsk]; repeat (apply Forall_cons; [lia|]); apply Forall_nil. }
  split; [exact exG_bound|]. split; [intros i; unfold puB; pose proof (Z.mod_pos_bound (Z.of_nat (i * i + i / 3)) 2 ltac:(lia)); lia|]. split; [exact exG_bound|].
  split; [split; [lia|]; split; [lia|]; left; split; [lia|vm_compute; reflexivity]|].
  exists (2, 4)%nat, (snd pukeys). unfold pulpk, pugpk, pukeys. destruct (GenPublicKey 32 2 4 2 exU exG gsk (2, 4)%nat) as [[l g] t]. reflexivity.
Qed.

(** ** C46.  Public keys encrypt zero, the LWE key under the reversed secret key. *)
Theorem C46_GenPublicKey : forall w N k logN U G sk st lpk gpk st', 0 < w -> (0 < N)%nat -> 0 < splitBitsShort logN -> skey N k sk ->
  GenPublicKey w logN N k U G sk st = ((lpk, gpk), st') ->
  pk_enc w N k sk gpk (fun i => noisep N G (snd st + i * N)) /\ pk_enc w N k (revkey sk) lpk (fun i => noisep N G (snd st + (k + i) * N)) /\
  st' = ((fst st + 2 * k * (k * N))%nat, (snd st + 2 * k * N)%nat).
Proof. intros w N k logN U G sk st lpk gpk st' Hw HN HlN Hsk. exact (GenPublicKey_spec w Hw N HN k logN HlN U G sk Hsk st lpk gpk st'). Qed.
Print Assumptions C46_GenPublicKey.
Example C46_GenPublicKey_ex : gdec (nth 1 pugpk []) = map (wrap 32) [exG 8; exG 9; exG 10; exG 11] /\ nth 1 (nth 1 pugpk []) [] <> [0; 0; 0; 0].
Proof. vm_compute. split; [reflexivity|discriminate]. Qed.

(** The phase of a public encryption: plaintext, plus what the output's mask contributed, plus the error of the randomness. *)
Theorem C46_GLWE_phase : forall w N k logN B G sk pk E aux out pt st ct' aux' st', 0 < w -> (0 < N)%nat -> 0 < splitBitsShort logN -> pk_enc w N k sk pk E ->
  (0 < k)%nat -> ashape N k aux -> gshape N k out -> length pt = N ->
  PubEncryptGLWEPlaintextTo w logN N k B G pk aux out pt st = (ct', (aux', st')) ->
  glwe_ct w N k ct' /\ ashape N k aux' /\ st' = ((fst st + k * N)%nat, (snd st + S k * N)%nat) /\
  peq (2 ^ w) (gphase N k sk ct') (padd (padd (pol N pt) (psum k (fun j => pmul (pol N (nth (S j) out [])) (pol N (nth j sk []))))) (pubNoise N k sk E B G (fst st) (snd st))).
Proof. intros w N k logN B G sk pk E aux out pt st ct' aux' st' Hw HN HlN Hpk. exact (PubEncryptGLWEPlaintextTo_spec w Hw N HN k logN HlN B G sk pk E Hpk aux out pt st ct' aux' st'). Qed.
Print Assumptions C46_GLWE_phase.
Theorem C46_LWE_phase : forall w N k logN B G sk s pk E aux out pt st ct' aux' st', 0 < w -> (0 < N)%nat -> 0 < splitBitsShort logN -> skey N k sk -> flat N sk s -> pk_enc w N k (revkey sk) pk E ->
  (0 < k)%nat -> ashape N k aux -> length out = S (k * N) ->
  PubEncryptLWEPlaintextTo w logN N k B G pk aux out pt st = (ct', (aux', st')) ->
  lwe_ct w (k * N) ct' /\ ashape N k aux' /\ st' = ((fst st + k * N)%nat, (snd st + 1 + k * N)%nat) /\
  eqm (2 ^ w) (phase s ct') (pt + zsum (k * N) (fun i => nthZ out (S i) * nthZ s i) + pubNoiseLWE N k sk E B G (fst st) (snd st)).
Proof. intros w N k logN B G sk s pk E aux out pt st ct' aux' st' Hw HN HlN Hsk Hs Hpk. exact (PubEncryptLWEPlaintextTo_spec w Hw N HN k logN HlN B G sk Hsk s Hs pk E Hpk aux out pt st ct' aux' st'). Qed.
Print Assumptions C46_LWE_phase.
Example C46_phase_ex :
  DecryptLWEPhase 32 pus (fst (PubEncryptLWEPlaintextTo 32 2 4 2 puB exG pulpk (repeat [0; 0; 0; 0] 2) (freshLWE 4 2) (5 * 2 ^ 28) (0, 0)%nat)) = (5 * 2 ^ 28 - 4).
Proof. vm_compute. reflexivity. Qed.
(** The errors are at most (2kN+1)e. *)
Theorem C46_noise : forall N k B G sk E e, (0 < N)%nat -> 0 <= e -> (forall i, 0 <= B i <= 1) -> (forall i, Z.abs (G i) <= e) -> (forall i, (i < k)%nat -> pbound e (E i)) ->
  (forall i, (i < k)%nat -> binary (nth i sk [])) -> forall b g,
  Z.abs (pubNoiseLWE N k sk E B G b g) <= pubBound N k e /\ pbound (pubBound N k e) (pubNoise N k sk E B G b g).
Proof. intros N k B G sk E e HN He HB HG HE Hb b g. exact (conj (pubNoiseLWE_bound N HN k B G sk E e He HB HG HE Hb b g) (pubNoise_bound N HN k B G sk E e He HB HG HE Hb b g)). Qed.
Print Assumptions C46_noise.
Example C46_noise_ex : pubNoiseLWE 4 2 gsk (fun i => noisep 4 exG (4 + (2 + i) * 4)) puB exG 0 0 = -4 /\ pubBound 4 2 3 = 51.
Proof. vm_compute. split; reflexivity. Qed.

(** After any history of calls, an encryption into an output with a zero mask (what EncryptLWE and EncryptGLWE allocate) decrypts. *)
Theorem C46_LWE_history : forall w n logN N k U Gk B G sk s e lpk gpk, pubset w n logN N k U Gk B G sk s e lpk gpk ->
  forall cs rs en out m r en', Forall (pshaped N k) cs -> prun w logN N k B G (2 ^ n) (scaleOf w (2 ^ n)) lpk gpk cs (newPub N k) = (rs, en) ->
  length out = S (k * N) -> (forall i, (i < k * N)%nat -> nthZ out (S i) = 0) ->
  pstep w logN N k B G (2 ^ n) (scaleOf w (2 ^ n)) lpk gpk (PLWE out m) en = (r, en') ->
  exists ct, r = RLWE ct /\ lwe_ct w (k * N) ct /\ DecryptLWE w (2 ^ n) (scaleOf w (2 ^ n)) s ct = Some (m mod 2 ^ n).
Proof. exact hist_LWE. Qed.
Print Assumptions C46_LWE_history.
Theorem C46_GLWE_history : forall w n logN N k U Gk B G sk s e lpk gpk, pubset w n logN N k U Gk B G sk s e lpk gpk ->
  forall cs rs en out ms r en' buf mo, Forall (pshaped N k) cs -> prun w logN N k B G (2 ^ n) (scaleOf w (2 ^ n)) lpk gpk cs (newPub N k) = (rs, en) ->
  gshape N k out -> (forall j, (j < k)%nat -> nth (S j) out [] = repeat 0 N) -> length buf = N -> length mo = N ->
  pstep w logN N k B G (2 ^ n) (scaleOf w (2 ^ n)) lpk gpk (PGLWE out ms) en = (r, en') ->
  exists ct o, r = RGLWE ct /\ glwe_ct w N k ct /\ DecryptGLWETo w logN N k (2 ^ n) (scaleOf w (2 ^ n)) (map (fwdFFT w) sk) buf mo ct = Some o /\ length o = N /\
    forall i, (i < N)%nat -> nthZ o i = nthZ ms i mod 2 ^ n.
Proof. exact hist_GLWE. Qed.
Print Assumptions C46_GLWE_history.
(** The first transformed encryption of an encryptor decrypts, whatever else was called before it. *)
Theorem C46_FFT_first : forall w n logN N k U Gk B G sk s e lpk gpk, pubset w n logN N k U Gk B G sk s e lpk gpk ->
  forall cs rs en out ms r en' buf ptb mo, Forall (pshaped N k) cs -> Forall noPFFT cs -> prun w logN N k B G (2 ^ n) (scaleOf w (2 ^ n)) lpk gpk cs (newPub N k) = (rs, en) ->
  length out = S k -> length buf = S k -> length ptb = N -> length mo = N ->
  pstep w logN N k B G (2 ^ n) (scaleOf w (2 ^ n)) lpk gpk (PFFT out ms) en = (r, en') ->
  exists f o, r = RFFT f /\ gshape N k f /\ DecodeGLWECustomTo w N mo (DecryptFFTGLWEPhaseTo w logN N k (map (fwdFFT w) sk) buf ptb f) (2 ^ n) (scaleOf w (2 ^ n)) = Some o /\ length o = N /\
    forall i, (i < N)%nat -> nthZ o i = nthZ ms i mod 2 ^ n.
Proof. exact hist_FFT. Qed.
Print Assumptions C46_FFT_first.
Example C46_history_ex :
  map pudec (fst (purun [PLWE (freshLWE 4 2) 5; PGLWE (freshGLWE 4 2) [1; 7]; PGLWE (freshGLWE 4 2) [2; 3; 4; 5]; PFFT (freshGLWE 4 2) [6; 0; 2]; PLWE (freshLWE 4 2) 12]))
  = [Some [5]; Some [1; 7; 0; 0]; Some [2; 3; 4; 5]; Some [6; 0; 2; 0]; Some [4]].
Proof. vm_compute. reflexivity. Qed.

(** ** Refuted: the property does not hold for every output and every history.
    The encryptor adds to the mask of its output without clearing it. *)
Theorem C46_reused_LWE_output_refuted : exists ct m r en', pstep 32 2 4 2 puB exG 8 (scaleOf 32 8) pulpk pugpk (PLWE ct m) (newPub 4 2) = (r, en') /\ pshaped 4 2 (PLWE ct m) /\
  (exists r0, fst (purun [PLWE (freshLWE 4 2) 4; PLWE (freshLWE 4 2) 5]) = [r0; RLWE ct]) /\ pudec r <> Some [m mod 8].
Proof.
  exists (match fst (purun [PLWE (freshLWE 4 2) 4; PLWE (freshLWE 4 2) 5]) with [_; RLWE c] => c | _ => [] end), 3.
  exists (fst (pstep 32 2 4 2 puB exG 8 (scaleOf 32 8) pulpk pugpk (PLWE (match fst (purun [PLWE (freshLWE 4 2) 4; PLWE (freshLWE 4 2) 5]) with [_; RLWE c] => c | _ => [] end) 3) (newPub 4 2))).
  exists (snd (pstep 32 2 4 2 puB exG 8 (scaleOf 32 8) pulpk pugpk (PLWE (match fst (purun [PLWE (freshLWE 4 2) 4; PLWE (freshLWE 4 2) 5]) with [_; RLWE c] => c | _ => [] end) 3) (newPub 4 2))).
  split; [apply surjective_pairing|]. split; [vm_compute; reflexivity|].
  split; [exists (nth 0 (fst (purun [PLWE (freshLWE 4 2) 4; PLWE (freshLWE 4 2) 5])) (RLWE [])); vm_compute; reflexivity|]. vm_compute. discriminate.
Qed.
Print Assumptions C46_reused_LWE_output_refuted.
Theorem C46_reused_GLWE_output_refuted : exists ct ms r en', pstep 32 2 4 2 puB exG 8 (scaleOf 32 8) pulpk pugpk (PGLWE ct ms) (newPub 4 2) = (r, en') /\
  fst (purun [PGLWE (freshGLWE 4 2) [5]]) = [RGLWE ct] /\ pudec r <> Some (map (fun m => m mod 8) ms).
Proof.
  exists (match fst (purun [PGLWE (freshGLWE 4 2) [5]]) with [RGLWE c] => c | _ => [] end), [1; 2; 3; 4].
  exists (fst (pstep 32 2 4 2 puB exG 8 (scaleOf 32 8) pulpk pugpk (PGLWE (match fst (purun [PGLWE (freshGLWE 4 2) [5]]) with [RGLWE c] => c | _ => [] end) [1; 2; 3; 4]) (newPub 4 2))).
  exists (snd (pstep 32 2 4 2 puB exG 8 (scaleOf 32 8) pulpk pugpk (PGLWE (match fst (purun [PGLWE (freshGLWE 4 2) [5]]) with [RGLWE c] => c | _ => [] end) [1; 2; 3; 4]) (newPub 4 2))).
  split; [apply surjective_pairing|]. split; [vm_compute; reflexivity|]. vm_compute. discriminate.
Qed.
Print Assumptions C46_reused_GLWE_output_refuted.
(** The second EncryptFFTGLWE of an encryptor, with fresh outputs, does not decrypt: the buffer's mask is kept. *)
Theorem C46_second_FFT_refuted : exists ms1 ms2 r1 r2, fst (purun [PFFT (freshGLWE 4 2) ms1; PFFT (freshGLWE 4 2) ms2]) = [r1; r2] /\
  pudec r1 = Some ms1 /\ pudec r2 <> Some ms2 /\ Forall (fun m => 0 <= m < 8) ms2.
Proof.
  exists [1; 2; 3; 4], [1; 2; 3; 4].
  exists (nth 0 (fst (purun [PFFT (freshGLWE 4 2) [1; 2; 3; 4]; PFFT (freshGLWE 4 2) [1; 2; 3; 4]])) (RLWE [])).
  exists (nth 1 (fst (purun [PFFT (freshGLWE 4 2) [1; 2; 3; 4]; PFFT (freshGLWE 4 2) [1; 2; 3; 4]])) (RLWE [])).
  split; [vm_compute; reflexivity|]. split; [vm_compute; reflexivity|]. split; [vm_compute; discriminate|]. repeat constructor; lia.
Qed.
Print Assumptions C46_second_FFT_refuted.
