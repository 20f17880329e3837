(** Properties C46 (multi-key part), C47, C48, C49, C51, C52, C60: multi-key TFHE. *)
From Verif Require Import Base NegaRing SpecNum ModelNum ModelVec ModelPoly SpecPoly ModelGadget SpecGadget ModelParams ModelEncoder ModelLWE SpecLWE ModelGLWE SpecGLWE ModelBoot SpecBoot ModelBinary SpecBinary
  ModelPub SpecPub ModelMK ModelMKBin SpecMK PfLWE PfBoot4 PfMK2 PfMK3 PfMK4 PfMK5 PfMK6 PfMK7 PfMK8 PfMK9 PfMK10 PropLWE PropGLWE PropBoot PropPub ExMK.

(** ** C47.  Embedded ciphertexts keep their phase under the joint key. *)
Theorem C47_LWE_embed : forall w n P bm keys ct sub idx, 0 < w -> (0 < n)%nat -> length bm = P -> pkeys n P keys -> nth idx bm false = true -> length ct = S (P * n) -> lwe_ct w n sub ->
  exists c, LWECopyFromSubKey ct sub idx = Some c /\ lwe_ct w (P * n) c /\ phase (ljkey n bm keys) c = phase (nth idx keys []) sub /\
    (forall j t, (j < P)%nat -> j <> idx -> (t < n)%nat -> nthZ c (S (j * n + t)) = 0) /\ (forall t, (t < n)%nat -> nthZ c (S (idx * n + t)) = nthZ sub (S t)) /\ nthZ c 0 = nthZ sub 0.
Proof. exact (fun w n P bm keys ct sub idx Hw => LWECopy_spec w Hw n P bm keys ct sub idx). Qed.
Print Assumptions C47_LWE_embed.
Theorem C47_GLWE_embed : forall w N P bm keys ct sub idx, 0 < w -> (0 < N)%nat -> length bm = P -> nth idx bm false = true -> gshape N P ct -> glwe_ct w N 1 sub ->
  exists c, GLWECopyFromSubKey ct sub idx = Some c /\ glwe_ct w N P c /\ peq (2 ^ w) (gphase N P (jkey N bm keys) c) (gphase N 1 [nth idx keys []] sub) /\
    (forall j, (j < P)%nat -> j <> idx -> nth (S j) c [] = repeat 0 N) /\ nth (S idx) c [] = nth 1 sub [] /\ nth 0 c [] = nth 0 sub [].
Proof. exact (fun w N P bm keys ct sub idx Hw HN Lbm => GLWECopy_spec w Hw N HN P bm keys Lbm ct sub idx). Qed.
Print Assumptions C47_GLWE_embed.
Example C47_embed_ex : LWECopyFromSubKey (repeat 5 7) [9; 1; 2] 1 = Some [9; 0; 0; 1; 2; 0; 0] /\
  phase (ljkey 2 [true; true; false] [[1; 1]; [0; 1]; [1; 0]]) [9; 0; 0; 1; 2; 0; 0] = 11 /\ GLWECopyFromSubKey [[1; 1]; [2; 2]; [3; 3]] [[4; 5]; [6; 7]] 1 = Some [[4; 5]; [0; 0]; [6; 7]].
Proof. vm_compute. repeat split. Qed.

(** The decryptor computes the joint phase: of LWE ciphertexts exactly the word, of GLWE ciphertexts the polynomial modulo Q. *)
Theorem C47_LWE_phase : forall w n bm keys ct, 0 < w -> pkeys n (length bm) keys -> length ct = S (length bm * n) -> uword w (nthZ ct 0) ->
  MKDecryptLWEPlaintext w n bm keys ct = phase (ljkey n bm keys) ct mod 2 ^ w.
Proof. exact (fun w n bm keys ct Hw => MKDecryptLWE_spec w Hw n bm keys ct). Qed.
Print Assumptions C47_LWE_phase.
Theorem C47_GLWE_phase : forall w N P bm keys logN sub out ct, 0 < w -> (0 < N)%nat -> length bm = P -> pkeys N P keys -> 0 < splitBitsShort logN ->
  gshape N 1 sub -> length out = N -> (forall i, (i <= P)%nat -> wpoly w N (nth i ct [])) ->
  let r := MKDecryptGLWEPhaseTo w logN N bm (map (fwdFFT w) keys) sub out ct in
  gshape N 1 (snd r) /\ wpoly w N (fst r) /\ peq (2 ^ w) (pol N (fst r)) (gphase N P (jkey N bm keys) ct).
Proof. exact (fun w N P bm keys logN sub out ct Hw HN Lbm Hk Hl => MKDecryptGLWE_spec w Hw N HN P bm keys Lbm Hk logN Hl sub out ct). Qed.
Print Assumptions C47_GLWE_phase.
(** Parties outside the bit map do not contribute: the middle mask is ignored. *)
Example C47_phase_ex : MKDecryptLWEPlaintext 8 2 [true; false; true] [[1; 1]; [1; 1]; [0; 1]] [250; 1; 2; 100; 100; 3; 4] = 1 /\
  fst (MKDecryptGLWEPhaseTo 8 1 2 [true; false; true] (map (fwdFFT 8) [[1; 1]; [1; 1]; [0; 1]]) [[9; 9]; [9; 9]] [7; 7] [[250; 1]; [1; 2]; [100; 100]; [3; 4]]) = [245; 7].
Proof. vm_compute. repeat split. Qed.

(** Encryption by party idx: one copy of its noise, under the joint key of any party set containing idx. *)
Theorem C47_LWE_encrypt : forall w N P bm keys U G idx sub out pt st r sub' st', 0 < w -> (0 < N)%nat -> length bm = P -> pkeys N P keys ->
  nth idx bm false = true -> length sub = S N -> length out = S (P * N) ->
  MKEncryptLWEPlaintextTo w U G (nth idx keys []) sub idx out pt st = (r, (sub', st')) ->
  exists c, r = Some c /\ lwe_ct w (P * N) c /\ length sub' = S N /\ st' = ((fst st + N)%nat, S (snd st)) /\ eqm (2 ^ w) (phase (ljkey N bm keys) c) (pt + G (snd st)) /\
    (forall j t, (j < P)%nat -> j <> idx -> (t < N)%nat -> nthZ c (S (j * N + t)) = 0).
Proof. exact (fun w N P bm keys U G idx sub out pt st r sub' st' Hw HN Lbm Hk => MKEncryptLWE_spec w Hw N HN P bm keys Lbm Hk U G idx sub out pt st r sub' st'). Qed.
Print Assumptions C47_LWE_encrypt.
Theorem C47_GLWE_encrypt : forall w N P bm keys logN U G idx sub out pt st r sub' st', 0 < w -> (0 < N)%nat -> length bm = P -> pkeys N P keys -> 0 < splitBitsShort logN ->
  nth idx bm false = true -> gshape N 1 sub -> gshape N P out -> length pt = N ->
  MKEncryptGLWEPlaintextTo w logN N U G (fwdFFT w (nth idx keys [])) sub idx out pt st = (r, (sub', st')) ->
  exists c, r = Some c /\ glwe_ct w N P c /\ gshape N 1 sub' /\ st' = ((fst st + N)%nat, (snd st + N)%nat) /\
    peq (2 ^ w) (gphase N P (jkey N bm keys) c) (padd (pol N pt) (noisep N G (snd st))) /\ (forall j, (j < P)%nat -> j <> idx -> nth (S j) c [] = repeat 0 N).
Proof. exact (fun w N P bm keys logN U G idx sub out pt st r sub' st' Hw HN Lbm Hk Hl => MKEncryptGLWE_spec w Hw N HN P bm keys Lbm Hk logN Hl U G idx sub out pt st r sub' st'). Qed.
Print Assumptions C47_GLWE_encrypt.
(** Messages: whatever the sub ciphertext buffer and the output held. *)
Theorem C47_LWE_roundtrip : forall w N P bm keys U G idx sub out m kk st r sub' st', 0 < w -> (0 < N)%nat -> length bm = P -> pkeys N P keys ->
  nth idx bm false = true -> length sub = S N -> length out = S (P * N) ->
  0 <= kk <= w - 2 -> let mm := 2 ^ kk in let scale := scaleOf w mm in decodes w scale (Z.abs (G (snd st))) ->
  MKEncryptLWEPlaintextTo w U G (nth idx keys []) sub idx out (EncodeLWECustom w m mm scale) st = (r, (sub', st')) ->
  exists c, r = Some c /\ lwe_ct w (P * N) c /\ MKDecryptLWE w mm scale N bm keys c = Some (m mod mm).
Proof. exact MKRoundtripLWE. Qed.
Print Assumptions C47_LWE_roundtrip.
Definition xenc (order : bool) (idx : nat) (m : Z) (st : rst) : list Z :=
  let keys := if order then xkeys else map (firstn 4) xkeys in let n := if order then 8%nat else 4%nat in
  match fst (MKEncryptLWEPlaintextTo 64 (xU idx) (xG idx) (nth idx keys []) (repeat 6 (S n)) idx (repeat 9 (S (3 * n))) (EncodeLWECustom 64 m 16 (scaleOf 64 16)) st) with Some c => c | None => [] end.
Example C47_roundtrip_ex : map (fun x => MKDecryptLWE 64 16 (scaleOf 64 16) 8 xbm xkeys (xenc true 2 x (3, 5)%nat)) [0; 7; 15; -1] = [Some 0; Some 7; Some 15; Some 15] /\
  MKDecryptLWE 64 16 (scaleOf 64 16) 8 xbm xkeys (vadd 64 (xenc true 2 5 (3, 5)%nat) (xenc true 0 4 (1, 2)%nat)) = Some 9 /\ decodes 64 (scaleOf 64 16) 3.
Proof. split; [vm_compute; reflexivity|]. split; [vm_compute; reflexivity|]. right. split; [lia|reflexivity]. Qed.

(** The homomorphic operations of mktfhe/lwe_ops.go and glwe_ops.go run the loops of tfhe over all components, so they act on
    joint phases: the theorems of C22 at the joint key. *)
Theorem C47_LWE_ops : forall w n P bm keys st out a b, 0 < w -> length bm = P -> pkeys n P keys -> lwe_ct w (P * n) (st out) -> lwe_ct w (P * n) (st a) -> lwe_ct w (P * n) (st b) ->
  forall c, let ph s := phase (ljkey n bm keys) s in
  let r st' v := lwe_ct w (P * n) (st' out) /\ eqm (2 ^ w) (ph (st' out)) v /\ (forall y, y <> out -> st' y = st y) in
  r (AddLWETo w st out a b) (ph (st a) + ph (st b)) /\ r (SubLWETo w st out a b) (ph (st a) - ph (st b)) /\ r (NegLWETo w st out a) (- ph (st a)) /\
  r (ScalarMulLWETo w st out a c) (c * ph (st a)) /\ r (ScalarMulAddLWETo w st out a c) (ph (st out) + c * ph (st a)) /\ r (ScalarMulSubLWETo w st out a c) (ph (st out) - c * ph (st a)) /\
  r (AddPlainLWETo w st out a c) (ph (st a) + c) /\ r (SubPlainLWETo w st out a c) (ph (st a) - c).
Proof. exact MKLWEOps_spec. Qed.
Print Assumptions C47_LWE_ops.
Theorem C47_GLWE_ops : forall w N P bm keys logN n s out a b, 0 < w -> (0 < N)%nat -> 0 < splitBits logN -> 0 <= n -> Z.of_nat N = 2 ^ n -> out <> a -> length bm = P ->
  glwe_ct w N P (s out) -> glwe_ct w N P (s a) -> glwe_ct w N P (s b) ->
  forall c d p fp, wpoly w N p -> let ph x := gphase N P (jkey N bm keys) x in let r := gopok w N P (jkey N bm keys) s out in
  r (AddGLWETo w P s out a b) (padd (ph (s a)) (ph (s b))) /\ r (SubGLWETo w P s out a b) (psub (ph (s a)) (ph (s b))) /\ r (NegGLWETo w P s out a) (popp (ph (s a))) /\
  r (ScalarMulGLWETo w P s out a c) (pscale c (ph (s a))) /\ r (ScalarMulAddGLWETo w P s out a c) (padd (ph (s out)) (pscale c (ph (s a)))) /\
  r (ScalarMulSubGLWETo w P s out a c) (psub (ph (s out)) (pscale c (ph (s a)))) /\ r (PolyMulGLWETo w logN N P s out a p) (pmul (pol N p) (ph (s a))) /\
  r (PolyMulAddGLWETo w logN N P s out a p) (padd (ph (s out)) (pmul (pol N p) (ph (s a)))) /\ r (PolyMulSubGLWETo w logN N P s out a p) (psub (ph (s out)) (pmul (pol N p) (ph (s a)))) /\
  r (FFTPolyMulGLWETo w N P s out a fp) (pmul (pol N fp) (ph (s a))) /\ r (MonomialMulGLWETo w N P s out a d) (pmul (pmono d) (ph (s a))) /\
  r (MonomialMulAddGLWETo w N P s out a d) (padd (ph (s out)) (pmul (pmono d) (ph (s a)))) /\ r (MonomialMulSubGLWETo w N P s out a d) (psub (ph (s out)) (pmul (pmono d) (ph (s a)))) /\
  r (AddPlainGLWETo w P s out a p) (padd (ph (s a)) (pol N p)) /\ r (SubPlainGLWETo w P s out a p) (psub (ph (s a)) (pol N p)).
Proof. exact MKGLWEOps_spec. Qed.
Print Assumptions C47_GLWE_ops.
Example C47_ops_ex : let st := fun i => xenc true (2 * i) 5 (i, i)%nat in
  MKDecryptLWE 64 16 (scaleOf 64 16) 8 xbm xkeys (AddLWETo 64 (ScalarMulLWETo 64 st 2 0 2) 1 2 1 1%nat) = Some 15.
Proof. vm_compute. reflexivity. Qed.

(** Finding: the constructors accept the party index P (the check is idx > partyCount, not >=), and the first encryption then
    slices beyond the ciphertext. *)
Theorem C47_index_refuted : exists P idx : nat, indexAccepted (Z.of_nat P) (Z.of_nat idx) = true /\
  forall n sub ct, (0 < n)%nat -> length sub = S n -> length ct = S (P * n) -> LWECopyFromSubKey ct sub idx = None.
Proof. exact index_refuted. Qed.
Print Assumptions C47_index_refuted.
(** Below P the check passes, and the copies succeed (C47_LWE_embed). *)
Theorem C47_index : forall P idx, (idx < P)%nat -> indexAccepted (Z.of_nat P) (Z.of_nat idx) = true.
Proof. exact index_ok. Qed.
Print Assumptions C47_index.

(** ** C46, multi-key: the public encryptor keeps its sub ciphertext between calls, and what its mask held is added to the phase. *)
Theorem C46_MK_LWE : forall w N P bm keys logN B G idx pk E aux sub ct st r sub' aux' st', 0 < w -> (0 < N)%nat -> length bm = P -> pkeys N P keys -> 0 < splitBitsShort logN ->
  nth idx bm false = true -> pk_enc w N 1 (revkey [nth idx keys []]) pk E -> ashape N 1 aux -> length sub = S N -> length ct = S (P * N) ->
  MKPubEncryptLWEBody w logN N B G pk aux sub idx ct st = (r, (sub', (aux', st'))) ->
  exists c, r = Some c /\ lwe_ct w (P * N) c /\ length sub' = S N /\ ashape N 1 aux' /\ st' = ((fst st + N)%nat, (snd st + 1 + N)%nat) /\
   eqm (2 ^ w) (phase (ljkey N bm keys) c) (nthZ ct 0 + zsum N (fun i => nthZ sub (S i) * nthZ (nth idx keys []) i) + pubNoiseLWE N 1 [nth idx keys []] E B G (fst st) (snd st)) /\
   forall i, (i < N)%nat -> nthZ sub' (S i) = nthZ c (S (idx * N + i)).
Proof. exact (fun w N P bm keys logN B G idx pk E aux sub ct st r sub' aux' st' Hw HN Lbm Hk Hl => MKPubLWE_spec w Hw N HN P bm keys Lbm Hk logN Hl B G idx pk E aux sub ct st r sub' aux' st'). Qed.
Print Assumptions C46_MK_LWE.
Theorem C46_MK_GLWE : forall w N P bm keys logN B G idx pk E aux sub ct st r sub' aux' st', 0 < w -> (0 < N)%nat -> length bm = P -> pkeys N P keys -> 0 < splitBitsShort logN ->
  nth idx bm false = true -> pk_enc w N 1 [nth idx keys []] pk E -> ashape N 1 aux -> gshape N 1 sub -> gshape N P ct ->
  MKPubEncryptGLWEBody w logN N B G pk aux sub idx ct st = (r, (sub', (aux', st'))) ->
  exists c, r = Some c /\ glwe_ct w N P c /\ glwe_ct w N 1 sub' /\ ashape N 1 aux' /\ st' = ((fst st + N)%nat, (snd st + 2 * N)%nat) /\
   peq (2 ^ w) (gphase N P (jkey N bm keys) c) (padd (padd (pol N (nth 0 ct [])) (pmul (pol N (nth 1 sub [])) (pol N (nth idx keys [])))) (pubNoise N 1 [nth idx keys []] E B G (fst st) (snd st))) /\
   nth 1 sub' [] = nth (S idx) c [].
Proof. exact (fun w N P bm keys logN B G idx pk E aux sub ct st r sub' aux' st' Hw HN Lbm Hk Hl => MKPubGLWE_spec w Hw N HN P bm keys Lbm Hk logN Hl B G idx pk E aux sub ct st r sub' aux' st'). Qed.
Print Assumptions C46_MK_GLWE.
(** Finding: with a fresh encryptor the first encryption of 5 decrypts to 5, the second one (same message, same key) does not. *)
Definition mkpk := fst (GenPublicKey 32 2 4 1 exU exG [[1; 0; 1; 1]] (2, 4)%nat).
Definition mkpub2 : option Z * option Z :=
  let call sub st := MKPubEncryptLWEBody 32 2 4 puB exG (fst mkpk) [[0; 0; 0; 0]] sub 1 (upd (repeat 0 9) 0 (5 * 2 ^ 28)) st in
  let dec r := match r with Some c => MKDecryptLWE 32 8 (scaleOf 32 8) 4 [false; true] [[]; [1; 0; 1; 1]] c | None => None end in
  let '(r1, (sub, (_, st))) := call (repeat 0 5) (0, 0)%nat in let '(r2, _) := call sub st in (dec r1, dec r2).
Theorem C46_MK_second_refuted : mkpub2 = (Some 5, Some 2).
Proof. vm_compute. reflexivity. Qed.
Print Assumptions C46_MK_second_refuted.
Example C46_MK_ex : 0 < splitBitsShort 2 /\ exists E, pk_enc 32 4 1 (revkey [[1; 0; 1; 1]]) (fst mkpk) E.
Proof.
  split; [reflexivity|]. destruct mkpk as (lpk, gpk) eqn:X. eexists.
  apply (C46_GenPublicKey 32 4 1 2 exU exG [[1; 0; 1; 1]] (2, 4)%nat lpk gpk (snd (GenPublicKey 32 2 4 1 exU exG [[1; 0; 1; 1]] (2, 4)%nat))); try lia; try reflexivity.
  - split; [reflexivity|]. intros [|i] Hi; [reflexivity|lia].
  - rewrite <- X. unfold mkpk. now destruct (GenPublicKey 32 2 4 1 exU exG [[1; 0; 1; 1]] (2, 4)%nat).
Qed.

(** ** C48.  Key switching: each active party's mask is switched, the noise is one ksNoise per active party. *)
Theorem C48_KeySwitch : forall w n D P p bm keys larges ksks e Eks out ct, 0 < w -> gadget_ok w p -> (0 < n)%nat -> (n <= D)%nat -> length bm = P -> pkeys n P keys -> pkeys D P larges ->
  (forall i, nth i bm false = true -> nth i keys [] = firstn n (nth i larges []) /\ binary (nth i larges []) /\ ksk_enc w p (nth i keys []) (skipn n (nth i larges [])) (nth i ksks []) (e i) /\
    forall a j, (a < D - n)%nat -> (j < g_level p)%nat -> Z.abs (e i a j) <= Eks) ->
  length out = S (P * n) -> lwe_ct w (P * D) ct ->
  let o := MKDefaultKeySwitchTo w P n D p bm ksks out ct in
  lwe_ct w (P * n) o /\ lsupp bm n P o /\ dist_le (2 ^ w) (phase (ljkey n bm keys) o) (phase (ljkey D bm larges) ct) (Z.of_nat (nact bm) * ksNoise w p (D - n) Eks).
Proof. exact (fun w n D P p bm keys larges ksks e Eks out ct Hw Hok Hn HnD Lbm Hk Hl Hp => MKKeySwitch_spec w Hw n D P p Hok bm keys larges ksks e Eks Hn HnD Lbm Hk Hl Hp out ct). Qed.
Print Assumptions C48_KeySwitch.
Example C48_hyps : gadget_ok 64 xpK /\ pkeys 4 3 (map (firstn 4) xkeys) /\ pkeys 8 3 xkeys /\ Z.of_nat (nact xbm) * ksNoise 64 xpK (8 - 4) 3 < 2 ^ 57 /\
  exists e, forall i, nth i xbm false = true -> nth i (map (firstn 4) xkeys) [] = firstn 4 (nth i xkeys []) /\ binary (nth i xkeys []) /\
    ksk_enc 64 xpK (nth i (map (firstn 4) xkeys) []) (skipn 4 (nth i xkeys [])) (nth i (map ek_ksk xeks) []) (e i) /\ forall a j, (a < 8 - 4)%nat -> (j < g_level xpK)%nat -> Z.abs (e i a j) <= 3.
Proof.
  split; [apply xgad_ok|]. split; [split; [reflexivity|intros [|[|[|i]]] Hi; [reflexivity..|lia]]|]. split; [apply xkeys_ok|]. split; [vm_compute; reflexivity|].
  destruct (mk_ksk _ _ _ _ _ _ _ _ _ _ _ _ _ _ _ _ _ _ _ _ xkeys_ok) as (e & He). exists e. intros i Hi.
  assert (nth i (map (firstn 4) xkeys) [] = firstn 4 (nth i xkeys [])) as Ei by (exact (map_nth (firstn 4) xkeys [] i)). rewrite Ei.
  split; [reflexivity|]. split; [apply (mk_bin _ _ _ _ _ _ _ _ _ _ _ _ _ _ _ _ _ _ _ _ xkeys_ok i Hi)|]. exact (He i Hi).
Qed.
Example C48_run : MKDecryptLWE 64 16 (scaleOf 64 16) 4 xbm (map (firstn 4) xkeys)
  (MKDefaultKeySwitchTo 64 3 4 8 xpK xbm (map ek_ksk xeks) (repeat 9 13) (vadd 64 (xenc true 2 5 (3, 5)%nat) (xenc true 0 4 (1, 2)%nat))) = Some 9.
Proof. vm_compute. reflexivity. Qed.

(** ** C49.  The hybrid product, exactly: digits D_i, remainders R_i of the components, Dv and rv of the intermediate polynomial. *)
Theorem C49_hybrid_exact : forall w N P p bm crspk idx u0 u1 keys a r m e e' ep, 0 < w -> (0 < N)%nat -> gadget_ok w p -> length bm = P -> nth idx bm false = true ->
  uni_enc w N p a (nth idx keys []) r u0 u1 m e e' -> (forall i, nth i bm false = true -> crs_enc w N p a (nth i keys []) (nth i crspk []) (ep i)) ->
  forall buf ct, length buf = S P -> (forall i, (i <= P)%nat -> used bm i -> wpoly w N (nth i ct [])) ->
  exists D R v Dv rv val, (forall i, (i <= P)%nat -> used bm i -> is_pdcmp w N p (nth i ct []) (D i) (R i)) /\ wpoly w N v /\ is_pdcmp w N p v Dv rv /\
   val = hybridVal N P p bm (jkey N bm keys) (gphase N P (jkey N bm keys) ct) m r e e' ep D R Dv rv /\
   (forall out, gshape N P out -> let o := HybridProdGLWETo w N P p bm crspk idx u0 u1 buf ct out in
     glwe_ct w N P o /\ gsupp bm N P o /\ peq (2 ^ w) (gphase N P (jkey N bm keys) o) val) /\
   (forall out, glwe_ct w N P out -> let o := HybridProdAddGLWETo w N P p bm crspk idx u0 u1 buf ct out in
     glwe_ct w N P o /\ (forall i, (i < P)%nat -> nth i bm false = false -> nth (S i) o [] = nth (S i) out []) /\
     peq (2 ^ w) (gphase N P (jkey N bm keys) o) (padd (gphase N P (jkey N bm keys) out) val)) /\
   (forall out, glwe_ct w N P out -> let o := HybridProdSubGLWETo w N P p bm crspk idx u0 u1 buf ct out in
     glwe_ct w N P o /\ (forall i, (i < P)%nat -> nth i bm false = false -> nth (S i) o [] = nth (S i) out []) /\
     peq (2 ^ w) (gphase N P (jkey N bm keys) o) (psub (gphase N P (jkey N bm keys) out) val)).
Proof. exact (fun w N P p bm crspk idx u0 u1 keys a r m e e' ep Hw HN Hok Lbm Hidx Hu Hc => hybrid_exact w Hw N HN P p Hok bm Lbm crspk idx Hidx u0 u1 keys a r m e e' ep Hu Hc). Qed.
Print Assumptions C49_hybrid_exact.
(** That value is within hybridNoise of m * phase. *)
Theorem C49_hybrid_bound : forall w N P p bm crspk idx keys a r m e e' ep, (0 < N)%nat -> gadget_ok w p -> length bm = P -> nth idx bm false = true ->
  (forall i, nth i bm false = true -> crs_enc w N p a (nth i keys []) (nth i crspk []) (ep i)) ->
  forall M Ek, pbound M m -> pbound 1 r -> 0 <= Ek -> (forall i, nth i bm false = true -> pbound 1 (pol N (nth i keys []))) ->
  (forall j, (j < g_level p)%nat -> pbound Ek (e j) /\ pbound Ek (e' j)) -> (forall i j, nth i bm false = true -> (j < g_level p)%nat -> pbound Ek (ep i j)) ->
  forall ct D R v Dv rv, (forall i, (i <= P)%nat -> used bm i -> is_pdcmp w N p (nth i ct []) (D i) (R i)) -> is_pdcmp w N p v Dv rv ->
  pdist_le (2 ^ w) (hybridVal N P p bm (jkey N bm keys) (gphase N P (jkey N bm keys) ct) m r e e' ep D R Dv rv) (pmul m (gphase N P (jkey N bm keys) ct)) (hybridNoise w N P p M Ek).
Proof. exact (fun w N P p bm crspk idx keys a r m e e' ep HN Hok Lbm Hidx Hc => hybrid_bound w N HN P p Hok bm Lbm crspk idx Hidx keys a r m e e' ep Hc). Qed.
Print Assumptions C49_hybrid_bound.
(** External products with a GLev encryption of mu by party idx, and their sums. *)
Theorem C49_external : forall w N P p pa bm crspk idx u0 u1 keys a r e e' ep Ek lev mu ea A Ea, 0 < w -> (0 < N)%nat -> gadget_ok w p -> gadget_ok w pa -> length bm = P -> nth idx bm false = true ->
  uni_enc w N p a (nth idx keys []) r u0 u1 (pol N (nth idx keys [])) e e' -> (forall i, nth i bm false = true -> crs_enc w N p a (nth i keys []) (nth i crspk []) (ep i)) ->
  pbound 1 r -> 0 <= Ek -> (forall i, nth i bm false = true -> pbound 1 (pol N (nth i keys []))) ->
  (forall j, (j < g_level p)%nat -> pbound Ek (e j) /\ pbound Ek (e' j)) -> (forall i j, nth i bm false = true -> (j < g_level p)%nat -> pbound Ek (ep i j)) ->
  glev_enc w N 1 pa [nth idx keys []] lev mu ea -> 0 <= Ea -> (forall j, (j < g_level pa)%nat -> pbound Ea (ea j)) -> grows A mu ->
  forall buf rbuf ct, length buf = S P -> gshape N P rbuf -> (forall i, (i <= P)%nat -> used bm i -> wpoly w N (nth i ct [])) ->
  (forall out, gshape N P out -> let o := MKExternalProdGLWETo w N P pa p bm crspk idx u0 u1 buf rbuf lev ct out in
    glwe_ct w N P o /\ gsupp bm N P o /\ pdist_le (2 ^ w) (gphase N P (jkey N bm keys) o) (pmul mu (gphase N P (jkey N bm keys) ct)) (mkExtNoise w N P pa p A Ea Ek)) /\
  (forall out, glwe_ct w N P out -> let o := MKExternalProdAddGLWETo w N P pa p bm crspk idx u0 u1 buf rbuf lev ct out in
    glwe_ct w N P o /\ (forall i, (i < P)%nat -> nth i bm false = false -> nth (S i) o [] = nth (S i) out []) /\
    pdist_le (2 ^ w) (gphase N P (jkey N bm keys) o) (padd (gphase N P (jkey N bm keys) out) (pmul mu (gphase N P (jkey N bm keys) ct))) (mkExtNoise w N P pa p A Ea Ek)).
Proof. exact ext_products. Qed.
Print Assumptions C49_external.
(** The hypotheses hold for the keys of ExMK.v: both parties, with a noiseless GLev of 1 (any GLev ciphertext made by
    C23's encryption would do). *)
Example C49_hyps : exists a ep r e e', uni_enc 64 8 xpr a (nth 2 xkeys []) r (ek_u0 xek2) (ek_u1 xek2) (pol 8 (nth 2 xkeys [])) e e' /\
  (forall i, nth i xbm false = true -> crs_enc 64 8 xpr a (nth i xkeys []) (nth i (map ek_crs xeks) []) (ep i)) /\ pbound 1 r /\
  (forall j, (j < g_level xpr)%nat -> pbound 3 (e j) /\ pbound 3 (e' j)) /\ (forall i j, nth i xbm false = true -> (j < g_level xpr)%nat -> pbound 3 (ep i j)) /\
  glev_enc 64 8 1 xpa [nth 2 xkeys []] (xlev 1) pone (fun _ => pzero) /\ grows 1 (@pone 8) /\ mkExtNoise 64 8 3 xpa xpr 1 0 3 < 2 ^ 42.
Proof. exact ext_hyps. Qed.
(** Finding: ExternalProdSubGLWETo subtracts the hybrid product but adds the bodies, so it does not subtract the product:
    the statement of the Sub variant is false. *)
Theorem C49_Sub_refuted : ~ forall w N P p pa bm crspk idx u0 u1 keys a r e e' ep Ek lev mu ea A Ea, 0 < w -> (0 < N)%nat -> gadget_ok w p -> gadget_ok w pa -> length bm = P -> nth idx bm false = true ->
  uni_enc w N p a (nth idx keys []) r u0 u1 (pol N (nth idx keys [])) e e' -> (forall i, nth i bm false = true -> crs_enc w N p a (nth i keys []) (nth i crspk []) (ep i)) ->
  pbound 1 r -> 0 <= Ek -> (forall i, nth i bm false = true -> pbound 1 (pol N (nth i keys []))) ->
  (forall j, (j < g_level p)%nat -> pbound Ek (e j) /\ pbound Ek (e' j)) -> (forall i j, nth i bm false = true -> (j < g_level p)%nat -> pbound Ek (ep i j)) ->
  glev_enc w N 1 pa [nth idx keys []] lev mu ea -> 0 <= Ea -> (forall j, (j < g_level pa)%nat -> pbound Ea (ea j)) -> grows A mu ->
  forall buf rbuf ct, length buf = S P -> gshape N P rbuf -> (forall i, (i <= P)%nat -> used bm i -> wpoly w N (nth i ct [])) ->
  forall out, glwe_ct w N P out -> let o := MKExternalProdSubGLWETo w N P pa p bm crspk idx u0 u1 buf rbuf lev ct out in
    pdist_le (2 ^ w) (gphase N P (jkey N bm keys) o) (psub (gphase N P (jkey N bm keys) out) (pmul mu (gphase N P (jkey N bm keys) ct))) (mkExtNoise w N P pa p A Ea Ek).
Proof. exact ext_sub_refuted. Qed.
Print Assumptions C49_Sub_refuted.

(** ** C60.  Uni-encryptions and CRS public keys are well formed for every seed, and uni-encryptions decrypt. *)
Theorem C60_CRSPublicKey : forall w N logN G s p crs sub st pk sub' st', 0 < w -> (0 < N)%nat -> 0 < splitBitsShort logN -> length s = N -> (forall i, (i < g_level p)%nat -> wpoly w N (nth i crs [])) ->
  gshape N 1 sub -> GenCRSPublicKey w logN N G (fwdFFT w s) p crs sub st = (pk, (sub', st')) ->
  crs_enc w N p (fun j => pol N (nth j crs [])) s pk (fun j => noisep N G (snd st + j * N)) /\ length pk = g_level p /\ gshape N 1 sub' /\ st' = (fst st, (snd st + g_level p * N)%nat).
Proof. exact (fun w N logN G s p crs sub st pk sub' st' Hw HN Hl Hs Hc => GenCRSPublicKey_spec w Hw N HN logN Hl (fun _ => 0) G s Hs p crs Hc sub st pk sub' st'). Qed.
Print Assumptions C60_CRSPublicKey.
Theorem C60_UniEncrypt : forall w N logN U G s p crs aux out0 out1 pt st u0 u1 st', 0 < w -> (0 < N)%nat -> 0 < splitBitsShort logN -> length s = N -> gadget_ok w p -> (forall i, (i < g_level p)%nat -> wpoly w N (nth i crs [])) ->
  length aux = N -> length pt = N -> lshape N 1 p out0 -> lshape N 1 p out1 -> UniEncryptPolyTo w logN N U G (fwdFFT w s) p crs aux out0 out1 pt st = (u0, u1, st') ->
  uni_enc w N p (fun j => pol N (nth j crs [])) s (pol N aux) u0 u1 (pol N pt) (fun j => noisep N G (snd st + j * N)) (fun j => noisep N G (snd st + (g_level p + j) * N)) /\
  (forall j, (j < g_level p)%nat -> glwe_ct w N 1 (nth j u0 []) /\ glwe_ct w N 1 (nth j u1 [])) /\ st' = ((fst st + g_level p * N)%nat, (snd st + 2 * g_level p * N)%nat).
Proof. exact (fun w N logN U G s p crs aux out0 out1 pt st u0 u1 st' Hw HN Hl Hs Hok Hc => UniEncrypt_spec w Hw N HN logN Hl U G s Hs p Hok crs Hc aux out0 out1 pt st u0 u1 st'). Qed.
Print Assumptions C60_UniEncrypt.
Theorem C60_FFTUniEncrypt : forall w N logN U G s p crs aux sub out0 out1 pt st u0 u1 sub' st', 0 < w -> (0 < N)%nat -> 0 < splitBitsShort logN -> length s = N -> gadget_ok w p -> (forall i, (i < g_level p)%nat -> wpoly w N (nth i crs [])) ->
  length aux = N -> length pt = N -> gshape N 1 sub -> lshape N 1 p out0 -> lshape N 1 p out1 -> FFTUniEncryptPolyTo w logN N U G (fwdFFT w s) p crs aux sub out0 out1 pt st = (u0, u1, (sub', st')) ->
  uni_enc w N p (fun j => pol N (nth j crs [])) s (pol N aux) u0 u1 (pol N pt) (fun j => noisep N G (snd st + j * N)) (fun j => noisep N G (snd st + (g_level p + j) * N)) /\
  gshape N 1 sub' /\ st' = ((fst st + g_level p * N)%nat, (snd st + 2 * g_level p * N)%nat).
Proof. exact (fun w N logN U G s p crs aux sub out0 out1 pt st u0 u1 sub' st' Hw HN Hl Hs Hok Hc => FFTUniEncrypt_spec w Hw N HN logN Hl U G s Hs p Hok crs Hc aux sub out0 out1 pt st u0 u1 sub' st'). Qed.
Print Assumptions C60_FFTUniEncrypt.
(** Polynomials decrypt modulo the gadget base (the code does not reduce), messages exactly when the modulus divides the base. *)
Theorem C60_UniDecrypt : forall w N logN s p crs auxOld pOut r u0 u1 m e e', 0 < w -> (0 < N)%nat -> 0 < splitBitsShort logN -> length s = N -> gadget_ok w p -> (forall i, (i < g_level p)%nat -> wpoly w N (nth i crs [])) ->
  length auxOld = N -> length pOut = N -> uni_enc w N p (fun j => pol N (nth j crs [])) s r u0 u1 m e e' -> glwe_ct w N 1 (nth 0 u0 []) -> glwe_ct w N 1 (nth 0 u1 []) ->
  (forall i, (i < N)%nat -> 0 <= cf r (Z.of_nat i) <= 1) ->
  (forall i, (i < N)%nat -> - 2 ^ (w - g_logBase p) <= 2 * cf (e 0%nat) (Z.of_nat i) < 2 ^ (w - g_logBase p)) ->
  (forall i, (i < N)%nat -> - 2 ^ (w - g_logBase p) <= 2 * cf (e' 0%nat) (Z.of_nat i) < 2 ^ (w - g_logBase p)) ->
  let o := UniDecryptPolyTo w logN N (fwdFFT w s) p auxOld pOut u0 u1 in
  length o = N /\ forall i, (i < N)%nat -> nthZ o i mod g_base p = cf m (Z.of_nat i) mod g_base p.
Proof. exact (fun w N logN s p crs auxOld pOut r u0 u1 m e e' Hw HN Hl Hs Hok Hc => UniDecrypt_spec w Hw N HN logN Hl (fun _ => 0) (fun _ => 0) s Hs p Hok crs Hc auxOld pOut r u0 u1 m e e'). Qed.
Print Assumptions C60_UniDecrypt.
Theorem C60_roundtrip : forall w N logN U G s p crs mm aux out0 out1 buf ms st u0 u1 st' auxOld pOut mo, 0 < w -> (0 < N)%nat -> 0 < splitBitsShort logN -> length s = N -> gadget_ok w p -> (forall i, (i < g_level p)%nat -> wpoly w N (nth i crs [])) ->
  0 < mm < 2 ^ 63 -> mm <= 2 ^ w -> (mm | g_base p) -> length buf = N -> length aux = N -> binary aux -> lshape N 1 p out0 -> lshape N 1 p out1 ->
  UniEncryptTo w logN N U G mm (fwdFFT w s) p crs aux buf out0 out1 ms st = (u0, u1, st') ->
  (forall i, (snd st <= i < snd st + 2 * g_level p * N)%nat -> - 2 ^ (w - g_logBase p) <= 2 * G i < 2 ^ (w - g_logBase p)) ->
  length auxOld = N -> length pOut = N -> length mo = N ->
  let o := UniDecryptTo w logN N mm (fwdFFT w s) p auxOld pOut mo u0 u1 in
  length o = N /\ forall i, (i < N)%nat -> nthZ o i = (if (i <? length ms)%nat then wrap w (nthZ ms i) mod mm else 0).
Proof. exact (fun w N logN U G s p crs mm aux out0 out1 buf ms st u0 u1 st' auxOld pOut mo Hw HN Hl Hs Hok Hc => UniRoundtrip w Hw N HN logN Hl U G s Hs p Hok crs Hc mm aux out0 out1 buf ms st u0 u1 st' auxOld pOut mo). Qed.
Print Assumptions C60_roundtrip.
Example C60_ex : let u := xuni 16 [3; -1; 20; 0; 15] in UniDecryptTo 64 3 8 16 (fwdFFT 64 (nth 0 xkeys [])) xpr (repeat 5 8) (repeat 6 8) (repeat 7 8) (fst u) (snd u) = [3; 15; 4; 0; 15; 0; 0; 0].
Proof. vm_compute. reflexivity. Qed.
(** Finding: UniDecryptPolyTo returns the base, not 0, for a zero coefficient with negative noise. *)
Theorem C60_poly_refuted : exists u0 u1 i, (forall j, 0 <= nthZ (repeat 0 8) j < g_base xpr) /\ (u0, u1) = xuni 16 (repeat 0 8) /\
  nthZ (UniDecryptPolyTo 64 3 8 (fwdFFT 64 (nth 0 xkeys [])) xpr (repeat 5 8) (repeat 6 8) u0 u1) i = g_base xpr.
Proof. exact uni_poly_refuted. Qed.
Print Assumptions C60_poly_refuted.

(** ** C51.  Key generation of every active party gives keys meeting the hypotheses of bootstrapping. *)
Theorem C51_keygen : forall w N logN n pBR pKS pr crs P bm keys U G E bs bc pa auxs gbufs subs sts eks rests, 0 < w -> (0 < N)%nat -> 0 < splitBitsShort logN -> gadget_ok w pBR -> gadget_ok w pKS -> gadget_ok w pr ->
  (forall i, (i < g_level pr)%nat -> wpoly w N (nth i crs [])) -> (exists n0, 0 <= n0 /\ Z.of_nat N = 2 ^ n0) -> length bm = P -> pkeys N P keys -> (0 < n <= N)%nat -> gadget_ok w pa -> (0 < bs)%nat -> (0 < bc)%nat -> n = (bc * bs)%nat ->
  (forall i, nth i bm false = true -> binary (nth i keys []) /\ block_binary bs (firstn n (nth i keys []))) -> (forall i j, Z.abs (G i j) <= E) ->
  (forall i, nth i bm false = true -> length (auxs i) = N /\ binary (auxs i) /\ gshape N 1 (gbufs i) /\ gshape N 1 (subs i) /\
    MKGenEvalKey w logN N n (U i) (G i) pBR pKS pr crs (nth i keys []) (auxs i) (gbufs i) (subs i) (sts i) = (nth i eks noKey, rests i)) ->
  mk_keys w N P n pa pr pBR pKS bm keys (map ek_brk eks) (map ek_ksk eks) (map ek_crs eks) (map ek_u0 eks) (map ek_u1 eks) bs bc E E E.
Proof. exact (fun w N logN n pBR pKS pr crs P bm keys U G E bs bc pa auxs gbufs subs sts eks rests Hw HN Hl HB HK HR Hc => mk_keygen w Hw N HN logN Hl n pBR pKS pr HB HK HR crs Hc P bm keys U G E bs bc pa auxs gbufs subs sts eks rests). Qed.
Print Assumptions C51_keygen.
Example C51_keys_ex : mk_keys 64 8 3 4 xpa xpr xpB xpK xbm xkeys (map ek_brk xeks) (map ek_ksk xeks) (map ek_crs xeks) (map ek_u0 xeks) (map ek_u1 xeks) 2 2 3 3 3.
Proof. exact xkeys_ok. Qed.

(** Bootstrapping with any table f, both orders, whatever the buffers and the output held. *)
Theorem C51_boot_message : forall w N P n pa pr pBR pKS bm keys eks bs bc Ebr Ek Eks, 0 < w -> (0 < N)%nat ->
  mk_keys w N P n pa pr pBR pKS bm keys (map ek_brk eks) (map ek_ksk eks) (map ek_crs eks) (map ek_u0 eks) (map ek_u1 eks) bs bc Ebr Ek Eks ->
  forall lutOut raw kk mu f, length raw = N -> length lutOut = 1%nat -> length (nth 0 lutOut []) = N -> 0 <= kk <= w - 2 -> 2 ^ kk * Z.of_nat N < 2 ^ 52 ->
  let mm := 2 ^ kk in let scale := scaleOf w mm in let ms := ModSwitch w (Z.of_nat N) in ms_err w (Z.of_nat N) mu ms -> mu < 2 * 2 ^ w ->
  exists lut raw', GenLUTCustomTo w N 1 lutOut raw f mm scale = Some (lut, raw') /\
  forall (order : bool) b m ee ct out, let small := ljkey n bm (map (firstn n) keys) in let key := if order then ljkey N bm keys else small in
   mk_bufs_ok N P n pa bm b -> 0 <= m < mm -> length out = S (length key) -> lwe_ct w (length key) ct -> eqm (2 ^ w) (phase key ct) (scale * m + ee) ->
   boot_margin (2 ^ w) (Z.of_nat N) mm scale m (Z.abs ee + (if order then Z.of_nat (nact bm) * ksNoise w pKS (N - n) Eks else 0)) mu (zsum (length small) (nthZ small)) 0 ->
   decodes w scale (mkBrNoise w N P n pa pr pBR bm bc Ebr Ek + (if order then 0 else Z.of_nat (nact bm) * ksNoise w pKS (N - n) Eks)) ->
   DecryptLWE w mm scale key (mkBoot w N P order ms pa pr pBR pKS bm eks bs bc n b lut out ct) = Some (f m mod mm).
Proof. exact mk_boot_message. Qed.
Print Assumptions C51_boot_message.
(** One gate on ciphertexts with noise B: XOR and XNOR need 4B where single-key TFHE needs 2B (see C51_XOR_refuted). *)
Theorem C51_gate : forall w N P n pa pr pBR pKS bm keys eks bs bc Ebr Ek Eks mu ms (order : bool) B, 3 <= w -> (0 < N)%nat ->
  mk_keys w N P n pa pr pBR pKS bm keys (map ek_brk eks) (map ek_ksk eks) (map ek_crs eks) (map ek_u0 eks) (map ek_u1 eks) bs bc Ebr Ek Eks ->
  let small := ljkey n bm (map (firstn n) keys) in let key := if order then ljkey N bm keys else small in let ksN := Z.of_nat (nact bm) * ksNoise w pKS (N - n) Eks in
  ms_err w (Z.of_nat N) mu ms -> mu < 2 * 2 ^ w -> 0 <= B ->
  mu * (1 + zsum (length small) (nthZ small)) + 4 * Z.of_nat N * (2 ^ (w - 3) + 4 * B + (if order then ksN else 0)) < Z.of_nat N * 2 ^ w ->
  forall b g (st : store) o x y va vb, mk_bufs_ok N P n pa bm b -> length (st o) = S (length key) -> bool_enc w key B (st x) va -> bool_enc w key B (st y) vb ->
  let st' := mkRunGate w (length key) (mkBootSign w N P order ms pa pr pBR pKS bm eks bs bc n b) g st o x y in
  bool_enc w key (mkBrNoise w N P n pa pr pBR bm bc Ebr Ek + (if order then 0 else ksN)) (st' o) (truth g va vb) /\ forall z, z <> o -> st' z = st z.
Proof. exact mk_ev_gate. Qed.
Print Assumptions C51_gate.
(** Programs of gates of any length, decrypted with the parties' keys. *)
Theorem C51_program : forall w N P n pa pr pBR pKS bm keys eks bs bc Ebr Ek Eks mu ms (order : bool) B, 3 <= w -> (0 < N)%nat ->
  mk_keys w N P n pa pr pBR pKS bm keys (map ek_brk eks) (map ek_ksk eks) (map ek_crs eks) (map ek_u0 eks) (map ek_u1 eks) bs bc Ebr Ek Eks ->
  let small := ljkey n bm (map (firstn n) keys) in let key := if order then ljkey N bm keys else small in let ksN := Z.of_nat (nact bm) * ksNoise w pKS (N - n) Eks in
  ms_err w (Z.of_nat N) mu ms -> mu < 2 * 2 ^ w -> 0 <= B ->
  mu * (1 + zsum (length small) (nthZ small)) + 4 * Z.of_nat N * (2 ^ (w - 3) + 4 * B + (if order then ksN else 0)) < Z.of_nat N * 2 ^ w ->
  forall prog : list (instr * mkBootBufs), Forall (fun ib => mk_bufs_ok N P n pa bm (snd ib)) prog ->
  mkBrNoise w N P n pa pr pBR bm bc Ebr Ek + (if order then 0 else ksN) <= B -> B < 2 ^ (w - 3) ->
  forall (st : store) v, (forall x, bool_enc w key B (st x) (v x)) ->
  let st' := mkRunC w (length key) (map (fun ib => (fst ib, mkBootSign w N P order ms pa pr pBR pKS bm eks bs bc n (snd ib))) prog) st in
  forall x, bool_enc w key B (st' x) (bprog (map fst prog) v x) /\
    MKDecryptLWEBool w (if order then N else n) bm (if order then keys else map (firstn n) keys) (st' x) = bprog (map fst prog) v x.
Proof. exact mk_ev_prog. Qed.
Print Assumptions C51_program.
(** The example keys meet every hypothesis, in both orders. *)
Definition xbufs : mkBootBufs := mkMB (repeat (repeat 3 5) 3) [] (repeat (repeat (repeat 5 8) 2) 3) (repeat (repeat (repeat (repeat 2 8) 2) 4) 3) (repeat [] 4) (repeat (repeat 1 8) 4) (repeat (repeat 4 8) 4) (repeat 6 13) (repeat 7 25).
Example C51_hyps : let mu := 2 ^ 64 + 2 ^ 36 in let ksN := Z.of_nat (nact xbm) * ksNoise 64 xpK (8 - 4) 3 in let small := ljkey 4 xbm (map (firstn 4) xkeys) in
  let B := mkBrNoise 64 8 3 4 xpa xpr xpB xbm 2 3 3 + ksN in
  ms_err 64 8 mu (ModSwitch 64 8) /\ mu < 2 * 2 ^ 64 /\ mk_bufs_ok 8 3 4 xpa xbm xbufs /\ 0 <= B < 2 ^ 61 /\
  mu * (1 + zsum (length small) (nthZ small)) + 4 * 8 * (2 ^ 61 + 4 * B + ksN) < 8 * 2 ^ 64 /\
  boot_margin (2 ^ 64) 8 2 (scaleOf 64 2) 1 (3 + ksN) mu (zsum (length small) (nthZ small)) 0 /\ decodes 64 (scaleOf 64 2) B.
Proof.
  split; [apply ms_err_any; lia|]. split; [reflexivity|].
  split; [|split; [vm_compute; split; congruence|]; split; [vm_compute; reflexivity|]; split; [right; split; [exists 2; reflexivity|vm_compute; reflexivity]|right; split; [lia|vm_compute; reflexivity]]].
  split; [|split; [split; [reflexivity|intros [|[|[|[|i]]]] Hi; [reflexivity..|lia]]|split; reflexivity]].
  split; [|split; [reflexivity|split; [reflexivity|intros [|[|[|[|i]]]] Hi; [reflexivity..|lia]]]].
  intros i Hi. assert (i = 0 \/ i = 2)%nat as [-> | ->]. { destruct i as [|[|[|i]]]; [now left|discriminate Hi|now right|destruct i; discriminate Hi]. }
  all: split; [reflexivity|]; split; [split; [reflexivity|intros [|[|i]] H; [reflexivity..|lia]]|]; split; [reflexivity|]; intros [|[|[|[|j]]]] Hj; cbn in Hj; try lia; (split; [reflexivity|intros [|[|i]] H; [reflexivity..|lia]]).
Qed.
(** NAND of a bit of party 0 and a bit of party 2, all inputs, both orders. *)
Definition xbool (order : bool) (idx : nat) (m : bool) (st : rst) : list Z :=
  let keys := if order then xkeys else map (firstn 4) xkeys in let n := if order then 8%nat else 4%nat in
  match fst (MKEncryptLWEBoolTo 64 (xU idx) (xG idx) (nth idx keys []) (repeat 6 (S n)) idx (repeat 9 (S (3 * n))) m st) with Some c => c | None => [] end.
Definition xgate (order : bool) (g : gate) (va vb : bool) : bool :=
  let n := if order then 8%nat else 4%nat in
  MKDecryptLWEBool 64 n xbm (if order then xkeys else map (firstn 4) xkeys)
    (mkRunGate 64 (3 * n) (mkBootSign 64 8 3 order (ModSwitch 64 8) xpa xpr xpB xpK xbm xeks 2 2 4 xbufs) g (fun i => match i with O => xbool order 0 va (1, 1)%nat | 1%nat => xbool order 2 vb (2, 3)%nat | _ => repeat 1 (S (3 * n)) end) 2 0 1 2%nat).
Example C51_run : forallb (fun o => forallb (fun g => forallb (fun va => forallb (fun vb => Bool.eqb (xgate o g va vb) (truth g va vb)) [true; false]) [true; false]) [gNAND; gXOR]) [true; false] = true.
Proof. vm_compute. reflexivity. Qed.

(** Finding: XORTo and XNORTo add Q/8 where the balanced constant is Q/4 (tfhe/binary_evaluator.go), so noise that single-key
    XOR absorbs flips the multi-key gate, even with a perfect sign bootstrap. *)
Theorem C51_XOR_refuted : exists w key boot B (st : store), sign_boot w key boot (2 ^ (w - 2) - 1) 0 /\ bool_enc w key B (st 0%nat) true /\ bool_enc w key B (st 1%nat) false /\
  2 ^ (w - 3) + 2 * B <= 2 ^ (w - 2) - 1 /\
  DecryptLWEBool w key (runGate w (length key) boot gXOR st 2 0 1 2%nat) = true /\ DecryptLWEBool w key (mkRunGate w (length key) boot gXOR st 2 0 1 2%nat) = false.
Proof. exact xor_refuted. Qed.
Print Assumptions C51_XOR_refuted.

(** ** C52.  Decryptors: exactly the index sets below len(sk) (and P) work. *)
Theorem C52_NewDecryptor : forall P sk, NoDup (map fst sk) -> (forall i, In i (map fst sk) -> (i < length sk)%nat /\ (i < P)%nat) ->
  exists d, NewDecryptor P sk = Some d /\ length (d_keys d) = length sk /\ length (d_bm d) = P /\
   (forall i s, In (i, s) sk -> nth i (d_keys d) None = Some s /\ nth i (d_bm d) false = true) /\
   (forall i, ~ In i (map fst sk) -> nth i (d_keys d) None = None /\ nth i (d_bm d) false = false).
Proof. exact NewDecryptor_spec. Qed.
Print Assumptions C52_NewDecryptor.
Theorem C52_NewDecryptor_panics : forall P sk, (exists i, In i (map fst sk) /\ ~ ((i < length sk)%nat /\ (i < P)%nat)) -> NewDecryptor P sk = None.
Proof. exact NewDecryptor_panics. Qed.
Print Assumptions C52_NewDecryptor_panics.
Theorem C52_AddSecretKey : forall P sk d idx s, NoDup (map fst sk) -> NewDecryptor P sk = Some d -> (AddSecretKey d idx s = None <-> ~ ((idx < length sk)%nat /\ (idx < P)%nat)).
Proof. exact AddSecretKey_panics. Qed.
Print Assumptions C52_AddSecretKey.
Example C52_ex : NewDecryptor 3 [(1%nat, [7]); (0%nat, [5])] = Some (mkDec [Some [5]; Some [7]] [true; true; false]).
Proof. reflexivity. Qed.
(** Finding: the slices have length len(sk), so a single party with index 1 of 2 cannot build a decryptor, and no decryptor made
    from fewer keys than parties can be given the missing one. *)
Theorem C52_refuted : exists P sk idx, NoDup (map fst sk) /\ (forall i, In i (map fst sk) -> (i < P)%nat) /\ sk <> [] /\ NewDecryptor P sk = None /\
  exists d, NewDecryptor P [(0%nat, [1])] = Some d /\ (idx < P)%nat /\ AddSecretKey d idx [1] = None.
Proof. exact decryptor_refuted. Qed.
Print Assumptions C52_refuted.
