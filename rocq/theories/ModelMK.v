(** Model of mktfhe (multi-key TFHE): lwe.go, glwe.go, glwe_enc.go, fft_glwe_enc.go, encryptor.go, encryptor_public.go,
    decryptor.go, product.go, bootstrap.go, bootstrap_keygen.go and the constructors' index checks.
    No proofs in this file.

    P is PartyCount, bm the PartyBitMap (a list of P booleans).  Every party has GLWE rank 1 and LUTSize = PolyRank
    (params.go:117-141 Compile enforces both), so a multi-key GLWE ciphertext is the list of its P+1 polynomials and
    the single-key model is used with k = 1 and E = 1.  The operations of mktfhe/lwe_ops.go and glwe_ops.go are the
    same loops as in tfhe over whole ciphertexts (of GLWERank()+1 = P+1 polynomials): ModelLWE.v and ModelGLWE.v
    with k = P.  Samplers as in ModelLWE.v, binary samples as in ModelPub.v.
    Not modelled: the nil pointer panic of an evaluator used for a party outside its bit map. *)
From Verif Require Import Base ModelNum ModelVec ModelPoly ModelGadget ModelEncoder ModelLWE ModelGLWE ModelBoot ModelPub.

Definition active (bm : list bool) (i : nat) : bool := nth i bm false.

(* ------------------------------------------------------------------ *)
(** ** lwe.go, glwe.go *)

(** lwe.go:37-46 CopyFromSubKey: the remainder and slice expressions panic on dimension 0, a dimension mismatch, or
    an index beyond the ciphertext. *)
Definition LWECopyFromSubKey (ct sub : list Z) (idx : nat) : option (list Z) :=
  let n := (length sub - 1)%nat in
  if Nat.eqb n 0 then None
  else if negb (Nat.eqb ((length ct - 1) mod n) 0) then None
  else if Nat.ltb (length ct) (1 + (idx + 1) * n) then None
  else
    let c := repeat 0 (length ct) in
    let c := firstn (1 + idx * n) c ++ tl sub ++ skipn (1 + (idx + 1) * n) c in
    Some (upd c 0 (nthZ sub 0)).
(** glwe.go:64-68 Clear. *)
Definition gclear (ct : list (list Z)) : list (list Z) := map (fun p => repeat 0 (length p)) ct.
(** glwe.go:53-61 CopyFromSubKey. *)
Definition GLWECopyFromSubKey (ct sub : list (list Z)) (idx : nat) : option (list (list Z)) :=
  if negb (Nat.eqb (length sub) 2) then None
  else if Nat.leb (length ct) (1 + idx) then None
  else
    let c := gclear ct in
    let c := upd c 0 (go_copy (nth 0 c []) (nth 0 sub [])) in
    Some (upd c (1 + idx) (go_copy (nth (1 + idx) c []) (nth 1 sub []))).

(* ------------------------------------------------------------------ *)
(** ** encryptor.go, encryptor_public.go *)

(** encryptor.go:53-55, 86-88 and encryptor_public.go:42-44: the index check of the constructors (true = no panic). *)
Definition indexAccepted (P idx : Z) : bool := negb (P <? idx).

Section Enc.
Variables (w logN : Z) (N : nat) (U G : nat -> Z).

(** encryptor.go:169-175 EncryptLWEBody; sk is the sub encryptor's DefaultLWESecretKey, sub the old e.buf.ctSubLWE. *)
Definition MKEncryptLWEBody (sk sub : list Z) (idx : nat) (ct : list Z) (st : rst) : option (list Z) * (list Z * rst) :=
  let '(sub, st) := EncryptLWEBody w U G sk (upd sub 0 (nthZ ct 0)) st in
  (LWECopyFromSubKey (repeat 0 (length ct)) sub idx, (sub, st)).
(** encryptor.go:163-166. *)
Definition MKEncryptLWEPlaintextTo (sk sub : list Z) (idx : nat) (ctOut : list Z) (pt : Z) (st : rst) :=
  MKEncryptLWEBody sk sub idx (upd ctOut 0 pt) st.
(** encryptor.go:204-210 EncryptGLWEBody. *)
Definition MKEncryptGLWEBody (fsk : list Z) (sub : list (list Z)) (idx : nat) (ct : list (list Z)) (st : rst) : option (list (list Z)) * (list (list Z) * rst) :=
  let '(sub, st) := EncryptGLWEBody w logN N 1 U G [fsk] (upd sub 0 (go_copy (nth 0 sub []) (nth 0 ct []))) st in
  (GLWECopyFromSubKey (gclear ct) sub idx, (sub, st)).
(** encryptor.go:197-200. *)
Definition MKEncryptGLWEPlaintextTo (fsk : list Z) (sub : list (list Z)) (idx : nat) (ctOut : list (list Z)) (pt : list Z) (st : rst) :=
  MKEncryptGLWEBody fsk sub idx (upd ctOut 0 (go_copy (nth 0 ctOut []) pt)) st.

(** encryptor.go:57-62: the common reference string, lv polynomials from the seeded uniform sampler CU. *)
Definition genCRS (CU : nat -> Z) (lv : nat) : list (list Z) := tab lv (fun i => tab N (fun t => wrap w (CU (i * N + t)%nat))).

(** One ciphertext of the first half of a uni-encryption (glwe_enc.go:41-45, fft_glwe_enc.go:41-45):
    (p*BaseQ_i + CRS_i*r + e, CRS_i), written into ct. *)
Definition uniBody (p : gadget) (crs : list (list Z)) (fr pt : list Z) (i : nat) (ct : list (list Z)) (st : rst) : list (list Z) * rst :=
  let ct := upd ct 1 (go_copy (nth 1 ct []) (nth i crs [])) in
  let ct := upd ct 0 (vscale w (BaseQ w p i) pt) in
  let ct := upd ct 0 (ShortFFTPolyMulAddPolyTo false w logN N (nth 0 ct []) (nth 1 ct []) fr) in
  let '(b, st) := samplePolyAdd w G (nth 0 ct []) st in
  (upd ct 0 b, st).
(** glwe_enc.go:36-52 UniEncryptPolyTo; aux is the binary polynomial drawn into e.buf.auxKey (37-38). *)
Definition UniEncryptPolyTo (fsk : list Z) (p : gadget) (crs : list (list Z)) (aux : list Z) (out0 out1 : list (list (list Z))) (pt : list Z) (st : rst) :=
  let fr := fwdFFT w aux in
  let '(out0, st) := forN 0 (g_level p) (fun i s =>
    let '(o, st) := s in let '(c, st) := uniBody p crs fr pt i (nth i o []) st in (upd o i c, st)) (out0, st) in
  let '(out1, st) := forN 0 (g_level p) (fun i s =>
    let '(o, st) := s in
    let '(c, st) := EncryptGLWEBody w logN N 1 U G [fsk] (upd (nth i o []) 0 (vscale w (BaseQ w p i) aux)) st in (upd o i c, st)) (out1, st) in
  ((out0, out1), st).
(** fft_glwe_enc.go:36-55 FFTUniEncryptPolyTo; sub is e.buf.ctSubGLWE. *)
Definition FFTUniEncryptPolyTo (fsk : list Z) (p : gadget) (crs : list (list Z)) (aux : list Z) (sub : list (list Z)) (out0 out1 : list (list (list Z))) (pt : list Z) (st : rst) :=
  let fr := fwdFFT w aux in
  let '(out0, (sub, st)) := forN 0 (g_level p) (fun i s =>
    let '(o, (sub, st)) := s in
    let '(sub, st) := uniBody p crs fr pt i sub st in (upd o i (FwdFFTGLWECiphertextTo w (nth i o []) sub), (sub, st))) (out0, (sub, st)) in
  let '(out1, (sub, st)) := forN 0 (g_level p) (fun i s =>
    let '(o, (sub, st)) := s in
    let '(sub, st) := EncryptGLWEBody w logN N 1 U G [fsk] (upd sub 0 (vscale w (BaseQ w p i) aux)) st in
    (upd o i (FwdFFTGLWECiphertextTo w (nth i o []) sub), (sub, st))) (out1, (sub, st)) in
  ((out0, out1), (sub, st)).
(** glwe_enc.go:79-88 UniDecryptPolyTo; aux is the old e.buf.auxKey. *)
Definition UniDecryptPolyTo (fsk : list Z) (p : gadget) (aux pOut : list Z) (c0 c1 : list (list (list Z))) : list Z :=
  let aux := DecryptGLevPolyTo w logN N 1 [fsk] p aux c1 in
  let o := go_copy pOut (nth 0 (nth 0 c0 []) []) in
  let o := ShortFFTPolyMulSubPolyTo false w logN N o (nth 1 (nth 0 c0 []) []) (fwdFFT w aux) in
  forN 0 N (fun i o => upd o i (DivRoundBits w (nthZ o i) (LogFirstBaseQ p))) o.

(** glwe_enc.go:11-26 UniEncryptTo and 62-70 UniDecryptTo; buf and pt are e.buf.ptGLWE. *)
Definition UniEncryptTo (mm : Z) (fsk : list Z) (p : gadget) (crs : list (list Z)) (aux buf : list Z) out0 out1 (messages : list Z) (st : rst) :=
  UniEncryptPolyTo fsk p crs aux out0 out1 (messagePoly w N mm buf messages) st.
Definition UniDecryptTo (mm : Z) (fsk : list Z) (p : gadget) (aux buf messagesOut : list Z) (c0 c1 : list (list (list Z))) : list Z :=
  let pt := UniDecryptPolyTo fsk p aux buf c0 c1 in
  forN 0 (Nat.min N (length messagesOut)) (fun i o => upd o i (swrap 64 (nthZ pt i mod mm))) messagesOut.

(** bootstrap_keygen.go:44-55 GenCRSPublicKey; sub is e.buf.ctSubGLWE. *)
Definition GenCRSPublicKey (fsk : list Z) (p : gadget) (crs sub : list (list Z)) (st : rst) :=
  forN 0 (g_level p) (fun i s =>
    let '(o, (sub, st)) := s in
    let sub := upd sub 1 (go_copy (nth 1 sub []) (nth i crs [])) in
    let '(e, st) := samplePolyG w G (nth 0 sub []) st in
    let sub := upd sub 0 e in
    let sub := upd sub 0 (ShortFFTPolyMulSubPolyTo false w logN N (nth 0 sub []) (nth 1 sub []) fsk) in
    (upd o i (FwdFFTGLWECiphertextTo w (nth i o []) sub), (sub, st)))
    (repeat (repeat (repeat 0 N) 2) (g_level p), (sub, st)).
(** bootstrap_keygen.go:58-60 GenRelinKey. *)
Definition GenRelinKey (fsk sk : list Z) (p : gadget) (crs : list (list Z)) (aux : list Z) (sub : list (list Z)) (st : rst) :=
  FFTUniEncryptPolyTo fsk p crs aux sub (repeat (repeat (repeat 0 N) 2) (g_level p)) (repeat (repeat (repeat 0 N) 2) (g_level p)) sk st.
End Enc.

(** encryptor_public.go:111-117 and 146-152: like the secret key encryptor, but the body of the uncleared buffer is
    encrypted with the public key; sub is the old e.buf.ctSubLWE / ctSubGLWE, aux the sub encryptor's auxKey. *)
Section Pub.
Variables (w logN : Z) (N : nat) (B G : nat -> Z).
Definition MKPubEncryptLWEBody (pk : list (list (list Z))) (aux : list (list Z)) (sub : list Z) (idx : nat) (ct : list Z) (st : rst) :=
  let '(sub, (aux, st)) := PubEncryptLWEBody w logN N 1 B G pk aux (upd sub 0 (nthZ ct 0)) st in
  (LWECopyFromSubKey (repeat 0 (length ct)) sub idx, (sub, (aux, st))).
Definition MKPubEncryptGLWEBody (pk : list (list (list Z))) (aux sub : list (list Z)) (idx : nat) (ct : list (list Z)) (st : rst) :=
  let '(sub, (aux, st)) := PubEncryptGLWEBody w logN N 1 B G pk aux (upd sub 0 (go_copy (nth 0 sub []) (nth 0 ct []))) st in
  (GLWECopyFromSubKey (gclear ct) sub idx, (sub, (aux, st))).
End Pub.

(* ------------------------------------------------------------------ *)
(** ** decryptor.go *)

Section Dec.
Variables (w logN : Z) (N : nat).

(** Coordinates [1+i*n, 1+(i+1)*n) of a ciphertext. *)
Definition partyMask (n i : nat) (ct : list Z) : list Z := firstn n (skipn (1 + i * n) ct).
(** 127-136 DecryptLWEPlaintext; keys are the parties' DefaultLWESecretKey, of dimension n. *)
Definition MKDecryptLWEPlaintext (n : nat) (bm : list bool) (keys : list (list Z)) (ct : list Z) : Z :=
  forN 0 (length bm) (fun i pt => if active bm i then wrap w (pt + dot w (partyMask n i ct) (nth i keys [])) else pt) (nthZ ct 0).
(** 122-124 DecryptLWE. *)
Definition MKDecryptLWE (mm scale : Z) (n : nat) (bm : list bool) (keys : list (list Z)) (ct : list Z) : option Z :=
  DecodeLWECustom w (MKDecryptLWEPlaintext n bm keys ct) mm scale.
(** 158-167 DecryptGLWEPhaseTo; sub is d.buf.ctSubGLWE (also returned), fsks the transformed party keys.  The sub
    decryptor's output is sub.Value[0] itself. *)
Definition MKDecryptGLWEPhaseTo (bm : list bool) (fsks : list (list Z)) (sub : list (list Z)) (ptOut : list Z) (ct : list (list Z)) : list Z * list (list Z) :=
  let sub := upd sub 0 (go_copy (nth 0 sub []) (nth 0 ct [])) in
  let sub := forN 0 (length bm) (fun i sub =>
    if active bm i then
      let sub := upd sub 1 (go_copy (nth 1 sub []) (nth (1 + i) ct [])) in
      upd sub 0 (DecryptGLWEPhaseTo w logN N 1 [nth i fsks []] (nth 0 sub []) sub)
    else sub) sub in
  (go_copy ptOut (nth 0 sub []), sub).
(** 187-190 DecryptFFTGLWEPhaseTo; buf is d.buf.ctGLWE. *)
Definition MKDecryptFFTGLWEPhaseTo bm fsks sub (buf : list (list Z)) (ptOut : list Z) (ct : list (list Z)) : list Z * list (list Z) :=
  MKDecryptGLWEPhaseTo bm fsks sub ptOut (InvFFTGLWECiphertextTo w buf ct).

(** The tables of a decryptor: one key slot per sub decryptor (None is nil), and the bit map. *)
Record decryptor := mkDec { d_keys : list (option (list Z)); d_bm : list bool }.
(** 55-77 NewDecryptor; the map is given as the list of its entries in iteration order (arbitrary); None is the index panic.
    [subEncs] and [subKeys] have the same length, len(sk). *)
Definition NewDecryptor (P : nat) (sk : list (nat * list Z)) : option decryptor :=
  fold_left (fun d e =>
    match d with
    | None => None
    | Some d =>
      if Nat.ltb (fst e) (length (d_keys d)) && Nat.ltb (fst e) (length (d_bm d))
      then Some (mkDec (upd (d_keys d) (fst e) (Some (snd e))) (upd (d_bm d) (fst e) true)) else None
    end) sk (Some (mkDec (repeat None (length sk)) (repeat false P))).
(** 92-96 AddSecretKey. *)
Definition AddSecretKey (d : decryptor) (idx : nat) (sk : list Z) : option decryptor :=
  if Nat.ltb idx (length (d_keys d)) && Nat.ltb idx (length (d_bm d))
  then Some (mkDec (upd (d_keys d) idx (Some sk)) (upd (d_bm d) idx true)) else None.
End Dec.

(* ------------------------------------------------------------------ *)
(** ** product.go *)

Section Prod.
Variables (w : Z) (N P : nat).

(** sum_j lev[j].Value[col] * fd[j]: MulFFTPolyTo, then MulAddFFTPolyTo for the remaining levels. *)
Definition prodRow (p : gadget) (col : nat) (lev : list (list (list Z))) (fd : list (list Z)) : list Z :=
  forN 1 (g_level p - 1) (fun j o => fmulAdd N o (nth col (nth j lev []) []) (nth j fd [])) (fmul N (nth col (nth 0 lev []) []) (nth 0 fd [])).

(** 15-61: the product in e.buf.ctFFTProd (old content buf).  crspk[i] is EvalKey[i].CRSPublicKey, (u0, u1) the
    two halves of the uni-encryption. *)
Definition hybridFFT (p : gadget) (bm : list bool) (crspk : list (list (list (list Z)))) (idx : nat) (u0 u1 : list (list (list Z))) (buf ct : list (list Z)) : list (list Z) :=
  let fd0 := fdigits w p (nth 0 ct []) in
  let acc := upd buf 0 (prodRow p 0 u0 fd0) in
  let sub := fneg (prodRow p 1 (nth idx crspk []) fd0) in
  let '(acc, sub) := forN 0 P (fun i s =>
    let '(acc, sub) := s in
    if active bm i then
      let fd := fdigits w p (nth (S i) ct []) in
      (upd acc (S i) (prodRow p 0 u0 fd),
       forN 0 (g_level p) (fun j o => fmulAdd N o (nth 0 (nth j (nth i crspk []) []) []) (nth j fd [])) sub)
    else (acc, sub)) (acc, sub) in
  let fdv := fdigits w p (invFFT w sub) in
  forN 0 (g_level p) (fun j acc =>
    let acc := upd acc 0 (fmulAdd N (nth 0 acc []) (nth 0 (nth j u1 []) []) (nth j fdv [])) in
    upd acc (1 + idx) (fmulAdd N (nth (1 + idx) acc []) (nth 1 (nth j u1 []) []) (nth j fdv []))) acc.

(** 15-71, 74-128 and 131-185 HybridProd{,Add,Sub}GLWETo; ctGLWE is read before ctGLWEOut is written. *)
Definition HybridProdGLWETo p bm crspk idx u0 u1 buf (ct out : list (list Z)) : list (list Z) :=
  let acc := hybridFFT p bm crspk idx u0 u1 buf ct in
  forN 0 P (fun i o => upd o (S i) (if active bm i then invFFT w (nth (S i) acc []) else repeat 0 (length (nth (S i) o []))))
    (upd out 0 (invFFT w (nth 0 acc []))).
Definition HybridProdAddGLWETo p bm crspk idx u0 u1 buf (ct out : list (list Z)) : list (list Z) :=
  let acc := hybridFFT p bm crspk idx u0 u1 buf ct in
  forN 0 P (fun i o => if active bm i then upd o (S i) (invFFTAdd w (nth (S i) o []) (nth (S i) acc [])) else o)
    (upd out 0 (invFFTAdd w (nth 0 out []) (nth 0 acc []))).
Definition HybridProdSubGLWETo p bm crspk idx u0 u1 buf (ct out : list (list Z)) : list (list Z) :=
  let acc := hybridFFT p bm crspk idx u0 u1 buf ct in
  forN 0 P (fun i o => if active bm i then upd o (S i) (invFFTSub w (nth (S i) o []) (nth (S i) acc [])) else o)
    (upd out 0 (invFFTSub w (nth 0 out []) (nth 0 acc []))).

(** 198-205: ctRelinT (the single-key products) and ctRelin (their masks; old content rbuf). *)
Definition relinT (pa : gadget) (lev : list (list (list Z))) (ct : list (list Z)) (i : nat) : list (list Z) := GadgetProdGLWETo w N 1 pa lev (nth i ct []).
Definition relinIn (pa : gadget) (bm : list bool) (lev : list (list (list Z))) (rbuf ct : list (list Z)) : list (list Z) :=
  forN 0 P (fun i r => if active bm i then upd r (S i) (go_copy (nth (S i) r []) (nth 1 (relinT pa lev ct (S i)) [])) else r)
    (upd rbuf 0 (go_copy (nth 0 rbuf []) (nth 1 (relinT pa lev ct 0) []))).
(** 209-214, 232-237 and 255-260: AddPolyTo of the bodies. *)
Definition addBodies (pa : gadget) (bm : list bool) (lev : list (list (list Z))) (ct out : list (list Z)) : list (list Z) :=
  forN 0 P (fun i o => if active bm i then upd o (S i) (vadd w (nth (S i) o []) (nth 0 (relinT pa lev ct (S i)) [])) else o)
    (upd out 0 (vadd w (nth 0 out []) (nth 0 (relinT pa lev ct 0) []))).
(** 195-215, 218-238 and 241-261 ExternalProd{,Add,Sub}GLWETo: lev is a GLev under party idx's key with gadget pa,
    (u0, u1) its relinearisation key with gadget p.  ctRelinT holds the products, so ctGLWE and ctGLWEOut may coincide. *)
Definition MKExternalProdGLWETo (pa p : gadget) bm crspk idx u0 u1 (buf rbuf : list (list Z)) lev (ct out : list (list Z)) : list (list Z) :=
  addBodies pa bm lev ct (HybridProdGLWETo p bm crspk idx u0 u1 buf (relinIn pa bm lev rbuf ct) out).
Definition MKExternalProdAddGLWETo (pa p : gadget) bm crspk idx u0 u1 (buf rbuf : list (list Z)) lev (ct out : list (list Z)) : list (list Z) :=
  addBodies pa bm lev ct (HybridProdAddGLWETo p bm crspk idx u0 u1 buf (relinIn pa bm lev rbuf ct) out).
Definition MKExternalProdSubGLWETo (pa p : gadget) bm crspk idx u0 u1 (buf rbuf : list (list Z)) lev (ct out : list (list Z)) : list (list Z) :=
  addBodies pa bm lev ct (HybridProdSubGLWETo p bm crspk idx u0 u1 buf (relinIn pa bm lev rbuf ct) out).
End Prod.

(* ------------------------------------------------------------------ *)
(** ** bootstrap.go *)

Section Boot.
Variables (w : Z) (N P : nat).

(** 150-171 DefaultKeySwitchTo; n and D are the sub parameters' LWEDimension and GLWEDimension, ksks[i] party i's key.
    The loop of one active party. *)
Definition ksParty (n D : nat) (p : gadget) (ksk : list (list (list Z))) (mask : list Z) (s : Z * list Z) : Z * list Z :=
  forN 0 (D - n) (fun jj s =>
    let d := DecomposeScalar w p (nthZ mask (n + jj)) in
    forN 0 (g_level p) (fun k s =>
      let c := nth k (nth jj ksk []) [] in
      (wrap w (fst s + wrap w (nthZ d k * nthZ c 0)), vscaleAdd w (nthZ d k) (snd s) (tl c))) s) s.
Definition MKDefaultKeySwitchTo (n D : nat) (p : gadget) (bm : list bool) (ksks : list (list (list (list Z)))) (out ct : list Z) : list Z :=
  forN 0 P (fun i o =>
    let outMask := partyMask n i o in
    let '(b, m) :=
      if active bm i then ksParty n D p (nth i ksks []) (partyMask D i ct) (nthZ o 0, go_copy outMask (partyMask D i ct))
      else (nthZ o 0, repeat 0 (length outMask)) in
    upd (firstn (1 + i * n) o ++ m ++ skipn (1 + (i + 1) * n) o) 0 b) (upd out 0 (nthZ ct 0)).

(** evaluator.go:84-125: gadgetLUTs[j] is the table [BaseQ_j, 0, ...]. *)
Definition gadgetLUT (pa : gadget) (j : nat) : list (list Z) := [upd (repeat 0 N) 0 (BaseQ w pa j)].
(** The evaluation key of a party: blind rotation key, key switching key, CRS public key, relinearisation key. *)
Record evalKey := mkEK { ek_brk : list (list (list (list (list Z)))); ek_ksk : list (list (list Z)); ek_crs : list (list (list Z)); ek_u0 : list (list (list Z)); ek_u1 : list (list (list Z)) }.
Definition noKey : evalKey := mkEK [] [] [] [] [].
(** 90-95 (and 119-124): party i's accumulators; rin, accb and faccb are the old buffers, pBR the sub parameters' blind rotation
    gadget, bs, bc, n its block size, block count and LWE dimension. *)
Definition rotateIn (n i : nat) (rin ct : list Z) : list Z :=
  match upd rin 0 0 with [] => [] | b :: rest => b :: go_copy rest (partyMask n i ct) end.
Definition partyAccs (ms : Z -> Z) (pa pBR : gadget) (brk : list (list (list (list (list Z))))) (bs bc n i : nat) (rin : list Z) (acc0 accb : list (list Z)) (faccb : list (list (list Z))) (ct : list Z) : list (list (list Z)) :=
  forN 0 (g_level pa) (fun j f =>
    let acc := BlindRotateTo w N 1 1 ms pBR brk bs bc n acc0 accb (rotateIn n i rin ct) (gadgetLUT pa j) in
    upd f j (FwdFFTGLWECiphertextTo w (nth j f []) acc)) faccb.
(** 84-99 BlindRotateTo.  The buffers of party i are rins[i], accbs[i], faccbs[i]. *)
Definition MKBlindRotateTo (ms : Z -> Z) (pa pr pBR : gadget) (bm : list bool) (eks : list evalKey) (bs bc n : nat)
    (rins : list (list Z)) (acc0s accbs : list (list (list Z))) (faccbs : list (list (list (list Z)))) (buf rbuf ctOut : list (list Z)) (ct : list Z) (lut0 : list Z) : list (list Z) :=
  let out := gclear ctOut in
  let out := upd out 0 (MonomialMulPolyTo w N (nth 0 out []) lut0 (- ms (nthZ ct 0))) in
  forN 0 P (fun i out =>
    if active bm i then
      let ek := nth i eks noKey in
      let f := partyAccs ms pa pBR (ek_brk ek) bs bc n i (nth i rins []) (nth i acc0s []) (nth i accbs []) (nth i faccbs []) ct in
      MKExternalProdGLWETo w N P pa pr bm (map ek_crs eks) i (ek_u0 ek) (ek_u1 ek) buf rbuf f out out
    else out) out.
(** 30-41 BootstrapLUTTo; D = N is the sub parameters' GLWEDimension. *)
Definition MKBootstrapLUTTo (ksFirst : bool) (ms : Z -> Z) (pa pr pBR pKS : gadget) (bm : list bool) (eks : list evalKey) (bs bc n : nat)
    (rins : list (list Z)) (acc0s accbs : list (list (list Z))) (faccbs : list (list (list (list Z)))) (buf rbuf rotBuf : list (list Z)) (ksBuf extBuf ctOut ct : list Z) (lut : list (list Z)) : list Z :=
  let br c := MKBlindRotateTo ms pa pr pBR bm eks bs bc n rins acc0s accbs faccbs buf rbuf rotBuf c (nth 0 lut []) in
  if ksFirst then AsLWECiphertextTo w N 0 ctOut (br (MKDefaultKeySwitchTo n N pKS bm (map ek_ksk eks) ksBuf ct))
  else MKDefaultKeySwitchTo n N pKS bm (map ek_ksk eks) ctOut (AsLWECiphertextTo w N 0 extBuf (br ct)).
End Boot.

(* ------------------------------------------------------------------ *)
(** ** bootstrap_keygen.go *)

(** 11-18 GenEvalKey with tfhe/bootstrap_keygen.go:15-20 (the fields are evaluated in order); n is the sub parameters' LWEDimension,
    sk the party's ring key (its large LWE key, of which the first n bits are the LWE key), aux the binary polynomial drawn for the
    relinearisation key, gbuf the sub encryptor's buf.ctGLWE and sub e.buf.ctSubGLWE. *)
Definition MKGenEvalKey (w logN : Z) (N n : nat) (U G : nat -> Z) (pBR pKS pr : gadget) (crs : list (list Z)) (sk aux : list Z) (gbuf sub : list (list Z)) (st : rst) : evalKey * (list (list Z) * list (list Z) * rst) :=
  let lwe := firstn n sk in
  let fsk := fwdFFT w sk in
  let '(brk, (gbuf, st)) := GenBlindRotateKey w logN N 1 U G [fsk] [sk] lwe pBR gbuf st in
  let '(ksk, st) := GenDefaultKeySwitchKey w U G lwe (skipn n sk) pKS st in
  let '(pk, (sub, st)) := GenCRSPublicKey w logN N G fsk pr crs sub st in
  let '((u0, u1), (sub, st)) := GenRelinKey w logN N U G fsk sk pr crs aux sub st in
  (mkEK brk ksk pk u0 u1, (gbuf, sub, st)).
