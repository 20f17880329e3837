(** Model of GLWE ciphertexts: tfhe/glwe.go, glwe_enc.go, glwe_ops.go, fft_glwe_enc.go,
    fft_glwe_conv.go, fft_glwe_ops.go, product.go and keyswitch.go (GLWE parts).  No proofs in this file.

    A GLWECiphertext is the list of its k+1 coefficient lists (k = glweRank); a GLev the list of its
    levels; a GGSW the list of its rows.  FFT ciphertexts have the same structure, each polynomial being
    the integer polynomial its transform stands for (exact arithmetic, ModelPoly.v).
    [fsk] is SecretKey.FFTGLWEKey, the transforms of the key polynomials.
    Samplers as in ModelLWE.v. *)
From Verif Require Import Base ModelNum ModelVec ModelPoly ModelGadget ModelEncoder ModelLWE.

Section Enc.
Variables (w logN : Z) (N k : nat) (U G : nat -> Z).

(** csprng/gaussian_sampler.go:120-128 SamplePolyAddTo. *)
Definition samplePolyAdd (p : list Z) (st : rst) : list Z * rst :=
  (tab (length p) (fun i => wrap w (nthZ p i + wrap w (G (snd st + i)))), (fst st, (snd st + length p)%nat)).

(** glwe_enc.go:37-44 EncryptGLWEBody. *)
Definition EncryptGLWEBody (fsk ct : list (list Z)) (st : rst) : list (list Z) * rst :=
  let '(ct, st) :=
    forN 0 k (fun i s =>
      let '(c, st) := s in
      let '(m, st) := sampleVec w U (length (nth (S i) c [])) st in
      let c := upd c (S i) m in
      (upd c 0 (ShortFFTPolyMulSubPolyTo false w logN N (nth 0 c []) (nth (S i) c []) (nth i fsk [])), st)) (ct, st) in
  let '(b, st) := samplePolyAdd (nth 0 ct []) st in
  (upd ct 0 b, st).

(** glwe_enc.go:30-33 EncryptGLWEPlaintextTo. *)
Definition EncryptGLWEPlaintextTo (fsk ctOut : list (list Z)) (pt : list Z) (st : rst) : list (list Z) * rst :=
  EncryptGLWEBody fsk (upd ctOut 0 (go_copy (nth 0 ctOut []) pt)) st.

(** glwe_enc.go:66-71 DecryptGLWEPhaseTo. *)
Definition DecryptGLWEPhaseTo (fsk : list (list Z)) (ptOut : list Z) (ct : list (list Z)) : list Z :=
  forN 0 k (fun i o => ShortFFTPolyMulAddPolyTo false w logN N o (nth (S i) ct []) (nth i fsk []))
    (go_copy ptOut (nth 0 ct [])).

(** glwe_enc.go:17-20 EncryptGLWETo and 53-56 DecryptGLWETo (encoding with the parameters' modulus and scale); buf is e.buf.ptGLWE. *)
Definition EncryptGLWETo (mm scale : Z) (fsk : list (list Z)) (buf : list Z) (ctOut : list (list Z)) (messages : list Z) (st : rst) :=
  EncryptGLWEPlaintextTo fsk ctOut (EncodeGLWECustomTo w N buf messages mm scale) st.
Definition DecryptGLWETo (mm scale : Z) (fsk : list (list Z)) (buf messagesOut : list Z) (ct : list (list Z)) : option (list Z) :=
  DecodeGLWECustomTo w N messagesOut (DecryptGLWEPhaseTo fsk buf ct) mm scale.
(** glwe_enc.go:99-104 EncryptGLevPolyTo. *)
Definition EncryptGLevPolyTo (fsk : list (list Z)) (p : gadget) (ctOut : list (list (list Z))) (pt : list Z) (st : rst) :=
  forN 0 (g_level p) (fun i s =>
    let '(o, st) := s in
    let '(ct, st) := EncryptGLWEBody fsk (upd (nth i o []) 0 (vscale w (BaseQ w p i) pt)) st in
    (upd o i ct, st)) (ctOut, st).

(** glwe_enc.go:81-89 (and 139-165): the integer messages as a polynomial in e.buf.ptGLWE (content buf). *)
Definition messagePoly (mm : Z) (buf messages : list Z) : list Z :=
  let len := Nat.min N (length messages) in
  let b := forN 0 len (fun i b => upd b i (wrap w (nthZ messages i) mod mm)) buf in
  firstn len b ++ repeat 0 (length b - len).
Definition EncryptGLevTo (mm : Z) fsk p ctOut buf messages st := EncryptGLevPolyTo fsk p ctOut (messagePoly mm buf messages) st.

(** glwe_enc.go:131-136 DecryptGLevPolyTo. *)
Definition DecryptGLevPolyTo (fsk : list (list Z)) (p : gadget) (pOut : list Z) (ct : list (list (list Z))) : list Z :=
  forN 0 N (fun i o => upd o i (DivRoundBits w (nthZ o i) (LogFirstBaseQ p) mod g_base p))
    (DecryptGLWEPhaseTo fsk pOut (nth 0 ct [])).
(** glwe_enc.go:114-121 DecryptGLevTo. *)
Definition DecryptGLevTo (mm : Z) fsk p (buf messagesOut : list Z) ct : list Z :=
  let pt := DecryptGLevPolyTo fsk p buf ct in
  forN 0 (Nat.min N (length messagesOut)) (fun i o => upd o i (swrap 64 (nthZ pt i mod mm))) messagesOut.

(** glwe_enc.go:168-177 EncryptGGSWPolyTo. *)
Definition EncryptGGSWPolyTo (fsk : list (list Z)) (p : gadget) (ctOut : list (list (list (list Z)))) (pt : list Z) (st : rst) :=
  let '(r0, st) := EncryptGLevPolyTo fsk p (nth 0 ctOut []) pt st in
  forN 0 k (fun i s =>
    let '(o, st) := s in
    let ptGGSW := ShortFFTPolyMulPolyTo false w logN N pt (nth i fsk []) in
    let '(row, st) :=
      forN 0 (g_level p) (fun j s =>
        let '(r, st) := s in
        let '(ct, st) := EncryptGLWEBody fsk (upd (nth j r []) 0 (vscale w (BaseQ w p j) ptGGSW)) st in
        (upd r j ct, st)) (nth (S i) o [], st) in
    (upd o (S i) row, st)) (upd ctOut 0 r0, st).
(** glwe_enc.go:180-197. *)
Definition DecryptGGSWPolyTo fsk p pOut (ct : list (list (list (list Z)))) := DecryptGLevPolyTo fsk p pOut (nth 0 ct []).

(** fft_glwe_conv.go:66-70, 81-85. *)
Definition FwdFFTGLWECiphertextTo (ctOut ct : list (list Z)) : list (list Z) :=
  forN 0 (length ctOut) (fun i o => upd o i (fwdFFT w (nth i ct []))) ctOut.
Definition InvFFTGLWECiphertextTo (ctOut ct : list (list Z)) : list (list Z) :=
  forN 0 (length ct) (fun i o => upd o i (invFFT w (nth i ct []))) ctOut.

(** fft_glwe_enc.go:27-30 and 51-54; buf is e.buf.ctGLWE. *)
Definition EncryptFFTGLWEPlaintextTo fsk (buf ctOut : list (list Z)) (pt : list Z) (st : rst) :=
  let '(b, st) := EncryptGLWEPlaintextTo fsk buf pt st in
  (FwdFFTGLWECiphertextTo ctOut b, (b, st)).
Definition DecryptFFTGLWEPhaseTo fsk (buf : list (list Z)) (ptOut : list Z) (ct : list (list Z)) : list Z :=
  DecryptGLWEPhaseTo fsk ptOut (InvFFTGLWECiphertextTo buf ct).

(** fft_glwe_enc.go:80-87 EncryptFFTGLevPolyTo. *)
Definition EncryptFFTGLevPolyTo fsk (p : gadget) (buf : list (list Z)) (ctOut : list (list (list Z))) (pt : list Z) (st : rst) :=
  forN 0 (g_level p) (fun i s =>
    let '(o, (buf, st)) := s in
    let '(b, st) := EncryptGLWEBody fsk (upd buf 0 (vscale w (BaseQ w p i) pt)) st in
    (upd o i (FwdFFTGLWECiphertextTo (nth i o []) b), (b, st))) (ctOut, (buf, st)).

(** fft_glwe_enc.go:147-158 EncryptFFTGGSWPolyTo. *)
Definition EncryptFFTGGSWPolyTo fsk (p : gadget) (buf : list (list Z)) (ctOut : list (list (list (list Z)))) (pt : list Z) (st : rst) :=
  let '(r0, (buf, st)) := EncryptFFTGLevPolyTo fsk p buf (nth 0 ctOut []) pt st in
  forN 0 k (fun i s =>
    let '(o, (buf, st)) := s in
    let ptGGSW := ShortFFTPolyMulPolyTo false w logN N pt (nth i fsk []) in
    let '(row, (buf, st)) :=
      forN 0 (g_level p) (fun j s =>
        let '(r, (buf, st)) := s in
        let '(b, st) := EncryptGLWEBody fsk (upd buf 0 (vscale w (BaseQ w p j) ptGGSW)) st in
        (upd r j (FwdFFTGLWECiphertextTo (nth j r []) b), (b, st))) (nth (S i) o [], (buf, st)) in
    (upd o (S i) row, (buf, st))) (upd ctOut 0 r0, (buf, st)).

(** keyswitch_keygen.go:15-23 GenGLWEKeySwitchKey (fresh key, all zero). *)
Definition GenGLWEKeySwitchKey fsk (skIn : list (list Z)) (p : gadget) (buf : list (list Z)) (st : rst) :=
  forN 0 (length skIn) (fun i s =>
    let '(o, (buf, st)) := s in
    let '(row, (buf, st)) := EncryptFFTGLevPolyTo fsk p buf (nth i o []) (nth i skIn []) st in
    (upd o i row, (buf, st)))
    (repeat (repeat (repeat (repeat 0 N) (S k)) (g_level p)) (length skIn), (buf, st)).
End Enc.

(* ------------------------------------------------------------------ *)
(** ** glwe_ops.go *)

(** Ciphertext variables; two arguments are the same ciphertext or disjoint. *)
Definition gstore : Type := nat -> list (list Z).
Definition gset (s : gstore) (x : nat) (v : list (list Z)) : gstore := fun y => if Nat.eqb y x then v else s y.

(** [for i := lo; i < k+1; i++ { out[i] = f(out[i], a[i], b[i]) }]; f may panic. *)
Definition gop (lo k : nat) (f : list Z -> list Z -> list Z -> option (list Z)) (s : gstore) (out a b : nat) : option gstore :=
  forN lo (S k - lo) (fun i r =>
    match r with
    | None => None
    | Some s =>
      match f (nth i (s out) []) (nth i (s a) []) (nth i (s b) []) with
      | None => None
      | Some v => Some (gset s out (upd (s out) i v))
      end
    end) (Some s).
(** The same with an operation that cannot panic. *)
Definition gop1 (lo k : nat) (f : list Z -> list Z -> list Z -> list Z) (s : gstore) (out a b : nat) : option gstore :=
  gop lo k (fun o x y => Some (f o x y)) s out a b.

Section Ops.
Variables (w logN : Z) (N k : nat).
(** glwe_ops.go:15-19, 44-48, 73-77, 87-91, 94-98, 101-105. *)
Definition AddGLWETo s out a b := gop1 0 k (fun o x y => vadd w x y) s out a b.
Definition SubGLWETo s out a b := gop1 0 k (fun o x y => vsub w x y) s out a b.
Definition NegGLWETo s out a := gop1 0 k (fun o x y => vneg w x) s out a a.
Definition ScalarMulGLWETo s out a c := gop1 0 k (fun o x y => vscale w c x) s out a a.
Definition ScalarMulAddGLWETo s out a c := gop1 0 k (fun o x y => vscaleAdd w c o x) s out a a.
Definition ScalarMulSubGLWETo s out a c := gop1 0 k (fun o x y => vscaleSub w c o x) s out a a.
(** glwe_ops.go:115-119, 122-126, 129-133: p is a polynomial of its own. *)
Definition PolyMulGLWETo s out a p := gop1 0 k (fun o x y => MulPolyTo false w logN N x p) s out a a.
Definition PolyMulAddGLWETo s out a p := gop1 0 k (fun o x y => MulAddPolyTo false w logN N o x p) s out a a.
Definition PolyMulSubGLWETo s out a p := gop1 0 k (fun o x y => MulSubPolyTo false w logN N o x p) s out a a.
(** glwe_ops.go:143-147, 150-154, 157-161. *)
Definition FFTPolyMulGLWETo s out a fp := gop1 0 k (fun o x y => FFTPolyMulPolyTo w N x fp) s out a a.
Definition FFTPolyMulAddGLWETo s out a fp := gop1 0 k (fun o x y => FFTPolyMulAddPolyTo w N o x fp) s out a a.
Definition FFTPolyMulSubGLWETo s out a fp := gop1 0 k (fun o x y => FFTPolyMulSubPolyTo w N o x fp) s out a a.
(** glwe_ops.go:174-178, 181-185, 190-194, 199-203 (outputs of the non-in-place ones must not overlap ct). *)
Definition MonomialMulGLWETo s out a d := gop1 0 k (fun o x y => MonomialMulPolyTo w N o x d) s out a a.
Definition MonomialMulGLWEInPlace s a d := gop 0 k (fun o x y => MonomialMulPolyInPlace w N x d) s a a a.
Definition MonomialMulAddGLWETo s out a d := gop1 0 k (fun o x y => MonomialMulAddPolyTo w N o x d) s out a a.
Definition MonomialMulSubGLWETo s out a d := gop1 0 k (fun o x y => MonomialMulSubPolyTo w N o x d) s out a a.
(** glwe_ops.go:222-226, 232-236, 244-248, 256-260; pbuf is the evaluator's scratch polynomial. *)
Definition PermuteGLWETo s out a d := gop 0 k (fun o x y => PermutePolyTo w N o x d) s out a a.
Definition PermuteGLWEInPlace s a pbuf d := gop 0 k (fun o x y => PermutePolyInPlace w N pbuf x d) s a a a.
Definition PermuteAddGLWETo s out a d := gop 0 k (fun o x y => PermuteAddPolyTo w N o x d) s out a a.
Definition PermuteSubGLWETo s out a d := gop 0 k (fun o x y => PermuteSubPolyTo w N o x d) s out a a.
(** glwe_ops.go:29-34, 58-63. *)
Definition plainGLWE (f : list Z -> list Z -> list Z) (s : gstore) (out a : nat) (pt : list Z) : option gstore :=
  match gop1 1 k (fun o x y => go_copy o x) s out a a with
  | None => None
  | Some s => Some (gset s out (upd (s out) 0 (f (nth 0 (s a) []) pt)))
  end.
Definition AddPlainGLWETo := plainGLWE (vadd w).
Definition SubPlainGLWETo := plainGLWE (vsub w).

(* ------------------------------------------------------------------ *)
(** ** fft_glwe_ops.go:113-162: products in the transform domain.
    [for i { out[i] = ... }] over the k+1 polynomials, written as a table. *)
Definition fgMul (ct : list (list Z)) (fp : list Z) : list (list Z) := tab (S k) (fun i => fmul N (nth i ct []) fp).
Definition fgMulAdd (out ct : list (list Z)) (fp : list Z) : list (list Z) :=
  tab (S k) (fun i => fmulAdd N (nth i out []) (nth i ct []) fp).
Definition fgMulSub (out ct : list (list Z)) (fp : list Z) : list (list Z) :=
  tab (S k) (fun i => fmulSub N (nth i out []) (nth i ct []) fp).
(** PolyMul(Add)FFTGLWETo: the polynomial is transformed first (e.buf.fpMul). *)
Definition PolyMulFFTGLWETo ct p := fgMul ct (fwdFFT w p).
Definition PolyMulAddFFTGLWETo out ct p := fgMulAdd out ct (fwdFFT w p).

(** [for i { InvFFT{,Add,Sub}ToUnsafe(out[i], f[i]) }]. *)
Definition gInv (f : list (list Z)) : list (list Z) := tab (S k) (fun i => invFFT w (nth i f [])).
Definition gInvAdd (out f : list (list Z)) : list (list Z) := tab (S k) (fun i => invFFTAdd w (nth i out []) (nth i f [])).
Definition gInvSub (out f : list (list Z)) : list (list Z) := tab (S k) (fun i => invFFTSub w (nth i out []) (nth i f [])).

(* ------------------------------------------------------------------ *)
(** ** product.go *)

(** 114-133 GadgetProd{,Add,Sub}FFTGLWETo on transformed digits fd. *)
Definition GadgetProdAddFFTGLWETo (p : gadget) (out : list (list Z)) (lev : list (list (list Z))) (fd : list (list Z)) : list (list Z) :=
  forN 0 (g_level p) (fun j o => fgMulAdd o (nth j lev []) (nth j fd [])) out.
Definition GadgetProdSubFFTGLWETo (p : gadget) (out : list (list Z)) (lev : list (list (list Z))) (fd : list (list Z)) : list (list Z) :=
  forN 0 (g_level p) (fun j o => fgMulSub o (nth j lev []) (nth j fd [])) out.
Definition GadgetProdFFTGLWETo (p : gadget) (lev : list (list (list Z))) (fd : list (list Z)) : list (list Z) :=
  forN 1 (g_level p - 1) (fun j o => fgMulAdd o (nth j lev []) (nth j fd [])) (fgMul (nth 0 lev []) (nth 0 fd [])).

(** Transformed digits of a polynomial (57-63 and gadget decomposition, buffers fresh). *)
Definition fdigits (p : gadget) (c : list Z) : list (list Z) := map (fwdFFT w) (DecomposePoly w p c).

(** 54-73, 76-92, 95-111 GadgetProd{,Add,Sub}GLWETo. *)
Definition GadgetProdGLWETo p lev c := gInv (GadgetProdFFTGLWETo p lev (fdigits p c)).
Definition GadgetProdAddGLWETo p out lev c := gInvAdd out (GadgetProdFFTGLWETo p lev (fdigits p c)).
Definition GadgetProdSubGLWETo p out lev c := gInvSub out (GadgetProdFFTGLWETo p lev (fdigits p c)).

(** 210-229 (the product in e.buf.ctFFTProdGLWE; 232-251 and 254-273 compute the same). *)
Definition extProdGLWE (p : gadget) (ggsw : list (list (list (list Z)))) (ct : list (list Z)) : list (list Z) :=
  let d0 := DecomposePoly w p (nth 0 ct []) in
  let acc := PolyMulFFTGLWETo (nth 0 (nth 0 ggsw []) []) (nth 0 d0 []) in
  let acc := forN 1 (g_level p - 1) (fun j o => PolyMulAddFFTGLWETo o (nth j (nth 0 ggsw []) []) (nth j d0 [])) acc in
  forN 1 k (fun i o =>
    let d := DecomposePoly w p (nth i ct []) in
    forN 0 (g_level p) (fun j o => PolyMulAddFFTGLWETo o (nth j (nth i ggsw []) []) (nth j d [])) o) acc.
Definition ExternalProdGLWETo p ggsw ct := gInv (extProdGLWE p ggsw ct).
Definition ExternalProdAddGLWETo p out ggsw ct := gInvAdd out (extProdGLWE p ggsw ct).
Definition ExternalProdSubGLWETo p out ggsw ct := gInvSub out (extProdGLWE p ggsw ct).

(** 276-305: on transformed digits fd[i][j] of the ciphertext. *)
Definition ExternalProdFFTGLWETo (p : gadget) (ggsw : list (list (list (list Z)))) (fd : list (list (list Z))) : list (list Z) :=
  let acc := fgMul (nth 0 (nth 0 ggsw []) []) (nth 0 (nth 0 fd []) []) in
  let acc := forN 1 (g_level p - 1) (fun j o => fgMulAdd o (nth j (nth 0 ggsw []) []) (nth j (nth 0 fd []) [])) acc in
  forN 1 k (fun i o => forN 0 (g_level p) (fun j o => fgMulAdd o (nth j (nth i ggsw []) []) (nth j (nth i fd []) [])) o) acc.
Definition ExternalProdAddFFTGLWETo (p : gadget) out (ggsw : list (list (list (list Z)))) (fd : list (list (list Z))) : list (list Z) :=
  forN 0 (S k) (fun i o => forN 0 (g_level p) (fun j o => fgMulAdd o (nth j (nth i ggsw []) []) (nth j (nth i fd []) [])) o) out.
Definition ExternalProdSubFFTGLWETo (p : gadget) out (ggsw : list (list (list (list Z)))) (fd : list (list (list Z))) : list (list Z) :=
  forN 0 (S k) (fun i o => forN 0 (g_level p) (fun j o => fgMulSub o (nth j (nth i ggsw []) []) (nth j (nth i fd []) [])) o) out.

(** glwe.go:187-191 CopyFrom. *)
Definition gcopy (dst src : list (list Z)) : list (list Z) :=
  tab (length dst) (fun i => go_copy (nth i dst []) (nth i src [])).
(** 317-321 CMuxTo; e.buf.ctCMux is a variable of its own. *)
Definition CMuxTo (p : gadget) (s : gstore) (out c0 c1 : nat) (ggsw : list (list (list (list Z)))) : gstore :=
  let s := gset s out (gcopy (s out) (s c0)) in
  let d := tab (S k) (fun i => vsub w (nth i (s c1) []) (nth i (s c0) [])) in
  gset s out (ExternalProdAddGLWETo p (s out) ggsw d).

(* ------------------------------------------------------------------ *)
(** ** keyswitch.go:43-64 KeySwitchGLWETo *)
Definition KeySwitchGLWETo (p : gadget) (out ct : list (list Z)) (ksk : list (list (list (list Z)))) : list (list Z) :=
  let acc := GadgetProdFFTGLWETo p (nth 0 ksk []) (fdigits p (nth 1 ct [])) in
  let prod := forN 1 (length ksk - 1) (fun i o => GadgetProdAddFFTGLWETo p o (nth i ksk []) (fdigits p (nth (S i) ct []))) acc in
  let out := upd out 0 (go_copy (nth 0 out []) (nth 0 ct [])) in
  let out := upd out 0 (invFFTAdd w (nth 0 out []) (nth 0 prod [])) in
  forN 0 k (fun i o => upd o (S i) (invFFT w (nth (S i) prod []))) out.
End Ops.

(* ------------------------------------------------------------------ *)
(** ** glwe.go *)

(** 64-71 AsLWEKeyTo. *)
Definition AsLWEKeyTo (N : nat) (skOut : list Z) (sk : list (list Z)) : list Z :=
  forN 0 (length sk) (fun i o =>
    firstn (i * N) o ++ go_copy (firstn N (skipn (i * N) o)) (nth i sk []) ++ skipn ((i + 1) * N) o) skOut.

(** 212-223 AsLWECiphertextTo. *)
Definition AsLWECiphertextTo (w : Z) (N idx : nat) (out : list Z) (ct : list (list Z)) : list Z :=
  forN 0 (length ct - 1) (fun i o =>
    let o := forN 0 (S idx) (fun j o => upd o (1 + i * N + j) (nthZ (nth (S i) ct []) (idx - j))) o in
    forN (S idx) (N - S idx) (fun j o => upd o (1 + i * N + j) (wrap w (- nthZ (nth (S i) ct []) (idx + N - j)))) o)
    (upd out 0 (nthZ (nth 0 ct []) idx)).
