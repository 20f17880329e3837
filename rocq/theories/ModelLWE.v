(** Model of LWE ciphertexts: tfhe/lwe.go, lwe_enc.go, lwe_ops.go, keyswitch.go (LWE part),
    keyswitch_keygen.go (LWE part), product.go (LWE part), bootstrap.go DefaultKeySwitchTo and
    bootstrap_keygen.go GenDefaultKeySwitchKey.  No proofs in this file.

    An LWECiphertext is the list [body; mask...] of words; a LevCiphertext the list of its levels;
    a GSWCiphertext the list of its rows.  Samplers are oracles: [U i] is the i-th uniform word and
    [G i] the i-th Gaussian sample drawn since the start; a sampler state counts the draws so far.
    Uniform and Gaussian samplers of an Encryptor are separate objects (encryptor.go:60-63).
    Outputs that are completely overwritten and whose old content is not read are not arguments;
    the old content is an argument wherever it is. *)
From Verif Require Import Base ModelNum ModelVec ModelPoly ModelGadget ModelEncoder.

(** Number of uniform words and of Gaussian samples drawn. *)
Definition rst : Type := (nat * nat)%type.

Section Sampling.
Variables (w : Z) (U G : nat -> Z).

(** csprng: UniformSampler.SampleVecTo(v) with len(v) = n (uniform_sampler.go:110-114). *)
Definition sampleVec (n : nat) (st : rst) : list Z * rst :=
  (tab n (fun i => wrap w (U (fst st + i))), ((fst st + n)%nat, snd st)).
(** csprng: GaussianSampler.Sample (gaussian_sampler.go), rounded to T. *)
Definition sampleG (st : rst) : Z * rst := (wrap w (G (snd st)), (fst st, S (snd st))).

(** vec.Dot on slices of equal length (vec.go:158-166); the panic branch of [Dot] is C06's. *)
Definition dot (a b : list Z) : Z := match Dot w a b with Some d => d | None => 0 end.

(** tfhe/lwe_enc.go:33-37 EncryptLWEBody; [ct] holds the plaintext in its body. *)
Definition EncryptLWEBody (sk ct : list Z) (st : rst) : list Z * rst :=
  let '(mask, st) := sampleVec (length ct - 1) st in
  let b1 := wrap w (nthZ ct 0 + wrap w (- dot mask sk)) in
  let '(e, st) := sampleG st in
  (wrap w (b1 + e) :: mask, st).

(** tfhe/lwe_enc.go:26-30 EncryptLWEPlaintextTo. *)
Definition EncryptLWEPlaintextTo (sk ctOut : list Z) (pt : Z) (st : rst) : list Z * rst :=
  EncryptLWEBody sk (upd ctOut 0 pt) st.

(** tfhe/lwe_enc.go:45-48 DecryptLWEPhase. *)
Definition DecryptLWEPhase (sk ct : list Z) : Z := wrap w (nthZ ct 0 + dot (tl ct) sk).

(** tfhe/lwe_enc.go:14-16 EncryptLWETo (9-11 EncryptLWE is the same on a fresh output) and 40-42 DecryptLWE;
    mm and scale are the parameter set's message modulus and scale. *)
Definition EncryptLWETo (mm scale : Z) (sk ctOut : list Z) (message : Z) (st : rst) : list Z * rst :=
  EncryptLWEPlaintextTo sk ctOut (EncodeLWECustom w message mm scale) st.
Definition DecryptLWE (mm scale : Z) (sk ct : list Z) : option Z := DecodeLWECustom w (DecryptLWEPhase sk ct) mm scale.

(** tfhe/lwe_enc.go:68-73 EncryptLevScalarTo. *)
Definition EncryptLevScalarTo (sk : list Z) (p : gadget) (ctOut : list (list Z)) (c : Z) (st : rst) : list (list Z) * rst :=
  forN 0 (g_level p) (fun i s =>
    let '(o, st) := s in
    let ct := upd (nth i o []) 0 (wrap w (Z.shiftl c (LogBaseQ p i))) in
    let '(ct', st) := EncryptLWEBody sk ct st in (upd o i ct', st)) (ctOut, st).

(** tfhe/lwe_enc.go:81-84 DecryptLevScalar. *)
Definition DecryptLevScalar (sk : list Z) (p : gadget) (ct : list (list Z)) : Z :=
  DivRoundBits w (DecryptLWEPhase sk (nth 0 ct [])) (LogFirstBaseQ p) mod g_base p.

(** tfhe/lwe_enc.go:51-58 EncryptLevTo and 76-78 DecryptLev; mm is the message modulus (non-zero). *)
Definition EncryptLevTo (mm : Z) (sk : list Z) (p : gadget) ctOut (message : Z) st :=
  EncryptLevScalarTo sk p ctOut (wrap w message mod mm) st.
Definition DecryptLev (mm : Z) (sk : list Z) (p : gadget) ct : Z := swrap 64 (DecryptLevScalar sk p ct mod mm).

(** tfhe/lwe_enc.go:104-113 EncryptGSWScalarTo. *)
Definition EncryptGSWScalarTo (sk : list Z) (p : gadget) (ctOut : list (list (list Z))) (c : Z) (st : rst)
  : list (list (list Z)) * rst :=
  let '(r0, st) := EncryptLevScalarTo sk p (nth 0 ctOut []) c st in
  forN 0 (length sk) (fun i s =>
    let '(o, st) := s in
    let '(row, st) :=
      forN 0 (g_level p) (fun j s =>
        let '(r, st) := s in
        let ct := upd (nth j r []) 0 (wrap w (Z.shiftl (wrap w (nthZ sk i * c)) (LogBaseQ p j))) in
        let '(ct', st) := EncryptLWEBody sk ct st in (upd r j ct', st)) (nth (S i) o [], st) in
    (upd o (S i) row, st)) (upd ctOut 0 r0, st).

(** tfhe/lwe_enc.go:116-123 DecryptGSW, DecryptGSWScalar. *)
Definition DecryptGSWScalar (sk : list Z) (p : gadget) (ct : list (list (list Z))) : Z := DecryptLevScalar sk p (nth 0 ct []).
Definition DecryptGSW (mm : Z) (sk : list Z) (p : gadget) (ct : list (list (list Z))) : Z := DecryptLev mm sk p (nth 0 ct []).

(** tfhe/keyswitch_keygen.go:4-12 GenLWEKeySwitchKey; the fresh key has all-zero entries of length 1+length sk. *)
Definition GenLWEKeySwitchKey (sk skIn : list Z) (p : gadget) (st : rst) : list (list (list Z)) * rst :=
  forN 0 (length skIn) (fun i s =>
    let '(o, st) := s in
    let '(row, st) := EncryptLevScalarTo sk p (nth i o []) (nthZ skIn i) st in
    (upd o i row, st))
    (repeat (repeat (repeat 0 (S (length sk))) (g_level p)) (length skIn), st).

(** tfhe/bootstrap_keygen.go:111-126 GenDefaultKeySwitchKey: from the tail of the large key
    (skIn = LWELargeKey.Value[LWEDimension:]) to the small key. *)
Definition GenDefaultKeySwitchKey (lwe skIn : list Z) (p : gadget) (st : rst) : list (list (list Z)) * rst :=
  forN 0 (length skIn) (fun i s =>
    let '(o, st) := s in
    let '(row, st) :=
      forN 0 (g_level p) (fun j s =>
        let '(r, st) := s in
        let b0 := wrap w (Z.shiftl (nthZ skIn i) (LogBaseQ p j)) in
        let '(mask, st) := sampleVec (length (nth j r []) - 1) st in
        let b1 := wrap w (b0 + wrap w (- dot mask lwe)) in
        let '(e, st) := sampleG st in
        (upd r j (wrap w (b1 + e) :: mask), st)) (nth i o [], st) in
    (upd o i row, st))
    (repeat (repeat (repeat 0 (S (length lwe))) (g_level p)) (length skIn), st).
End Sampling.

(** tfhe/lwe_ops.go, as functions of the input values (store version below). *)
Definition vscaleAdd (w c : Z) (o a : list Z) : list Z := map2 (fun x y => wrap w (x + wrap w (c * y))) o a.
Definition vscaleSub (w c : Z) (o a : list Z) : list Z := map2 (fun x y => wrap w (x - wrap w (c * y))) o a.

(** A store of ciphertext vectors: Go slices are identified with variable ids; two arguments are
    either the same vector or disjoint. *)
Definition store : Type := nat -> list Z.
Definition sset (s : store) (x : nat) (v : list Z) : store := fun y => if Nat.eqb y x then v else s y.

(** lwe_ops.go:15-17, 27-30, 40-42, 52-55, 65-67, 77-79, 82-84, 87-89.  The kernels read element i of
    the inputs before writing element i of the output, so exact aliasing is reading before writing. *)
Definition AddLWETo (w : Z) (s : store) (out a b : nat) : store := sset s out (vadd w (s a) (s b)).
Definition SubLWETo (w : Z) (s : store) (out a b : nat) : store := sset s out (vsub w (s a) (s b)).
Definition NegLWETo (w : Z) (s : store) (out a : nat) : store := sset s out (vneg w (s a)).
Definition ScalarMulLWETo (w : Z) (s : store) (out a : nat) (c : Z) : store := sset s out (vscale w c (s a)).
Definition ScalarMulAddLWETo (w : Z) (s : store) (out a : nat) (c : Z) : store := sset s out (vscaleAdd w c (s out) (s a)).
Definition ScalarMulSubLWETo (w : Z) (s : store) (out a : nat) (c : Z) : store := sset s out (vscaleSub w c (s out) (s a)).
(** [ctOut.CopyFrom(ct); ctOut.Value[0] += pt]. *)
Definition AddPlainLWETo (w : Z) (s : store) (out a : nat) (pt : Z) : store :=
  let s1 := sset s out (go_copy (s out) (s a)) in
  sset s1 out (upd (s1 out) 0 (wrap w (nthZ (s1 out) 0 + pt))).
Definition SubPlainLWETo (w : Z) (s : store) (out a : nat) (pt : Z) : store :=
  let s1 := sset s out (go_copy (s out) (s a)) in
  sset s1 out (upd (s1 out) 0 (wrap w (nthZ (s1 out) 0 - pt))).

(** Accumulate digits times levels: [for j := j0; j < level { ScalarMulAddTo(acc, lev[j], dcmp[j]) }]. *)
Definition mulAddRow (w : Z) (lo n : nat) (lev : list (list Z)) (d : list Z) (acc : list Z) : list Z :=
  forN lo n (fun j acc => vscaleAdd w (nthZ d j) acc (nth j lev [])) acc.
Definition mulSubRow (w : Z) (lo n : nat) (lev : list (list Z)) (d : list Z) (acc : list Z) : list Z :=
  forN lo n (fun j acc => vscaleSub w (nthZ d j) acc (nth j lev [])) acc.

(** tfhe/product.go:16-44 GadgetProdLWETo, Add, Sub.  The decomposition buffer is fresh here; C14/C15
    show the digits do not depend on its old content. *)
Definition GadgetProdLWETo (w : Z) (p : gadget) (lev : list (list Z)) (c : Z) : list Z :=
  let d := DecomposeScalar w p c in
  mulAddRow w 1 (g_level p - 1) lev d (vscale w (nthZ d 0) (nth 0 lev [])).
Definition GadgetProdAddLWETo (w : Z) (p : gadget) (out : list Z) (lev : list (list Z)) (c : Z) : list Z :=
  mulAddRow w 0 (g_level p) lev (DecomposeScalar w p c) out.
Definition GadgetProdSubLWETo (w : Z) (p : gadget) (out : list Z) (lev : list (list Z)) (c : Z) : list Z :=
  mulSubRow w 0 (g_level p) lev (DecomposeScalar w p c) out.

(** The common part of product.go:143-200: the product in e.buf.ctProdLWE. n = DefaultLWEDimension. *)
Definition extProdLWE (w : Z) (n : nat) (p : gadget) (gsw : list (list (list Z))) (ct : list Z) : list Z :=
  let acc0 := GadgetProdLWETo w p (nth 0 gsw []) (nthZ ct 0) in
  forN 1 n (fun i acc => mulAddRow w 0 (g_level p) (nth i gsw []) (DecomposeScalar w p (nthZ ct i)) acc) acc0.
Definition ExternalProdLWETo (w : Z) n p (out : list Z) gsw (ct : list Z) : list Z := go_copy out (extProdLWE w n p gsw ct).
Definition ExternalProdAddLWETo (w : Z) n p (out : list Z) gsw (ct : list Z) : list Z := vadd w out (extProdLWE w n p gsw ct).
Definition ExternalProdSubLWETo (w : Z) n p (out : list Z) gsw (ct : list Z) : list Z := vsub w out (extProdLWE w n p gsw ct).

(** tfhe/keyswitch.go:13-31 KeySwitchLWETo; nIn = ksk.InputLWEDimension() = len(ksk.Value). *)
Definition KeySwitchLWETo (w : Z) (p : gadget) (out ct : list Z) (ksk : list (list (list Z))) : list Z :=
  let acc0 := GadgetProdLWETo w p (nth 0 ksk []) (nthZ ct 1) in
  let prod := forN 1 (length ksk - 1)
    (fun i acc => mulAddRow w 0 (g_level p) (nth i ksk []) (DecomposeScalar w p (nthZ ct (S i))) acc) acc0 in
  match upd out 0 (wrap w (nthZ ct 0 + nthZ prod 0)) with
  | [] => []
  | b :: rest => b :: go_copy rest (tl prod)
  end.

(** tfhe/bootstrap.go:371-381 DefaultKeySwitchTo. *)
Definition DefaultKeySwitchTo (w : Z) (lweDim glweDim : nat) (p : gadget) (out ct : list Z) (ksk : list (list (list Z))) : list Z :=
  let out := go_copy out (firstn (S lweDim) ct) in
  forN 0 (glweDim - lweDim) (fun ii o =>
    let i := (lweDim + ii)%nat in
    mulAddRow w 0 (g_level p) (nth ii ksk []) (DecomposeScalar w p (nthZ ct (S i))) o) out.
