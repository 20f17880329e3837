(** Model of the SafeCopy methods.  No proofs in this file.

    What matters about SafeCopy is which memory the copy shares with the original.  Every slice and every stateful
    sampler is a region with an address; an object is the list of addresses behind its fields.  Fields that are plain
    values (Params, rank, q, Index, modSwitchConst, the encoders, which hold Params only) own no region.  [fresh] is make/New. *)
From Verif Require Import Base ModelGadget ModelGLWE ModelMK ModelConc.

(** Allocation: the argument is the next free address. *)
Definition M (A : Type) := nat -> A * nat.
Definition ret {A} (a : A) : M A := fun n => (a, n).
Definition mbind {A B} (c : M A) (f : A -> M B) : M B := fun n => let '(a, n') := c n in f a n'.
Notation "x <- c ;; f" := (mbind c (fun x => f)) (at level 61, c at next level, right associativity).
(** k new regions. *)
Definition fresh (k : nat) : M (list nat) := fun n => (seq n k, (n + k)%nat).
(** Copying a slice of pointers of which some are nil (mktfhe/evaluator.go:178-183, mktfhe/decryptor.go:100-105). *)
Fixpoint copyAll {A} (c : A -> M A) (l : list (option A)) : M (list (option A)) :=
  match l with
  | [] => ret []
  | None :: l => r <- copyAll c l ;; ret (None :: r)
  | Some a :: l => x <- c a ;; r <- copyAll c l ;; ret (Some x :: r)
  end.
Definition opts {A} (f : A -> list nat) (l : list (option A)) : list nat :=
  flat_map (fun o => match o with Some a => f a | None => [] end) l.

(* ------------------------------------------------------------------ *)
(** ** math/poly *)

(** math/poly/poly_evaluator.go:39-79.  Tables tw, twInv, twMono, twMonoIdx; buffers pOut, fpOut, fp, fpInv, pSplit, fpSplit. *)
Record polyEval := { pe_tabs : list nat; pe_buf : list nat }.
Definition pe_ro e := pe_tabs e.
Definition pe_rw e := pe_buf e.
(** math/poly/poly_evaluator.go:190-202 *)
Definition PolyEvaluator_SafeCopy (e : polyEval) : M polyEval :=
  b <- fresh 6 ;; ret {| pe_tabs := pe_tabs e; pe_buf := b |}.

(* ------------------------------------------------------------------ *)
(** ** tfhe *)

(** tfhe/decomposer.go:13-28.  Buffers cDcmp, pDcmp, fpDcmp (grown on demand by their own object only, 61-96). *)
Record decomposer := { dc_pe : polyEval; dc_buf : list nat }.
Definition dc_ro d := pe_ro (dc_pe d).
Definition dc_rw d := pe_rw (dc_pe d) ++ dc_buf d.
(** tfhe/decomposer.go:40-59 *)
Definition Decomposer_SafeCopy (d : decomposer) : M decomposer :=
  b <- fresh 3 ;; p <- PolyEvaluator_SafeCopy (dc_pe d) ;; ret {| dc_pe := p; dc_buf := b |}.

(** tfhe/fft_glwe_conv.go:12-29, mktfhe/fft_glwe_conv.go:9-26: a transformer is its PolyEvaluator. *)
Definition transformer := polyEval.
Definition GLWETransformer_SafeCopy : transformer -> M transformer := PolyEvaluator_SafeCopy.

(** tfhe/evaluator.go:14-76.  Shared: the evaluation key.  Buffers fpMul, ctProdLWE, ctFFTProdGLWE, ctCMux, ctAcc, ctFFTAcc,
    ctFFTBlockAcc, ctAccFFTDcmp, fMono, ctRotate, ctExtract, ctKeySwitch, lut, lutRaw. *)
Record evaluator := { ev_key : list nat; ev_tr : transformer; ev_dc : decomposer; ev_pe : polyEval; ev_buf : list nat }.
Definition ev_ro e := ev_key e ++ pe_ro (ev_tr e) ++ dc_ro (ev_dc e) ++ pe_ro (ev_pe e).
Definition ev_rw e := pe_rw (ev_tr e) ++ dc_rw (ev_dc e) ++ pe_rw (ev_pe e) ++ ev_buf e.
(** tfhe/evaluator.go:148-164 *)
Definition Evaluator_SafeCopy (e : evaluator) : M evaluator :=
  t <- GLWETransformer_SafeCopy (ev_tr e) ;; d <- Decomposer_SafeCopy (ev_dc e) ;; p <- PolyEvaluator_SafeCopy (ev_pe e) ;; b <- fresh 14 ;;
  ret {| ev_key := ev_key e; ev_tr := t; ev_dc := d; ev_pe := p; ev_buf := b |}.

(** tfhe/encryptor.go:14-51.  Shared: the secret key.  Samplers: uniform, binary, gaussian.  Buffers ptGLWE, ctGLWE, ptGGSW. *)
Record encryptor := { en_sk : list nat; en_tr : transformer; en_samplers : list nat; en_pe : polyEval; en_buf : list nat }.
Definition en_ro e := en_sk e ++ pe_ro (en_tr e) ++ pe_ro (en_pe e).
Definition en_rw e := pe_rw (en_tr e) ++ en_samplers e ++ pe_rw (en_pe e) ++ en_buf e.
(** tfhe/encryptor.go:108-125 *)
Definition Encryptor_SafeCopy (e : encryptor) : M encryptor :=
  t <- GLWETransformer_SafeCopy (en_tr e) ;; s <- fresh 3 ;; p <- PolyEvaluator_SafeCopy (en_pe e) ;; b <- fresh 3 ;;
  ret {| en_sk := en_sk e; en_tr := t; en_samplers := s; en_pe := p; en_buf := b |}.

(** tfhe/encryptor_public.go:16-53, 93-110.  Shared: the public key; samplers: binary, gaussian.  Buffers ptGLWE, ctGLWE, auxKey, auxFourierKey. *)
Record pubEncryptor := { pu_pk : list nat; pu_tr : transformer; pu_samplers : list nat; pu_pe : polyEval; pu_buf : list nat }.
Definition pu_ro e := pu_pk e ++ pe_ro (pu_tr e) ++ pe_ro (pu_pe e).
Definition pu_rw e := pe_rw (pu_tr e) ++ pu_samplers e ++ pe_rw (pu_pe e) ++ pu_buf e.
Definition PublicEncryptor_SafeCopy (e : pubEncryptor) : M pubEncryptor :=
  t <- GLWETransformer_SafeCopy (pu_tr e) ;; s <- fresh 2 ;; p <- PolyEvaluator_SafeCopy (pu_pe e) ;; b <- fresh 4 ;;
  ret {| pu_pk := pu_pk e; pu_tr := t; pu_samplers := s; pu_pe := p; pu_buf := b |}.

(** tfhe/binary_evaluator.go:13-48.  Shared: signLUT. *)
Record binEvaluator := { be_lut : list nat; be_ev : evaluator }.
Definition be_ro e := be_lut e ++ ev_ro (be_ev e).
Definition be_rw e := ev_rw (be_ev e).
Definition BinaryEvaluator_SafeCopy (e : binEvaluator) : M binEvaluator :=
  x <- Evaluator_SafeCopy (be_ev e) ;; ret {| be_lut := be_lut e; be_ev := x |}.
(** tfhe/binary_encryptor.go:8-43 and tfhe/binary_encryptor_public.go:8-36: the encryptor and a BinaryEncoder. *)
Definition BinaryEncryptor_SafeCopy : encryptor -> M encryptor := Encryptor_SafeCopy.
Definition BinaryPublicEncryptor_SafeCopy : pubEncryptor -> M pubEncryptor := PublicEncryptor_SafeCopy.

(* ------------------------------------------------------------------ *)
(** ** mktfhe *)

(** mktfhe/evaluator.go:10-79.  Shared: the contents of the parties' keys and the gadget tables.  The slices PartyBitMap, EvalKey and
    SubEvaluators are regions too (AddEvalKey style updates write them).  Buffers: ctProd, ctFFTProd, ctProdSub, ctFFTProdSub, ctRelin,
    ctRelinT, ctRotateIn, ctAccs, ctFFTAccs, ctRotate, ctExtract, ctKeySwitch, lut. *)
Record mkEvaluator := { me_keys : list nat; me_luts : list nat; me_tr : transformer; me_sub : evaluator; me_subs : list (option evaluator);
  me_dc : decomposer; me_pe : polyEval; me_vecs : list nat; me_buf : list nat }.
Definition me_ro e := me_keys e ++ me_luts e ++ pe_ro (me_tr e) ++ ev_ro (me_sub e) ++ opts ev_ro (me_subs e) ++ dc_ro (me_dc e) ++ pe_ro (me_pe e).
Definition me_rw e := pe_rw (me_tr e) ++ ev_rw (me_sub e) ++ opts ev_rw (me_subs e) ++ dc_rw (me_dc e) ++ pe_rw (me_pe e) ++ me_vecs e ++ me_buf e.
(** mktfhe/evaluator.go:177-204; the three vectors are the made slice 178 and the two vec.Copy. *)
Definition MKEvaluator_SafeCopy (e : mkEvaluator) : M mkEvaluator :=
  ss <- copyAll Evaluator_SafeCopy (me_subs e) ;; t <- GLWETransformer_SafeCopy (me_tr e) ;; s <- Evaluator_SafeCopy (me_sub e) ;;
  d <- Decomposer_SafeCopy (me_dc e) ;; p <- PolyEvaluator_SafeCopy (me_pe e) ;; v <- fresh 3 ;; b <- fresh 13 ;;
  ret {| me_keys := me_keys e; me_luts := me_luts e; me_tr := t; me_sub := s; me_subs := ss; me_dc := d; me_pe := p; me_vecs := v; me_buf := b |}.

(** mktfhe/encryptor.go:10-49, 128-143.  Shared: CRS, SecretKey.  Buffers ptGLWE, ctGLWE, auxKey, auxFourierKey, ctSubLWE, ctSubGLWE. *)
Record mkEncryptor := { mn_shared : list nat; mn_tr : transformer; mn_sub : encryptor; mn_buf : list nat }.
Definition mn_ro e := mn_shared e ++ pe_ro (mn_tr e) ++ en_ro (mn_sub e).
Definition mn_rw e := pe_rw (mn_tr e) ++ en_rw (mn_sub e) ++ mn_buf e.
Definition MKEncryptor_SafeCopy (e : mkEncryptor) : M mkEncryptor :=
  t <- GLWETransformer_SafeCopy (mn_tr e) ;; s <- Encryptor_SafeCopy (mn_sub e) ;; b <- fresh 6 ;;
  ret {| mn_shared := mn_shared e; mn_tr := t; mn_sub := s; mn_buf := b |}.

(** mktfhe/encryptor_public.go:8-38, 72-85.  Shared: PublicKey.  Buffers ptGLWE, ctGLWE, ctSubLWE, ctSubGLWE. *)
Record mkPubEncryptor := { mp_shared : list nat; mp_tr : transformer; mp_sub : pubEncryptor; mp_buf : list nat }.
Definition mp_ro e := mp_shared e ++ pe_ro (mp_tr e) ++ pu_ro (mp_sub e).
Definition mp_rw e := pe_rw (mp_tr e) ++ pu_rw (mp_sub e) ++ mp_buf e.
Definition MKPublicEncryptor_SafeCopy (e : mkPubEncryptor) : M mkPubEncryptor :=
  t <- GLWETransformer_SafeCopy (mp_tr e) ;; s <- PublicEncryptor_SafeCopy (mp_sub e) ;; b <- fresh 4 ;;
  ret {| mp_shared := mp_shared e; mp_tr := t; mp_sub := s; mp_buf := b |}.

(** mktfhe/decryptor.go:17-51.  Shared: the secret keys' contents.  Regions: SubDecryptors, PartyBitMap, SecretKeys.
    Buffers ptGLWE, ctGLWE, ctSubLWE, ctSubGLWE. *)
Record mkDecryptor := { md_shared : list nat; md_tr : transformer; md_subs : list (option encryptor); md_vecs : list nat; md_buf : list nat }.
Definition md_ro d := md_shared d ++ pe_ro (md_tr d) ++ opts en_ro (md_subs d).
Definition md_rw d := pe_rw (md_tr d) ++ opts en_rw (md_subs d) ++ md_vecs d ++ md_buf d.
(** mktfhe/decryptor.go:99-119, with buf: d.buf on line 117. *)
Definition MKDecryptor_SafeCopy (d : mkDecryptor) : M mkDecryptor :=
  ss <- copyAll Encryptor_SafeCopy (md_subs d) ;; t <- GLWETransformer_SafeCopy (md_tr d) ;; v <- fresh 3 ;;
  ret {| md_shared := md_shared d; md_tr := t; md_subs := ss; md_vecs := v; md_buf := md_buf d |}.
(** Not in the code: the same with buf: newDecryptorBuffer(d.Params). *)
Definition MKDecryptor_SafeCopy_fixed (d : mkDecryptor) : M mkDecryptor :=
  ss <- copyAll Encryptor_SafeCopy (md_subs d) ;; t <- GLWETransformer_SafeCopy (md_tr d) ;; v <- fresh 3 ;; b <- fresh 4 ;;
  ret {| md_shared := md_shared d; md_tr := t; md_subs := ss; md_vecs := v; md_buf := b |}.

(** mktfhe/binary_evaluator.go:9-42.  Shared: signLUT. *)
Record mkBinEvaluator := { mb_lut : list nat; mb_ev : mkEvaluator }.
Definition mb_ro e := mb_lut e ++ me_ro (mb_ev e).
Definition mb_rw e := me_rw (mb_ev e).
Definition MKBinaryEvaluator_SafeCopy (e : mkBinEvaluator) : M mkBinEvaluator :=
  x <- MKEvaluator_SafeCopy (mb_ev e) ;; ret {| mb_lut := mb_lut e; mb_ev := x |}.
(** mktfhe/binary_encryptor.go:36-42, binary_encryptor_public.go:25-31, binary_decryptor.go:25-31. *)
Definition MKBinaryEncryptor_SafeCopy : mkEncryptor -> M mkEncryptor := MKEncryptor_SafeCopy.
Definition MKBinaryPublicEncryptor_SafeCopy : mkPubEncryptor -> M mkPubEncryptor := MKPublicEncryptor_SafeCopy.
Definition MKBinaryDecryptor_SafeCopy : mkDecryptor -> M mkDecryptor := MKDecryptor_SafeCopy.

(* ------------------------------------------------------------------ *)
(** ** xtfhe *)

(** xtfhe/fhew_enc.go:9-27, 60-66.  Buffers skPermute, ctGLWE, ptGGSW. *)
Record fhewEncryptor := { fn_en : encryptor; fn_buf : list nat }.
Definition fn_ro e := en_ro (fn_en e).
Definition fn_rw e := en_rw (fn_en e) ++ fn_buf e.
Definition FHEWEncryptor_SafeCopy (e : fhewEncryptor) : M fhewEncryptor :=
  x <- Encryptor_SafeCopy (fn_en e) ;; b <- fresh 3 ;; ret {| fn_en := x; fn_buf := b |}.

(** xtfhe/fhew_evaluator.go:12-46, 97-109.  Shared: EvalKey, autIdxMap.  Buffers ctFFTAcc, ctFFTAccDcmp, ctPermute, ctRotate, ctExtract, ctKeySwitch, lut. *)
Record fhewEvaluator := { fe_ev : evaluator; fe_shared : list nat; fe_buf : list nat }.
Definition fe_ro e := ev_ro (fe_ev e) ++ fe_shared e.
Definition fe_rw e := ev_rw (fe_ev e) ++ fe_buf e.
Definition FHEWEvaluator_SafeCopy (e : fhewEvaluator) : M fhewEvaluator :=
  x <- Evaluator_SafeCopy (fe_ev e) ;; b <- fresh 7 ;; ret {| fe_ev := x; fe_shared := fe_shared e; fe_buf := b |}.

(** xtfhe/bfv_keygen.go:21-47; CircuitBootstrapKeyGenerator (circuit_bootstrap_key.go:16-39) is one of these. *)
Record bfvKeyGen := { bk_en : encryptor; bk_pe : polyEval }.
Definition bk_ro e := en_ro (bk_en e) ++ pe_ro (bk_pe e).
Definition bk_rw e := en_rw (bk_en e) ++ pe_rw (bk_pe e).
Definition BFVKeyGenerator_SafeCopy (e : bfvKeyGen) : M bfvKeyGen :=
  x <- Encryptor_SafeCopy (bk_en e) ;; p <- PolyEvaluator_SafeCopy (bk_pe e) ;; ret {| bk_en := x; bk_pe := p |}.
Definition CircuitBootstrapKeyGenerator_SafeCopy : bfvKeyGen -> M bfvKeyGen := BFVKeyGenerator_SafeCopy.

(** xtfhe/bfv_evaluator.go:13-41, 70-78.  Shared: EvalKey.  Buffers ctFFTMul, ctTensor, ctFFTTensor, ctPermute, ctPack. *)
Record bfvEvaluator := { bv_ev : evaluator; bv_pe : polyEval; bv_key : list nat; bv_buf : list nat }.
Definition bv_ro e := ev_ro (bv_ev e) ++ pe_ro (bv_pe e) ++ bv_key e.
Definition bv_rw e := ev_rw (bv_ev e) ++ pe_rw (bv_pe e) ++ bv_buf e.
Definition BFVEvaluator_SafeCopy (e : bfvEvaluator) : M bfvEvaluator :=
  x <- Evaluator_SafeCopy (bv_ev e) ;; p <- PolyEvaluator_SafeCopy (bv_pe e) ;; b <- fresh 5 ;;
  ret {| bv_ev := x; bv_pe := p; bv_key := bv_key e; bv_buf := b |}.

(** xtfhe/manylut_evaluator.go:13-43, 81-87.  Buffers ctFFTAcc, ctFFTBlockAcc, ctFFTAccDcmp, fMono, ctRotate, ctExtract, ctKeySwitch, lut. *)
Record manyLUTEvaluator := { ml_ev : evaluator; ml_buf : list nat }.
Definition ml_ro e := ev_ro (ml_ev e).
Definition ml_rw e := ev_rw (ml_ev e) ++ ml_buf e.
Definition ManyLUTEvaluator_SafeCopy (e : manyLUTEvaluator) : M manyLUTEvaluator :=
  x <- Evaluator_SafeCopy (ml_ev e) ;; b <- fresh 8 ;; ret {| ml_ev := x; ml_buf := b |}.

(** xtfhe/circuit_bootstrap.go:14-51, 103-114.  Shared: EvalKey.  Buffers fs, lut, ctFFTDcmp, ctKeySwitch, ctPack, ctRotate, ctFFTGLWEOut, ctGGSWOut. *)
Record circuitBootstrapper := { cb_ml : manyLUTEvaluator; cb_bv : bfvEvaluator; cb_dc : decomposer; cb_key : list nat; cb_buf : list nat }.
Definition cb_ro e := ml_ro (cb_ml e) ++ bv_ro (cb_bv e) ++ dc_ro (cb_dc e) ++ cb_key e.
Definition cb_rw e := ml_rw (cb_ml e) ++ bv_rw (cb_bv e) ++ dc_rw (cb_dc e) ++ cb_buf e.
Definition CircuitBootstrapper_SafeCopy (e : circuitBootstrapper) : M circuitBootstrapper :=
  m <- ManyLUTEvaluator_SafeCopy (cb_ml e) ;; v <- BFVEvaluator_SafeCopy (cb_bv e) ;; d <- Decomposer_SafeCopy (cb_dc e) ;; b <- fresh 8 ;;
  ret {| cb_ml := m; cb_bv := v; cb_dc := d; cb_key := cb_key e; cb_buf := b |}.

(** xtfhe/sanitization.go:14-53, 92-109.  Shared: PublicKey.  Four samplers, each with its own state and table.
    Buffers pGaussian, ctRandGLWE, ctRandLWE, ctReRand, ctRotate, ctKeySwitch, lut. *)
Record sanitizer := { sn_ev : evaluator; sn_pk : list nat; sn_samplers : list nat; sn_buf : list nat }.
Definition sn_ro e := ev_ro (sn_ev e) ++ sn_pk e.
Definition sn_rw e := ev_rw (sn_ev e) ++ sn_samplers e ++ sn_buf e.
Definition Sanitizer_SafeCopy (e : sanitizer) : M sanitizer :=
  x <- Evaluator_SafeCopy (sn_ev e) ;; s <- fresh 4 ;; b <- fresh 7 ;;
  ret {| sn_ev := x; sn_pk := sn_pk e; sn_samplers := s; sn_buf := b |}.

(* ------------------------------------------------------------------ *)
(** ** Using copies from several goroutines *)

(** A cell of a region: address and offset; [UArg i t]: the cells of the arguments and results of the caller in goroutine i. *)
Inductive cell := UReg (a t : nat) | UArg (i t : nat).
Definition cell_dec : forall a b : cell, {a = b} + {a <> b}.
Proof. decide equality; apply Nat.eq_dec. Defined.

(** A history: starting with one object, each step copies one of the objects made so far. *)
Fixpoint copies {O} (copy : O -> M O) (objs : list O) (n : nat) (steps : list nat) : list O * nat :=
  match steps with
  | [] => (objs, n)
  | i :: steps =>
    match nth_error objs i with
    | Some o => let '(o', n') := copy o n in copies copy (objs ++ [o']) n' steps
    | None => copies copy objs n steps
    end
  end.

(** mktfhe/decryptor.go:158-167 DecryptGLWEPhaseTo run by goroutine i on decryptor d.  Entry 3 of the buffers is ctSubGLWE, coefficient t of
    Value[c] at offset c*N+t; the caller's ciphertext is at the offsets c*N+t and ptOut at (1+P)*N+t.  The transformed keys
    fsks and the bit map bm are never written meanwhile and are given as values. *)
Definition decPhase (w logN : Z) (N P : nat) (bm : list bool) (fsks : list (list Z)) (d : mkDecryptor) (i : nat) : prog cell Z unit :=
  let sub c t := UReg (nth 3 (md_buf d) O) (c * N + t)%nat in
  let ct c t := UArg i (c * N + t)%nat in
  bind (cpVec (sub O) (ct O) N) (fun _ =>
  bind (seqN P (fun j =>
    if active bm j then
      bind (cpVec (sub 1%nat) (ct (1 + j)%nat) N) (fun _ =>
      bind (rdMat sub 2 N) (fun s => wrVec (sub O) N (DecryptGLWEPhaseTo w logN N 1 [nth j fsks []] (nth 0 s []) s)))
    else Ret tt)) (fun _ =>
  cpVec (ct (1 + P)%nat) (sub O) N)).
