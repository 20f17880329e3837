(** Model: arithmetic on transformed GLWE ciphertexts, tfhe/fft_glwe_ops.go and mktfhe/fft_glwe_ops.go, over any arithmetic
    of the floats.  The functions that return a new ciphertext are these on fresh output vectors.  In mktfhe the rank k is the
    number of parties (mktfhe/params.go:172-174).  No proofs in this file. *)
From Verif Require Import Base ModelFFT.

Section FFTOps.
Variable A : arith.
Variable k : nat.
Notation F := (car A).
Notation fct := (list (list F)).
(** for i := 0; i < glweRank+1; i++: component i of the output from component i of the arguments. *)
Definition comps (f : list F -> list F -> list F -> list F) (o x y : fct) : fct := tab (S k) (fun i => f (nth i o []) (nth i x []) (nth i y [])).
(** tfhe/fft_glwe_ops.go:15-19, mktfhe/fft_glwe_ops.go:15-19. *)
Definition AddFFTGLWETo (o x y : fct) : fct := comps (addCmplxTo A) o x y.
(** tfhe/fft_glwe_ops.go:29-33, mktfhe/fft_glwe_ops.go:29-33. *)
Definition SubFFTGLWETo (o x y : fct) : fct := comps (subCmplxTo A) o x y.
(** tfhe/fft_glwe_ops.go:43-47, mktfhe/fft_glwe_ops.go:43-47. *)
Definition NegFFTGLWETo (o x : fct) : fct := comps (fun o x _ => negCmplxTo A o x) o x x.
(** tfhe/fft_glwe_ops.go:57-75, mktfhe/fft_glwe_ops.go:57-75. *)
Definition FloatMulFFTGLWETo (o x : fct) (c : F) : fct := comps (fun o x _ => floatMulCmplxTo A o x c) o x x.
Definition FloatMulAddFFTGLWETo (o x : fct) (c : F) : fct := comps (fun o x _ => floatMulAddCmplxTo A o x c) o x x.
Definition FloatMulSubFFTGLWETo (o x : fct) (c : F) : fct := comps (fun o x _ => floatMulSubCmplxTo A o x c) o x x.
(** tfhe/fft_glwe_ops.go:85-103, mktfhe/fft_glwe_ops.go:85-103. *)
Definition CmplxMulFFTGLWETo (o x : fct) (c : F * F) : fct := comps (fun o x _ => cmplxMulCmplxTo A o x c) o x x.
Definition CmplxMulAddFFTGLWETo (o x : fct) (c : F * F) : fct := comps (fun o x _ => cmplxMulAddCmplxTo A o x c) o x x.
Definition CmplxMulSubFFTGLWETo (o x : fct) (c : F * F) : fct := comps (fun o x _ => cmplxMulSubCmplxTo A o x c) o x x.
(** tfhe/fft_glwe_ops.go:144-162, mktfhe/fft_glwe_ops.go:141-159. *)
Definition FFTPolyMulFFTGLWETo (o x : fct) (fp : list F) : fct := comps (fun o x _ => mulCmplxTo A o x fp) o x x.
Definition FFTPolyMulAddFFTGLWETo (o x : fct) (fp : list F) : fct := comps (fun o x _ => mulAddCmplxTo A o x fp) o x x.
Definition FFTPolyMulSubFFTGLWETo (o x : fct) (fp : list F) : fct := comps (fun o x _ => mulSubCmplxTo A o x fp) o x x.
(** tfhe/fft_glwe_ops.go:113-134: the transform of p goes to e.buf.fpMul = b. *)
Definition PolyMulFFTGLWETo (e : evaluator A) (w : Z) (b : list F) (o x : fct) (p : list Z) : fct := FFTPolyMulFFTGLWETo o x (FwdFFTTo A e false w b p).
Definition PolyMulAddFFTGLWETo (e : evaluator A) (w : Z) (b : list F) (o x : fct) (p : list Z) : fct := FFTPolyMulAddFFTGLWETo o x (FwdFFTTo A e false w b p).
Definition PolyMulSubFFTGLWETo (e : evaluator A) (w : Z) (b : list F) (o x : fct) (p : list Z) : fct := FFTPolyMulSubFFTGLWETo o x (FwdFFTTo A e false w b p).
(** mktfhe/fft_glwe_ops.go:113-131 over math/poly/fft_ops.go:141-163: the transform is repeated for each component, in the buffer b of the
    polynomial evaluator.  [mul] is mulCmplxTo, mulAddCmplxTo or mulSubCmplxTo. *)
Definition mkPolyMul (mul : list F -> list F -> list F -> list F) (e : evaluator A) (w : Z) (b : list F) (o x : fct) (p : list Z) : fct :=
  fst (forN 0 (S k) (fun i st => let '(o, b) := st in let b := FwdFFTTo A e false w b p in (upd o i (mul (nth i o []) (nth i x []) b), b)) (o, b)).
(** tfhe/fft_glwe_ops.go:181-220, mktfhe/fft_glwe_ops.go:168-207.  None: panic for even d.  [perm] is PermuteFFTPolyTo, PermuteAddFFTPolyTo
    or PermuteSubFFTPolyTo at rank N. *)
Definition permLoop (perm : list F -> list F -> Z -> option (list F)) (o x : fct) (d : Z) : option fct :=
  forN 0 (S k) (fun i r => match r with None => None | Some o => match perm (nth i o []) (nth i x []) d with None => None | Some v => Some (upd o i v) end end) (Some o).
Definition PermuteFFTGLWETo (N : nat) := permLoop (PermuteFFTPolyTo A N).
Definition PermuteAddFFTGLWETo (N : nat) := permLoop (PermuteAddFFTPolyTo A N).
Definition PermuteSubFFTGLWETo (N : nat) := permLoop (PermuteSubFFTPolyTo A N).
(** tfhe/fft_glwe_ops.go:191-195 over math/poly/fft_ops.go:230-239: through the buffer b, then copied back. *)
Definition PermuteFFTGLWEInPlace (N : nat) (b : list F) (x : fct) (d : Z) : option fct :=
  match forN 0 (S k) (fun i r => match r with None => None | Some (x, b) => match PermuteFFTPolyInPlace A N b (nth i x []) d with None => None | Some v => Some (upd x i v, v) end end) (Some (x, b)) with
  | None => None | Some (x, _) => Some x end.
(** tfhe/fft_glwe_conv.go:67-71, 81-85; mktfhe/fft_glwe_conv.go likewise. *)
Definition FwdFFTGLWETo (e : evaluator A) (w : Z) (o : fct) (ct : list (list Z)) : fct := tab (S k) (fun i => FwdFFTTo A e false w (nth i o []) (nth i ct [])).
Definition InvFFTGLWETo (e : evaluator A) (w : Z) (o : list (list Z)) (x : fct) : list (list Z) := tab (S k) (fun i => InvFFTTo A e false w (nth i o []) (nth i x [])).
End FFTOps.
