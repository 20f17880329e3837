(** C73: arithmetic on transformed GLWE ciphertexts. *)
From Verif Require Import Base NegaRing ModelNum ModelPoly ModelFFT ModelGLWE ModelFFTOps SpecNum SpecPoly SpecFFT SpecGLWE SpecFFTOps SpecFFTReal PfFFT6 PfFFTOps.
From Coq Require Import Lia.
Open Scope Z_scope.

(** Sums, differences, negation, products with a real and with a complex constant. *)
Theorem C73_linear : forall A N k z e Q, exact A N z -> NewEvaluator A N = Ok e ->
  forall sk o x y px py c, fct_shape N k o -> fct_phase A N z k Q sk x px -> fct_phase A N z k Q sk y py ->
  fct_phase A N z k Q sk (AddFFTGLWETo A k o x y) (padd px py) /\
  fct_phase A N z k Q sk (SubFFTGLWETo A k o x y) (psub px py) /\
  fct_phase A N z k Q sk (NegFFTGLWETo A k o x) (popp px) /\
  fct_phase A N z k Q sk (FloatMulFFTGLWETo A k o x (aofZ A c)) (pscale c px).
Proof. exact linear. Qed.
Print Assumptions C73_linear.

Theorem C73_float_acc : forall A N k z e Q, exact A N z -> NewEvaluator A N = Ok e ->
  forall sk o x po px c, fct_phase A N z k Q sk o po -> fct_phase A N z k Q sk x px ->
  fct_phase A N z k Q sk (FloatMulAddFFTGLWETo A k o x (aofZ A c)) (padd po (pscale c px)) /\
  fct_phase A N z k Q sk (FloatMulSubFFTGLWETo A k o x (aofZ A c)) (psub po (pscale c px)).
Proof. exact float_acc. Qed.
Print Assumptions C73_float_acc.

(** The complex constant a + bi multiplies the phase by a + b X^(N/2). *)
Theorem C73_complex : forall A N k z e Q, exact A N z -> NewEvaluator A N = Ok e ->
  forall sk o x px a b, fct_shape N k o -> fct_phase A N z k Q sk x px ->
  fct_phase A N z k Q sk (CmplxMulFFTGLWETo A k o x (aofZ A a, aofZ A b)) (pmul px (gauss N a b)).
Proof. exact cmplx. Qed.
Print Assumptions C73_complex.

Theorem C73_complex_acc : forall A N k z e Q, exact A N z -> NewEvaluator A N = Ok e ->
  forall sk o x po px a b, fct_phase A N z k Q sk o po -> fct_phase A N z k Q sk x px ->
  fct_phase A N z k Q sk (CmplxMulAddFFTGLWETo A k o x (aofZ A a, aofZ A b)) (padd po (pmul px (gauss N a b))) /\
  fct_phase A N z k Q sk (CmplxMulSubFFTGLWETo A k o x (aofZ A a, aofZ A b)) (psub po (pmul px (gauss N a b))).
Proof. exact cmplx_acc. Qed.
Print Assumptions C73_complex_acc.

(** Products with a transformed polynomial. *)
Theorem C73_fft_poly : forall A N k z e Q, exact A N z -> NewEvaluator A N = Ok e ->
  forall sk o x fp px q, fct_shape N k o -> fct_phase A N z k Q sk x px -> transform A N z fp q ->
  fct_phase A N z k Q sk (FFTPolyMulFFTGLWETo A k o x fp) (pmul px q).
Proof. exact fftpoly. Qed.
Print Assumptions C73_fft_poly.

Theorem C73_fft_poly_acc : forall A N k z e Q, exact A N z -> NewEvaluator A N = Ok e ->
  forall sk o x fp po px q, fct_phase A N z k Q sk o po -> fct_phase A N z k Q sk x px -> transform A N z fp q ->
  fct_phase A N z k Q sk (FFTPolyMulAddFFTGLWETo A k o x fp) (padd po (pmul px q)) /\
  fct_phase A N z k Q sk (FFTPolyMulSubFFTGLWETo A k o x fp) (psub po (pmul px q)).
Proof. exact fftpoly_acc. Qed.
Print Assumptions C73_fft_poly_acc.

(** Products with a polynomial of words, modulo 2^w: one transform (tfhe), or one for each component (mktfhe). *)
Theorem C73_poly : forall A N k z e w, exact A N z -> NewEvaluator A N = Ok e ->
  forall sk o b x px p, fct_shape N k o -> length b = N -> length p = N -> fct_phase A N z k (2 ^ w) sk x px ->
  fct_phase A N z k (2 ^ w) sk (PolyMulFFTGLWETo A k e w b o x p) (pmul px (pol N p)).
Proof. exact polymul. Qed.
Print Assumptions C73_poly.

Theorem C73_poly_acc : forall A N k z e w, exact A N z -> NewEvaluator A N = Ok e ->
  forall sk o b x po px p, fct_phase A N z k (2 ^ w) sk o po -> length b = N -> length p = N -> fct_phase A N z k (2 ^ w) sk x px ->
  fct_phase A N z k (2 ^ w) sk (PolyMulAddFFTGLWETo A k e w b o x p) (padd po (pmul px (pol N p))) /\
  fct_phase A N z k (2 ^ w) sk (PolyMulSubFFTGLWETo A k e w b o x p) (psub po (pmul px (pol N p))).
Proof. exact polymul_acc. Qed.
Print Assumptions C73_poly_acc.

Theorem C73_mk_poly : forall A N k z e w, exact A N z -> NewEvaluator A N = Ok e -> 0 < w ->
  forall sk o b x px p, fct_shape N k o -> length b = N -> length p = N -> fct_phase A N z k (2 ^ w) sk x px ->
  fct_phase A N z k (2 ^ w) sk (mkPolyMul A k (mulCmplxTo A) e w b o x p) (pmul px (pol N p)).
Proof. exact mk_polymul. Qed.
Print Assumptions C73_mk_poly.

Theorem C73_mk_poly_acc : forall A N k z e w, exact A N z -> NewEvaluator A N = Ok e -> 0 < w ->
  forall sk o b x po px p, length o = S k -> fct_phase A N z k (2 ^ w) sk o po -> length b = N -> length p = N -> fct_phase A N z k (2 ^ w) sk x px ->
  fct_phase A N z k (2 ^ w) sk (mkPolyMul A k (mulAddCmplxTo A) e w b o x p) (padd po (pmul px (pol N p))) /\
  fct_phase A N z k (2 ^ w) sk (mkPolyMul A k (mulSubCmplxTo A) e w b o x p) (psub po (pmul px (pol N p))).
Proof. exact mk_polymul_acc. Qed.
Print Assumptions C73_mk_poly_acc.

(** Permutations: under the permuted key, the phase is the permuted phase.  Even exponents panic. *)
Theorem C73_permute : forall A N k z e Q, exact A N z -> NewEvaluator A N = Ok e -> Z.of_nat N < 2 ^ 63 ->
  forall sk sk' o x b px d, fct_shape N k o -> length x = S k -> length b = N -> fct_phase A N z k Q sk x px -> Z.odd d = true ->
  (forall i, (i < k)%nat -> peq Q (pol N (nth i sk' [])) (psubst d (pol N (nth i sk [])))) ->
  (exists o', PermuteFFTGLWETo A k N o x d = Some o' /\ fct_phase A N z k Q sk' o' (psubst d px)) /\
  (exists o', PermuteFFTGLWEInPlace A k N b x d = Some o' /\ fct_phase A N z k Q sk' o' (psubst d px)) /\
  (forall po, fct_phase A N z k Q sk' o po ->
     (exists o', PermuteAddFFTGLWETo A k N o x d = Some o' /\ fct_phase A N z k Q sk' o' (padd po (psubst d px))) /\
     (exists o', PermuteSubFFTGLWETo A k N o x d = Some o' /\ fct_phase A N z k Q sk' o' (psub po (psubst d px)))).
Proof. exact permute. Qed.
Print Assumptions C73_permute.

Theorem C73_permute_even : forall A N k o b x d, Z.odd d = false ->
  PermuteFFTGLWETo A k N o x d = None /\ PermuteAddFFTGLWETo A k N o x d = None /\ PermuteSubFFTGLWETo A k N o x d = None /\
  PermuteFFTGLWEInPlace A k N b x d = None.
Proof. exact permute_panics. Qed.
Print Assumptions C73_permute_even.

(** Into the transform domain and back. *)
Theorem C73_forward : forall A N k z e w, exact A N z -> NewEvaluator A N = Ok e ->
  forall sk o ct, fct_shape N k o -> glwe_ct w N k ct ->
  fct_shape N k (FwdFFTGLWETo A k e w o ct) /\ fct_phase A N z k (2 ^ w) sk (FwdFFTGLWETo A k e w o ct) (gphase N k sk ct).
Proof. exact forward. Qed.
Print Assumptions C73_forward.

Theorem C73_inverse : forall A N k z e w, exact A N z -> NewEvaluator A N = Ok e -> 0 < w ->
  forall sk o x px, (forall y, around A (aofZ A y) = y) -> glwe_ct w N k o -> fct_phase A N z k (2 ^ w) sk x px ->
  glwe_ct w N k (InvFFTGLWETo A k e w o x) /\ peq (2 ^ w) (gphase N k sk (InvFFTGLWETo A k e w o x)) px.
Proof. exact inverse. Qed.
Print Assumptions C73_inverse.

(** Non-vacuity: over the real numbers at rank 16, the product of any ciphertext with 2 + 3i, taken in the transform domain, comes
    back with its phase multiplied by 2 + 3 X^8. *)
Example C73_ex : forall sk ct o fo out, glwe_ct 32 16 1 ct -> fct_shape 16 1 o -> fct_shape 16 1 fo -> glwe_ct 32 16 1 out -> exists e, NewEvaluator realArith 16 = Ok e /\
  peq (2 ^ 32) (gphase 16 1 sk (InvFFTGLWETo realArith 1 e 32 out (CmplxMulFFTGLWETo realArith 1 fo (FwdFFTGLWETo realArith 1 e 32 o ct) (aofZ realArith 2, aofZ realArith 3))))
    (pmul (gphase 16 1 sk ct) (gauss 16 2 3)).
Proof.
  intros sk ct o fo out Hc Ho Hf Hout. destruct (real_instance 16 4 eq_refl (le_n 4)) as (X1 & X2 & e & X3). exists e. split; [exact X3|].
  apply (fun H => proj2 (C73_inverse _ _ _ _ _ 32 X1 X3 ltac:(lia) sk out _ _ X2 Hout H)).
  apply (C73_complex _ _ _ _ _ _ X1 X3 sk fo _ _ 2 3 Hf). apply (C73_forward _ _ _ _ _ 32 X1 X3 sk o ct Ho Hc).
Qed.
Example C73_shapes : glwe_ct 32 16 1 [tab 16 (fun i => Z.of_nat i); tab 16 (fun i => 7 * Z.of_nat i)] /\ fct_shape (F := car realArith) 16 1 [repeat (a0 realArith) 16; repeat (a0 realArith) 16].
Proof.
  split; (split; [reflexivity|]); intros [|[|i]] Hi; try lia; cbn [nth]; try reflexivity; (split; [reflexivity|]);
    apply Forall_tab; intros j Hj; unfold uword; change (2 ^ 32) with 4294967296; lia.
Qed.
Example C73_gauss : forall i, 0 <= i < 16 -> cf (gauss 16 2 3) i = (if i =? 0 then 2 else if i =? 8 then 3 else 0).
Proof.
  intros i Hi. assert (In i (map Z.of_nat (seq 0 16))) as H by (apply in_map_iff; exists (Z.to_nat i); split; [lia|apply in_seq; lia]).
  cbn in H. repeat destruct H as [<- | H]; try reflexivity. contradiction.
Qed.
