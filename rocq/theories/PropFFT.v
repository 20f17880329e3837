(** C12, C13: the transforms of math/poly over exact arithmetic. *)
From Verif Require Import Base NegaRing ModelNum ModelVec ModelPoly ModelFFT SpecNum SpecVec SpecPoly SpecFFT SpecFFTReal
  PfFFT PfFFT2 PfFFT3 PfFFT4 PfFFTReal PfFFT5 PfFFT6.

(** ** C12 *)
Theorem C12_NewEvaluator_total : forall A N n z, exact A N z -> N = (2 ^ n)%nat -> (4 <= n)%nat ->
  exists e, NewEvaluator A N = Ok e /\ e_rank A e = N.
Proof. exact NewEvaluator_ok. Qed.
Print Assumptions C12_NewEvaluator_total.

Theorem C12_NewEvaluator_panics : forall A N,
  ~ (power_of_two (Z.of_nat N) /\ (16 <= N)%nat) -> NewEvaluator A N = Panic.
Proof. exact NewEvaluator_panics. Qed.
Print Assumptions C12_NewEvaluator_panics.

(** The forward network evaluates the folded polynomial, coefficients anywhere in [A]. *)
Theorem C12_forward_network : forall A N z e, exact A N z -> NewEvaluator A N = Ok e ->
  forall v p, length v = N -> folded A N v p ->
  forall n k r, N = (2 ^ n)%nat -> is_bitrev (n - 1) k r -> (k < N / 2)%nat ->
  cplx A (fwdFFTInPlace A v (e_tw A e)) k = evalF A N z p (1 - 4 * Z.of_nat r).
Proof. exact net_folded. Qed.
Print Assumptions C12_forward_network.

Theorem C12_inverse_network : forall A N z e, exact A N z -> NewEvaluator A N = Ok e ->
  forall v, length v = N -> invFFTInPlace A (fwdFFTInPlace A v (e_tw A e)) (e_twInv A e) = v.
Proof. exact net_left. Qed.
Print Assumptions C12_inverse_network.

(** With a division by N/2 that divides every element, the networks are inverse on both sides. *)
Theorem C12_inverse_network_right : forall A N z e, exact A N z -> NewEvaluator A N = Ok e ->
  (forall x, amul A (aofZ A (Z.of_nat (N / 2))) (adivn A x (Z.of_nat (N / 2))) = x) ->
  forall v, length v = N -> fwdFFTInPlace A (invFFTInPlace A v (e_twInv A e)) (e_tw A e) = v.
Proof. exact net_right. Qed.
Print Assumptions C12_inverse_network_right.

Theorem C12_FwdFFT : forall A N z e, exact A N z -> NewEvaluator A N = Ok e ->
  forall (sg : bool) w out p, length out = N -> length p = N ->
  transform A N z (FwdFFTTo A e sg w out p) (pol N (if sg then p else fwdFFT w p)).
Proof. exact FwdFFTTo_spec. Qed.
Print Assumptions C12_FwdFFT.

Theorem C12_FwdFFTAdd : forall A N z e, exact A N z -> NewEvaluator A N = Ok e ->
  forall (sg : bool) w buf out p po, length buf = N -> length p = N -> transform A N z out po ->
  transform A N z (FwdFFTAddTo A e sg w buf out p) (padd po (pol N (if sg then p else fwdFFT w p))).
Proof. exact FwdFFTAddTo_spec. Qed.
Print Assumptions C12_FwdFFTAdd.

Theorem C12_FwdFFTSub : forall A N z e, exact A N z -> NewEvaluator A N = Ok e ->
  forall (sg : bool) w buf out p po, length buf = N -> length p = N -> transform A N z out po ->
  transform A N z (FwdFFTSubTo A e sg w buf out p) (psub po (pol N (if sg then p else fwdFFT w p))).
Proof. exact FwdFFTSubTo_spec. Qed.
Print Assumptions C12_FwdFFTSub.

Theorem C12_transform_unique : forall A N z e, exact A N z -> NewEvaluator A N = Ok e ->
  forall v v' (p : npoly N), transform A N z v p -> transform A N z v' p -> v = v'.
Proof. exact transform_eq. Qed.
Print Assumptions C12_transform_unique.

Theorem C12_pointwise : forall A N z e, exact A N z -> NewEvaluator A N = Ok e ->
  forall o v0 v1 (p0 p1 : npoly N) c, length o = N -> transform A N z v0 p0 -> transform A N z v1 p1 ->
  transform A N z (addCmplxTo A o v0 v1) (padd p0 p1) /\
  transform A N z (subCmplxTo A o v0 v1) (psub p0 p1) /\
  transform A N z (negCmplxTo A o v0) (popp p0) /\
  transform A N z (mulCmplxTo A o v0 v1) (pmul p0 p1) /\
  transform A N z (floatMulCmplxTo A o v0 (aofZ A c)) (pscale c p0).
Proof. exact pointwise. Qed.
Print Assumptions C12_pointwise.

Theorem C12_pointwise_acc : forall A N z e, exact A N z -> NewEvaluator A N = Ok e ->
  forall o v0 v1 (po p0 p1 : npoly N) c, transform A N z o po -> transform A N z v0 p0 -> transform A N z v1 p1 ->
  transform A N z (mulAddCmplxTo A o v0 v1) (padd po (pmul p0 p1)) /\
  transform A N z (mulSubCmplxTo A o v0 v1) (psub po (pmul p0 p1)) /\
  transform A N z (floatMulAddCmplxTo A o v0 (aofZ A c)) (padd po (pscale c p0)) /\
  transform A N z (floatMulSubCmplxTo A o v0 (aofZ A c)) (psub po (pscale c p0)).
Proof. exact pointwise_acc. Qed.
Print Assumptions C12_pointwise_acc.

(** The inverse transforms return the coefficients modulo 2^w, as words ([sg] = false) or signed words. *)
Theorem C12_InvFFT : forall A N z e, exact A N z -> NewEvaluator A N = Ok e -> (forall x, around A (aofZ A x) = x) ->
  forall sg w out v (p : npoly N), 0 <= w -> length out = N -> transform A N z v p ->
  InvFFTTo A e sg w out v = tab N (fun i => twrap sg w (cf p (Z.of_nat i))).
Proof. exact InvFFTTo_spec. Qed.
Print Assumptions C12_InvFFT.

Theorem C12_InvFFTAdd : forall A N z e, exact A N z -> NewEvaluator A N = Ok e -> (forall x, around A (aofZ A x) = x) ->
  forall sg w out v (p : npoly N), 0 <= w -> length out = N -> transform A N z v p ->
  InvFFTAddTo A e sg w out v = tab N (fun i => twrap sg w (nthZ out i + cf p (Z.of_nat i))).
Proof. exact InvFFTAddTo_spec. Qed.
Print Assumptions C12_InvFFTAdd.

Theorem C12_InvFFTSub : forall A N z e, exact A N z -> NewEvaluator A N = Ok e -> (forall x, around A (aofZ A x) = x) ->
  forall sg w out v (p : npoly N), 0 <= w -> length out = N -> transform A N z v p ->
  InvFFTSubTo A e sg w out v = tab N (fun i => twrap sg w (nthZ out i - cf p (Z.of_nat i))).
Proof. exact InvFFTSubTo_spec. Qed.
Print Assumptions C12_InvFFTSub.

Theorem C12_product : forall A N z e, exact A N z -> NewEvaluator A N = Ok e -> (forall x, around A (aofZ A x) = x) ->
  forall sg w out o0 o1 o p q, 0 <= w -> length out = N -> length o0 = N -> length o1 = N -> length o = N ->
  length p = N -> length q = N ->
  let r := InvFFTTo A e sg w out (mulCmplxTo A o (FwdFFTTo A e sg w o0 p) (FwdFFTTo A e sg w o1 q)) in
  length r = N /\ peq (2 ^ w) (pol N r) (pmul (pol N p) (pol N q)).
Proof. exact mul_through. Qed.
Print Assumptions C12_product.

(** The exact integer operations that the scheme models (ModelPoly) use for transformed polynomials are what the
    float operations compute: each float operation maps vectors that hold integer polynomials to a vector that
    holds the result of the corresponding integer operation. *)
Theorem C12_refines_integer_model : forall A N z e, exact A N z -> NewEvaluator A N = Ok e ->
  (forall x, around A (aofZ A x) = x) ->
  (forall w out p, length out = N -> length p = N -> holds A N z (FwdFFTTo A e false w out p) (fwdFFT w p)) /\
  (forall o v0 v1 f0 f1, length o = N -> holds A N z v0 f0 -> holds A N z v1 f1 ->
     holds A N z (addCmplxTo A o v0 v1) (fadd f0 f1) /\ holds A N z (subCmplxTo A o v0 v1) (fsub f0 f1) /\
     holds A N z (negCmplxTo A o v0) (fneg f0) /\ holds A N z (mulCmplxTo A o v0 v1) (fmul N f0 f1)) /\
  (forall o v0 v1 fo f0 f1, holds A N z o fo -> holds A N z v0 f0 -> holds A N z v1 f1 ->
     holds A N z (mulAddCmplxTo A o v0 v1) (fmulAdd N fo f0 f1) /\ holds A N z (mulSubCmplxTo A o v0 v1) (fmulSub N fo f0 f1)) /\
  (forall o d, length o = N -> holds A N z (MonomialFwdFFTTo A e o d) (monomial N d) /\ holds A N z (MonomialSubOneFwdFFTTo A e o d) (monomialSubOne N d)) /\
  (forall w out v f, 0 <= w -> length out = N -> holds A N z v f -> InvFFTTo A e false w out v = invFFT w f) /\
  (forall w out v f, 0 <= w -> length out = N -> holds A N z v f ->
     InvFFTAddTo A e false w out v = invFFTAdd w out f /\ InvFFTSubTo A e false w out v = invFFTSub w out f).
Proof. exact refine_all. Qed.
Print Assumptions C12_refines_integer_model.

(** The real numbers with cos and sin meet the hypotheses at every rank 2^n >= 16. *)
Theorem C12_real_instance : forall N n, N = (2 ^ n)%nat -> (4 <= n)%nat ->
  exact realArith N (zR N) /\ (forall x, around realArith (aofZ realArith x) = x) /\
  exists e, NewEvaluator realArith N = Ok e.
Proof. exact real_instance. Qed.
Print Assumptions C12_real_instance.

Theorem C12_real_product : forall N n, N = (2 ^ n)%nat -> (4 <= n)%nat ->
  exists e, NewEvaluator realArith N = Ok e /\ forall sg w out o0 o1 o p q, 0 <= w ->
    length out = N -> length o0 = N -> length o1 = N -> length o = N -> length p = N -> length q = N ->
    let r := InvFFTTo realArith e sg w out (mulCmplxTo realArith o (FwdFFTTo realArith e sg w o0 p) (FwdFFTTo realArith e sg w o1 q)) in
    length r = N /\ peq (2 ^ w) (pol N r) (pmul (pol N p) (pol N q)).
Proof. exact real_product. Qed.
Print Assumptions C12_real_product.

(** ** C13 *)
Theorem C13_Monomial : forall A N z e, exact A N z -> NewEvaluator A N = Ok e ->
  forall out d, length out = N -> transform A N z (MonomialFwdFFTTo A e out d) (pmono d).
Proof. exact MonomialFwdFFTTo_spec. Qed.
Print Assumptions C13_Monomial.

Theorem C13_MonomialSubOne : forall A N z e, exact A N z -> NewEvaluator A N = Ok e ->
  forall out d, length out = N -> transform A N z (MonomialSubOneFwdFFTTo A e out d) (psub (pmono d) pone).
Proof. exact MonomialSubOneFwdFFTTo_spec. Qed.
Print Assumptions C13_MonomialSubOne.

(** Bit for bit: the direct formula gives the vector that transforming the monomial's coefficients gives. *)
Theorem C13_Monomial_is_forward : forall A N z e, exact A N z -> NewEvaluator A N = Ok e ->
  forall out out' d w, length out = N -> length out' = N ->
  MonomialFwdFFTTo A e out d = FwdFFTTo A e true w out' (monomial N d) /\
  MonomialSubOneFwdFFTTo A e out d = FwdFFTTo A e true w out' (monomialSubOne N d).
Proof. exact mono_forward. Qed.
Print Assumptions C13_Monomial_is_forward.

Theorem C13_Permute : forall A N z e, exact A N z -> NewEvaluator A N = Ok e ->
  forall out fp (p : npoly N) d, Z.of_nat N < 2 ^ 63 -> Z.odd d = true -> length out = N -> transform A N z fp p ->
  exists r, PermuteFFTPolyTo A N out fp d = Some r /\ transform A N z r (psubst d p).
Proof. exact PermuteFFTPolyTo_spec. Qed.
Print Assumptions C13_Permute.

Theorem C13_PermuteAdd : forall A N z e, exact A N z -> NewEvaluator A N = Ok e ->
  forall out fp (po p : npoly N) d, Z.of_nat N < 2 ^ 63 -> Z.odd d = true -> transform A N z out po -> transform A N z fp p ->
  exists r, PermuteAddFFTPolyTo A N out fp d = Some r /\ transform A N z r (padd po (psubst d p)).
Proof. exact PermuteAddFFTPolyTo_spec. Qed.
Print Assumptions C13_PermuteAdd.

Theorem C13_PermuteSub : forall A N z e, exact A N z -> NewEvaluator A N = Ok e ->
  forall out fp (po p : npoly N) d, Z.of_nat N < 2 ^ 63 -> Z.odd d = true -> transform A N z out po -> transform A N z fp p ->
  exists r, PermuteSubFFTPolyTo A N out fp d = Some r /\ transform A N z r (psub po (psubst d p)).
Proof. exact PermuteSubFFTPolyTo_spec. Qed.
Print Assumptions C13_PermuteSub.

Theorem C13_Permute_even_panics : forall A N out fp d, Z.odd d = false ->
  PermuteFFTPolyTo A N out fp d = None /\ PermuteAddFFTPolyTo A N out fp d = None /\ PermuteSubFFTPolyTo A N out fp d = None.
Proof. exact permute_even_all. Qed.
Print Assumptions C13_Permute_even_panics.

(** ** Examples: the field with 97 elements, rank 16.  28 has order 32 modulo 97, z a = cos a + i sin a with
    cos a = (28^a + 28^-a)/2 and sin a = (28^a - 28^-a)/(2 * 28^8).  [around] is the centred residue; division
    by the modulus 2^w is replaced by 0 (no wrap-around occurs in the examples). *)
Definition m97 (x : Z) : Z := x mod 97.
Fixpoint pw97 (n : nat) : Z := match n with O => 1 | S n => m97 (28 * pw97 n) end.
Definition w97 (a : Z) : Z := pw97 (Z.to_nat (a mod 32)).
Fixpoint inv97 (fuel : nat) (k x : Z) : Z := match fuel with O => 0 | S f => if m97 (k * x) =? 1 then k else inv97 f (k + 1) x end.
Definition i97 (x : Z) : Z := inv97 97 1 (m97 x).
Definition c97 (x : Z) : Z := let y := m97 x in if y <? 49 then y else y - 97.
Definition z97 (a : Z) : Z * Z :=
  (m97 ((w97 a + w97 (- a)) * i97 2), m97 ((w97 a - w97 (- a)) * i97 (2 * w97 8))).
Definition A97 : arith := mkArith Z 0 1 (fun x y => m97 (x + y)) (fun x y => m97 (x * y)) (fun x y => m97 (x - y))
  (fun x => m97 (- x)) (fun x n => if 97 <? n then 0 else m97 (x * i97 n)) m97 c97 (fun a b => z97 (a * (32 / b))).
Definition run97 {T} (f : evaluator A97 -> T) : option T := match NewEvaluator A97 16 with Ok e => Some (f e) | _ => None end.
Definition p97 : list Z := [1;2;-1;0;3;0;0;1;-2;0;1;0;0;2;0;-1].
Definition q97 : list Z := [0;1;0;0;-2;0;1;0;0;0;0;0;0;0;0;3].
Definition o97 : list Z := repeat 7 16.

Example C12_ex_product : 
  run97 (fun e => InvFFTTo A97 e true 32 o97 (mulCmplxTo A97 o97 (FwdFFTTo A97 e true 32 o97 p97) (FwdFFTTo A97 e true 32 o97 q97)))
  = Some (nmul 16 p97 q97).
Proof. vm_compute. reflexivity. Qed.
Example C12_ex_roundtrip : run97 (fun e => InvFFTTo A97 e true 32 o97 (FwdFFTTo A97 e true 32 o97 p97)) = Some p97.
Proof. vm_compute. reflexivity. Qed.
Example C12_ex_values : run97 (fun e => let v := FwdFFTTo A97 e true 32 o97 p97 in (cplx A97 v 1, evalF A97 16 z97 (map m97 p97) (1 - 4 * 4)))
  = Some (evalF A97 16 z97 (map m97 p97) (-15), evalF A97 16 z97 (map m97 p97) (-15)).
Proof. vm_compute. reflexivity. Qed.
Example C12_ex_panics : NewEvaluator A97 8 = Panic /\ NewEvaluator A97 24 = Panic /\ NewEvaluator A97 0 = Panic.
Proof. repeat split; vm_compute; reflexivity. Qed.
Example C13_ex_monomial : run97 (fun e => map (fun d => InvFFTTo A97 e true 32 o97 (MonomialFwdFFTTo A97 e o97 d)) [0; 3; 19; -5; 33])
  = Some (map (monomial 16) [0; 3; 19; -5; 33]).
Proof. vm_compute. reflexivity. Qed.
Example C13_ex_permute : run97 (fun e => map (fun d => match PermuteFFTPolyTo A97 16 o97 (FwdFFTTo A97 e true 32 o97 p97) d with
                                                       | Some v => Some (InvFFTTo A97 e true 32 o97 v) | None => None end) [1; 3; 5; -1; 31; 2])
  = Some [Some p97; Some [1;0;0;2;0;-1;-1;2;2;0;0;0;3;-1;-1;0];
          Some [1;2;-1;1;-3;2;0;0;-2;0;-1;-1;0;0;0;0];
          Some [1;1;0;-2;0;0;-1;0;2;-1;0;0;-3;0;1;-2]; Some [1;1;0;-2;0;0;-1;0;2;-1;0;0;-3;0;1;-2]; None].
Proof. vm_compute. reflexivity. Qed.
