(** Lemmas for PropFFT: assembled statements and the right inverse of the networks. *)
From Verif Require Import Base NegaRing ModelNum ModelVec ModelPoly ModelFFT SpecNum SpecVec SpecPoly SpecFFT SpecFFTReal PfNum PfVec PfPoly PfFFT PfFFT2 PfFFT3 PfFFT4 PfFFTReal PfFFT5.

Lemma NewEvaluator_ok A N n z : exact A N z -> N = (2 ^ n)%nat -> (4 <= n)%nat -> exists e, NewEvaluator A N = Ok e /\ e_rank A e = N.
Proof.
  intros Hex En Hn. destruct (NewEvaluator_total A N n z Hex En Hn) as (e & He & _). exists e. split; [exact He|].
  unfold NewEvaluator in He. destruct (negb _); [discriminate|]. destruct (N <? 16)%nat; [discriminate|].
  destruct (genTwiddleFactors A (N / 2)) as [[tw twInv]| |]; [|discriminate|discriminate].
  destruct (BitReverseInPlace _ _); [|discriminate|discriminate]. injection He as <-. reflexivity.
Qed.
Lemma pointwise A N z e : exact A N z -> NewEvaluator A N = Ok e ->
  forall o v0 v1 (p0 p1 : npoly N) c, length o = N -> transform A N z v0 p0 -> transform A N z v1 p1 ->
  transform A N z (addCmplxTo A o v0 v1) (padd p0 p1) /\
  transform A N z (subCmplxTo A o v0 v1) (psub p0 p1) /\
  transform A N z (negCmplxTo A o v0) (popp p0) /\
  transform A N z (mulCmplxTo A o v0 v1) (pmul p0 p1) /\
  transform A N z (floatMulCmplxTo A o v0 (aofZ A c)) (pscale c p0).
Proof.
  intros Hex He. destruct (NewEvaluator_inv A N z e Hex He) as (lm & Hlm & HN & _). intros.
  split; [now apply (add_transform A N lm z Hex Hlm HN)|]. split; [now apply (sub_transform A N lm z Hex Hlm HN)|].
  split; [now apply (neg_transform A N lm z Hex Hlm HN)|]. split; [now apply (mul_transform A N lm z Hex Hlm HN)|].
  now apply (floatMul_transform A N lm z Hex Hlm HN).
Qed.
Lemma pointwise_acc A N z e : exact A N z -> NewEvaluator A N = Ok e ->
  forall o v0 v1 (po p0 p1 : npoly N) c, transform A N z o po -> transform A N z v0 p0 -> transform A N z v1 p1 ->
  transform A N z (mulAddCmplxTo A o v0 v1) (padd po (pmul p0 p1)) /\
  transform A N z (mulSubCmplxTo A o v0 v1) (psub po (pmul p0 p1)) /\
  transform A N z (floatMulAddCmplxTo A o v0 (aofZ A c)) (padd po (pscale c p0)) /\
  transform A N z (floatMulSubCmplxTo A o v0 (aofZ A c)) (psub po (pscale c p0)).
Proof.
  intros Hex He. destruct (NewEvaluator_inv A N z e Hex He) as (lm & Hlm & HN & _). intros.
  split; [now apply (mulAdd_transform A N lm z Hex Hlm HN)|]. split; [now apply (mulSub_transform A N lm z Hex Hlm HN)|].
  split; [now apply (floatMulAdd_transform A N lm z Hex Hlm HN)|]. now apply (floatMulSub_transform A N lm z Hex Hlm HN).
Qed.
Lemma real_instance N n : N = (2 ^ n)%nat -> (4 <= n)%nat ->
  exact realArith N (zR N) /\ (forall x, around realArith (aofZ realArith x) = x) /\ exists e, NewEvaluator realArith N = Ok e.
Proof. intros En Hn. destruct (real_evaluator N n En Hn). split; [assumption|]. split; [exact real_round|assumption]. Qed.
Lemma mono_forward A N z e : exact A N z -> NewEvaluator A N = Ok e ->
  forall out out' d w, length out = N -> length out' = N ->
  MonomialFwdFFTTo A e out d = FwdFFTTo A e true w out' (monomial N d) /\
  MonomialSubOneFwdFFTTo A e out d = FwdFFTTo A e true w out' (monomialSubOne N d).
Proof.
  intros Hex He out out' d w Ho Ho'. destruct (NewEvaluator_inv A N z e Hex He) as (lm & Hlm & HN & _).
  assert (HN0 := N0 A N lm z Hex Hlm HN). split.
  - apply (transform_eq A N z e Hex He) with (p := pmono d); [now apply (MonomialFwdFFTTo_spec A N z e Hex He)|].
    apply (transform_peq A N z _ _ _ (pol_monomial N HN0 d)).
    apply (FwdFFTTo_spec A N z e Hex He true w out' (monomial N d)); [exact Ho'|apply tab_length].
  - apply (transform_eq A N z e Hex He) with (p := psub (pmono d) pone); [now apply (MonomialSubOneFwdFFTTo_spec A N z e Hex He)|].
    apply (transform_peq A N z _ _ _ (pol_monomialSubOne N HN0 d)).
    apply (FwdFFTTo_spec A N z e Hex He true w out' (monomialSubOne N d)); [exact Ho'|apply tab_length].
Qed.
Lemma permute_even_all A N out fp d : Z.odd d = false ->
  PermuteFFTPolyTo A N out fp d = None /\ PermuteAddFFTPolyTo A N out fp d = None /\ PermuteSubFFTPolyTo A N out fp d = None.
Proof. intros H. repeat split; now apply permute_even. Qed.
Lemma net_right A N z e : exact A N z -> NewEvaluator A N = Ok e ->
  (forall x, amul A (aofZ A (Z.of_nat (N / 2))) (adivn A x (Z.of_nat (N / 2))) = x) ->
  forall v, length v = N -> fwdFFTInPlace A (invFFTInPlace A v (e_twInv A e)) (e_tw A e) = v.
Proof.
  intros Hex He HD v Hv. destruct (NewEvaluator_inv A N z e Hex He) as (lm & Hlm & HN & HF & HI & _).
  apply (net_inverse_right A N lm z Hex Hlm HN); try assumption.
  assert (E : (N / 2 = 2 ^ lm)%nat) by (rewrite HN; cbn [Nat.pow]; symmetry; apply (Nat.div_unique _ _ _ 0); lia).
  rewrite <- E. exact HD.
Qed.
