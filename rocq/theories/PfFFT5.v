(** Lemmas: the float transforms refine the integer polynomials that the scheme models use; the real instance. *)
From Verif Require Import Base NegaRing ModelNum ModelVec ModelPoly ModelFFT SpecNum SpecVec SpecPoly SpecFFT SpecFFTReal PfNum PfVec PfPoly PfFFT PfFFT2 PfFFT3 PfFFT4 PfFFTReal.

Section Refine.
Variable A : arith.
Variables (N : nat) (z : Z -> car A * car A) (e : evaluator A).
Hypothesis Hex : exact A N z.
Hypothesis He : NewEvaluator A N = Ok e.
Hypothesis Hround : forall x, around A (aofZ A x) = x.

Lemma refine_all : 
  (forall w out p, length out = N -> length p = N -> holds A N z (FwdFFTTo A e false w out p) (fwdFFT w p)) /\
  (forall o v0 v1 f0 f1, length o = N -> holds A N z v0 f0 -> holds A N z v1 f1 ->
     holds A N z (addCmplxTo A o v0 v1) (fadd f0 f1) /\ holds A N z (subCmplxTo A o v0 v1) (fsub f0 f1) /\
     holds A N z (negCmplxTo A o v0) (fneg f0) /\ holds A N z (mulCmplxTo A o v0 v1) (fmul N f0 f1)) /\
  (forall o v0 v1 fo f0 f1, holds A N z o fo -> holds A N z v0 f0 -> holds A N z v1 f1 ->
     holds A N z (mulAddCmplxTo A o v0 v1) (fmulAdd N fo f0 f1) /\ holds A N z (mulSubCmplxTo A o v0 v1) (fmulSub N fo f0 f1)) /\
  (forall o d, length o = N -> holds A N z (MonomialFwdFFTTo A e o d) (monomial N d) /\ holds A N z (MonomialSubOneFwdFFTTo A e o d) (monomialSubOne N d)) /\
  (forall w out v f, 0 <= w -> length out = N -> holds A N z v f -> InvFFTTo A e false w out v = invFFT w f) /\
  (forall w out v f, 0 <= w -> length out = N -> holds A N z v f ->
     InvFFTAddTo A e false w out v = invFFTAdd w out f /\ InvFFTSubTo A e false w out v = invFFTSub w out f).
Proof.
  destruct (NewEvaluator_inv A N z e Hex He) as (lm & Hlm & HN & HF & HI & Hr & HMo & HIdx).
  assert (HN0 := N0 A N lm z Hex Hlm HN).
  assert (Hl2 : forall (f : Z -> Z -> Z) a b, length a = N -> length b = N -> length (map2 f a b) = N).
  { intros f a b Ha Hb. rewrite map2_length. lia. }
  assert (HInv : forall w v f, length f = N -> transform A N z v (pol N f) ->
     forall i, (i < N)%nat -> wrap w (cf (pol N f) (Z.of_nat i)) = nthZ (invFFT w f) i).
  { intros w v f Hf _ i Hi. rewrite cf_pol_at by assumption. unfold invFFT. rewrite nthZ_map by lia. reflexivity. }
  split; [|split; [|split; [|split; [|split]]]].
  - intros w out p Ho Hp. split; [unfold fwdFFT; now rewrite map_length|]. exact (FwdFFTTo_spec A N z e Hex He false w out p Ho Hp).
  - intros o v0 v1 f0 f1 Ho [L0 H0] [L1 H1]. repeat split; try (apply Hl2; assumption).
    + apply (transform_peq A N z _ _ _ (peq_sym 0 _ _ (pol_fadd N HN0 f0 f1 L0 L1))). now apply (add_transform A N lm z Hex Hlm HN).
    + apply (transform_peq A N z _ _ _ (peq_sym 0 _ _ (pol_fadd N HN0 f0 f1 L0 L1))). now apply (add_transform A N lm z Hex Hlm HN).
    + apply (transform_peq A N z _ _ _ (peq_sym 0 _ _ (pol_fsub N HN0 f0 f1 L0 L1))). now apply (sub_transform A N lm z Hex Hlm HN).
    + apply (transform_peq A N z _ _ _ (peq_sym 0 _ _ (pol_fsub N HN0 f0 f1 L0 L1))). now apply (sub_transform A N lm z Hex Hlm HN).
    + unfold fneg. now rewrite map_length.
    + apply (transform_peq A N z _ _ _ (peq_sym 0 _ _ (pol_fneg N HN0 f0 L0))). now apply (neg_transform A N lm z Hex Hlm HN).
    + apply (transform_peq A N z _ _ _ (peq_sym 0 _ _ (pol_fneg N HN0 f0 L0))). now apply (neg_transform A N lm z Hex Hlm HN).
    + unfold fmul, nmul. now rewrite tab_length.
    + apply (transform_peq A N z _ _ _ (peq_sym 0 _ _ (pol_nmul N HN0 f0 f1))). now apply (mul_transform A N lm z Hex Hlm HN).
    + apply (transform_peq A N z _ _ _ (peq_sym 0 _ _ (pol_nmul N HN0 f0 f1))). now apply (mul_transform A N lm z Hex Hlm HN).
  - intros o v0 v1 fo f0 f1 [Lo Ho] [L0 H0] [L1 H1].
    assert (Lm : length (nmul N f0 f1) = N) by (unfold nmul; apply tab_length).
    split; (split; [apply Hl2; assumption|]).
    + apply (transform_peq A N z _ (padd (pol N fo) (pmul (pol N f0) (pol N f1)))).
      * symmetry. unfold fmulAdd. rewrite (pol_fadd N HN0 fo _ Lo Lm). now rewrite (pol_nmul N HN0 f0 f1).
      * now apply (mulAdd_transform A N lm z Hex Hlm HN).
    + apply (transform_peq A N z _ (psub (pol N fo) (pmul (pol N f0) (pol N f1)))).
      * symmetry. unfold fmulSub. rewrite (pol_fsub N HN0 fo _ Lo Lm). now rewrite (pol_nmul N HN0 f0 f1).
      * now apply (mulSub_transform A N lm z Hex Hlm HN).
  - intros o d Ho. split; (split; [apply tab_length|]).
    + apply (transform_peq A N z _ _ _ (peq_sym 0 _ _ (pol_monomial N HN0 d))). now apply (MonomialFwdFFTTo_spec A N z e Hex He).
    + apply (transform_peq A N z _ _ _ (peq_sym 0 _ _ (pol_monomialSubOne N HN0 d))). now apply (MonomialSubOneFwdFFTTo_spec A N z e Hex He).
  - intros w out v f Hw Ho [Lf Hf]. rewrite (InvFFTTo_spec A N z e Hex He Hround false w out v _ Hw Ho Hf).
    assert (Li : length (invFFT w f) = N) by (unfold invFFT; now rewrite map_length).
    apply nthZ_ext; [now rewrite tab_length|]. intros i Hi. rewrite tab_length in Hi. rewrite nthZ_tab by exact Hi. now apply (HInv w v).
  - intros w out v f Hw Ho [Lf Hf].
    assert (Li : length (invFFT w f) = N) by (unfold invFFT; now rewrite map_length).
    rewrite (InvFFTAddTo_spec A N z e Hex He Hround false w out v _ Hw Ho Hf), (InvFFTSubTo_spec A N z e Hex He Hround false w out v _ Hw Ho Hf).
    unfold invFFTAdd, invFFTSub, vadd, vsub.
    split; (apply nthZ_ext; [rewrite tab_length; symmetry; apply Hl2; assumption|]); intros i Hi; rewrite tab_length in Hi;
      rewrite nthZ_tab by exact Hi; rewrite nthZ_map2 by lia; rewrite <- (HInv w v f Lf Hf i Hi); cbn [twrap].
    + apply (twrap_cong false). now rewrite (wrap_eqm w (cf _ _)).
    + apply (twrap_cong false). now rewrite (wrap_eqm w (cf _ _)).
Qed.
End Refine.

(** Real arithmetic: every power-of-two rank from 16 on. *)
Lemma real_evaluator N n : N = (2 ^ n)%nat -> (4 <= n)%nat -> exact realArith N (zR N) /\ exists e, NewEvaluator realArith N = Ok e.
Proof.
  intros En Hn. assert (Hex : exact realArith N (zR N)).
  { apply (real_exact N (n - 1)); [lia|]. rewrite En. f_equal. lia. }
  split; [exact Hex|]. destruct (NewEvaluator_total realArith N n (zR N) Hex En Hn) as (e & He & _). eauto.
Qed.
Lemma real_product N n : N = (2 ^ n)%nat -> (4 <= n)%nat ->
  exists e, NewEvaluator realArith N = Ok e /\ forall sg w out o0 o1 o p q, 0 <= w ->
    length out = N -> length o0 = N -> length o1 = N -> length o = N -> length p = N -> length q = N ->
    let r := InvFFTTo realArith e sg w out (mulCmplxTo realArith o (FwdFFTTo realArith e sg w o0 p) (FwdFFTTo realArith e sg w o1 q)) in
    length r = N /\ peq (2 ^ w) (pol N r) (pmul (pol N p) (pol N q)).
Proof.
  intros En Hn. destruct (real_evaluator N n En Hn) as [Hex [e He]]. exists e. split; [exact He|]. intros.
  apply (mul_through realArith N (zR N) e Hex He real_round); assumption.
Qed.
