(** Lemmas: gadget and external products computed on binary64 transforms are close to the exact ones. *)
From Coq Require Import Floats.SpecFloat.
From Verif Require Import Base NegaRing ModelNum ModelVec ModelPoly ModelAsm ModelF64 ModelFFT ModelF64Arith ModelSplitFFT ModelFused ModelFusedMul ModelGadget ModelGLWE ModelProdFFT SpecNum SpecVec SpecPoly SpecFFT SpecFFTReal SpecRound SpecFused SpecGadget SpecProdFFT
  PfNum PfVec PfPoly PfSplit PfFFT PfFFT2 PfFFT3 PfFFT4 PfFFT6 PfFFTReal PfNetGen PfNetGen2 PfNetB PfRound PfNorm PfErr PfErr2 PfRoundQ PfErr3 PfErr4 PfErrF PfF64Fused PfAvxQ PfSplitFFT PfSplitF64 PfSplitF64b PfErrSum PfAvxKern PfValid PfAvxInv PfNear PfKeep PfSumK PfGadget PfGLWE3.
From Coq Require Import Reals Lra Lia.
Open Scope R_scope.

Section Prod.
Variable cexp : Z -> Z -> spec_float * spec_float.
Notation A := (f64Arith cexp).
Notation Vs := (@List.Forall f64 (fun x : f64 => vb x = true)).
Variables (N lm : nat).
Hypothesis Hlm : (3 <= lm)%nat.
Hypothesis Hlm14 : (lm <= 14)%nat.
Hypothesis HN : N = (2 ^ S lm)%nat.
Notation rep64 := (rep A finF val u64 eta64 del64 N lm).
Notation Q := (1 + kw u64 eta64 del64 lm).
Notation W := 18446744073709551616.
Variable K : kern (car A).
Hypothesis HK : kernNear cexp N lm K.
Variables (w : Z) (k : nat).
Hypothesis Hw : (1 <= w <= 64)%Z.
Variables (X X' : R).
Hypothesis HX : 1 <= X <= 32768 * W.
Hypothesis HX' : 1 <= X' <= 32768 * W.

Lemma N0p : (0 < N)%nat. Proof. clear - HN. rewrite HN. pose proof (Nat.pow_nonzero 2 (S lm)). lia. Qed.
Definition okbuf (o : list (list (car A))) : Prop := forall i, (i <= k)%nat -> length (nth i o []) = N /\ Vs (nth i o []).
Definition KR (a : list (list (car A))) (az : list (list Z)) : Prop := forall i, (i <= k)%nat -> rep64 (S lm) X (nth i a []) (pol N (nth i az [])) /\ Vs (nth i a []).
Definition DR (f : list (car A)) (fz : list Z) : Prop := rep64 (S lm) X' f (pol N fz) /\ Vs f.
Definition SR (c : nat) (s : list (list (car A))) (t : list (list Z)) : Prop :=
  forall i, (i <= k)%nat -> rep64 (2 * lm + 2 + c) (INR c * (X * X')) (nth i s []) (pol N (nth i t [])) /\ Vs (nth i s []) /\ length (nth i t []) = N.
Lemma XXb : 1 <= X * X' <= 32768 * W * (32768 * W).
Proof. split; [clear - HX HX'; nra|apply Rmult_le_compat; lra]. Qed.
Lemma start_ok o a az f fz : okbuf o -> KR a az -> DR f fz -> SR 1 (fgMulK K k o a f) (fgMul N k az fz).
Proof.
  intros Ho Ha [Hf Vf] i Hi. destruct (Ho i Hi) as [Lo Vo]. destruct (Ha i Hi) as [Hr Vr]. unfold fgMulK, fgMul. rewrite !nth_tab by lia.
  split; [|split; [now apply (kn_mul _ _ _ _ HK)|apply nmul_length]]. pose proof OmW as OW.
  unfold fmul. apply (rep_peq A finF val u64 eta64 del64 N lm) with (P := pmul (pol N (nth i az [])) (pol N fz)); [symmetry; apply pol_nmul, N0p|].
  replace (2 * lm + 2 + 1)%nat with (S lm + S lm + 1)%nat by lia. cbn [INR]. rewrite Rmult_1_l.
  apply (ko_mul _ _ _ _ _ _ _ _ _ _ _ (kn_ok _ _ _ _ HK)); try assumption; try lra.
  destruct (Qn64 lm Hlm14 (S lm) ltac:(lia)) as [_ HQ]. apply Rle_trans with (2 * (32768 * W) * (2 * (32768 * W))); [|lra].
  apply Rmult_le_compat; [apply Rmult_le_pos; lra|apply Rmult_le_pos; lra|apply Rmult_le_compat; lra|apply Rmult_le_compat; lra].
Qed.
Lemma step_ok c s t a az f fz : (1 <= c)%nat -> (Z.of_nat (2 * lm + 3 + c) <= 1048576)%Z -> SR c s t -> KR a az -> DR f fz -> SR (S c) (fgMulAddK K k s a f) (fgMulAdd N k t az fz).
Proof.
  intros Hc Hn Hs Ha [Hf Vf] i Hi. destruct (Hs i Hi) as (Hr0 & V0 & Lt). destruct (Ha i Hi) as [Hr Vr]. unfold fgMulAddK, fgMulAdd. rewrite !nth_tab by lia.
  split; [|split; [now apply (kn_acc _ _ _ _ HK)|unfold fmulAdd; rewrite fadd_length, nmul_length, Lt; lia]]. pose proof OmW as OW. pose proof XXb as XX.
  unfold fmulAdd. apply (rep_peq A finF val u64 eta64 del64 N lm) with (P := padd (pol N (nth i t [])) (pmul (pol N (nth i az [])) (pol N fz))).
  { rewrite (pol_fadd N N0p) by (try assumption; apply nmul_length). now rewrite (pol_nmul N N0p). }
  assert (Ic : 0 <= INR c <= 1048576) by (split; [apply pos_INR|rewrite INR_IZR_INZ; apply IZR_le; lia]).
  replace (2 * lm + 2 + S c)%nat with (S (2 * lm + 2 + c)) by lia. rewrite S_INR. replace ((INR c + 1) * (X * X')) with (INR c * (X * X') + X * X') by ring.
  assert (CX : 0 <= INR c * (X * X') <= 1048576 * (32768 * W * (32768 * W))) by (split; [apply Rmult_le_pos; lra|apply Rmult_le_compat; lra]).
  apply (ko_acc _ _ _ _ _ _ _ _ _ _ _ (kn_ok _ _ _ _ HK)) with (n := S lm) (n' := S lm); try assumption; try lra; try lia.
  destruct (Qn64 lm Hlm14 (2 * lm + 2 + c) ltac:(lia)) as [_ HQ]. apply Rle_trans with (2 * (1048577 * (32768 * W * (32768 * W)))); [apply Rmult_le_compat; lra|lra].
Qed.

(** The exact inverse transforms. *)
Definition gInvX (kd : option bool) (out f : list (list Z)) : list (list Z) :=
  match kd with None => gInv w k f | Some false => gInvAdd w k out f | Some true => gInvSub w k out f end.
Lemma accK_diff kd o c t : exists d, (Z.abs d <= Z.abs (c - t))%Z /\ accK kd false w o (twrap false w c) = wrap w (accK kd false w o (wrap w t) + d).
Proof.
  destruct kd as [[|]|]; cbn [accK twrap].
  - exists (t - c)%Z. split; [lia|]. apply (eqm_mod_eq (2 ^ w)). rewrite !wrap_eqm. apply eqm_eq. ring.
  - exists (c - t)%Z. split; [lia|]. apply (eqm_mod_eq (2 ^ w)). rewrite !wrap_eqm. apply eqm_eq. ring.
  - exists (c - t)%Z. split; [lia|]. apply (eqm_mod_eq (2 ^ w)). rewrite !wrap_eqm. apply eqm_eq. ring.
Qed.
Lemma gInvX_nth kd out f i j : (i <= k)%nat -> (j < N)%nat -> length (nth i out []) = N -> length (nth i f []) = N ->
  nthZ (nth i (gInvX kd out f) []) j = accK kd false w (nthZ (nth i out []) j) (wrap w (nthZ (nth i f []) j)).
Proof.
  intros Hi Hj Lo Lf. destruct kd as [[|]|]; cbn [gInvX accK twrap]; unfold gInv, gInvAdd, gInvSub; rewrite nth_tab by lia; unfold invFFTAdd, invFFTSub, invFFT.
  - unfold ModelPoly.vsub; rewrite nthZ_map2 by (rewrite ?map_length; lia). now rewrite nthZ_map by lia.
  - unfold ModelPoly.vadd; rewrite nthZ_map2 by (rewrite ?map_length; lia). now rewrite nthZ_map by lia.
  - now rewrite nthZ_map by lia.
Qed.
Lemma finish_ok kd c s t out D : (1 <= c)%nat -> (Z.of_nat c <= 1000000)%Z -> SR c s t -> (forall i, (i <= k)%nat -> length (nth i out []) = N) ->
  INR (3 * lm + 3 + c) * (29 * u64) * (INR c * (sqrt 2 ^ lm * (X * X') / INR (2 ^ lm))) + / 2 < IZR (D + 1) -> close w N k D (gInvK K w k kd out s) (gInvX kd out t).
Proof.
  intros Hc Hn Hs Ho HD. split; [apply tab_length|]. intros i Hi. destruct (Hs i Hi) as (HR & V & Lt). pose proof OmW as OW. pose proof XXb as XX.
  set (Y := INR c * (X * X')) in *.
  assert (IL : 1 <= INR c <= 1048576) by (rewrite INR_IZR_INZ; split; apply IZR_le; lia).
  assert (HY : 1 <= Y <= 1048576 * (32768 * W * (32768 * W))) by (unfold Y; split; [rewrite <- (Rmult_1_l 1); apply Rmult_le_compat; lra|apply Rmult_le_compat; lra]).
  assert (S2 : 1 <= sqrt 2 ^ lm <= 128).
  { split; [apply pow_ge1, sqrt2_ge1|]. apply Rle_trans with (sqrt 2 ^ 14); [apply pow_le_mono; [apply sqrt2_ge1|exact Hlm14]|]. rewrite <- sqrt2_pow. apply le_of_sq; [lra|]. rewrite sqrt_sqrt by apply pos_INR. rewrite INR_IZR_INZ. change (Z.of_nat (2 ^ 14)) with 16384%Z. lra. }
  destruct (kn_inv _ _ _ _ HK kd false w _ Y _ _ (nth i out []) Hw (proj1 HY) HR V (Ho i Hi)) as (cc & E1 & E2).
  { destruct (Qn64 lm Hlm14 (2 * lm + 2 + c + lm) ltac:(lia)) as [_ HQ].
    apply Rle_trans with (2 * (128 * (1048576 * (32768 * W * (32768 * W))))); [|lra]. apply Rmult_le_compat; [lra|nra|lra|]. apply Rmult_le_compat; lra. }
  assert (EE : (Q ^ (2 * lm + 2 + c + lm + 1) - 1) * (sqrt 2 ^ lm * Y / INR (2 ^ lm)) + / 2 < IZR (D + 1)).
  { eapply Rle_lt_trans; [|exact HD]. apply Rplus_le_compat_r. replace (2 * lm + 2 + c + lm + 1)%nat with (3 * lm + 3 + c)%nat by lia. destruct (Qn64 lm Hlm14 (3 * lm + 3 + c) ltac:(lia)) as [HQ HQ2].
    pose proof (M14' N lm Hlm Hlm14 HN) as HM. replace (INR c * (sqrt 2 ^ lm * (X * X') / INR (2 ^ lm))) with (sqrt 2 ^ lm * Y / INR (2 ^ lm)) by (unfold Y; field; lra).
    apply Rmult_le_compat_r; [|exact HQ]. apply Rmult_le_pos; [apply Rmult_le_pos; lra|]. apply Rlt_le, Rinv_0_lt_compat. lra. }
  unfold gInvK. rewrite nth_tab by lia. rewrite E1. split.
  - split; [apply tab_length|]. apply Forall_tab. intros j Hj. destruct kd as [[|]|]; cbn [accK twrap]; apply wrap_range; lia.
  - intros j Hj. rewrite nthZ_tab by exact Hj. rewrite gInvX_nth by (try assumption; now apply Ho).
    destruct (accK_diff kd (nthZ (nth i out []) j) (cc j) (nthZ (nth i t []) j)) as (d & D1 & D2). exists d. split; [|exact D2].
    apply Z.le_trans with (1 := D1). apply Z.lt_succ_r, lt_IZR. rewrite abs_IZR, minus_IZR. eapply Rle_lt_trans; [|exact EE]. eapply Rle_trans; [|exact (E2 j Hj)]. rewrite cf_pol_at by (exact N0p || assumption). apply Rle_refl.
Qed.
End Prod.

Lemma nth_map_in {S T} (f : S -> T) l i d d' : (i < length l)%nat -> nth i (map f l) d' = f (nth i l d).
Proof. intros H. rewrite (nth_indep _ d' (f d)) by (rewrite map_length; exact H). apply map_nth. Qed.
Section GProd.
Variable cexp : Z -> Z -> spec_float * spec_float.
Notation A := (f64Arith cexp).
Notation Vs := (@List.Forall f64 (fun x : f64 => vb x = true)).
Variables (N lm : nat).
Hypothesis Hlm : (3 <= lm)%nat.
Hypothesis Hlm14 : (lm <= 14)%nat.
Hypothesis HN : N = (2 ^ S lm)%nat.
Variable K : kern (car A).
Hypothesis HK : kernNear cexp N lm K.
Variables (w : Z) (k : nat) (p : gadget).
Hypothesis Hw : (1 <= w <= 64)%Z.
Hypothesis Hp : gadget_ok w p.
Notation b := (g_logBase p).
Notation XK := (XB lm (IZR (2 ^ (w - 1)))).
Notation XD := (XB lm (IZR (2 ^ (b - 1)))).
Notation KR := (KR cexp N lm k XK).
Notation DR := (DR cexp N lm XD).
Notation SR := (SR cexp N lm k XK XD).
Notation rep64 := (rep A finF val u64 eta64 del64 N lm).
Notation W := 18446744073709551616.

Lemma pow64 j : (0 <= j <= 64)%Z -> 1 <= IZR (2 ^ j) <= W.
Proof.
  intros H. split; apply IZR_le; [pose proof (Z.pow_pos_nonneg 2 j); lia|]. change 18446744073709551616%Z with (2 ^ 64)%Z. apply Z.pow_le_mono_r; lia.
Qed.
Lemma bw : (1 <= b < w)%Z. Proof. destruct Hp as (? & _ & _ & _ & ? & _). lia. Qed.
Lemma XKb : 1 <= XK <= 32768 * W. Proof. apply (XBW N lm Hlm Hlm14 HN), pow64. lia. Qed.
Lemma XDb : 1 <= XD <= 32768 * W. Proof. apply (XBW N lm Hlm Hlm14 HN), pow64. pose proof bw. lia. Qed.
Lemma fwdK o q c : length o = N -> length q = N -> (0 <= c <= 64)%Z -> (forall i, (i < N)%nat -> (Z.abs (swrap w (nthZ q i)) <= 2 ^ c)%Z) ->
  rep64 (S lm) (XB lm (IZR (2 ^ c))) (kfwd K false w o q) (pol N (fwdFFT w q)).
Proof.
  intros Lo Lq Hc HB. pose proof (pow64 c Hc) as HP. pose proof (XBW N lm Hlm Hlm14 HN _ HP) as HX. pose proof OmW as OW.
  apply (ko_fwd _ _ _ _ _ _ _ _ _ _ _ (kn_ok _ _ _ _ HK) false); try assumption; try exact Logic.I; try lra.
  - intros i Hi. rewrite <- abs_IZR. apply IZR_le, HB, Hi.
  - destruct (Qn64 lm Hlm14 (S lm) ltac:(lia)) as [_ HQ]. apply Rle_trans with (2 * (32768 * W)); [apply Rmult_le_compat; lra|lra].
Qed.
Lemma key_ok (ct : list (list Z)) : (forall i, (i <= k)%nat -> wpoly w N (nth i ct [])) -> KR (toFFTGLWE K w ct) (map (fwdFFT w) ct).
Proof.
  intros H i Hi. destruct (H i Hi) as [L U]. pose proof (N0p N lm HN) as N0.
  assert (Li : (i < length ct)%nat). { destruct (Nat.lt_ge_cases i (length ct)) as [C|C]; [exact C|]. rewrite nth_overflow in L by exact C. cbn in L. lia. }
  unfold toFFTGLWE. rewrite (nth_map_in (kfwd K false w (kzero K)) ct i [] [] Li), (nth_map_in (fwdFFT w) ct i [] [] Li). split.
  - apply fwdK; [apply (ko_len _ _ _ _ _ _ _ _ _ _ _ (kn_ok _ _ _ _ HK))|exact L|lia|]. intros j Hj. pose proof (swrap_range w (nthZ (nth i ct []) j) ltac:(lia)) as R. unfold sword in R. lia.
  - apply (kn_fwd _ _ _ _ HK), (kn_zero _ _ _ _ HK).
Qed.
Lemma dig_ok o c j : length o = N -> Vs o -> length c = N -> (j < g_level p)%nat -> DR (kfwd K false w o (nth j (DecomposePoly w p c) [])) (fwdFFT w (nth j (DecomposePoly w p c) [])).
Proof.
  intros Lo Vo Lc Hj. rewrite (DecomposePoly_eq w p Hp). pose proof bw as Hb. unfold dpolys. rewrite nth_tab by exact Hj. split; [|now apply (kn_fwd _ _ _ _ HK)].
  apply fwdK; [exact Lo|rewrite map_length; exact Lc|lia|]. intros i Hi. rewrite nthZ_map by lia. pose proof (sdig_range w p Hp (nthZ c i) j) as Hs.
  assert (2 ^ (b - 1) <= 2 ^ (w - 1))%Z by (apply Z.pow_le_mono_r; lia).
  replace (swrap w (wrap w (sdig w p (nthZ c i) j))) with (sdig w p (nthZ c i) j); [lia|].
  rewrite <- (swrap_small w (sdig w p (nthZ c i) j)) at 1 by (unfold sword; lia). unfold swrap. f_equal. apply eqm_mod_eq. rewrite wrap_eqm. reflexivity.
Qed.
Definition keyLev (lev : list (list (list Z))) : Prop := forall j i, (j < g_level p)%nat -> (i <= k)%nat -> wpoly w N (nth i (nth j lev []) []).
Lemma lev_in lev j : keyLev lev -> (j < g_level p)%nat -> (j < length lev)%nat.
Proof.
  intros H Hj. destruct (Nat.lt_ge_cases j (length lev)) as [C|C]; [exact C|]. destruct (H j O Hj ltac:(lia)) as [L _]. rewrite (nth_overflow lev) in L by exact C. cbn in L. pose proof (N0p N lm HN). lia.
Qed.
Lemma lev_ok lev j : keyLev lev -> (j < g_level p)%nat -> KR (nth j (toFFTGLev K w lev) []) (nth j (map (map (fwdFFT w)) lev) []).
Proof.
  intros H Hj. pose proof (lev_in lev j H Hj) as Lj. unfold toFFTGLev. rewrite (nth_map_in (toFFTGLWE K w) lev j [] [] Lj), (nth_map_in (map (fwdFFT w)) lev j [] [] Lj).
  apply key_ok. intros i Hi. now apply H.
Qed.
Definition bufOK (n : nat) (o : list (list (car A))) : Prop := forall i, (i < n)%nat -> length (nth i o []) = N /\ Vs (nth i o []).

Lemma gadget_sum fb o lev c : keyLev lev -> length c = N -> bufOK (g_level p) fb -> bufOK (S k) o -> (Z.of_nat (g_level p) <= 1000000)%Z ->
  SR (g_level p) (GadgetProdFFTGLWEToK K k p o (toFFTGLev K w lev) (fdigitsK K w p fb c)) (GadgetProdFFTGLWETo N k p (map (map (fwdFFT w)) lev) (fdigits w p c)).
Proof.
  intros HL Lc Hfb Ho Hl. assert (L1 : (1 <= g_level p)%nat) by apply Hp.
  assert (HD : forall j, (j < g_level p)%nat -> DR (nth j (fdigitsK K w p fb c) []) (nth j (fdigits w p c) [])).
  { intros j Hj. unfold fdigitsK, fdigits. rewrite nth_tab by exact Hj. rewrite (nth_map_in (fwdFFT w) _ j [] []) by (rewrite (DecomposePoly_eq w p Hp); unfold dpolys; rewrite tab_length; exact Hj). destruct (Hfb j Hj). now apply dig_ok. }
  unfold GadgetProdFFTGLWEToK, GadgetProdFFTGLWETo. replace (g_level p) with (S (g_level p - 1)) at 1 by lia.
  apply (forN_rel (fun i => SR (S i))).
  - apply (start_ok cexp N lm Hlm Hlm14 HN K HK k XK XD XKb XDb); [intros i Hi; apply Ho; lia|apply lev_ok; [exact HL|lia]|apply HD; lia].
  - intros i s t Hi H. apply (step_ok cexp N lm Hlm Hlm14 HN K HK k XK XD XKb XDb); [lia|lia|exact H|apply lev_ok; [exact HL|lia]|apply HD; lia].
Qed.
Definition KRL (ggsw : list (list (list (list Z)))) (i : nat) : Prop := forall j, (j < g_level p)%nat -> KR (nth j (nth i (toFFTGGSW K w ggsw) []) []) (nth j (nth i (map (map (map (fwdFFT w))) ggsw) []) []).
Lemma fwdX_nth ggsw i : keyLev (nth i ggsw []) -> KRL ggsw i.
Proof.
  intros H j Hj. assert (Li : (i < length ggsw)%nat). { destruct (Nat.lt_ge_cases i (length ggsw)) as [C|C]; [exact C|]. rewrite (nth_overflow ggsw) in H by exact C. pose proof (lev_in _ j H Hj) as X. cbn in X. lia. }
  unfold toFFTGGSW. rewrite (nth_map_in (toFFTGLev K w) ggsw i [] [] Li), (nth_map_in (map (map (fwdFFT w))) ggsw i [] [] Li). now apply lev_ok.
Qed.
Lemma ext_sum fm o ggsw ct : (forall i, (i <= k)%nat -> keyLev (nth i ggsw [])) -> (forall i, (i <= k)%nat -> length (nth i ct []) = N) -> length fm = N -> Vs fm -> bufOK (S k) o ->
  (Z.of_nat (S k * g_level p) <= 1000000)%Z ->
  SR (S k * g_level p) (extProdGLWEK K w k p fm o (toFFTGGSW K w ggsw) ct) (extProdGLWE w N k p (map (map (map (fwdFFT w))) ggsw) ct).
Proof.
  intros HG Lct Lfm Vfm Ho Hl. assert (L1 : (1 <= g_level p)%nat) by apply Hp.
  unfold extProdGLWEK, extProdGLWE, PolyMulFFTGLWETo, PolyMulAddFFTGLWETo. cbn zeta.
  apply (forN_rel (fun i => SR (S i * g_level p))).
  - rewrite Nat.mul_1_l. replace (g_level p) with (S (g_level p - 1)) at 1 by lia. apply (forN_rel (fun i => SR (S i))).
    + apply (start_ok cexp N lm Hlm Hlm14 HN K HK k XK XD XKb XDb); [intros i Hi; apply Ho; lia|apply fwdX_nth; [apply HG; lia|lia]|apply dig_ok; try assumption; first [apply Lct; lia|lia]].
    + intros i s t Hi H. apply (step_ok cexp N lm Hlm Hlm14 HN K HK k XK XD XKb XDb); [lia|nia|exact H|apply fwdX_nth; [apply HG; lia|lia]|apply dig_ok; try assumption; first [apply Lct; lia|lia]].
  - intros i s t Hi H. cbn beta. replace (S (S i) * g_level p)%nat with (S i * g_level p + g_level p)%nat by lia.
    apply (forN_rel (fun j => SR (S i * g_level p + j))); [rewrite Nat.add_0_r; exact H|].
    intros j s' t' Hj H'. rewrite Nat.add_succ_r, Nat.add_0_l. apply (step_ok cexp N lm Hlm Hlm14 HN K HK k XK XD XKb XDb); [nia|nia|exact H'|apply fwdX_nth; [apply HG; lia|lia]|apply dig_ok; try assumption; first [apply Lct; lia|lia]].
Qed.
Lemma err_form logN n : logN = Z.of_nat (S lm) ->
  INR (3 * lm + 3 + n) * (29 * u64) * (INR n * (sqrt 2 ^ lm * (XK * XD) / INR (2 ^ lm))) + / 2 = prodErr logN N n (2 ^ (w - 1)) (2 ^ (b - 1)).
Proof.
  intros EL. assert (N2 : N = (2 * 2 ^ lm)%nat) by (rewrite HN; reflexivity). unfold prodErr. f_equal. rewrite XB_mul. pose proof (M14' N lm Hlm Hlm14 HN) as HM. rewrite EL, N2, plus_INR.
  replace (INR (3 * lm + 3)) with (3 * IZR (Z.of_nat (S lm))) by (rewrite !INR_IZR_INZ, <- mult_IZR; f_equal; lia).
  rewrite mult_INR. replace (INR 2 * INR (2 ^ lm) / 2) with (INR (2 ^ lm)) by (cbn [INR]; field). rewrite sqrt2_pow. cbn [INR]. field. lra.
Qed.
Lemma gadget_close logN kd fb o out lev c D : logN = Z.of_nat (S lm) -> keyLev lev -> length c = N -> bufOK (g_level p) fb -> bufOK (S k) o -> (forall i, (i <= k)%nat -> length (nth i out []) = N) ->
  (Z.of_nat (g_level p) <= 1000000)%Z -> prodErr_le w b logN N (g_level p) D ->
  close w N k D (GadgetProdGLWEToK K w k kd p fb o out (toFFTGLev K w lev) c) (gInvX w k kd out (GadgetProdFFTGLWETo N k p (map (map (fwdFFT w)) lev) (fdigits w p c))).
Proof.
  intros EL HL Lc Hfb Ho Hout Hl HD. unfold GadgetProdGLWEToK. apply (finish_ok cexp N lm Hlm Hlm14 HN K HK w k Hw XK XD XKb XDb) with (c := g_level p); try assumption; [apply Hp|now apply gadget_sum|].
  rewrite (err_form logN) by exact EL. exact HD.
Qed.
Lemma ext_close logN kd fm o out ggsw ct D : logN = Z.of_nat (S lm) -> (forall i, (i <= k)%nat -> keyLev (nth i ggsw [])) -> (forall i, (i <= k)%nat -> length (nth i ct []) = N) ->
  length fm = N -> Vs fm -> bufOK (S k) o -> (forall i, (i <= k)%nat -> length (nth i out []) = N) -> (Z.of_nat (S k * g_level p) <= 1000000)%Z -> prodErr_le w b logN N (S k * g_level p) D ->
  close w N k D (ExternalProdGLWEToK K w k kd p fm o out (toFFTGGSW K w ggsw) ct) (gInvX w k kd out (extProdGLWE w N k p (map (map (map (fwdFFT w))) ggsw) ct)).
Proof.
  intros EL HG Lct Lfm Vfm Ho Hout Hl HD. assert (L1 : (1 <= g_level p)%nat) by apply Hp. unfold ExternalProdGLWEToK.
  apply (finish_ok cexp N lm Hlm Hlm14 HN K HK w k Hw XK XD XKb XDb) with (c := (S k * g_level p)%nat); try assumption; [nia|now apply ext_sum|].
  rewrite (err_form logN) by exact EL. exact HD.
Qed.
End GProd.
