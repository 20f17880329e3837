(** Lemmas: a block of the blind rotation computed on binary64 transforms is close to the exact one. *)
From Coq Require Import Floats.SpecFloat.
From Verif Require Import Base NegaRing ModelNum ModelVec ModelPoly ModelAsm ModelF64 ModelFFT ModelF64Arith ModelSplitFFT ModelFused ModelFusedMul ModelGadget ModelGLWE ModelBoot ModelProdFFT ModelBlindFFT SpecNum SpecVec SpecPoly SpecFFT SpecFFTReal SpecRound SpecFused SpecGadget SpecGLWE SpecProdFFT SpecBlindFFT
  PfNum PfVec PfPoly PfSplit PfFFT PfFFT2 PfFFT3 PfFFT4 PfFFT6 PfFFTReal PfNetGen PfNetGen2 PfNetB PfRound PfNorm PfErr PfErr2 PfRoundQ PfErr3 PfErr4 PfErrF PfF64Fused PfAvxQ PfSplitFFT PfSplitF64 PfSplitF64b PfErrSum PfAvxKern PfValid PfAvxInv PfNear PfKeep PfSumK PfGadget PfGLWE3 PfProdFFT PfMonoF.
From Coq Require Import Reals Lra Lia.
Open Scope R_scope.

Section Block.
Variable cexp : Z -> Z -> spec_float * spec_float.
Notation A := (f64Arith cexp).
Notation Vs := (@List.Forall f64 (fun x : f64 => vb x = true)).
Variables (N lm : nat).
Hypothesis Hlm : (3 <= lm)%nat.
Hypothesis Hlm14 : (lm <= 14)%nat.
Hypothesis HN : N = (2 ^ S lm)%nat.
Variable K : kern (car A).
Hypothesis HK : kernNear cexp N lm K.
Variables (w : Z) (k : nat) (p : gadget).
Hypothesis Hw : (1 <= w <= 64)%Z.
Hypothesis Hp : gadget_ok w p.
Notation b := (g_logBase p).
Notation XK := (XB lm (IZR (2 ^ (w - 1)))).
Notation XD := (XB lm (IZR (2 ^ (b - 1)))).
Notation XM := (XM lm).
Notation KR := (KR cexp N lm k XK).
Notation DR := (DR cexp N lm XD).
Notation SR := (SR cexp N lm k XK XD).
Notation rep64 := (rep A finF val u64 eta64 del64 N lm).
Notation Q := (1 + kw u64 eta64 del64 lm).
Notation W := 18446744073709551616.
Notation bufOK := (bufOK cexp N).

(** Bounds. *)
Notation YY := (XK * XD * XM).
Lemma YYb : 1 <= XK * XD /\ 1 <= YY <= 32768 * W * (32768 * W) * 256.
Proof.
  destruct (XXb XK XD (XKb N lm Hlm Hlm14 HN w Hw) (XDb N lm Hlm Hlm14 HN w p Hw Hp)) as [X1 X2]. pose proof (XMb lm Hlm14) as XM.
  split; [exact X1|]. split; [rewrite <- (Rmult_1_l 1); apply Rmult_le_compat; lra|apply Rmult_le_compat; lra].
Qed.
Lemma OmY : 32768 * W * (32768 * W) * 256 * (1048576 * 1048576) * 65536 <= pw 970.
Proof. pose proof Om_big. lra. Qed.

(** ExternalProdFFTGLWETo on transformed digits. *)
Definition dcOK (fd : list (list (list (car A)))) (ct : list (list Z)) : Prop :=
  forall i j, (i <= k)%nat -> (j < g_level p)%nat -> DR (nth j (nth i fd []) []) (nth j (nth i (fdAll w k p ct) []) []).
Lemma extF_sum fd o ggsw ct : (forall i, (i <= k)%nat -> keyLev N w k p (nth i ggsw [])) -> dcOK fd ct -> bufOK (S k) o -> (Z.of_nat (S k * g_level p) <= 1000000)%Z ->
  SR (S k * g_level p) (ExternalProdFFTGLWEToK K k p o (toFFTGGSW K w ggsw) fd) (ExternalProdFFTGLWETo N k p (map (map (map (fwdFFT w))) ggsw) (fdAll w k p ct)).
Proof.
  intros HG Hd Ho Hl. assert (L1 : (1 <= g_level p)%nat) by apply Hp. pose proof (XKb N lm Hlm Hlm14 HN w Hw) as XKB. pose proof (XDb N lm Hlm Hlm14 HN w p Hw Hp) as XDB.
  assert (HKR : forall i j, (i <= k)%nat -> (j < g_level p)%nat -> KR (nth j (nth i (toFFTGGSW K w ggsw) []) []) (nth j (nth i (map (map (map (fwdFFT w))) ggsw) []) [])).
  { intros i j Hi Hj. apply (fwdX_nth cexp N lm Hlm Hlm14 HN K HK w k p Hw ggsw i); [now apply HG|exact Hj]. }
  unfold ExternalProdFFTGLWEToK, ExternalProdFFTGLWETo. cbn zeta.
  apply (forN_rel (fun i => SR (S i * g_level p))).
  - rewrite Nat.mul_1_l. replace (g_level p) with (S (g_level p - 1)) at 1 by lia. apply (forN_rel (fun i => SR (S i))).
    + apply (start_ok cexp N lm Hlm Hlm14 HN K HK k XK XD XKB XDB); [intros i Hi; apply Ho; lia|apply HKR; lia|apply Hd; lia].
    + intros i s t Hi H. apply (step_ok cexp N lm Hlm Hlm14 HN K HK k XK XD XKB XDB); [lia|nia|exact H|apply HKR; lia|apply Hd; lia].
  - intros i s t Hi H. cbn beta. replace (S (S i) * g_level p)%nat with (S i * g_level p + g_level p)%nat by lia.
    apply (forN_rel (fun j => SR (S i * g_level p + j))); [rewrite Nat.add_0_r; exact H|].
    intros j s' t' Hj H'. rewrite Nat.add_succ_r, Nat.add_0_l. apply (step_ok cexp N lm Hlm Hlm14 HN K HK k XK XD XKB XDB); [nia|nia|exact H'|apply HKR; lia|apply Hd; lia].
Qed.
(** GadgetProdFFTGLWETo on transformed digits of c. *)
Lemma gadF_sum fd o lev c : keyLev N w k p lev -> (forall j, (j < g_level p)%nat -> DR (nth j fd []) (nth j (fdigits w p c) [])) -> bufOK (S k) o -> (Z.of_nat (g_level p) <= 1000000)%Z ->
  SR (g_level p) (GadgetProdFFTGLWEToK K k p o (toFFTGLev K w lev) fd) (GadgetProdFFTGLWETo N k p (map (map (fwdFFT w)) lev) (fdigits w p c)).
Proof.
  intros HL HD Ho Hl. assert (L1 : (1 <= g_level p)%nat) by apply Hp. pose proof (XKb N lm Hlm Hlm14 HN w Hw) as XKB. pose proof (XDb N lm Hlm Hlm14 HN w p Hw Hp) as XDB.
  pose proof (lev_ok cexp N lm Hlm Hlm14 HN K HK w k p Hw lev) as LO.
  unfold GadgetProdFFTGLWEToK, GadgetProdFFTGLWETo. replace (g_level p) with (S (g_level p - 1)) at 1 by lia.
  apply (forN_rel (fun i => SR (S i))).
  - apply (start_ok cexp N lm Hlm Hlm14 HN K HK k XK XD XKB XDB); [intros i Hi; apply Ho; lia|apply LO; [exact HL|lia]|apply HD; lia].
  - intros i s t Hi H. apply (step_ok cexp N lm Hlm Hlm14 HN K HK k XK XD XKB XDB); [lia|lia|exact H|apply LO; [exact HL|lia]|apply HD; lia].
Qed.

(** Sums of m products times X^d - 1 (or another short polynomial). *)
Section Terms.
Variable c : nat.
Hypothesis Hc : (1 <= c)%nat.
Definition TR (m : nat) (s : list (list (car A))) (t : list (list Z)) : Prop :=
  forall i, (i <= k)%nat -> rep64 (2 * lm + 3 + c + m) (INR m * (INR c * YY)) (nth i s []) (pol N (nth i t [])) /\ Vs (nth i s []) /\ length (nth i t []) = N.
Lemma Icb n : (1 <= n)%nat -> (Z.of_nat n <= 1048576)%Z -> 1 <= INR n <= 1048576.
Proof. intros H1 H2. rewrite INR_IZR_INZ. split; apply IZR_le; lia. Qed.
Lemma term_first o s t f z : (Z.of_nat c <= 1000000)%Z -> bufOK (S k) o -> SR c s t -> rep64 1 XM f (pol N z) -> Vs f -> TR 1 (fgMulK K k o s f) (fgMul N k t z).
Proof.
  intros Hn Ho Hs Hf Vf i Hi. destruct (Ho i ltac:(lia)) as [Lo Vo]. destruct (Hs i Hi) as (Hr & Vr & _). unfold fgMulK, fgMul. rewrite !nth_tab by lia.
  split; [|split; [now apply (kn_mul _ _ _ _ HK)|apply nmul_length]]. pose proof OmY as OW. destruct YYb as [X1 [Y1 Y2]]. pose proof (XMb lm Hlm14) as XMB. pose proof (Icb c Hc ltac:(lia)) as IC.
  unfold fmul. apply (rep_peq A finF val u64 eta64 del64 N lm) with (P := pmul (pol N (nth i t [])) (pol N z)); [symmetry; apply pol_nmul, (N0p N lm HN)|].
  replace (2 * lm + 3 + c + 1)%nat with (2 * lm + 2 + c + 1 + 1)%nat by lia. replace (INR 1 * (INR c * YY)) with (INR c * (XK * XD) * XM) by (cbn [INR]; ring).
  assert (CX : 1 <= INR c * (XK * XD)) by (rewrite <- (Rmult_1_l 1); apply Rmult_le_compat; lra).
  apply (ko_mul _ _ _ _ _ _ _ _ _ _ _ (kn_ok _ _ _ _ HK)); try assumption; try lra.
  destruct (Qn64 lm Hlm14 (2 * lm + 2 + c) ltac:(lia)) as [_ HQ]. destruct (Qn64 lm Hlm14 1 ltac:(lia)) as [_ HQ1].
  set (q := Q ^ (2 * lm + 2 + c)) in *. set (q1 := Q ^ 1) in *. replace (q * (INR c * (XK * XD)) * (q1 * XM)) with (q * q1 * (INR c * YY)) by ring.
  apply Rle_trans with (4 * (1048576 * (32768 * W * (32768 * W) * 256))); [|lra]. apply Rmult_le_compat; [nra|nra|nra|apply Rmult_le_compat; lra].
Qed.
Lemma term_next m o u s t f z : (1 <= m)%nat -> (Z.of_nat (c + m) <= 1000000)%Z -> TR m o u -> SR c s t -> rep64 1 XM f (pol N z) -> Vs f -> TR (S m) (fgMulAddK K k o s f) (fgMulAdd N k u t z).
Proof.
  intros Hm Hn Ho Hs Hf Vf i Hi. destruct (Ho i Hi) as (Ro & Vo & Lu). destruct (Hs i Hi) as (Hr & Vr & _). unfold fgMulAddK, fgMulAdd. rewrite !nth_tab by lia.
  split; [|split; [now apply (kn_acc _ _ _ _ HK)|unfold fmulAdd; rewrite fadd_length, nmul_length, Lu; lia]]. pose proof OmY as OW. destruct YYb as [X1 [Y1 Y2]]. pose proof (XMb lm Hlm14) as XMB. pose proof (Icb c Hc ltac:(lia)) as IC. pose proof (Icb (S m) ltac:(lia) ltac:(lia)) as IM.
  unfold fmulAdd. apply (rep_peq A finF val u64 eta64 del64 N lm) with (P := padd (pol N (nth i u [])) (pmul (pol N (nth i t [])) (pol N z))).
  { rewrite (pol_fadd N (N0p N lm HN)) by (try assumption; apply nmul_length). now rewrite (pol_nmul N (N0p N lm HN)). }
  assert (CX : 1 <= INR c * (XK * XD)) by (rewrite <- (Rmult_1_l 1); apply Rmult_le_compat; lra). assert (CY : 1 <= INR c * YY) by (rewrite <- (Rmult_1_l 1); apply Rmult_le_compat; lra).
  replace (2 * lm + 3 + c + S m)%nat with (S (2 * lm + 3 + c + m)) by lia. rewrite S_INR in *. replace ((INR m + 1) * (INR c * YY)) with (INR m * (INR c * YY) + INR c * (XK * XD) * XM) by ring.
  assert (M0 : 0 <= INR m) by apply pos_INR.
  apply (ko_acc _ _ _ _ _ _ _ _ _ _ _ (kn_ok _ _ _ _ HK)) with (n := (2 * lm + 2 + c)%nat) (n' := 1%nat); try assumption; try lra; try lia; [apply Rmult_le_pos; lra|].
  destruct (Qn64 lm Hlm14 (2 * lm + 3 + c + m) ltac:(lia)) as [_ HQ]. replace (INR m * (INR c * YY) + INR c * (XK * XD) * XM) with ((INR m + 1) * (INR c * YY)) by ring.
  assert (CB : INR c * YY <= 1048576 * (32768 * W * (32768 * W) * 256)) by (apply Rmult_le_compat; lra).
  apply Rle_trans with (2 * (1048576 * (1048576 * (32768 * W * (32768 * W) * 256)))); [|lra]. apply Rmult_le_compat; [lra|apply Rmult_le_pos; lra|lra|apply Rmult_le_compat; lra].
Qed.
Lemma terms_end m s t out D : (1 <= m)%nat -> (Z.of_nat (c + m) <= 1000000)%Z -> TR m s t -> (forall i, (i <= k)%nat -> length (nth i out []) = N) ->
  INR (3 * lm + 4 + c + m) * (29 * u64) * (INR m * (INR c * (sqrt 2 ^ lm * YY / INR (2 ^ lm)))) + / 2 < IZR (D + 1) -> close w N k D (gInvK K w k (Some false) out s) (gInvAdd w k out t).
Proof.
  intros Hm Hn Hs Ho HD. split; [apply tab_length|]. intros i Hi. destruct (Hs i Hi) as (HR & V & Lt). pose proof OmY as OW. destruct YYb as [X1 [Y1 Y2]]. pose proof (Icb c Hc ltac:(lia)) as IC. pose proof (Icb m Hm ltac:(lia)) as IM.
  set (Y := INR m * (INR c * YY)) in *. assert (CY : 1 <= INR c * YY <= 1048576 * (32768 * W * (32768 * W) * 256)) by (split; [rewrite <- (Rmult_1_l 1); apply Rmult_le_compat; lra|apply Rmult_le_compat; lra]).
  assert (HY : 1 <= Y <= 1048576 * (1048576 * (32768 * W * (32768 * W) * 256))) by (unfold Y; split; [rewrite <- (Rmult_1_l 1); apply Rmult_le_compat; lra|apply Rmult_le_compat; lra]).
  pose proof (XMb lm Hlm14) as XMB. assert (S2 : 1 <= sqrt 2 ^ lm <= 128) by (unfold PfMonoF.XM in XMB; split; [apply pow_ge1, sqrt2_ge1|lra]).
  destruct (kn_inv _ _ _ _ HK (Some false) false w _ Y _ _ (nth i out []) Hw (proj1 HY) HR V (Ho i Hi)) as (cc & E1 & E2).
  { destruct (Qn64 lm Hlm14 (2 * lm + 3 + c + m + lm) ltac:(lia)) as [_ HQ].
    apply Rle_trans with (2 * (128 * (1048576 * (1048576 * (32768 * W * (32768 * W) * 256))))); [|lra]. apply Rmult_le_compat; [lra|nra|lra|]. apply Rmult_le_compat; lra. }
  assert (EE : (Q ^ (2 * lm + 3 + c + m + lm + 1) - 1) * (sqrt 2 ^ lm * Y / INR (2 ^ lm)) + / 2 < IZR (D + 1)).
  { eapply Rle_lt_trans; [|exact HD]. apply Rplus_le_compat_r. replace (2 * lm + 3 + c + m + lm + 1)%nat with (3 * lm + 4 + c + m)%nat by lia. destruct (Qn64 lm Hlm14 (3 * lm + 4 + c + m) ltac:(lia)) as [HQ HQ2].
    pose proof (M14' N lm Hlm Hlm14 HN) as HM. replace (INR m * (INR c * (sqrt 2 ^ lm * YY / INR (2 ^ lm)))) with (sqrt 2 ^ lm * Y / INR (2 ^ lm)) by (unfold Y; field; lra).
    apply Rmult_le_compat_r; [|exact HQ]. apply Rmult_le_pos; [apply Rmult_le_pos; lra|]. apply Rlt_le, Rinv_0_lt_compat. lra. }
  unfold gInvK. rewrite nth_tab by lia. rewrite E1. split.
  - split; [apply tab_length|]. apply Forall_tab. intros j Hj. cbn [accK twrap]. apply wrap_range; lia.
  - intros j Hj. rewrite nthZ_tab by exact Hj. change (gInvAdd w k out t) with (gInvX w k (Some false) out t). rewrite (gInvX_nth N lm Hlm Hlm14 HN w k) by (try assumption; now apply Ho).
    destruct (accK_diff N lm Hlm Hlm14 HN w (Some false) (nthZ (nth i out []) j) (cc j) (nthZ (nth i t []) j)) as (d & D1 & D2). exists d. split; [|exact D2].
    apply Z.le_trans with (1 := D1). apply Z.lt_succ_r, lt_IZR. rewrite abs_IZR, minus_IZR. eapply Rle_lt_trans; [|exact EE]. eapply Rle_trans; [|exact (E2 j Hj)]. rewrite cf_pol_at by (exact (N0p N lm HN) || assumption). apply Rle_refl.
Qed.
End Terms.
End Block.
