(** Lemmas: a block of the extended blind rotation computed on binary64 transforms is close to the exact one. *)
From Coq Require Import Floats.SpecFloat.
From Verif Require Import Base NegaRing ModelNum ModelVec ModelPoly ModelAsm ModelF64 ModelFFT ModelF64Arith ModelSplitFFT ModelFused ModelFusedMul ModelGadget ModelGLWE ModelBoot ModelProdFFT ModelBlindFFT ModelExtFFT SpecNum SpecVec SpecPoly SpecFFT SpecFFTReal SpecRound SpecFused SpecGadget SpecGLWE SpecProdFFT SpecBlindFFT
  PfNum PfVec PfPoly PfSplit PfFFT6 PfRound PfErr4 PfErrF PfF64Fused PfAvxQ PfSplitFFT PfSplitF64 PfSplitF64b PfErrSum PfAvxKern PfValid PfAvxInv PfNear PfKeep PfSumK PfGadget PfGLWE3 PfProdFFT PfMonoF PfBlindFFT PfBlindFFT2 PfBlindFFT3 PfExtFFT2.
From Coq Require Import Reals Lra Lia.
Open Scope Z_scope.

Section Blocks.
Variable cexp : Z -> Z -> spec_float * spec_float.
Notation A := (f64Arith cexp).
Notation Vs := (@List.Forall f64 (fun x : f64 => vb x = true)).
Variables (N lm : nat).
Hypothesis Hlm : (3 <= lm)%nat.
Hypothesis Hlm14 : (lm <= 14)%nat.
Hypothesis HN : N = (2 ^ S lm)%nat.
Variable K : kern (car A).
Hypothesis HK : kernNear cexp N lm K.
Variables (w : Z) (k : nat) (p : gadget).
Hypothesis Hw : (1 <= w <= 64)%Z.
Hypothesis Hp : gadget_ok w p.
Notation XM := (XM lm).
Notation rep64 := (rep A finF val u64 eta64 del64 N lm).
Variables (monoS monoM : list (car A) -> Z -> list (car A)).
Hypothesis HmonoS : forall o d, length o = N -> Vs o -> rep64 1 XM (monoS o d) (pol N (fmonoSubOne N d)) /\ Vs (monoS o d).
Hypothesis HmonoM : forall o d, length o = N -> Vs o -> rep64 1 XM (monoM o d) (pol N (fmono N d)) /\ Vs (monoM o d).
Variable left : list (car A) -> list (car A).
Hypothesis Hleft : forall v, length v = N -> Vs v -> length (left v) = N /\ Vs (left v).
Notation bufOK := (bufOK cexp N).
Notation fsubF := (subCmplxTo A).
Notation buf := (extBuf (car A)).
Variable E : nat.
Hypothesis HE : (0 < E)%nat.
Notation xbufs := (xbufs cexp N k p E).
Variable bk : list (list (list (list (list Z)))).
Variables (n bs : nat).
Hypothesis Hkey : forall j r l i, (j < n)%nat -> (r <= k)%nat -> (l < g_level p)%nat -> (i <= k)%nat -> wpoly w N (nth i (nth l (nth r (nth j bk []) []) []) []).
Variables (rot : nat -> Z) (logN D : Z).
Hypothesis Hrot : forall j, 0 <= rot j.
Hypothesis EL : logN = Z.of_nat (S lm).
Hypothesis Hbs : (1 <= bs)%nat.
Hypothesis Hcn : Z.of_nat (S k * g_level p + 2 * bs) <= 1000000.
Hypothesis HD : rotErr_le w (g_logBase p) logN N (S k * g_level p) (2 * bs) D.
Notation keysZ := (keysZ w).
Notation keysF := (keysF cexp K w).
Definition ctsL (out : list (list (list Z))) : Prop := forall j i, (j < E)%nat -> (i <= k)%nat -> length (nth i (nth j out []) []) = N.
Definition closeE (X Y : list (list (list Z))) : Prop := length X = E /\ forall j, (j < E)%nat -> close w N k D (nth j X []) (nth j Y []).

Lemma end_close c out s t : (1 <= c <= S k * g_level p)%nat -> TR cexp N lm w k p c (2 * bs) s t -> (forall i, (i <= k)%nat -> length (nth i out []) = N) -> close w N k D (gInvK K w k (Some false) out s) (gInvAdd w k out t).
Proof.
  intros Hc HT Ho. apply (terms_end cexp N lm Hlm Hlm14 HN K HK w k p Hw Hp c (proj1 Hc) (2 * bs) s t out D ltac:(lia) ltac:(lia) HT Ho).
  rewrite (rot_form N lm Hlm Hlm14 HN w p logN) by exact EL. eapply Rle_lt_trans; [apply (rot_mono N logN c (S k * g_level p)); try lia|exact HD]; apply Z.pow_nonneg; lia.
Qed.
Lemma extEnd_ok c out (b : buf) t : (1 <= c <= S k * g_level p)%nat -> xbufs b -> (forall kk, (kk < E)%nat -> TR cexp N lm w k p c (2 * bs) (nth kk (x_acc b) []) (nth kk t [])) -> ctsL out ->
  closeE (fst (extEnd K w k E left (out, b))) (tab E (fun j => gInvAdd w k (nth j out []) (nth j t []))) /\ xbufs (snd (extEnd K w k E left (out, b))).
Proof.
  intros Hc (B1 & B2 & B3 & (B5L & B5)) HT Ho. cbn [extEnd fst snd]. split.
  - split; [apply tab_length|]. intros j Hj. rewrite !nth_tab by exact Hj. apply (end_close c); [exact Hc|now apply HT|]. intros i Hi. now apply Ho.
  - split; [exact B1|]. split; [exact B2|]. split; [exact B3|]. cbn [x_acc]. split; [now rewrite map_length|]. intros j Hj i Hi.
    rewrite (nth_map_in (map left) (x_acc b) j [] []) by lia. destruct (B5 j Hj i Hi) as [L V].
    assert (Li : (i < length (nth j (x_acc b) []))%nat) by (destruct (Nat.lt_ge_cases i (length (nth j (x_acc b) []))) as [C|C]; [exact C|]; rewrite nth_overflow in L by exact C; cbn [length] in L; pose proof (Nat.pow_nonzero 2 (S lm)); lia).
    rewrite (nth_map_in left _ i [] [] Li). now apply Hleft.
Qed.

Notation gadZ out j kk := (GadgetProdFFTGLWETo N k p (nth 0 (nth j (keysZ bk) []) []) (fdigits w p (nth 0 (nth kk out []) []))).
Notation extZ out j kk := (ExternalProdFFTGLWETo N k p (nth j (keysZ bk) []) (fdAll w k p (nth kk out []))).
Definition firstE (out : list (list (list Z))) : list (list (list Z)) :=
  tab E (fun j => gInvAdd w k (nth j out []) (nth j (sumE N k E (fun j => tab E (fun kk => gadZ out j kk)) rot 0 bs) [])).
Definition laterE (i : nat) (out : list (list (list Z))) : list (list (list Z)) :=
  tab E (fun j => gInvAdd w k (nth j out []) (nth j (sumE N k E (fun j => tab E (fun kk => extZ out j kk)) rot (i * bs) bs) [])).
Definition lastE (out : list (list (list Z))) : list (list Z) := gInvAdd w k (nth 0 out []) (sumE0 N k E (fun j kk => extZ out j kk) rot (n - bs) bs).

Lemma extFirst_close out b : (bs <= n)%nat -> xbufs b -> ctsL out ->
  let st := extFirstK K w k E monoS monoM fsubF left p (keysF bk) bs rot (out, b) in closeE (fst st) (firstE out) /\ xbufs (snd st).
Proof.
  intros Hn (B1 & B2 & B3 & B5) Ho. cbv zeta. unfold extFirstK, firstE. assert (L1 : (1 <= g_level p)%nat) by apply Hp.
  set (b' := mkExtBuf _ _ _ _).
  assert (E0 : forall kk, (kk < E)%nat -> nth 0 (nth kk (x_dcmp b') []) [] = fdigitsK K w p (nth 0 (nth kk (x_dcmp b) []) []) (nth 0 (nth kk out []) [])).
  { intros kk Hk. cbn [b' x_dcmp]. rewrite nth_tab by exact Hk. apply nth_upd_same. destruct (B1 kk Hk). lia. }
  assert (Hb' : xbufs b').
  { split; [|split; [exact B2|split; [exact B3|exact B5]]]. intros j Hj. destruct (B1 j Hj) as [L B]. split; [cbn [b' x_dcmp]; rewrite nth_tab by exact Hj; now rewrite upd_length|]. intros i Hi. destruct (Nat.eq_dec i 0) as [->|C].
    - rewrite E0 by exact Hj. apply (dig_buf cexp N lm Hlm Hlm14 HN K HK w k p Hw Hp); [apply B; lia|apply Ho; [exact Hj|lia]].
    - cbn [b' x_dcmp]. rewrite nth_tab by exact Hj. rewrite nth_upd_other by lia. now apply B. }
  destruct (extTerms_ok cexp N lm Hlm Hlm14 HN K HK w k p Hw Hp monoS monoM HmonoS HmonoM E HE (g_level p) L1
    (fun j kk o => GadgetProdFFTGLWEToK K k p o (nth 0 (nth j (keysF bk) []) []) (nth 0 (nth kk (x_dcmp b') []) []))
    (fun j => tab E (fun kk => gadZ out j kk)) rot 0 bs b' Hbs ltac:(lia) Hrot Hb') as [T1 T2].
  { intros j kk o Hj Hk Hob. destruct (key_in cexp N lm Hlm Hlm14 HN w k p Hp monoS HmonoS bk n bs Hkey (fun x => x) logN D EL Hbs ltac:(lia) j ltac:(lia)) as [K1 K2]. unfold PfBlindFFT3.keysF, PfBlindFFT3.keysZ. rewrite nth_tab by exact Hk. rewrite (nth_map_in (toFFTGGSW K w) bk j [] [] K1), (nth_map_in (map (map (map (fwdFFT w)))) bk j [] [] K1).
    unfold toFFTGGSW. rewrite (nth_map_in (toFFTGLev K w) (nth j bk []) 0 [] [] (K2 O ltac:(lia))), (nth_map_in (map (map (fwdFFT w))) (nth j bk []) 0 [] [] (K2 O ltac:(lia))).
    apply (gadF_sum cexp N lm Hlm Hlm14 HN K HK w k p Hw Hp); [intros l i Hl Hi; apply Hkey; lia| |exact Hob|lia].
    intros l Hl. rewrite E0 by exact Hk. apply (dig_row cexp N lm Hlm Hlm14 HN K HK w k p Hw Hp); [apply B1; [exact Hk|lia]|apply Ho; [exact Hk|lia]|exact Hl]. }
  apply (extEnd_ok (g_level p)); [nia|exact T1|exact T2|exact Ho].
Qed.
Lemma extDcmp_ok out (b : buf) : xbufs b -> ctsL out -> xbufs (extDcmp K w k E p out b) /\
  forall kk, (kk < E)%nat -> dcOK cexp N lm w k p (nth kk (x_dcmp (extDcmp K w k E p out b)) []) (nth kk out []).
Proof.
  intros (B1 & B2 & B3 & B5) Ho. split.
  - split; [|split; [exact B2|split; [exact B3|exact B5]]]. intros j Hj. destruct (B1 j Hj) as [L B]. cbn [extDcmp x_dcmp]. rewrite nth_tab by exact Hj. split; [apply tab_length|]. intros r Hr. rewrite nth_tab by lia.
    apply (dig_buf cexp N lm Hlm Hlm14 HN K HK w k p Hw Hp); [now apply B|now apply Ho].
  - intros kk Hk r l Hr Hl. cbn [extDcmp x_dcmp]. rewrite nth_tab by exact Hk. rewrite nth_tab by lia. unfold fdAll. rewrite nth_tab by lia. destruct (B1 kk Hk) as [L B].
    apply (dig_row cexp N lm Hlm Hlm14 HN K HK w k p Hw Hp); [now apply B|now apply Ho|exact Hl].
Qed.
Lemma ext_prod out (b : buf) j kk o : (j < n)%nat -> (kk < E)%nat -> bufOK (S k) o -> (forall kk, (kk < E)%nat -> dcOK cexp N lm w k p (nth kk (x_dcmp b) []) (nth kk out [])) ->
  SR cexp N lm k (XB lm (IZR (2 ^ (w - 1)))) (XB lm (IZR (2 ^ (g_logBase p - 1)))) (S k * g_level p) (ExternalProdFFTGLWEToK K k p o (nth j (keysF bk) []) (nth kk (x_dcmp b) [])) (extZ out j kk).
Proof.
  intros Hj Hk Hob Hd. destruct (key_in cexp N lm Hlm Hlm14 HN w k p Hp monoS HmonoS bk n bs Hkey (fun x => x) logN D EL Hbs ltac:(lia) j Hj) as [K1 K2]. unfold PfBlindFFT3.keysF, PfBlindFFT3.keysZ. rewrite (nth_map_in (toFFTGGSW K w) bk j [] [] K1), (nth_map_in (map (map (map (fwdFFT w)))) bk j [] [] K1).
  apply (extF_sum cexp N lm Hlm Hlm14 HN K HK w k p Hw Hp); [intros r Hr l i Hl Hi; now apply Hkey|now apply Hd|exact Hob|lia].
Qed.
Lemma extLater_close i out b : ((i + 1) * bs <= n)%nat -> xbufs b -> ctsL out ->
  let st := extLaterK K w k E monoS monoM fsubF left p (keysF bk) bs rot i (out, b) in closeE (fst st) (laterE i out) /\ xbufs (snd st).
Proof.
  intros Hn Hb Ho. cbv zeta. unfold extLaterK, laterE. assert (L1 : (1 <= g_level p)%nat) by apply Hp.
  destruct (extDcmp_ok out b Hb Ho) as [Hb' Hd]. set (b' := extDcmp K w k E p out b) in *. clearbody b'.
  destruct (extTerms_ok cexp N lm Hlm Hlm14 HN K HK w k p Hw Hp monoS monoM HmonoS HmonoM E HE (S k * g_level p) ltac:(nia)
    (fun j kk o => ExternalProdFFTGLWEToK K k p o (nth j (keysF bk) []) (nth kk (x_dcmp b') []))
    (fun j => tab E (fun kk => extZ out j kk)) rot (i * bs) bs b' Hbs Hcn Hrot Hb') as [T1 T2].
  { intros j kk o Hj Hk Hob. rewrite nth_tab by exact Hk. apply ext_prod; try assumption. nia. }
  apply (extEnd_ok (S k * g_level p)); [nia|exact T1|exact T2|exact Ho].
Qed.
Lemma extLast_close out b : (bs <= n)%nat -> xbufs b -> ctsL out -> close w N k D (extLastK K w k E monoS monoM fsubF p (keysF bk) bs n rot (out, b)) (lastE out).
Proof.
  intros Hn Hb Ho. unfold extLastK, lastE. assert (L1 : (1 <= g_level p)%nat) by apply Hp.
  destruct (extDcmp_ok out b Hb Ho) as [Hb' Hd]. set (b' := extDcmp K w k E p out b) in *. clearbody b'. cbv zeta.
  apply (end_close (S k * g_level p)); [nia| |intros i Hi; now apply Ho].
  apply (extTerms0_ok cexp N lm Hlm Hlm14 HN K HK w k p Hw Hp monoS monoM HmonoS HmonoM E HE (S k * g_level p) ltac:(nia)
    (fun j kk o => ExternalProdFFTGLWEToK K k p o (nth j (keysF bk) []) (nth kk (x_dcmp b') [])) (fun j kk => extZ out j kk) rot (n - bs) bs b' Hbs Hcn Hrot Hb').
  intros j kk o Hj Hk Hob. apply ext_prod; try assumption. lia.
Qed.
End Blocks.
