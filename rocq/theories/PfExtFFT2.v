(** Lemmas: the terms of a block of the extended blind rotation on binary64 transforms. *)
From Coq Require Import Floats.SpecFloat.
From Verif Require Import Base NegaRing ModelNum ModelVec ModelPoly ModelAsm ModelF64 ModelFFT ModelF64Arith ModelSplitFFT ModelFused ModelFusedMul ModelGadget ModelGLWE ModelBoot ModelProdFFT ModelBlindFFT ModelExtFFT SpecNum SpecVec SpecPoly SpecFFT SpecFFTReal SpecRound SpecFused SpecGadget SpecGLWE SpecProdFFT SpecBlindFFT
  PfNum PfVec PfPoly PfSplit PfFFT PfFFT2 PfFFT3 PfFFT4 PfFFT6 PfFFTReal PfNetGen PfNetGen2 PfNetB PfRound PfNorm PfErr PfErr2 PfRoundQ PfErr3 PfErr4 PfErrF PfF64Fused PfAvxQ PfSplitFFT PfSplitF64 PfSplitF64b PfErrSum PfAvxKern PfValid PfAvxInv PfNear PfKeep PfSumK PfGadget PfGLWE3 PfProdFFT PfMonoF PfBlindFFT PfBlindFFT2 PfExtFFT.
From Coq Require Import Reals Lra Lia.
Open Scope R_scope.

Section Terms.
Variable cexp : Z -> Z -> spec_float * spec_float.
Notation A := (f64Arith cexp).
Notation Vs := (@List.Forall f64 (fun x : f64 => vb x = true)).
Variables (N lm : nat).
Hypothesis Hlm : (3 <= lm)%nat.
Hypothesis Hlm14 : (lm <= 14)%nat.
Hypothesis HN : N = (2 ^ S lm)%nat.
Variable K : kern (car A).
Hypothesis HK : kernNear cexp N lm K.
Variables (w : Z) (k : nat) (p : gadget).
Hypothesis Hw : (1 <= w <= 64)%Z.
Hypothesis Hp : gadget_ok w p.
Notation XM := (XM lm).
Notation XK := (XB lm (IZR (2 ^ (w - 1)))).
Notation XD := (XB lm (IZR (2 ^ (g_logBase p - 1)))).
Notation YY := (XK * XD * XM).
Notation SR := (SR cexp N lm k XK XD).
Notation TR := (TR cexp N lm w k p).
Notation rep64 := (rep A finF val u64 eta64 del64 N lm).
Notation Q := (1 + kw u64 eta64 del64 lm).
Notation W := 18446744073709551616.
Notation bufOK := (bufOK cexp N).
Variables (monoS monoM : list (car A) -> Z -> list (car A)).
Hypothesis HmonoS : forall o d, length o = N -> Vs o -> rep64 1 XM (monoS o d) (pol N (fmonoSubOne N d)) /\ Vs (monoS o d).
Hypothesis HmonoM : forall o d, length o = N -> Vs o -> rep64 1 XM (monoM o d) (pol N (fmono N d)) /\ Vs (monoM o d).
Notation fsubF := (subCmplxTo A).
Notation buf := (extBuf (car A)).
Variable E : nat.
Hypothesis HE : (0 < E)%nat.

Section C.
Variable c : nat.
Hypothesis Hc : (1 <= c)%nat.
Lemma YYc : 1 <= INR c * (XK * XD) /\ 1 <= INR c * YY /\ INR c * (XK * XD) <= INR c * YY.
Proof.
  destruct (YYb N lm Hlm Hlm14 HN w p Hw Hp) as [X1 [Y1 Y2]]. pose proof (XMb lm Hlm14) as XMB. assert (IC : 1 <= INR c) by (change 1 with (INR 1); apply le_INR; exact Hc).
  split; [rewrite <- (Rmult_1_l 1); apply Rmult_le_compat; lra|]. split; [rewrite <- (Rmult_1_l 1); apply Rmult_le_compat; lra|].
  apply Rmult_le_compat_l; [lra|]. rewrite <- (Rmult_1_r (XK * XD)) at 1. apply Rmult_le_compat_l; lra.
Qed.
Lemma TR_up m m' s t : (m <= m')%nat -> TR c m s t -> TR c m' s t.
Proof.
  intros Hm H i Hi. destruct (H i Hi) as (R0 & V & L). split; [|split; assumption]. destruct YYc as (_ & Y1 & _). pose proof (pos_INR m) as P0. pose proof (le_INR _ _ Hm) as LI.
  destruct (bounds64 lm Hlm14) as (B1 & B2 & B3 & B4 & B5 & B6).
  apply (rep_mono A finF val u64 eta64 B1 B2 del64 B5) with (n := (2 * lm + 3 + c + m)%nat); [lia|apply Rmult_le_pos; lra|].
  apply (rep_monoX A finF val u64 eta64 B1 B2 del64 B5 N lm) with (X := INR m * (INR c * YY)); [|exact R0]. apply Rmult_le_compat_r; lra.
Qed.
Lemma term_sub m r u s t : (Z.of_nat (c + m) <= 1000000)%Z -> TR c m r u -> SR c s t -> TR c (S m) (fgSubK k fsubF r r s) (fgSub k u t).
Proof.
  intros Hn Hr Hs i Hi. destruct (Hr i Hi) as (R0 & V0 & L0). destruct (Hs i Hi) as (R1 & V1 & L1). unfold fgSubK, fgSub. rewrite !nth_tab by lia.
  destruct (bounds64 lm Hlm14) as (B1 & B2 & B3 & B4 & B5 & B6). destruct YYc as (X1 & Y1 & XY). destruct (YYb N lm Hlm Hlm14 HN w p Hw Hp) as [_ [Yb1 Yb2]].
  pose proof (OmY) as OW. pose proof (Icb N lm Hlm Hlm14 HN c Hc c Hc ltac:(lia)) as IC. pose proof (Icb N lm Hlm Hlm14 HN c Hc (S m) ltac:(lia) ltac:(lia)) as IM. pose proof (pos_INR m) as M0.
  split; [|split; [apply sub_keep; assumption|rewrite fsub_length, L0, L1; lia]].
  apply (rep_peq A finF val u64 eta64 del64 N lm) with (P := psub (pol N (nth i u [])) (pol N (nth i t []))); [symmetry; apply (pol_fsub N (N0p N lm HN)); assumption|].
  replace (2 * lm + 3 + c + S m)%nat with (S (2 * lm + 3 + c + m)) by lia. rewrite S_INR in *. replace ((INR m + 1) * (INR c * YY)) with (INR m * (INR c * YY) + INR c * YY) by ring.
  apply (rep_sub A finF val u64 eta64 (pw 970) (f64_std cexp) B1 B2 del64 B5 N lm Hlm HN) with (n := (2 * lm + 2 + c)%nat); [apply R0|lra|apply Rmult_le_pos; lra|lia|exact R0| |].
  - apply (rep_monoX A finF val u64 eta64 B1 B2 del64 B5 N lm) with (X := INR c * (XK * XD)); [exact XY|exact R1].
  - destruct (Qn64 lm Hlm14 (2 * lm + 3 + c + m) ltac:(lia)) as [_ HQ]. replace (INR m * (INR c * YY) + INR c * YY) with ((INR m + 1) * (INR c * YY)) by ring.
    assert (CB : INR c * YY <= 1048576 * (32768 * W * (32768 * W) * 256)) by (apply Rmult_le_compat; lra).
    apply Rle_trans with (2 * (1048576 * (1048576 * (32768 * W * (32768 * W) * 256)))); [|lra]. apply Rmult_le_compat; [lra|apply Rmult_le_pos; lra|lra|apply Rmult_le_compat; lra].
Qed.
(** One product, first of the block or not. *)
Definition accR (first : bool) (m : nat) (o : list (list (car A))) (u : list (list Z)) : Prop := if first then m = O /\ bufOK (S k) o else (1 <= m)%nat /\ TR c m o u.
Definition mulZ (first : bool) := if first then mulSet N k else mulAdd N k.
Lemma accR_buf first m o u : accR first m o u -> bufOK (S k) o.
Proof. destruct first; intros [_ H]; [exact H|exact (TR_buf cexp N lm Hlm Hlm14 HN w k p monoS HmonoS _ _ _ _ H)]. Qed.
Lemma term_mul first m o u s t f z : (Z.of_nat (c + m) <= 1000000)%Z -> accR first m o u -> SR c s t -> rep64 1 XM f (pol N z) -> Vs f -> TR c (S m) (mulK K k first o s f) (mulZ first u t z).
Proof.
  intros Hn Ho Hs Hf Vf. destruct first; destruct Ho as [Hm Ho].
  - subst m. apply (term_first cexp N lm Hlm Hlm14 HN K HK w k p Hw Hp c Hc); try assumption. lia.
  - apply (term_next cexp N lm Hlm Hlm14 HN K HK w k p Hw Hp c Hc); assumption.
Qed.

Definition dcBufE (d : list (list (list (list (car A))))) : Prop := forall j, (j < E)%nat -> dcBuf cexp N k p (nth j d []).
Definition xbufs (b : buf) : Prop := dcBufE (x_dcmp b) /\ (length (x_blk b) = E /\ forall j, (j < E)%nat -> bufOK (S k) (nth j (x_blk b) [])) /\ (length (x_mono b) = N /\ Vs (x_mono b)) /\
  (length (x_acc b) = E /\ forall j, (j < E)%nat -> bufOK (S k) (nth j (x_acc b) [])).
(** One secret bit on all components. *)
Lemma extTerm_ok first m prod blkZ a2N (b : buf) accZ : (Z.of_nat (c + m + 1) <= 1000000)%Z -> (0 <= a2N)%Z -> xbufs b ->
  (forall kk, (kk < E)%nat -> accR first m (nth kk (x_acc b) []) (nth kk accZ [])) ->
  (forall kk o, (kk < E)%nat -> bufOK (S k) o -> SR c (prod kk o) (nth kk blkZ [])) ->
  let b' := extTerm K k E monoS monoM fsubF first prod a2N b in
  xbufs b' /\ x_dcmp b' = x_dcmp b /\ forall kk, (kk < E)%nat -> TR c (S (S m)) (nth kk (x_acc b') []) (nth kk (rotAcc N k E (mulZ first) a2N blkZ accZ) []).
Proof.
  intros Hn Ha (B1 & (B2L & B2) & (B3 & B4) & (B5L & B5)) Hacc Hprod. cbv zeta. unfold extTerm, rotAcc.
  set (q := Z.quot a2N (Z.of_nat E)). assert (Hidx : (Z.to_nat (Z.rem a2N (Z.of_nat E)) < E)%nat) by (pose proof (Z.rem_bound_pos a2N (Z.of_nat E)); lia). set (idx := Z.to_nat (Z.rem a2N (Z.of_nat E))) in *.
  set (blk := tab E (fun kk => prod kk (nth kk (x_blk b) []))).
  assert (HB : forall kk, (kk < E)%nat -> SR c (nth kk blk []) (nth kk blkZ [])) by (intros kk Hkk; unfold blk; rewrite nth_tab by exact Hkk; apply Hprod; [exact Hkk|now apply B2]).
  assert (HBb : forall kk, (kk < E)%nat -> bufOK (S k) (nth kk blk [])) by (intros kk Hkk; exact (SR_buf cexp N lm Hlm Hlm14 HN w k p monoS HmonoS _ _ _ (HB kk Hkk))).
  destruct (Nat.eqb_spec idx 0) as [E0|E0].
  - destruct (HmonoS (x_mono b) q B3 B4) as [M1 M2].
    assert (T : forall kk, (kk < E)%nat -> TR c (S (S m)) (mulK K k first (nth kk (x_acc b) []) (nth kk blk []) (monoS (x_mono b) q)) (mulZ first (nth kk accZ []) (nth kk blkZ []) (fmonoSubOne N q))).
    { intros kk Hkk. apply TR_up with (m := S m); [lia|]. apply term_mul; [lia|now apply Hacc|now apply HB|exact M1|exact M2]. }
    split; [|split; [reflexivity|]].
    + split; [exact B1|]. split; [split; [apply tab_length|exact HBb]|]. split; [split; [apply M1|exact M2]|]. split; [apply tab_length|]. intros j Hj. cbn [x_acc]. rewrite nth_tab by exact Hj. exact (TR_buf cexp N lm Hlm Hlm14 HN w k p monoS HmonoS _ _ _ _ (T j Hj)).
    + intros kk Hkk. cbn [x_acc]. rewrite !nth_tab by exact Hkk. now apply T.
  - destruct (HmonoM (x_mono b) (q + 1)%Z B3 B4) as [M1 M2]. destruct (HmonoM (monoM (x_mono b) (q + 1)%Z) q (proj1 M1) M2) as [M3 M4].
    set (m1 := monoM (x_mono b) (q + 1)%Z) in *. set (m2 := monoM m1 q) in *.
    assert (T : forall kk, (kk < E)%nat -> TR c (S (S m)) 
       (let r := if Nat.ltb kk idx then mulK K k first (nth kk (x_acc b) []) (nth (E - idx + kk) blk []) m1 else mulK K k first (nth kk (x_acc b) []) (nth (kk - idx) blk []) m2 in fgSubK k fsubF r r (nth kk blk []))
       (if Nat.ltb kk idx then fgSub k (mulZ first (nth kk accZ []) (nth (E - idx + kk) blkZ []) (fmono N (q + 1))) (nth kk blkZ []) else fgSub k (mulZ first (nth kk accZ []) (nth (kk - idx) blkZ []) (fmono N q)) (nth kk blkZ []))).
    { intros kk Hkk. cbv zeta. destruct (Nat.ltb_spec kk idx).
      - apply term_sub; [lia| |now apply HB]. apply term_mul; [lia|now apply Hacc|apply HB; lia|exact M1|exact M2].
      - apply term_sub; [lia| |now apply HB]. apply term_mul; [lia|now apply Hacc|apply HB; lia|exact M3|exact M4]. }
    split; [|split; [reflexivity|]].
    + split; [exact B1|]. split; [split; [apply tab_length|exact HBb]|]. split; [split; [apply M3|exact M4]|]. split; [apply tab_length|]. intros j Hj. cbn [x_acc]. rewrite nth_tab by exact Hj. exact (TR_buf cexp N lm Hlm Hlm14 HN w k p monoS HmonoS _ _ _ _ (T j Hj)).
    + intros kk Hkk. cbn [x_acc]. rewrite !nth_tab by exact Hkk. now apply T.
Qed.
(** One secret bit of the last block. *)
Lemma extTerm0_ok first m prod blkZ a2N (b : buf) accZ : (Z.of_nat (c + m + 1) <= 1000000)%Z -> (0 <= a2N)%Z -> xbufs b ->
  accR first m (nth 0 (x_acc b) []) accZ ->
  (forall kk o, (kk < E)%nat -> bufOK (S k) o -> SR c (prod kk o) (blkZ kk)) ->
  let b' := extTerm0 K k E monoS monoM fsubF first prod a2N b in
  xbufs b' /\ x_dcmp b' = x_dcmp b /\ TR c (S (S m)) (nth 0 (x_acc b') []) (rotAcc0 N k E (mulZ first) a2N blkZ accZ).
Proof.
  intros Hn Ha (B1 & (B2L & B2) & (B3 & B4) & (B5L & B5)) Hacc Hprod. cbv zeta. unfold extTerm0, rotAcc0.
  set (q := Z.quot a2N (Z.of_nat E)). assert (Hidx : (Z.to_nat (Z.rem a2N (Z.of_nat E)) < E)%nat) by (pose proof (Z.rem_bound_pos a2N (Z.of_nat E)); lia). set (idx := Z.to_nat (Z.rem a2N (Z.of_nat E))) in *.
  set (blk := upd (x_blk b) 0 (prod O (nth 0 (x_blk b) []))).
  assert (E00 : nth 0 blk [] = prod O (nth 0 (x_blk b) [])) by (unfold blk; apply nth_upd_same; lia).
  assert (HB0 : SR c (nth 0 blk []) (blkZ O)) by (rewrite E00; apply Hprod; [exact HE|now apply B2]).
  assert (UB : forall l i x, length l = E -> (forall j, (j < E)%nat -> bufOK (S k) (nth j l [])) -> (i < E)%nat -> bufOK (S k) x -> length (upd l i x) = E /\ forall j, (j < E)%nat -> bufOK (S k) (nth j (upd l i x) [])).
  { intros l i x Ll Hl Hi Hx. split; [now rewrite upd_length|]. intros j Hj. rewrite nth_upd_if by lia. destruct (Nat.eqb_spec j i); [exact Hx|now apply Hl]. }
  destruct (UB (x_blk b) O (prod O (nth 0 (x_blk b) [])) B2L B2 HE) as [LB HBb]; [rewrite <- E00; exact (SR_buf cexp N lm Hlm Hlm14 HN w k p monoS HmonoS _ _ _ HB0)|]. fold blk in LB, HBb.
  destruct (Nat.eqb_spec idx 0) as [E0|E0].
  - destruct (HmonoS (x_mono b) q B3 B4) as [M1 M2].
    assert (T : TR c (S (S m)) (mulK K k first (nth 0 (x_acc b) []) (nth 0 blk []) (monoS (x_mono b) q)) (mulZ first accZ (blkZ O) (fmonoSubOne N q))).
    { apply TR_up with (m := S m); [lia|]. apply term_mul; [lia|exact Hacc|exact HB0|exact M1|exact M2]. }
    split; [|split; [reflexivity|]].
    + split; [exact B1|]. split; [split; assumption|]. split; [split; [apply M1|exact M2]|]. cbn [x_acc]. apply UB; try assumption. exact (TR_buf cexp N lm Hlm Hlm14 HN w k p monoS HmonoS _ _ _ _ T).
    + cbn [x_acc]. rewrite nth_upd_same by lia. exact T.
  - destruct (HmonoM (x_mono b) (q + 1)%Z B3 B4) as [M1 M2]. set (m1 := monoM (x_mono b) (q + 1)%Z) in *.
    set (blk2 := upd blk (E - idx) (prod (E - idx)%nat (nth (E - idx) blk []))).
    assert (E2 : nth (E - idx) blk2 [] = prod (E - idx)%nat (nth (E - idx) blk [])) by (unfold blk2; apply nth_upd_same; lia).
    assert (E20 : nth 0 blk2 [] = nth 0 blk []) by (unfold blk2; apply nth_upd_other; lia).
    assert (HB2 : SR c (nth (E - idx) blk2 []) (blkZ (E - idx)%nat)) by (rewrite E2; apply Hprod; [lia|apply HBb; lia]).
    destruct (UB blk (E - idx)%nat (prod (E - idx)%nat (nth (E - idx) blk [])) LB HBb ltac:(lia)) as [LB2 HBb2]; [rewrite <- E2; exact (SR_buf cexp N lm Hlm Hlm14 HN w k p monoS HmonoS _ _ _ HB2)|]. fold blk2 in LB2, HBb2.
    assert (T : TR c (S (S m)) (fgSubK k fsubF (mulK K k first (nth 0 (x_acc b) []) (nth (E - idx) blk2 []) m1) (mulK K k first (nth 0 (x_acc b) []) (nth (E - idx) blk2 []) m1) (nth 0 blk2 []))
       (fgSub k (mulZ first accZ (blkZ (E - idx)%nat) (fmono N (q + 1))) (blkZ O))).
    { apply term_sub; [lia| |rewrite E20; exact HB0]. apply term_mul; [lia|exact Hacc|exact HB2|exact M1|exact M2]. }
    split; [|split; [reflexivity|]].
    + split; [exact B1|]. split; [split; assumption|]. split; [split; [apply M1|exact M2]|]. cbn [x_acc]. apply UB; try assumption. exact (TR_buf cexp N lm Hlm Hlm14 HN w k p monoS HmonoS _ _ _ _ T).
    + cbn [x_acc]. rewrite nth_upd_same by lia. exact T.
Qed.

(** The exact sums of a block. *)
Definition sumE (blkZ : nat -> list (list (list Z))) (rot : nat -> Z) (lo n : nat) : list (list (list Z)) :=
  forN (lo + 1) (n - 1) (fun j f => rotAcc N k E (mulAdd N k) (rot j) (blkZ j) f) (rotAcc N k E (mulSet N k) (rot lo) (blkZ lo) []).
Definition sumE0 (blkZ : nat -> nat -> list (list Z)) (rot : nat -> Z) (lo n : nat) : list (list Z) :=
  forN (lo + 1) (n - 1) (fun j f => rotAcc0 N k E (mulAdd N k) (rot j) (blkZ j) f) (rotAcc0 N k E (mulSet N k) (rot lo) (blkZ lo) []).
Lemma extTerms_ok prod blkZ rot lo n (b : buf) : (1 <= n)%nat -> (Z.of_nat (c + 2 * n) <= 1000000)%Z -> (forall j, (0 <= rot j)%Z) -> xbufs b ->
  (forall j kk o, (lo <= j < lo + n)%nat -> (kk < E)%nat -> bufOK (S k) o -> SR c (prod j kk o) (nth kk (blkZ j) [])) ->
  let b' := extTerms K k E monoS monoM fsubF prod rot lo n b in xbufs b' /\ forall kk, (kk < E)%nat -> TR c (2 * n) (nth kk (x_acc b') []) (nth kk (sumE blkZ rot lo n) []).
Proof.
  intros Hn Hcn Hrot Hb Hprod. cbv zeta. unfold extTerms, sumE. replace (2 * n)%nat with (S (S (2 * (n - 1))))%nat by lia.
  apply (forN_rel (fun i (b : buf) t => xbufs b /\ forall kk, (kk < E)%nat -> TR c (S (S (2 * i))) (nth kk (x_acc b) []) (nth kk t []))).
  - destruct (extTerm_ok true 0 (prod lo) (blkZ lo) (rot lo) b [] ltac:(lia) (Hrot lo) Hb) as (X1 & _ & X2); [|intros kk o Hk Ho; apply Hprod; [lia|exact Hk|exact Ho]|split; [exact X1|exact X2]].
    intros kk Hkk. split; [reflexivity|]. now apply Hb.
  - intros i s t Hi [Hs Ht]. destruct (extTerm_ok false (S (S (2 * i))) (prod (lo + 1 + i)%nat) (blkZ (lo + 1 + i)%nat) (rot (lo + 1 + i)%nat) s t ltac:(lia) (Hrot _) Hs) as (X1 & _ & X2);
      [|intros kk o Hk Ho; apply Hprod; [lia|exact Hk|exact Ho]|split; [exact X1|replace (2 * S i)%nat with (S (S (2 * i)))%nat by lia; exact X2]].
    intros kk Hkk. split; [lia|]. now apply Ht.
Qed.
Lemma extTerms0_ok prod blkZ rot lo n (b : buf) : (1 <= n)%nat -> (Z.of_nat (c + 2 * n) <= 1000000)%Z -> (forall j, (0 <= rot j)%Z) -> xbufs b ->
  (forall j kk o, (lo <= j < lo + n)%nat -> (kk < E)%nat -> bufOK (S k) o -> SR c (prod j kk o) (blkZ j kk)) ->
  let b' := forN (lo + 1) (n - 1) (fun j b => extTerm0 K k E monoS monoM fsubF false (prod j) (rot j) b) (extTerm0 K k E monoS monoM fsubF true (prod lo) (rot lo) b) in
  TR c (2 * n) (nth 0 (x_acc b') []) (sumE0 blkZ rot lo n).
Proof.
  intros Hn Hcn Hrot Hb Hprod. cbv zeta. unfold sumE0. replace (2 * n)%nat with (S (S (2 * (n - 1))))%nat by lia.
  match goal with |- TR c ?m (nth 0 (x_acc ?b') []) ?t => enough (G : xbufs b' /\ TR c m (nth 0 (x_acc b') []) t) by apply G end.
  apply (forN_rel (fun i (b : buf) t => xbufs b /\ TR c (S (S (2 * i))) (nth 0 (x_acc b) []) t)).
  - destruct (extTerm0_ok true 0 (prod lo) (blkZ lo) (rot lo) b [] ltac:(lia) (Hrot lo) Hb) as (X1 & _ & X2); [|intros kk o Hk Ho; apply Hprod; [lia|exact Hk|exact Ho]|split; [exact X1|exact X2]].
    split; [reflexivity|]. now apply Hb.
  - intros i s t Hi [Hs Ht]. destruct (extTerm0_ok false (S (S (2 * i))) (prod (lo + 1 + i)%nat) (blkZ (lo + 1 + i)%nat) (rot (lo + 1 + i)%nat) s t ltac:(lia) (Hrot _) Hs) as (X1 & _ & X2);
      [|intros kk o Hk Ho; apply Hprod; [lia|exact Hk|exact Ho]|split; [exact X1|replace (2 * S i)%nat with (S (S (2 * i)))%nat by lia; exact X2]].
    split; [lia|]. exact Ht.
Qed.
End C.
End Terms.
