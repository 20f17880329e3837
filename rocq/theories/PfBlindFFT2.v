(** Lemmas: the buffers and the blocks of the blind rotation on binary64 transforms. *)
From Coq Require Import Floats.SpecFloat.
From Verif Require Import Base NegaRing ModelNum ModelVec ModelPoly ModelAsm ModelF64 ModelFFT ModelF64Arith ModelSplitFFT ModelFused ModelFusedMul ModelGadget ModelGLWE ModelBoot ModelProdFFT ModelBlindFFT SpecNum SpecVec SpecPoly SpecFFT SpecFFTReal SpecRound SpecFused SpecGadget SpecGLWE SpecProdFFT SpecBlindFFT
  PfNum PfVec PfPoly PfSplit PfFFT6 PfRound PfNorm PfErr PfErr2 PfErr3 PfErr4 PfErrF PfF64Fused PfSplitFFT PfSplitF64 PfSplitF64b PfErrSum PfAvxKern PfValid PfSumK PfGadget PfGLWE3 PfProdFFT PfMonoF PfBlindFFT.
From Coq Require Import Reals Lra Lia.
Open Scope R_scope.

Section Bufs.
Variable cexp : Z -> Z -> spec_float * spec_float.
Notation A := (f64Arith cexp).
Notation Vs := (@List.Forall f64 (fun x : f64 => vb x = true)).
Variables (N lm : nat).
Hypothesis Hlm : (3 <= lm)%nat.
Hypothesis Hlm14 : (lm <= 14)%nat.
Hypothesis HN : N = (2 ^ S lm)%nat.
Variable K : kern (car A).
Hypothesis HK : kernNear cexp N lm K.
Variables (w : Z) (k : nat) (p : gadget).
Hypothesis Hw : (1 <= w <= 64)%Z.
Hypothesis Hp : gadget_ok w p.
Notation XM := (XM lm).
Notation XK := (XB lm (IZR (2 ^ (w - 1)))).
Notation XD := (XB lm (IZR (2 ^ (g_logBase p - 1)))).
Notation SR := (SR cexp N lm k XK XD).
Notation TR := (TR cexp N lm w k p).
Notation rep64 := (rep A finF val u64 eta64 del64 N lm).
Variable mono : list (car A) -> Z -> list (car A).
Hypothesis Hmono : forall o d, length o = N -> Vs o -> rep64 1 XM (mono o d) (pol N (fmonoSubOne N d)) /\ Vs (mono o d).
Variable left : list (car A) -> list (car A).
Hypothesis Hleft : forall v, length v = N -> Vs v -> length (left v) = N /\ Vs (left v).
Notation bufOK := (bufOK cexp N).
Notation buf := (brBuf (car A)).

Definition dcBuf (d : list (list (list (car A)))) : Prop := length d = S k /\ forall i, (i <= k)%nat -> bufOK (g_level p) (nth i d []).
Definition bufs (b : buf) : Prop := dcBuf (b_dcmp b) /\ bufOK (S k) (b_blk b) /\ (length (b_mono b) = N /\ Vs (b_mono b)) /\ bufOK (S k) (b_acc b).
Lemma SR_buf c s t : SR c s t -> bufOK (S k) s.
Proof. intros H i Hi. destruct (H i ltac:(lia)) as ((L & _) & V & _). now split. Qed.
Lemma TR_buf c m s t : TR c m s t -> bufOK (S k) s.
Proof. intros H i Hi. destruct (H i ltac:(lia)) as ((L & _) & V & _). now split. Qed.

(** The exact sum of a block. *)
Definition sumZ (prodZ : nat -> list (list Z)) (d : nat -> Z) (lo n : nat) : list (list Z) :=
  forN (lo + 1) (n - 1) (fun j acc => fgMulAdd N k acc (prodZ j) (fmonoSubOne N (d j))) (fgMul N k (prodZ lo) (fmonoSubOne N (d lo))).
Lemma terms_ok c prod prodZ d lo n b : (1 <= c)%nat -> (1 <= n)%nat -> (Z.of_nat (c + n) <= 1000000)%Z -> bufs b ->
  (forall j o, (lo <= j < lo + n)%nat -> bufOK (S k) o -> SR c (prod j o) (prodZ j)) ->
  let b' := rotTerms K k mono prod d lo n b in bufs b' /\ TR c n (b_acc b') (sumZ prodZ d lo n).
Proof.
  intros Hc Hn Hcn Hb Hprod. cbv zeta. unfold rotTerms, sumZ.
  enough (G : bufs (forN (lo + 1) (n - 1) (fun j b => rotTerm K k mono false (prod j) (d j) b) (rotTerm K k mono true (prod lo) (d lo) b)) /\
    TR c (S (n - 1)) (b_acc (forN (lo + 1) (n - 1) (fun j b => rotTerm K k mono false (prod j) (d j) b) (rotTerm K k mono true (prod lo) (d lo) b)))
     (forN (lo + 1) (n - 1) (fun j acc => fgMulAdd N k acc (prodZ j) (fmonoSubOne N (d j))) (fgMul N k (prodZ lo) (fmonoSubOne N (d lo))))).
  { replace (S (n - 1)) with n in G by lia. exact G. }
  apply (forN_rel (fun i (b : buf) t => bufs b /\ TR c (S i) (b_acc b) t)).
  - destruct Hb as (B1 & B2 & (B3 & B4) & B5). cbn [rotTerm b_acc]. pose proof (Hprod lo _ ltac:(lia) B2) as HS. destruct (Hmono (b_mono b) (d lo) B3 B4) as [M1 M2].
    pose proof (term_first cexp N lm Hlm Hlm14 HN K HK w k p Hw Hp c Hc (b_acc b) _ _ _ _ ltac:(lia) B5 HS M1 M2) as T. split; [|exact T].
    unfold bufs. cbn [rotTerm b_dcmp b_blk b_mono b_acc]. split; [exact B1|]. split; [exact (SR_buf _ _ _ HS)|]. split; [|exact (TR_buf _ _ _ _ T)]. split; [apply M1|exact M2].
  - intros i s t Hi [(B1 & B2 & (B3 & B4) & B5) HT]. cbn [rotTerm b_acc]. pose proof (Hprod (lo + 1 + i)%nat _ ltac:(lia) B2) as HS. destruct (Hmono (b_mono s) (d (lo + 1 + i)%nat) B3 B4) as [M1 M2].
    pose proof (term_next cexp N lm Hlm Hlm14 HN K HK w k p Hw Hp c Hc (S i) (b_acc s) t _ _ _ _ ltac:(lia) ltac:(lia) HT HS M1 M2) as T. split; [|exact T].
    unfold bufs. cbn [rotTerm b_dcmp b_blk b_mono b_acc]. split; [exact B1|]. split; [exact (SR_buf _ _ _ HS)|]. split; [|exact (TR_buf _ _ _ _ T)]. split; [apply M1|exact M2].
Qed.

Lemma rot_form logN c m : logN = Z.of_nat (S lm) ->
  INR (3 * lm + 4 + c + m) * (29 * u64) * (INR m * (INR c * (sqrt 2 ^ lm * (XK * XD * XM) / INR (2 ^ lm)))) + / 2 = rotErr logN N c m (2 ^ (w - 1)) (2 ^ (g_logBase p - 1)).
Proof.
  intros EL. assert (N2 : N = (2 * 2 ^ lm)%nat) by (rewrite HN; reflexivity). unfold rotErr. f_equal. rewrite XB_mul. pose proof (M14' N lm Hlm Hlm14 HN) as HM. rewrite EL, N2, !plus_INR.
  replace (INR (3 * lm)) with (3 * IZR (Z.of_nat (S lm)) - 3) by (rewrite Nat2Z.inj_succ, succ_IZR, <- INR_IZR_INZ, mult_INR; cbn [INR]; ring).
  rewrite mult_INR. unfold PfMonoF.XM. assert (SS : sqrt 2 ^ lm * sqrt 2 ^ lm = INR (2 ^ lm)) by (rewrite <- sqrt2_pow; apply sqrt_sqrt, pos_INR).
  set (g := INR (2 ^ lm)) in *. replace (sqrt 2 ^ lm * (g * g * (2 * (IZR (2 ^ (w - 1)) * IZR (2 ^ (g_logBase p - 1)))) * (2 * sqrt 2 ^ lm)) / g) with (4 * g * g * (IZR (2 ^ (w - 1)) * IZR (2 ^ (g_logBase p - 1)))).
  2:{ replace (sqrt 2 ^ lm * (g * g * (2 * (IZR (2 ^ (w - 1)) * IZR (2 ^ (g_logBase p - 1)))) * (2 * sqrt 2 ^ lm)) / g) with (sqrt 2 ^ lm * sqrt 2 ^ lm * (g * 4 * (IZR (2 ^ (w - 1)) * IZR (2 ^ (g_logBase p - 1))))) by (field; lra). rewrite SS. ring. }
  cbn [INR]. ring.
Qed.
Lemma rot_mono logN c c' m B B' : (4 <= logN)%Z -> (c <= c')%nat -> (0 <= B)%Z -> (0 <= B')%Z -> rotErr logN N c m B B' <= rotErr logN N c' m B B'.
Proof.
  intros HL Hc HB HB'. unfold rotErr. apply Rplus_le_compat_r. pose proof (le_INR _ _ Hc) as I. pose proof (pos_INR c). pose proof (pos_INR m). pose proof (pos_INR N) as IN. apply IZR_le in HB, HB', HL.
  pose proof (pw_pos (-53)) as PU. apply Rmult_le_compat.
  - apply Rmult_le_pos; [apply Rmult_le_pos; lra|exact (Rlt_le _ _ PU)].
  - repeat apply Rmult_le_pos; assumption.
  - apply Rmult_le_compat_r; [exact (Rlt_le _ _ PU)|]. lra.
  - repeat (apply Rmult_le_compat_r; [repeat apply Rmult_le_pos; assumption|]). apply Rmult_le_compat_l; assumption.
Qed.

(** A block ends in a ciphertext close to the exact one. *)
Lemma block_end logN c c' n (st : list (list Z) * buf) t D : logN = Z.of_nat (S lm) -> (1 <= c)%nat -> (c <= c')%nat -> (1 <= n)%nat -> (Z.of_nat (c + n) <= 1000000)%Z -> bufs (snd st) -> TR c n (b_acc (snd st)) t ->
  length (b_acc (snd st)) = S k -> (forall i, (i <= k)%nat -> length (nth i (fst st) []) = N) -> rotErr_le w (g_logBase p) logN N c' n D ->
  close w N k D (fst (rotEnd K w k left st)) (gInvAdd w k (fst st) t) /\ bufs (snd (rotEnd K w k left st)).
Proof.
  intros EL Hc Hcc Hn Hcn Hb HT HA Ho HD. destruct st as [out b]. cbn [fst snd rotEnd] in *. split.
  - apply (terms_end cexp N lm Hlm Hlm14 HN K HK w k p Hw Hp c Hc n (b_acc b) t out D Hn Hcn HT Ho). rewrite (rot_form logN) by exact EL. eapply Rle_lt_trans; [apply rot_mono with (c' := c'); try lia|exact HD]; apply Z.pow_nonneg; lia.
  - destruct Hb as (B1 & B2 & B3 & B5). split; [exact B1|]. split; [exact B2|]. split; [exact B3|]. cbn [b_acc]. intros i Hi.
    assert (Li : (i < length (b_acc b))%nat) by lia. rewrite (nth_map_in left (b_acc b) i [] [] Li). destruct (B5 i Hi) as [L V]. now apply Hleft.
Qed.
End Bufs.
