(** Lemmas: the functions of ModelFusedMul.v are what the kernels compute in memory. *)
From Coq Require Import Floats.SpecFloat Lia.
From Verif Require Import Base ModelNum ModelVec ModelAsm ModelAsmInt ModelAsmFlt ModelF64 ModelAsmFold SpecAsm SpecF64 SpecAsmFold PfAsmFold4 ModelFFT ModelF64Arith ModelFused ModelFusedMul SpecFFT SpecAsmFlt SpecFused
  PfVec PfFFT PfFFT2 PfNetGen PfNetGen2 PfAsm PfAsmFlt PfAsmFFT2 PfAsmFFT6 PfAsmFused PfAvxKern.
Open Scope Z_scope.

Section Layout.
Variable cexp : Z -> Z -> f64 * f64.
Notation A := (f64Arith cexp).
Variables (N lm : nat).
Hypothesis Hlm : (3 <= lm)%nat.
Hypothesis HN : N = (2 ^ S lm)%nat.
Notation M := (2 ^ lm)%nat.

Lemma Nhalf : Z.of_nat N / 2 = Z.of_nat M.
Proof. rewrite HN, Nat.pow_succ_r', Nat2Z.inj_mul, Z.mul_comm. apply Z.div_mul. discriminate. Qed.
Lemma laneZ k : Z.of_nat (8 * (k / 4) + k mod 4) = 8 * (Z.of_nat k / 4) + Z.of_nat k mod 4.
Proof. rewrite Nat2Z.inj_add, Nat2Z.inj_mul, Nat2Z.inj_div, Nat2Z.inj_mod. reflexivity. Qed.
(** Every coefficient of the output of the unfold loop. *)
Lemma unfold_at acc sg w out fp j : length fp = N -> length out = N -> (j < N)%nat ->
  nthZ (unfoldAVX acc sg w out fp) j = acc (nthZ out j) (twrap sg w (avxConv sg w (nth (Z.to_nat (unfoldIdx (Z.of_nat N) (Z.of_nat j))) fp (S754_zero false)))).
Proof.
  intros Lf Lo Hj. rewrite (unfold_eq cexp). set (B := withRound cexp (avxConv sg w)).
  set (c := fun i => avxConv sg w (nth (Z.to_nat (unfoldIdx (Z.of_nat N) (Z.of_nat i))) fp (S754_zero false))).
  assert (E2 : (N = M + M)%nat) by (rewrite HN; cbn [Nat.pow]; lia).
  rewrite (gunfold_spec B N lm Hlm HN acc sg w fp c out Lf Lo); [now rewrite nthZ_tab by exact Hj|].
  intros k Hk. unfold c, cplx. cbn [fst snd around a0 B withRound f64Arith]. unfold unfoldIdx. rewrite Nhalf.
  destruct (Z.ltb_spec (Z.of_nat k) (Z.of_nat M)); [|lia]. destruct (Z.ltb_spec (Z.of_nat (k + M)) (Z.of_nat M)); [lia|].
  replace (Z.of_nat (k + M) - Z.of_nat M) with (Z.of_nat k) by lia.
  replace (8 * (Z.of_nat k / 4) + 4 + Z.of_nat k mod 4) with (8 * (Z.of_nat k / 4) + Z.of_nat k mod 4 + Z.of_nat 4) by lia. rewrite <- laneZ, <- Nat2Z.inj_add, !Nat2Z.id. split; reflexivity.
Qed.
(** Every float of the output of the fold loop. *)
Lemma fold_at w out p i : length out = N -> (i < N)%nat ->
  nth i (foldPolyTo A false w out p) (S754_zero false) = goOfInt w (nthZ p (Z.to_nat (foldIdx (Z.of_nat N) (Z.of_nat i)))).
Proof.
  intros Lo Hi. destruct (gfold_spec A N lm Hlm HN false w out p Lo) as [_ H].
  assert (E2 : (N = M + M)%nat) by (rewrite HN; cbn [Nat.pow]; lia).
  assert (E8 : (2 ^ lm = 8 * 2 ^ (lm - 3))%nat) by (replace lm with (3 + (lm - 3))%nat at 1 by lia; rewrite Nat.pow_add_r; reflexivity).
  set (k := (4 * (i / 8) + i mod 4)%nat).
  assert (I8 : (i = 8 * (i / 8) + i mod 8)%nat) by (apply Nat.div_mod; lia). assert (M8 : (i mod 8 < 8)%nat) by (apply Nat.mod_upper_bound; lia).
  assert (M4 : (i mod 4 = if i mod 8 <? 4 then i mod 8 else i mod 8 - 4)%nat).
  { rewrite I8 at 1. destruct (Nat.ltb_spec (i mod 8) 4); symmetry; [apply (Nat.mod_unique _ _ (2 * (i / 8)))|apply (Nat.mod_unique _ _ (2 * (i / 8) + 1))]; lia. }
  assert (M3 : (i mod 4 < 4)%nat) by (apply Nat.mod_upper_bound; lia).
  assert (Hk : (k < M)%nat) by (unfold k; lia).
  assert (K4 : (k / 4 = i / 8)%nat) by (unfold k; symmetry; apply (Nat.div_unique _ _ _ (i mod 4)); lia).
  assert (K4' : (k mod 4 = i mod 4)%nat) by (unfold k; symmetry; apply (Nat.mod_unique _ _ (i / 8)); lia).
  specialize (H k Hk). unfold cplx in H. rewrite K4, K4' in H. injection H as H1 H2. unfold foldIdx. rewrite Nhalf.
  assert (Zi8 : Z.of_nat i / 8 = Z.of_nat (i / 8)) by (rewrite Nat2Z.inj_div; reflexivity). assert (Zm8 : Z.of_nat i mod 8 = Z.of_nat (i mod 8)) by (rewrite Nat2Z.inj_mod; reflexivity).
  assert (Zm4 : Z.of_nat i mod 4 = Z.of_nat (i mod 4)) by (rewrite Nat2Z.inj_mod; reflexivity). rewrite Zi8, Zm8, Zm4.
  destruct (Nat.ltb_spec (i mod 8) 4) as [C|C].
  - destruct (Z.ltb_spec (Z.of_nat (i mod 8)) 4); [|lia]. replace (Z.to_nat (4 * Z.of_nat (i / 8) + Z.of_nat (i mod 4) + 0)) with k by (unfold k; lia).
    replace i with (8 * (i / 8) + i mod 4)%nat at 1 by lia. exact H1.
  - destruct (Z.ltb_spec (Z.of_nat (i mod 8)) 4); [lia|]. replace (Z.to_nat (4 * Z.of_nat (i / 8) + Z.of_nat (i mod 4) + Z.of_nat M)) with (k + M)%nat by (unfold k; lia).
    replace i with (8 * (i / 8) + i mod 4 + 4)%nat at 1 by lia. exact H2.
Qed.
End Layout.

Lemma k_modQ64 w s c : fslice64 (mm s) c -> gn c mod 4 = 0 ->
  terminates F64 (mkEnv (frameQ c (pow2F w) (goInv (pow2F w))) foldData) floatModQInPlaceAVX2 s (window c (fun i => ModelAsm.WF (avxModQ w (fat (mm s) c i))) (mm s)).
Proof. exact (k_modQ s c (pow2F w) (goInv (pow2F w))). Qed.

(** The forward transform in memory: the fold kernel, then the FFT kernel. *)
Lemma ivals_nth {T} (m : mem T) g j : 0 <= j < gn g -> nthZ (ivals m g) (Z.to_nat j) = ival m g j.
Proof.
  intros Hj. unfold ivals, nthZ. rewrite (nth_indep _ 0 (ival m g (Z.of_nat 0))) by (rewrite map_length, seq_length; lia).
  rewrite (map_nth (fun i => ival m g (Z.of_nat i))), seq_nth by lia. f_equal. lia.
Qed.
Lemma foldIdx_range n i : n mod 8 = 0 -> 0 <= i < n -> 0 <= foldIdx n i < n.
Proof.
  intros Hn Hi. unfold foldIdx. pose proof (Z.div_mod n 8 ltac:(lia)). pose proof (Z.div_mod i 8 ltac:(lia)). pose proof (Z.mod_pos_bound i 8 ltac:(lia)).
  pose proof (Z.mod_pos_bound i 4 ltac:(lia)). assert (n / 2 = 4 * (n / 8)) by (symmetry; apply (Z.div_unique _ _ _ 0); lia). destruct (i mod 8 <? 4); lia.
Qed.
Lemma k_fwdB_eq A F bA bB s o tw k v t : fwdOK A F bA bB -> fft_call A s o tw k -> fvals A (mm s) o = v -> cvals A (mm s) tw = t ->
  terminates F (mkEnv (frame2 o tw) noData) fwdFFTInPlaceAVX2 s (becomes A o (fwdFFTB A bA bB v t) (mm s)).
Proof. intros O C <- <-. exact (k_fwdB A F bA bB s o tw k O C). Qed.
Section Fwd.
Variable cexp : Z -> Z -> f64 * f64.
Notation A := (f64Arith cexp).
Lemma fwd_mem w kn (s : state f64) fp p tw k (ev : evaluator A) : folds (w / 8) kn (goOfInt w) -> fold_call s fp p (w / 8) -> fft_call A s fp tw k ->
  cvals A (mm s) tw = e_tw A ev ->
  terminates F64 (mkEnv (frameTU fp 8 p (w / 8)) foldData) kn s (fun m1 => forall s1, mm s1 = m1 ->
    terminates F64 (mkEnv (frame2 fp tw) noData) fwdFFTInPlaceAVX2 s1 (becomes A fp (avxFwd cexp ev false w (fvals A (mm s) fp) (ivals (mm s) p)) (mm s))).
Proof.
  intros Kf C Cf Ht. destruct (Kf s fp p C) as (s' & R & B). exists s'. split; [exact R|]. intros s1 Es. rewrite <- Es in B.
  pose proof Cf as (So & St & Hk & HN & HM & D). pose proof So as (_ & _ & Sn & _). destruct C as (_ & _ & Hp & Hm & _).
  set (v := foldPolyTo A false w (fvals A (mm s) fp) (ivals (mm s) p)).
  assert (EN : Z.to_nat (gn fp) = (2 ^ S (Z.to_nat k - 1))%nat) by (rewrite HN, Z2Nat.inj_pow by lia; f_equal; lia).
  assert (Lf : length (fvals A (mm s) fp) = Z.to_nat (gn fp)) by apply fvals_length.
  assert (B' : becomes A fp v (mm s) (mm s1)).
  { split; [apply (gfold_spec A _ (Z.to_nat k - 1) ltac:(lia) EN); exact Lf|]. destruct B as [B1 B2]. split; [exact B1|]. intros b i. rewrite B2.
    destruct (Nat.eqb b (gb fp) && (go fp <=? i) && (i <? go fp + gn fp))%bool eqn:Q; [|reflexivity]. apply andb_prop in Q as [Q Q2]. apply andb_prop in Q as [_ Q1].
    apply Z.leb_le in Q1. apply Z.ltb_lt in Q2. f_equal. f_equal. unfold v. change (a0 A) with (S754_zero false).
    rewrite (fold_at cexp _ (Z.to_nat k - 1) ltac:(lia) EN w _ _ (Z.to_nat (i - go fp)) Lf) by lia. rewrite !Z2Nat.id by lia.
    rewrite ivals_nth; [reflexivity|]. rewrite Hp. apply foldIdx_range; [exact Hm|lia]. }
  assert (C1 : fft_call A s1 fp tw k).
  { split; [eapply bec_fslice; eassumption|]. split; [eapply bec_cslice; eassumption|]. repeat (split; [assumption|]). exact D. }
  destruct (k_fwdB_eq A F64 _ _ s1 fp tw k v (e_tw A ev) (fwdF_OK A F64) C1 (bec_fvals A (mm s) (mm s1) fp _ B' Sn)
    (eq_trans (bec_cvals A (mm s) (mm s1) fp _ B' tw D) Ht)) as (s2 & R2 & B2). exists s2. split; [exact R2|]. exact (bec_trans A (mm s) (mm s1) fp _ B' _ _ B2).
Qed.
End Fwd.
Lemma fwd_mem32 cexp s fp p tw k ev : fold_call s fp p 4 -> fft_call (f64Arith cexp) s fp tw k -> cvals (f64Arith cexp) (mm s) tw = e_tw (f64Arith cexp) ev ->
  terminates F64 (mkEnv (frameTU fp 8 p 4) foldData) foldPolyToUint32AVX2 s (fun m1 => forall s1, mm s1 = m1 ->
    terminates F64 (mkEnv (frame2 fp tw) noData) fwdFFTInPlaceAVX2 s1
      (becomes (f64Arith cexp) fp (avxFwd cexp ev false 32 (fvals (f64Arith cexp) (mm s) fp) (ivals (mm s) p)) (mm s))).
Proof. exact (fwd_mem cexp 32 _ s fp p tw k ev k_fold32). Qed.
Lemma fwd_mem64 cexp s fp p tw k ev : fold_call s fp p 8 -> fft_call (f64Arith cexp) s fp tw k -> cvals (f64Arith cexp) (mm s) tw = e_tw (f64Arith cexp) ev ->
  terminates F64 (mkEnv (frameTU fp 8 p 8) foldData) foldPolyToUint64AVX2 s (fun m1 => forall s1, mm s1 = m1 ->
    terminates F64 (mkEnv (frame2 fp tw) noData) fwdFFTInPlaceAVX2 s1
      (becomes (f64Arith cexp) fp (avxFwd cexp ev false 64 (fvals (f64Arith cexp) (mm s) fp) (ivals (mm s) p)) (mm s))).
Proof. exact (fwd_mem cexp 64 _ s fp p tw k ev k_fold64). Qed.

(** A memory with an Evaluator's tables and a polynomial. *)
Definition wordsAt (b : Z) (l : list Z) (s : state f64) : state f64 := mkSt (rg s) (vr s) (fl s)
  (mkMem (fun i => match i with 3%nat => b | _ => esz (mm s) i end)
    (fun i j => match i with 3%nat => if (0 <=? j) && (j <? Z.of_nat (length l)) then Some (ModelAsm.WI (nthZ l (Z.to_nat j))) else None | _ => getm (mm s) i j end)).
Lemma fwd_hyp cexp k b p : (4 <= k <= 15)%nat -> (b = 4 \/ b = 8) -> length p = (2 ^ k)%nat -> Forall (fun x => 0 <= x < 2 ^ (8 * b)) p ->
  exists e s, let fp := mkG 0 0 (2 ^ Z.of_nat k) 0 in let gp := mkG 3 0 (2 ^ Z.of_nat k) 0 in let tw := mkG 1 0 (Z.of_nat (length (e_tw (f64Arith cexp) e))) 0 in
  let twi := mkG 2 0 (Z.of_nat (length (e_twInv (f64Arith cexp) e))) 0 in
  NewEvaluator (f64Arith cexp) (2 ^ k) = Ok e /\ fold_call s fp gp b /\ fft_call (f64Arith cexp) s fp tw (Z.of_nat k) /\
  cvals (f64Arith cexp) (mm s) tw = e_tw (f64Arith cexp) e /\ fft_call (f64Arith cexp) s fp twi (Z.of_nat k) /\ cvals (f64Arith cexp) (mm s) twi = e_twInv (f64Arith cexp) e /\ ivals (mm s) gp = p.
Proof.
  intros Hk Hb Lp Hp. set (A := f64Arith cexp).
  destruct (gNewEvaluator A (2 ^ k) (k - 1) ltac:(lia) ltac:(f_equal; lia)) as (e & He & _). destruct (table_lengths A k e ltac:(lia) He) as [L1 L2].
  set (c := repeat (S754_zero false) (2 ^ k)). set (s0 := lay A c (e_tw A e) (e_twInv A e)). exists e, (wordsAt b p s0). cbv zeta.
  assert (Lc : length c = (2 ^ k)%nat) by apply repeat_length.
  assert (P : Z.of_nat (2 ^ k) = 2 ^ Z.of_nat k) by (rewrite Nat2Z.inj_pow; reflexivity).
  assert (P2 : Z.of_nat (2 ^ (k - 1) - 1) = 2 ^ (Z.of_nat k - 1) - 1) by (pose proof (Nat.pow_nonzero 2 (k - 1)); rewrite Nat2Z.inj_sub by lia; rewrite Nat2Z.inj_pow; do 2 f_equal; lia).
  assert (Pb : 2 ^ Z.of_nat k < 2 ^ 59) by (apply Z.pow_lt_mono_r; lia). assert (P0 : 0 < 2 ^ Z.of_nat k) by (apply Z.pow_pos_nonneg; lia).
  assert (P8 : 2 ^ Z.of_nat k mod 8 = 0) by (replace (Z.of_nat k) with (Z.of_nat (k - 3) + 3) by lia; rewrite Z.pow_add_r by lia; change (2 ^ 3) with 8; apply Z.mod_mul; lia).
  assert (G : forall i, 0 <= i < 2 ^ Z.of_nat k -> getm (mm (wordsAt b p s0)) 3%nat i = Some (ModelAsm.WI (nthZ p (Z.to_nat i)))).
  { intros i Hi. cbn [getm mm wordsAt]. destruct (Z.leb_spec 0 i), (Z.ltb_spec i (Z.of_nat (length p))); cbn [andb]; try lia. reflexivity. }
  split; [exact He|]. split.
  { split; [|split; [|split; [reflexivity|split; [exact P8|discriminate]]]].
    - split; [reflexivity|]. cbn [gb go gn]. do 3 (split; [lia|]). intros i Hi. exists (S754_zero false). split; [|reflexivity].
      refine (eq_trans (blk_ok A c (0 + i) _) _); [change (@length (car A) c) with (@length f64 c); rewrite Lc; lia|]. unfold c. f_equal. f_equal. apply nth_repeat.
    - split; [reflexivity|]. cbn [gb go gn]. do 3 (split; [lia|]). intros i Hi. eexists. split; [apply G; lia|].
      rewrite Forall_forall in Hp. apply Hp. apply nth_In. lia. }
  split; [exact (lay_call A c (e_tw A e) (e_twInv A e) 1 (e_tw A e) (Z.of_nat k) _ 0 0 (or_introl (Logic.conj eq_refl eq_refl)) ltac:(lia) (eq_trans (f_equal Z.of_nat Lc) P) (eq_trans (f_equal Z.of_nat L1) P2) eq_refl)|].
  split; [exact (lay_cvals A c (e_tw A e) (e_twInv A e) 1 (e_tw A e) _ 0 (or_introl (Logic.conj eq_refl eq_refl)) eq_refl)|].
  split; [exact (lay_call A c (e_tw A e) (e_twInv A e) 2 (e_twInv A e) (Z.of_nat k) _ 0 0 (or_intror (Logic.conj eq_refl eq_refl)) ltac:(lia) (eq_trans (f_equal Z.of_nat Lc) P) (eq_trans (f_equal Z.of_nat L2) P2) eq_refl)|].
  split; [exact (lay_cvals A c (e_tw A e) (e_twInv A e) 2 (e_twInv A e) _ 0 (or_intror (Logic.conj eq_refl eq_refl)) eq_refl)|].
  apply (nth_ext _ _ 0 0); unfold ivals; rewrite map_length, seq_length; cbn [gn]; [lia|]. intros i Hi.
  pose proof (ivals_nth (mm (wordsAt b p s0)) (mkG 3 0 (2 ^ Z.of_nat k) 0) (Z.of_nat i) ltac:(cbn [gn]; lia)) as Q. unfold ivals, nthZ in Q. rewrite Nat2Z.id in Q. cbn [gn] in Q. rewrite Q.
  unfold ival. cbn [gb go]. rewrite G by lia. unfold nthZ. f_equal. lia.
Qed.
