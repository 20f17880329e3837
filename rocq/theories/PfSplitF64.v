(** Lemmas: the error budget of binary64 and the split multiplications on it. *)
From Verif Require Import Base NegaRing ModelNum ModelVec ModelPoly ModelFFT ModelF64Arith ModelSplitFFT SpecNum SpecVec SpecPoly SpecFFT SpecFFTReal SpecRound
  PfNum PfVec PfPoly PfSplit PfFFT PfFFT2 PfFFT3 PfFFT4 PfFFT6 PfFFTReal PfNetGen PfNetGen2 PfRound PfNorm PfErr PfErr2 PfRoundQ PfErr3 PfErr4 PfSplitFFT.
From Coq Require Import Reals Lra Lia.
Open Scope R_scope.

Lemma pw_m53 : pw (-53) = / 9007199254740992.
Proof. change (pw (-53)) with (/ (2 ^ 53)). f_equal. rewrite pow_IZR. reflexivity. Qed.
Lemma pw_neg k : (0 <= k)%Z -> pw (- k) = / IZR (2 ^ k).
Proof.
  intros H. rewrite pw_IZR by exact H. apply Rmult_eq_reg_l with (pw k); [|pose proof (pw_pos k); lra].
  rewrite Rinv_r by (pose proof (pw_pos k); lra). rewrite <- pw_add. replace (k + - k)%Z with 0%Z by lia. reflexivity.
Qed.
Lemma pw_m52 : pw (-52) = / 4503599627370496. Proof. exact (pw_neg 52 ltac:(lia)). Qed.
Lemma eta_small : 0 <= pw (-1075) <= / (1267650600228229401496703205376 * 1267650600228229401496703205376).
Proof.
  split; [pose proof (pw_pos (-1075)); lra|]. apply Rle_trans with (pw (- (200))); [apply pw_le; lia|]. rewrite pw_neg by lia. rewrite <- mult_IZR. right. reflexivity.
Qed.
Lemma Om_big : 1267650600228229401496703205376 * 1267650600228229401496703205376 * (1267650600228229401496703205376 * 1267650600228229401496703205376) <= pw 970.
Proof. rewrite <- pw_IZR by lia. rewrite <- !mult_IZR. apply IZR_le. vm_compute. discriminate. Qed.

Notation u64 := (pw (-53)).
Notation eta64 := (pw (-1075)).
Definition d64 : R := 5 * pw (-52).
Definition del64 : R := (1 + d64) * (1 + d64) * (1 + gam u64) - 1 + 10 * eta64.
Lemma bounds64 lm : (lm <= 14)%nat ->
  0 <= u64 <= / 8 /\ 0 <= eta64 <= / 32 /\ 16 <= pw 970 /\ 0 <= d64 <= 1 /\ 0 <= del64 <= / 4 /\ 0 <= kw u64 eta64 del64 lm <= 28 * u64.
Proof.
  intros Hlm. pose proof eta_small as E. pose proof Om_big as O. pose proof pw_m53 as U. pose proof pw_m52 as U2.
  unfold kw, om, kap, tet, del64, gam, d64. rewrite U2. set (h := eta64) in *. rewrite U. clear U U2.
  assert (M : 0 <= INR (2 ^ lm) <= 16384).
  { split; [apply pos_INR|]. rewrite INR_IZR_INZ. apply IZR_le. rewrite Nat2Z.inj_pow. change 16384%Z with (2 ^ 14)%Z. apply Z.pow_le_mono_r; lia. }
  assert (H : 0 <= INR (2 ^ lm) * (22 * h) <= 16384 * (22 * h)) by (split; [apply Rmult_le_pos; lra|apply Rmult_le_compat_r; lra]).
  set (v := INR (2 ^ lm) * (22 * h)) in *. clearbody v h. assert (h <= / 1267650600228229401496703205376) by lra. clear E Hlm M.
  split; [lra|]. split; [lra|]. split; [lra|]. split; [lra|]. split; [lra|]. lra.
Qed.
Lemma pow_inv x n : 0 <= x -> INR n * x < 1 -> (1 + x) ^ n * (1 - INR n * x) <= 1.
Proof.
  intros Hx. induction n as [|n IH]; intros H; [cbn [pow INR]; lra|]. rewrite S_INR in *. cbn [pow].
  assert (P : 0 <= (1 + x) ^ n) by (apply pow_le; lra). specialize (IH ltac:(lra)). pose proof (pos_INR n).
  assert ((1 + x) * (1 - (INR n + 1) * x) <= 1 - INR n * x) by nra.
  replace ((1 + x) * (1 + x) ^ n * (1 - (INR n + 1) * x)) with ((1 + x) ^ n * ((1 + x) * (1 - (INR n + 1) * x))) by ring.
  apply Rle_trans with ((1 + x) ^ n * (1 - INR n * x)); [apply Rmult_le_compat_l; assumption|assumption].
Qed.
Lemma pow_bound x n : 0 <= x <= 28 * u64 -> (n <= 54)%nat -> (1 + x) ^ n - 1 <= INR n * (2801 / 100 * u64).
Proof.
  rewrite pw_m53. intros Hx Hn. assert (I : 0 <= INR n <= 54) by (split; [apply pos_INR|rewrite INR_IZR_INZ; apply IZR_le; lia]).
  assert (B : INR n * x <= 54 * (28 * / 9007199254740992)) by (apply Rmult_le_compat; lra).
  pose proof (pow_inv x n ltac:(lra) ltac:(lra)) as H. set (t := INR n * x) in *. assert (Ht : 0 <= t) by (apply Rmult_le_pos; lra).
  assert (Tx : t <= INR n * (28 * / 9007199254740992)) by (apply Rmult_le_compat_l; lra).
  set (y := (1 + x) ^ n) in *. assert (1 <= y) by (apply pow_ge1; lra).
  assert (y <= 2) by nra.
  assert (y - 1 <= t * y) by lra.
  assert (y - 1 <= t * (1 + t * 2)) by nra.
  assert (t * (1 + t * 2) <= t * (2801 / 2800)) by (apply Rmult_le_compat_l; lra). lra.
Qed.
Lemma num64 lm : (lm <= 14)%nat -> ((1 + kw u64 eta64 del64 lm) ^ 54 - 1) * 2199023255552 <= 3 / 8.
Proof.
  intros H. destruct (bounds64 lm H) as (_ & _ & _ & _ & _ & K). pose proof (pow_bound _ 54 K ltac:(lia)) as P. rewrite pw_m53 in P at 2.
  replace (INR 54) with 54 in P by (rewrite INR_IZR_INZ; reflexivity). lra.
Qed.

(** Integer side of the budget. *)
Lemma budgetZ lm w : (3 <= lm <= 14)%nat -> (0 < w <= 64)%Z ->
  let sb := splitBits (Z.of_nat (S lm)) in let cnt := splitCount w sb in
  (0 < sb <= 32)%Z /\ (cnt <= 16)%nat /\ (3 * lm + 4 + cnt <= 54)%nat /\
  (Z.of_nat cnt * (2 * (2 ^ Z.of_nat lm * (2 ^ ((Z.of_nat lm + 1) / 2) * (2 ^ sb * 2 ^ sb)))) <= 2199023255552)%Z.
Proof.
  intros Hl Hw sb cnt.
  assert (G : forall s c, (0 < s)%Z -> sb = s -> ((64 + s - 1) / s)%Z = c -> (0 <= Z.of_nat cnt <= c)%Z).
  { intros s c Hs Es Ec. unfold cnt, splitCount, ceilDiv. rewrite Es. assert ((w + s - 1) / s <= c)%Z by (rewrite <- Ec; apply Z.div_le_mono; lia).
    assert (0 <= (w + s - 1) / s)%Z by (apply Z.div_pos; lia). rewrite Z2Nat.id; lia. }
  assert (D : (lm = 3 \/ lm = 4 \/ lm = 5 \/ lm = 6 \/ lm = 7 \/ lm = 8 \/ lm = 9 \/ lm = 10 \/ lm = 11 \/ lm = 12 \/ lm = 13 \/ lm = 14)%nat) by lia.
  clearbody cnt. unfold sb in *. clear sb.
  repeat match type of D with _ \/ _ => destruct D as [D|D] end; subst lm;
  match type of G with forall s c, _ -> splitBits ?x = s -> _ => let v := eval vm_compute in (splitBits x) in let c := eval vm_compute in ((64 + v - 1) / v)%Z in
    change (splitBits x) with v in *; specialize (G v c eq_refl eq_refl eq_refl) end;
  match goal with |- context [(2 * (2 ^ ?a * ?b))%Z] => let v := eval vm_compute in (2 * (2 ^ a * b))%Z in change (2 * (2 ^ a * b))%Z with v end; lia.
Qed.
Lemma budgetZS lm : (3 <= lm <= 14)%nat -> let sb := splitBitsShort (Z.of_nat (S lm)) in
  (0 < sb <= 32)%Z /\ (1 * (2 * (2 ^ Z.of_nat lm * (2 ^ ((Z.of_nat lm + 1) / 2) * (2 ^ sb * 2 ^ 8)))) <= 2199023255552)%Z.
Proof.
  intros Hl sb.
  assert (D : (lm = 3 \/ lm = 4 \/ lm = 5 \/ lm = 6 \/ lm = 7 \/ lm = 8 \/ lm = 9 \/ lm = 10 \/ lm = 11 \/ lm = 12 \/ lm = 13 \/ lm = 14)%nat) by lia.
  unfold sb. clear sb.
  repeat match type of D with _ \/ _ => destruct D as [D|D] end; subst lm; vm_compute; repeat split; discriminate.
Qed.

Lemma eta_small2 : eta64 <= / 1267650600228229401496703205376.
Proof. pose proof eta_small as [_ E]. eapply Rle_trans; [exact E|]. apply Rinv_le_contravar; lra. Qed.
Lemma u_small2 : u64 <= / 4503599627370496. Proof. rewrite pw_m53. apply Rinv_le_contravar; lra. Qed.
Lemma Om_big2 : 1267650600228229401496703205376 * 1267650600228229401496703205376 <= pw 970.
Proof. pose proof Om_big. lra. Qed.


Section F64K.
Variable cexp : Z -> Z -> SpecFloat.spec_float * SpecFloat.spec_float.
Notation A := (f64Arith cexp).
Variables (N lm : nat).
Hypothesis Hlm : (3 <= lm)%nat.
Hypothesis Hlm14 : (lm <= 14)%nat.
Hypothesis HN : N = (2 ^ S lm)%nat.
Variable okw : bool -> Z -> Prop.
Variable K : kern (car A).
Hypothesis HK : kernOK A finF val u64 eta64 (pw 970) del64 N lm okw K.
Lemma mulK64 k (sg : bool) w buf out p0 p1 : okw sg w -> (0 < w <= 64)%Z -> length buf = N -> length out = N -> tpoly sg w N p0 -> tpoly sg w N p1 ->
  mulFFT K k sg w (Z.of_nat (S lm)) buf out p0 p1 = mulZ N k sg w (Z.of_nat (S lm)) out p0 p1.
Proof.
  intros Hk Hw Hb Ho T0 T1. destruct (bounds64 lm Hlm14) as (B1 & B2 & B3 & B4 & B5 & B6).
  destruct (budgetZ lm w (Logic.conj Hlm Hlm14) Hw) as (C1 & C2 & C3 & C4).
  apply (mul_ok A finF val u64 eta64 (pw 970) B1 B2 del64 B5 N lm Hlm HN Om_big2 Hlm14 (num64 lm Hlm14) okw K HK); assumption.
Qed.
Lemma fwdK64 (sg : bool) w out p sb : okw sg w -> (0 <= sb <= 32)%Z -> length out = N -> length p = N ->
  (forall i, (i < N)%nat -> (Z.abs (nthZ (if sg then p else ModelPoly.fwdFFT w p) i) <= 2 ^ sb)%Z) ->
  rep A finF val u64 eta64 del64 N lm (S lm) (XB lm (IZR (2 ^ sb))) (kfwd K sg w out p) (pol N (if sg then p else ModelPoly.fwdFFT w p)).
Proof.
  intros. destruct (bounds64 lm Hlm14) as (B1 & B2 & B3 & B4 & B5 & B6).
  apply (fwd_ok A finF val u64 eta64 (pw 970) B1 B2 del64 B5 N lm Hlm HN Om_big2 Hlm14 (num64 lm Hlm14) okw K HK); assumption.
Qed.
Lemma shortK64 k (sg : bool) w buf out p ps o : okw sg w -> (0 < w <= 64)%Z -> length buf = N -> length out = N -> tpoly sg w N p -> length o = N -> length ps = N ->
  (forall i, (i < N)%nat -> (Z.abs (nthZ (if sg then ps else ModelPoly.fwdFFT w ps) i) <= 2 ^ 8)%Z) ->
  shortMulFFT K k sg w (Z.of_nat (S lm)) buf out p (kfwd K sg w o ps) =
  shortZ N k sg w (Z.of_nat (S lm)) out p (if sg then ps else ModelPoly.fwdFFT w ps).
Proof.
  intros Hk Hw Hb Ho T0 Lo Ls Bs. destruct (bounds64 lm Hlm14) as (B1 & B2 & B3 & B4 & B5 & B6).
  destruct (budgetZS lm (Logic.conj Hlm Hlm14)) as (C1 & C4).
  apply (short_ok A finF val u64 eta64 (pw 970) B1 B2 del64 B5 N lm Hlm HN Om_big2 Hlm14 (num64 lm Hlm14) okw K HK); try assumption; [lia|].
  apply fwdK64; try assumption; lia.
Qed.
(** Round trip of words of at most 32 bits. *)
Lemma roundK64 (sg : bool) w out o p : okw sg w -> (0 < w <= 32)%Z -> length out = N -> length o = N -> tpoly sg w N p ->
  kinv K None sg w out (kfwd K sg w o p) = p.
Proof.
  intros Hk Hw Lo Loo [Lp Wp]. destruct (bounds64 lm Hlm14) as (B1 & B2 & B3 & B4 & B5 & B6).
  set (p' := if sg then p else ModelPoly.fwdFFT w p).
  assert (Bp : forall i, (i < N)%nat -> (Z.abs (nthZ p' i) <= 2 ^ 31)%Z /\ twrap sg w (nthZ p' i) = nthZ p i).
  { intros i Hi. assert (P : (2 ^ (w - 1) <= 2 ^ 31)%Z) by (apply Z.pow_le_mono_r; lia). pose proof (Forall_nth_lt _ _ 0%Z _ Wp ltac:(rewrite Lp; exact Hi)) as W. fold (nthZ p i) in W.
    unfold p'. destruct sg; cbn [tword twrap] in *.
    - unfold sword in W. split; [lia|]. apply swrap_small; [lia|exact W].
    - unfold ModelPoly.fwdFFT. rewrite nthZ_map by lia. pose proof (swrap_range w (nthZ p i) ltac:(lia)) as H. unfold sword in H. split; [lia|].
      pose proof (twrap_cong false w _ _ (swrap_eqm w (nthZ p i))) as E. cbn [twrap] in E. rewrite E. apply wrap_small. exact W. }
  assert (HR := fwdK64 sg w o p 31 Hk ltac:(lia) Loo Lp (fun i Hi => proj1 (Bp i Hi))). fold p' in HR.
  assert (P31 : 1 <= IZR (2 ^ 31) <= 4294967296) by (change (2 ^ 31)%Z with 2147483648%Z; lra). pose proof (XB1 lm (IZR (2 ^ 31)) (proj1 P31)) as X1.
  assert (HV : sqrt 2 ^ lm * XB lm (IZR (2 ^ 31)) / INR (2 ^ lm) <= 2199023255552).
  { rewrite (XB_eq lm). pose proof (M1 N lm Hlm HN) as Hm. replace (sqrt 2 ^ lm * (INR (2 ^ lm) * (sqrt 2 * IZR (2 ^ 31))) / INR (2 ^ lm)) with (sqrt 2 ^ lm * (sqrt 2 * IZR (2 ^ 31))) by (field; lra).
    assert (S : sqrt 2 ^ lm <= 128). { apply Rle_trans with (sqrt 2 ^ 14); [apply pow_le_mono; [apply sqrt2_ge1|exact Hlm14]|]. rewrite <- sqrt2_pow. apply le_of_sq; [lra|]. rewrite sqrt_sqrt by apply pos_INR. rewrite INR_IZR_INZ. change (Z.of_nat (2 ^ 14)) with 16384%Z. lra. }
    pose proof (sqrt2_le2). pose proof (sqrt_pos 2). pose proof (pow_ge1 (sqrt 2) lm sqrt2_ge1).
    apply Rle_trans with (128 * (2 * IZR (2 ^ 31))); [|change (2 ^ 31)%Z with 2147483648%Z; lra]. apply Rmult_le_compat; [lra|nra|exact S|apply Rmult_le_compat_r; lra]. }
  assert (Lp' : length p' = N) by (unfold p'; destruct sg; [exact Lp|unfold ModelPoly.fwdFFT; rewrite map_length; exact Lp]).
  rewrite (inv_eq A finF val u64 eta64 (pw 970) B1 B2 del64 B5 N lm Hlm HN Om_big2 Hlm14 (num64 lm Hlm14) okw K HK None sg w (S lm) (XB lm (IZR (2 ^ 31))) (kfwd K sg w o p) p' out); try assumption; try lia.
  cbn [invZ]. unfold invFFTs. apply nthZ_ext; [rewrite map_length; lia|]. intros i Hi. rewrite map_length in Hi. rewrite nthZ_map by exact Hi. apply Bp. lia.
Qed.
End F64K.

Section F64.
Variable cexp : Z -> Z -> SpecFloat.spec_float * SpecFloat.spec_float.
Notation A := (f64Arith cexp).
Hypothesis Hexp : cexp_near A finF val 17 d64.
Variables (N lm : nat).
Hypothesis Hlm : (3 <= lm)%nat.
Hypothesis Hlm14 : (lm <= 14)%nat.
Hypothesis HN : N = (2 ^ S lm)%nat.
Variable e : evaluator A.
Hypothesis Hev : NewEvaluator A N = Ok e.

Lemma tables64 : gTWF A lm lm (e_tw A e) /\ gTWI A lm 0 (e_twInv A e) /\ e_rank A e = N.
Proof.
  destruct (gNewEvaluator A N lm Hlm HN) as (e' & E & H). rewrite E in Hev. injection Hev as <-. destruct H as [H1 H2]. split; [exact H1|]. split; [exact H2|].
  clear H1 H2. unfold NewEvaluator in E. destruct (negb _); [discriminate|]. destruct (N <? 16)%nat; [discriminate|].
  destruct (genTwiddleFactors A (N / 2)) as [[tw twInv]| |]; [|discriminate|discriminate].
  destruct (BitReverseInPlace _ _); [|discriminate|discriminate]. injection E as <-. reflexivity.
Qed.
Lemma goods64 : good A finF val del64 lm (gF A lm) (gF RA lm) /\ good A finF val del64 lm (gI A lm) (gI RA lm).
Proof.
  destruct (bounds64 lm Hlm14) as (B1 & B2 & B3 & B4 & B5 & B6).
  split; [apply (good_F A finF val u64 eta64 (pw 970) (f64_std cexp) B1 B2 B3 del64 B5 N lm Hlm HN d64 B4 17)|apply (good_I A finF val u64 eta64 (pw 970) (f64_std cexp) B1 B2 B3 del64 B5 N lm Hlm HN d64 B4 17)];
  try assumption; try lia; unfold del64; lra.
Qed.
Lemma real_tables : exists er, NewEvaluator RA N = Ok er /\ gTWF RA lm lm (e_tw RA er) /\ gTWI RA lm 0 (e_twInv RA er).
Proof. apply (gNewEvaluator RA N lm Hlm HN). Qed.
Lemma go64 : kernOK A finF val u64 eta64 (pw 970) del64 N lm (fun _ _ => True) (goKern A e).
Proof.
  destruct (bounds64 lm Hlm14) as (B1 & B2 & B3 & B4 & B5 & B6). destruct tables64 as (HF & HI & Hr). destruct goods64 as [GF GI].
  destruct real_tables as (er & Er & RF & RI).
  exact (goKern_OK A finF val u64 eta64 (pw 970) (f64_std cexp) B1 B2 B3 del64 B5 N lm Hlm HN GF GI e HF HI Hr er Er RF RI u_small2 eta_small2 Om_big2 Hlm14).
Qed.
End F64.
