(** Lemmas: products of the binary64 transform, against exact negacyclic products. *)
From Verif Require Import Base NegaRing ModelNum ModelVec ModelPoly ModelFFT ModelF64Arith ModelSplitFFT SpecNum SpecVec SpecPoly SpecFFT SpecFFTReal SpecRound
  PfNum PfVec PfPoly PfSplit PfFFT PfFFT2 PfFFT3 PfFFT4 PfFFT6 PfFFTReal PfNetGen PfNetGen2 PfRound PfNorm PfErr PfErr2 PfRoundQ PfErr3 PfErr4 PfSplitFFT PfSplitF64.
From Coq Require Import Reals Lra Lia.
Open Scope R_scope.

Lemma pow2_lm N logN : Z.of_nat N = (2 ^ logN)%Z -> (4 <= logN <= 15)%Z ->
  exists lm, (3 <= lm)%nat /\ (lm <= 14)%nat /\ N = (2 ^ S lm)%nat /\ logN = Z.of_nat (S lm).
Proof.
  intros E H. exists (Z.to_nat (logN - 1)). assert (L : logN = Z.of_nat (S (Z.to_nat (logN - 1)))) by lia.
  repeat split; try lia. apply Nat2Z.inj. rewrite Nat2Z.inj_pow, <- L. exact E.
Qed.

Section Centred.
Variables (N : nat) (logN : Z).
Hypothesis HN : Z.of_nat N = (2 ^ logN)%Z.
Hypothesis HlogN : (4 <= logN <= 15)%Z.
Lemma centred (sg : bool) w p : (0 < w <= 64)%Z -> tpoly sg w N p -> length (if sg then p else ModelPoly.fwdFFT w p) = N /\
  peq (2 ^ w) (pol N (if sg then p else ModelPoly.fwdFFT w p)) (pol N p) /\
  (forall i, nthZ (if sg then p else ModelPoly.fwdFFT w p) i = if (i <? N)%nat then swrap w (nthZ p i) else 0%Z).
Proof.
  intros Hw [Lp Wp]. assert (N0 : (0 < N)%nat) by (clear - HN HlogN; pose proof (Z.pow_pos_nonneg 2 logN); lia).
  assert (G : forall i, nthZ (if sg then p else ModelPoly.fwdFFT w p) i = if (i <? N)%nat then swrap w (nthZ p i) else 0%Z).
  { intros i. destruct (Nat.ltb_spec i N) as [Hi|Hi].
    - pose proof (Forall_nth_lt _ _ 0%Z _ Wp ltac:(rewrite Lp; exact Hi)) as W. fold (nthZ p i) in W. destruct sg; cbn [tword] in W.
      + symmetry. apply swrap_small; [lia|exact W].
      + unfold ModelPoly.fwdFFT. apply nthZ_map. lia.
    - unfold nthZ. apply nth_overflow. destruct sg; [lia|]. unfold ModelPoly.fwdFFT. rewrite map_length. lia. }
  assert (L : length (if sg then p else ModelPoly.fwdFFT w p) = N) by (destruct sg; [exact Lp|unfold ModelPoly.fwdFFT; now rewrite map_length]).
  split; [exact L|]. split; [|exact G].
  apply (pol_peq N N0). intros i Hi. rewrite G, cf_pol_at by assumption. destruct (Nat.ltb_spec i N); [apply swrap_eqm|lia].
Qed.

Lemma cbound64 (sg : bool) w p B : (0 < w <= 64)%Z -> tpoly sg w N p -> (forall i, (i < N)%nat -> (Z.abs (swrap w (nthZ p i)) <= B)%Z) ->
  forall i, (i < N)%nat -> (Z.abs (nthZ (if sg then p else ModelPoly.fwdFFT w p) i) <= B)%Z.
Proof. intros Hw Hp HB i Hi. rewrite (proj2 (proj2 (centred sg w p Hw Hp))). destruct (Nat.ltb_spec i N); [now apply HB|lia]. Qed.

End Centred.

Section F64b.
Variable cexp : Z -> Z -> SpecFloat.spec_float * SpecFloat.spec_float.
Notation A := (f64Arith cexp).
Variables (N : nat) (logN : Z).
Hypothesis HN : Z.of_nat N = (2 ^ logN)%Z.
Hypothesis HlogN : (4 <= logN <= 15)%Z.
Variable okw : bool -> Z -> Prop.
Variable K : kern (car A).
Hypothesis HK : forall lm, (3 <= lm)%nat -> (lm <= 14)%nat -> N = (2 ^ S lm)%nat -> kernOK A finF val u64 eta64 (pw 970) del64 N lm okw K.

Ltac start := destruct (pow2_lm N logN HN HlogN) as (lm & L3 & L14 & EN & EL);
  assert (N0 : (0 < N)%nat) by (clear - HN HlogN; pose proof (Z.pow_pos_nonneg 2 logN); lia).
Ltac post := match goal with H : (0 < ?w <= 64)%Z, L3 : (3 <= ?lm)%nat, L14 : (?lm <= 14)%nat |- _ =>
  destruct (budgetZ lm w (Logic.conj L3 L14) H) as (B1 & _); destruct (budgetZS lm (Logic.conj L3 L14)) as (B2 & _) end.

Lemma mulK64_spec (sg : bool) w buf out p0 p1 : okw sg w -> (0 < w <= 64)%Z -> length buf = N -> length out = N -> tpoly sg w N p0 -> tpoly sg w N p1 ->
  tpoly sg w N (mulFFT K None sg w logN buf out p0 p1) /\
  peq (2 ^ w) (pol N (mulFFT K None sg w logN buf out p0 p1)) (pmul (pol N p0) (pol N p1)).
Proof.
  intros Hk Hw Hb Ho T0 T1. start. post.
  assert (E : mulFFT K None sg w logN buf out p0 p1 = MulPolyTo sg w logN N p0 p1).
  { rewrite EL. transitivity (mulZ N None sg w (Z.of_nat (S lm)) out p0 p1); [exact (mulK64 cexp N lm L3 L14 EN okw K (HK lm L3 L14 EN) None sg w buf out p0 p1 Hk Hw Hb Ho T0 T1)|].
    unfold mulZ, MulPolyTo. cbn zeta. destruct (Nat.eqb _ 1); reflexivity. }
  rewrite E. apply MulPolyTo_spec; try assumption; [lia|rewrite EL; lia].
Qed.
Lemma muladdK64_spec (sg : bool) w buf out p0 p1 : okw sg w -> (0 < w <= 64)%Z -> length buf = N -> length out = N -> tpoly sg w N p0 -> tpoly sg w N p1 ->
  tpoly sg w N (mulFFT K (Some false) sg w logN buf out p0 p1) /\
  peq (2 ^ w) (pol N (mulFFT K (Some false) sg w logN buf out p0 p1)) (padd (pol N out) (pmul (pol N p0) (pol N p1))).
Proof.
  intros Hk Hw Hb Ho T0 T1. start. post.
  assert (E : mulFFT K (Some false) sg w logN buf out p0 p1 = MulAddPolyTo sg w logN N out p0 p1).
  { rewrite EL. transitivity (mulZ N (Some false) sg w (Z.of_nat (S lm)) out p0 p1); [exact (mulK64 cexp N lm L3 L14 EN okw K (HK lm L3 L14 EN) (Some false) sg w buf out p0 p1 Hk Hw Hb Ho T0 T1)|].
    unfold mulZ, MulAddPolyTo. cbn zeta. destruct (Nat.eqb _ 1); reflexivity. }
  rewrite E. apply MulAddPolyTo_spec; try assumption; [lia|rewrite EL; lia].
Qed.
Lemma mulsubK64_spec (sg : bool) w buf out p0 p1 : okw sg w -> (0 < w <= 64)%Z -> length buf = N -> length out = N -> tpoly sg w N p0 -> tpoly sg w N p1 ->
  tpoly sg w N (mulFFT K (Some true) sg w logN buf out p0 p1) /\
  peq (2 ^ w) (pol N (mulFFT K (Some true) sg w logN buf out p0 p1)) (psub (pol N out) (pmul (pol N p0) (pol N p1))).
Proof.
  intros Hk Hw Hb Ho T0 T1. start. post.
  assert (E : mulFFT K (Some true) sg w logN buf out p0 p1 = MulSubPolyTo sg w logN N out p0 p1).
  { rewrite EL. transitivity (mulZ N (Some true) sg w (Z.of_nat (S lm)) out p0 p1); [exact (mulK64 cexp N lm L3 L14 EN okw K (HK lm L3 L14 EN) (Some true) sg w buf out p0 p1 Hk Hw Hb Ho T0 T1)|].
    unfold mulZ, MulSubPolyTo. cbn zeta. destruct (Nat.eqb _ 1); reflexivity. }
  rewrite E. apply MulSubPolyTo_spec; try assumption; [lia|rewrite EL; lia].
Qed.

(** The centred representative of a word polynomial that the transform reads. *)
Lemma shortK64_spec (sg : bool) w buf out p ps o : okw sg w -> (0 < w <= 64)%Z -> length buf = N -> length out = N -> length o = N -> tpoly sg w N p -> tpoly sg w N ps ->
  (forall i, (i < N)%nat -> (Z.abs (swrap w (nthZ ps i)) <= 2 ^ 8)%Z) -> let fps := kfwd K sg w o ps in
  (tpoly sg w N (shortMulFFT K None sg w logN buf out p fps) /\
   peq (2 ^ w) (pol N (shortMulFFT K None sg w logN buf out p fps)) (pmul (pol N p) (pol N ps))) /\
  (tpoly sg w N (shortMulFFT K (Some false) sg w logN buf out p fps) /\
   peq (2 ^ w) (pol N (shortMulFFT K (Some false) sg w logN buf out p fps)) (padd (pol N out) (pmul (pol N p) (pol N ps)))) /\
  (tpoly sg w N (shortMulFFT K (Some true) sg w logN buf out p fps) /\
   peq (2 ^ w) (pol N (shortMulFFT K (Some true) sg w logN buf out p fps)) (psub (pol N out) (pmul (pol N p) (pol N ps)))).
Proof.
  intros Hk Hw Hb Ho Loo T0 T1 HB fps. start. post. pose proof (cbound64 N logN HN HlogN sg w ps _ Hw T1 HB) as HB'. destruct (centred N logN HN HlogN sg w ps Hw T1) as (Lc & Pc & _).
  set (c := if sg then ps else ModelPoly.fwdFFT w ps) in *.
  assert (PM : peq (2 ^ w) (pmul (pol N p) (pol N c)) (pmul (pol N p) (pol N ps))) by (rewrite Pc; reflexivity).
  assert (S : forall k, shortMulFFT K k sg w logN buf out p fps = shortZ N k sg w logN out p c).
  { intros k. rewrite EL. apply (shortK64 cexp N lm L3 L14 EN okw K (HK lm L3 L14 EN) k sg w buf out p ps o); try assumption. apply T1. }
  assert (SB : (0 < splitBitsShort logN)%Z) by (rewrite EL; lia). assert (W0 : (0 < w)%Z) by lia.
  split; [|split].
  - assert (E : shortMulFFT K None sg w logN buf out p fps = ShortFFTPolyMulPolyTo sg w logN N p c).
    { transitivity (shortZ N None sg w logN out p c); [exact (S None)|]. unfold shortZ, ShortFFTPolyMulPolyTo. cbn zeta. destruct (Nat.eqb _ 1); reflexivity. }
    rewrite E. destruct (ShortMul_spec N N0 sg w logN p c W0 SB T0) as [H1 H2]. split; [exact H1|]. now rewrite H2.
  - assert (E : shortMulFFT K (Some false) sg w logN buf out p fps = ShortFFTPolyMulAddPolyTo sg w logN N out p c).
    { transitivity (shortZ N (Some false) sg w logN out p c); [exact (S (Some false))|]. unfold shortZ, ShortFFTPolyMulAddPolyTo. cbn zeta. destruct (Nat.eqb _ 1); reflexivity. }
    rewrite E. destruct (ShortMulAdd_spec N N0 sg w logN out p c W0 SB Ho T0) as [H1 H2]. split; [exact H1|]. now rewrite H2, PM.
  - assert (E : shortMulFFT K (Some true) sg w logN buf out p fps = ShortFFTPolyMulSubPolyTo sg w logN N out p c).
    { transitivity (shortZ N (Some true) sg w logN out p c); [exact (S (Some true))|]. unfold shortZ, ShortFFTPolyMulSubPolyTo. cbn zeta. destruct (Nat.eqb _ 1); reflexivity. }
    rewrite E. destruct (ShortMulSub_spec N N0 sg w logN out p c W0 SB Ho T0) as [H1 H2]. split; [exact H1|]. now rewrite H2, PM.
Qed.

Lemma roundK64_spec (sg : bool) w out o p : okw sg w -> (0 < w <= 32)%Z -> length out = N -> length o = N -> tpoly sg w N p -> kinv K None sg w out (kfwd K sg w o p) = p.
Proof. intros Hk Hw Ho Loo Hp. start. now apply (roundK64 cexp N lm L3 L14 EN okw K (HK lm L3 L14 EN)). Qed.
End F64b.

(** The portable loops. *)
Section Go64.
Variable cexp : Z -> Z -> SpecFloat.spec_float * SpecFloat.spec_float.
Notation A := (f64Arith cexp).
Hypothesis Hexp : cexp_near A finF val 17 (5 * powerRZ 2 (-52)).
Variables (N : nat) (logN : Z).
Hypothesis HN : Z.of_nat N = (2 ^ logN)%Z.
Hypothesis HlogN : (4 <= logN <= 15)%Z.
Variable e : evaluator A.
Hypothesis Hev : NewEvaluator A N = Ok e.
Lemma go64K lm : (3 <= lm)%nat -> (lm <= 14)%nat -> N = (2 ^ S lm)%nat -> kernOK A finF val u64 eta64 (pw 970) del64 N lm (fun _ _ => True) (goKern A e).
Proof. intros L3 L14 EN. exact (go64 cexp Hexp N lm L3 L14 EN e Hev). Qed.
Lemma mul64_spec : forall (sg : bool) w buf out p0 p1, (0 < w <= 64)%Z -> length buf = N -> length out = N -> tpoly sg w N p0 -> tpoly sg w N p1 ->
  tpoly sg w N (MulPolyFFTTo A e sg w logN buf out p0 p1) /\
  peq (2 ^ w) (pol N (MulPolyFFTTo A e sg w logN buf out p0 p1)) (pmul (pol N p0) (pol N p1)).
Proof. intros; now apply (mulK64_spec cexp N logN HN HlogN (fun _ _ => True) (goKern A e) go64K). Qed.
Lemma muladd64_spec : forall (sg : bool) w buf out p0 p1, (0 < w <= 64)%Z -> length buf = N -> length out = N -> tpoly sg w N p0 -> tpoly sg w N p1 ->
  tpoly sg w N (MulAddPolyFFTTo A e sg w logN buf out p0 p1) /\
  peq (2 ^ w) (pol N (MulAddPolyFFTTo A e sg w logN buf out p0 p1)) (padd (pol N out) (pmul (pol N p0) (pol N p1))).
Proof. intros; now apply (muladdK64_spec cexp N logN HN HlogN (fun _ _ => True) (goKern A e) go64K). Qed.
Lemma mulsub64_spec : forall (sg : bool) w buf out p0 p1, (0 < w <= 64)%Z -> length buf = N -> length out = N -> tpoly sg w N p0 -> tpoly sg w N p1 ->
  tpoly sg w N (MulSubPolyFFTTo A e sg w logN buf out p0 p1) /\
  peq (2 ^ w) (pol N (MulSubPolyFFTTo A e sg w logN buf out p0 p1)) (psub (pol N out) (pmul (pol N p0) (pol N p1))).
Proof. intros; now apply (mulsubK64_spec cexp N logN HN HlogN (fun _ _ => True) (goKern A e) go64K). Qed.
Lemma short64_spec : forall (sg : bool) w buf out p ps o, (0 < w <= 64)%Z -> length buf = N -> length out = N -> length o = N -> tpoly sg w N p -> tpoly sg w N ps ->
  (forall i, (i < N)%nat -> (Z.abs (swrap w (nthZ ps i)) <= 2 ^ 8)%Z) -> let fps := FwdFFTTo A e sg w o ps in
  (tpoly sg w N (ShortMulFFTTo A e sg w logN buf out p fps) /\
   peq (2 ^ w) (pol N (ShortMulFFTTo A e sg w logN buf out p fps)) (pmul (pol N p) (pol N ps))) /\
  (tpoly sg w N (ShortMulAddFFTTo A e sg w logN buf out p fps) /\
   peq (2 ^ w) (pol N (ShortMulAddFFTTo A e sg w logN buf out p fps)) (padd (pol N out) (pmul (pol N p) (pol N ps)))) /\
  (tpoly sg w N (ShortMulSubFFTTo A e sg w logN buf out p fps) /\
   peq (2 ^ w) (pol N (ShortMulSubFFTTo A e sg w logN buf out p fps)) (psub (pol N out) (pmul (pol N p) (pol N ps)))).
Proof. intros; now apply (shortK64_spec cexp N logN HN HlogN (fun _ _ => True) (goKern A e) go64K). Qed.
Lemma round64_spec : forall (sg : bool) w out o p, (0 < w <= 32)%Z -> length out = N -> length o = N -> tpoly sg w N p ->
  InvFFTTo A e sg w out (FwdFFTTo A e sg w o p) = p.
Proof. intros; now apply (roundK64_spec cexp N logN HN HlogN (fun _ _ => True) (goKern A e) go64K). Qed.
End Go64.

Lemma NewEvaluator64 cexp N logN : Z.of_nat N = (2 ^ logN)%Z -> (4 <= logN <= 15)%Z ->
  exists e, NewEvaluator (f64Arith cexp) N = Ok e /\ e_rank _ e = N.
Proof.
  intros HN H. destruct (pow2_lm N logN HN H) as (lm & L3 & L14 & EN & EL). destruct (gNewEvaluator (f64Arith cexp) N lm L3 EN) as (e & E & _).
  exists e. split; [exact E|]. apply (tables64 cexp N lm L3 EN e E).
Qed.
