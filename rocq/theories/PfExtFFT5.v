(** Extended blind rotation on binary64 transforms, both kernels. *)
From Coq Require Import Floats.SpecFloat.
From Verif Require Import Base NegaRing ModelNum ModelVec ModelPoly ModelAsm ModelF64 ModelFFT ModelF64Arith ModelSplitFFT ModelFused ModelFusedMul ModelGadget ModelLWE ModelGLWE ModelBoot ModelProdFFT ModelBlindFFT ModelExtFFT SpecNum SpecVec SpecPoly SpecFFT SpecFFTReal SpecRound SpecFused SpecGadget SpecLWE SpecGLWE SpecBoot SpecProdFFT SpecBlindFFT SpecExtFFT
  PfNum PfVec PfPoly PfSplit PfFFT6 PfRound PfNorm PfErr4 PfErrF PfF64Fused PfSplitFFT PfSplitF64 PfSplitF64b PfRoundEx PfValid PfSumK PfGadget PfGLWE PfGLWE2 PfGLWE3 PfGLWE4 PfBoot2 PfBoot3 PfBoot4 PfProdFFT PfProdFFT2 PfMonoF PfBlindFFT2 PfBlindFFT3 PfBlindFFT4 PfBlindFFT5 PfExtFFT PfExtFFT2 PfExtFFT3 PfExtFFT4.
From Coq Require Import Reals Lra Lia.
Open Scope Z_scope.

(** From the weaved table to positions. *)
Lemma ext_positions N k E sk s ct ms lut r Q B : (0 < E)%nat ->
  pdist_le Q (gphase N k sk r) (SpecBoot.comp (pshift (- maskSum ms s ct (length s)) (misrot (tableOf N E lut) (2 * (Z.of_nat E * Z.of_nat N) - ms (nthZ ct 0)))) 0) B ->
  (forall t, exists d, Z.abs d <= extSlack E /\ ((Z.of_nat E | ms (nthZ ct 0)) -> d = 0) /\
    dist_le Q (cf (gphase N k sk r) t) (cf (tableOf N E lut) (Z.of_nat E * t + rotSum ms s ct + d)) B) /\
  ((Z.of_nat E | ms (nthZ ct 0)) -> pdist_le Q (gphase N k sk r) (SpecBoot.comp (pshift (- rotSum ms s ct) (tableOf N E lut)) 0) B).
Proof.
  intros HE Bd. set (bb := 2 * (Z.of_nat E * Z.of_nat N) - ms (nthZ ct 0)) in *. set (T := tableOf N E lut) in *.
  assert (forall d, cf T (d - bb) = cf T (d + ms (nthZ ct 0))) as Hper. { intros d. apply cf_eqm2N. exists (-1). unfold bb. lia. }
  split.
  - intros t. destruct (pdist_cf _ _ _ _ t Bd) as (x & X1 & X2). cbn [cf SpecBoot.comp pshift] in X1.
    destruct (misrot_at N E T bb (t * Z.of_nat E + 0 - - maskSum ms s ct (length s)) HE) as (d & D1 & D2 & D3).
    exists d. split; [exact D2|]. split; [intros Hd; apply D3; apply Z.divide_sub_r; [exists (2 * Z.of_nat N); ring|exact Hd]|].
    change (misrot_cf N E T bb (t * Z.of_nat E + 0 - - maskSum ms s ct (length s))) with (cf (misrot T bb) (t * Z.of_nat E + 0 - - maskSum ms s ct (length s))) in X1.
    rewrite D1 in X1. exists x. split; [|exact X2]. destruct X1 as (q & Hq). exists q.
    replace (t * Z.of_nat E + 0 - - maskSum ms s ct (length s) - bb + d) with ((t * Z.of_nat E + maskSum ms s ct (length s) + d) - bb) in Hq by lia. rewrite Hper in Hq.
    replace (Z.of_nat E * t + rotSum ms s ct + d) with (t * Z.of_nat E + maskSum ms s ct (length s) + d + ms (nthZ ct 0)) by (unfold rotSum, maskSum; lia). lia.
  - intros Hd. destruct Bd as (x & X1 & X2). exists x. split; [|exact X2]. intros t. specialize (X1 t). cbn [cf psub padd popp SpecBoot.comp pshift] in X1 |- *.
    assert (Z.of_nat E | bb) as Hdb by (apply Z.divide_sub_r; [exists (2 * Z.of_nat N); ring|exact Hd]).
    pose proof (misrot_exact N E T bb HE Hdb (t * Z.of_nat E + 0 - - maskSum ms s ct (length s))) as Hx. destruct Hx as (z & Hz). cbn [cf pshift] in Hz.
    replace (t * Z.of_nat E + 0 - - maskSum ms s ct (length s) - bb) with ((t * Z.of_nat E + maskSum ms s ct (length s)) - bb) in Hz by lia. rewrite Hper in Hz.
    replace (t * Z.of_nat E + 0 - - rotSum ms s ct) with (t * Z.of_nat E + maskSum ms s ct (length s) + ms (nthZ ct 0)) by (unfold rotSum, maskSum; lia).
    destruct X1 as (q & Hq). exists q. lia.
Qed.

Section Both.
Variable cexp : Z -> Z -> spec_float * spec_float.
Notation A := (f64Arith cexp).
Hypothesis Hexp : cexp_near_full A finF val 17 (5 * powerRZ 2 (-52)).
Hypothesis Hval : cexp_valid cexp.
Variables (N : nat) (logN : Z).
Hypothesis HN : Z.of_nat N = 2 ^ logN.
Hypothesis HlogN : 4 <= logN <= 15.
Variable e : evaluator A.
Hypothesis Hev : NewEvaluator A N = Ok e.
Variable K : kern (car A).
Hypothesis HK : K = goKern A e \/ K = avxKern cexp e.
Variable left : list (car A) -> list (car A).
Hypothesis Hleft : forall v, valid64 N v -> valid64 N (left v).
Variables (w : Z) (k E : nat) (sk : list (list Z)) (p : gadget) (s : list Z) (bk : list (list (list (list (list Z))))) (Ek : Z) (bs bc : nat).
Hypothesis HE : (0 < E)%nat.
Hypothesis Hw : w <= 64.
Hypothesis Hbr : br_setting w N k sk p s (map (map (map (map (fwdFFT w)))) bk) Ek bs bc.
Hypothesis Hbc2 : (2 <= bc)%nat.
Hypothesis Hkey : forall j r l i, (j < length s)%nat -> (r <= k)%nat -> (l < g_level p)%nat -> (i <= k)%nat -> wpoly w N (nth i (nth l (nth r (nth j bk []) []) []) []).
Variable D : Z.
Hypothesis Hcn : Z.of_nat (S k * g_level p + 2 * bs) <= 1000000.
Hypothesis HD : rotErr_le w (g_logBase p) logN N (S k * g_level p) (2 * bs) D.

Lemma extended_main : forall ms b acc0 ct lut, (forall j, 0 <= ms (nthZ ct j) <= 2 * Z.of_nat (E * N)) ->
  (length acc0 = E /\ forall i, (i < E)%nat -> length (nth i acc0 []) = N) -> lut_ok w N E lut -> ext_bufs N k E (g_level p) b ->
  let r := blindRotateExtendedToK K w N k E (MonomialSubOneFwdFFTTo A e) (MonomialFwdFFTTo A e) (subCmplxTo A) left ms p (map (toFFTGGSW K w) bk) bs bc (length s) b acc0 ct lut in
  let B := brNoise w N k p bc (length s) Ek + Z.of_nat bc * (D * (1 + Z.of_nat k * Z.of_nat N)) in
  glwe_ct w N k r /\
  (forall t, exists d, Z.abs d <= extSlack E /\ ((Z.of_nat E | ms (nthZ ct 0)) -> d = 0) /\
    dist_le (2 ^ w) (cf (gphase N k sk r) t) (cf (tableOf N E lut) (Z.of_nat E * t + rotSum ms s ct + d)) B) /\
  ((Z.of_nat E | ms (nthZ ct 0)) -> pdist_le (2 ^ w) (gphase N k sk r) (SpecBoot.comp (pshift (- rotSum ms s ct) (tableOf N E lut)) 0) B).
Proof.
  intros ms b acc0 ct lut Hms Ha0 Hlut (B1 & (B2 & B2') & B3 & (B4 & B4')). cbv zeta.
  destruct (pow2_lm N logN HN HlogN) as (lm & L3 & L14 & EN & EL).
  pose proof (both_near cexp (near_of_full _ _ _ _ _ Hexp) Hval N e Hev K HK lm L3 L14 EN) as KN.
  destruct Hbr as (W0 & N0 & (n0 & Hn0 & HNn) & Hsk & Hok & (er & Hbrk & Her) & HEk & Hbs & Hbc & Hlen & Hblk).
  assert (HM : forall o d, length o = N -> Forall (fun x : f64 => vb x = true) o -> rep A finF val (pw (-53)) (pw (-1075)) del64 N lm 1 (XM lm) (MonomialSubOneFwdFFTTo A e o d) (pol N (fmonoSubOne N d)) /\ Forall (fun x : f64 => vb x = true) (MonomialSubOneFwdFFTTo A e o d)).
  { intros o d Lo Vo. split; [now apply (mono_rep cexp N lm Hexp Hval L3 L14 EN e Hev)|now apply (mono_valid cexp N Hval e Hev)]. }
  assert (HM' : forall o d, length o = N -> Forall (fun x : f64 => vb x = true) o -> rep A finF val (pw (-53)) (pw (-1075)) del64 N lm 1 (XM lm) (MonomialFwdFFTTo A e o d) (pol N (fmono N d)) /\ Forall (fun x : f64 => vb x = true) (MonomialFwdFFTTo A e o d)).
  { intros o d Lo Vo. split; [now apply (monoM_rep cexp N lm Hexp Hval L3 L14 EN e Hev)|now apply (monoM_valid cexp N Hval e Hev)]. }
  assert (Hms' : forall j, 0 <= ms (nthZ ct j) <= 2 * (Z.of_nat E * Z.of_nat N)) by (intros j; specialize (Hms j); lia).
  set (rot := fun j => 2 * (Z.of_nat E * Z.of_nat N) - ms (nthZ ct (S j))).
  assert (Hrot : forall j, 0 <= rot j) by (intros j; unfold rot; specialize (Hms' (S j)); lia).
  match goal with |- ?P /\ ?X /\ ?Y => cut (P /\ pdist_le (2 ^ w) (gphase N k sk (blindRotateExtendedToK K w N k E (MonomialSubOneFwdFFTTo A e) (MonomialFwdFFTTo A e) (subCmplxTo A) left ms p (map (toFFTGGSW K w) bk) bs bc (length s) b acc0 ct lut))
     (SpecBoot.comp (pshift (- maskSum ms s ct (length s)) (misrot (tableOf N E lut) (2 * (Z.of_nat E * Z.of_nat N) - ms (nthZ ct 0)))) 0) (brNoise w N k p bc (length s) Ek + Z.of_nat bc * (D * (1 + Z.of_nat k * Z.of_nat N)))) end.
  { intros [G1 G2]. split; [exact G1|]. now apply ext_positions. }
  unfold blindRotateExtendedToK. cbv zeta. fold rot.
  apply (xloop_spec w W0 N N0 n0 Hn0 HNn k E HE sk Hsk p Hok ms s bk er Ek Hbrk HEk Her bs bc Hbs Hbc2 Hlen Hblk acc0 ct lut Hms' Ha0 Hlut
    (extFirstK K w k E (MonomialSubOneFwdFFTTo A e) (MonomialFwdFFTTo A e) (subCmplxTo A) left p (map (toFFTGGSW K w) bk) bs rot)
    (fun i st => extLaterK K w k E (MonomialSubOneFwdFFTTo A e) (MonomialFwdFFTTo A e) (subCmplxTo A) left p (map (toFFTGGSW K w) bk) bs rot i st)
    (extLastK K w k E (MonomialSubOneFwdFFTTo A e) (MonomialFwdFFTTo A e) (subCmplxTo A) p (map (toFFTGGSW K w) bk) bs (length s) rot)
    (xbufs cexp N k p E) D).
  - intros out b' Hb' Lo. apply (extFirst_close cexp N lm L3 L14 EN K KN w k p ltac:(lia) Hok _ _ HM HM' left (fun v L V => Hleft v (Logic.conj L V)) E HE bk (length s) bs Hkey rot logN D Hrot EL Hbs Hcn HD out b'); [nia|exact Hb'|exact Lo].
  - intros i out b' Hi Hb' Lo. apply (extLater_close cexp N lm L3 L14 EN K KN w k p ltac:(lia) Hok _ _ HM HM' left (fun v L V => Hleft v (Logic.conj L V)) E HE bk (length s) bs Hkey rot logN D Hrot EL Hbs Hcn HD i out b'); [nia|exact Hb'|exact Lo].
  - intros out b' Hb' Lo. apply (extLast_close cexp N lm L3 L14 EN K KN w k p ltac:(lia) Hok _ _ HM HM' E HE bk (length s) bs Hkey rot logN D Hrot EL Hbs Hcn HD out b'); [nia|exact Hb'|exact Lo].
  - split; [|split; [|split; [exact B3|]]].
    + intros m Hm. destruct (B1 m Hm) as [P1 P2]. split; [exact P1|]. intros i Hi j Hj. now apply P2.
    + split; [exact B2|]. intros m Hm i Hi. apply B2'; lia.
    + split; [exact B4|]. intros m Hm i Hi. apply B4'; lia.
Qed.
End Both.
