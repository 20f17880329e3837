(** Lemmas: rounding error of a sum of products computed on binary64 transforms. *)
From Verif Require Import Base NegaRing ModelNum ModelVec ModelPoly ModelFFT ModelF64Arith ModelSplitFFT SpecNum SpecVec SpecPoly SpecFFT SpecFFTReal SpecRound
  PfNum PfVec PfPoly PfSplit PfFFT PfFFT2 PfFFT3 PfFFT4 PfFFT6 PfFFTReal PfNetGen PfNetGen2 PfRound PfNorm PfErr PfErr2 PfRoundQ PfErr3 PfErr4 PfSplitFFT PfSplitF64 PfSplitF64b.
From Coq Require Import Reals Lra Lia.
Open Scope R_scope.

Lemma pow_bound2 x n : 0 <= x <= 28 * u64 -> (Z.of_nat n <= 1048576)%Z -> (1 + x) ^ n - 1 <= INR n * (29 * u64) /\ 1 <= (1 + x) ^ n <= 2.
Proof.
  rewrite pw_m53. intros Hx Hn. assert (I : 0 <= INR n <= 1048576) by (split; [apply pos_INR|rewrite INR_IZR_INZ; apply IZR_le; lia]). clear Hn.
  assert (B : INR n * x <= 1048576 * (28 * / 9007199254740992)) by (apply Rmult_le_compat; lra).
  assert (Bs : 1048576 * (28 * / 9007199254740992) <= / 1000) by lra.
  pose proof (PfSplitF64.pow_inv x n (proj1 Hx) ltac:(clear Hx I; set (z := INR n * x) in *; clearbody z; lra)) as H. set (t := INR n * x) in *. assert (Ht : 0 <= t) by (apply Rmult_le_pos; lra).
  assert (Tx : t <= INR n * (28 * / 9007199254740992)) by (apply Rmult_le_compat_l; lra).
  set (y := (1 + x) ^ n) in *. assert (1 <= y) by (apply pow_ge1; lra).
  assert (y <= 2) by nra.
  assert (y - 1 <= t * y) by lra.
  assert (y - 1 <= t * (1 + t * 2)) by nra.
  assert (t * (1 + t * 2) <= t * (29 / 28)) by (apply Rmult_le_compat_l; lra). lra.
Qed.

Section Sum.
Variable cexp : Z -> Z -> SpecFloat.spec_float * SpecFloat.spec_float.
Notation A := (f64Arith cexp).
Hypothesis Hexp : cexp_near A finF val 17 d64.
Variables (N lm : nat).
Hypothesis Hlm : (3 <= lm)%nat.
Hypothesis Hlm14 : (lm <= 14)%nat.
Hypothesis HN : N = (2 ^ S lm)%nat.
Variable e : evaluator A.
Hypothesis Hev : NewEvaluator A N = Ok e.
Notation rep64 := (rep A finF val u64 eta64 del64 N lm).
Notation Q := (1 + kw u64 eta64 del64 lm).
Notation W := 18446744073709551616.

Lemma Qn64 n : (Z.of_nat n <= 1048576)%Z -> Q ^ n - 1 <= INR n * (29 * u64) /\ 1 <= Q ^ n <= 2.
Proof. intros H. apply pow_bound2; [|exact H]. apply (bounds64 lm Hlm14). Qed.
Lemma M14' : 1 <= INR (2 ^ lm) <= 16384.
Proof. split; [apply (M1 N lm Hlm HN)|]. rewrite INR_IZR_INZ. apply IZR_le. rewrite Nat2Z.inj_pow. change 16384%Z with (2 ^ 14)%Z. apply Z.pow_le_mono_r; lia. Qed.
Lemma XBW B : 1 <= B <= W -> 1 <= XB lm B <= 32768 * W.
Proof.
  intros H. split; [apply XB1; lra|]. rewrite XB_eq. pose proof M14'. pose proof sqrt2_le2. pose proof sqrt2_ge1.
  replace (32768 * W) with (16384 * (2 * W)) by lra. apply Rmult_le_compat; [lra|nra|lra|]. apply Rmult_le_compat; lra.
Qed.
Lemma OmW : 32768 * W * (32768 * W) * 1048576 * 1048576 <= pw 970.
Proof. pose proof Om_big2. lra. Qed.

Lemma fwdW (sg : bool) w o p B : length o = N -> length p = N -> cbound N sg w B p -> 1 <= B <= W ->
  rep64 (S lm) (XB lm B) (FwdFFTTo A e sg w o p) (pol N (if sg then p else ModelPoly.fwdFFT w p)).
Proof.
  intros Ho Hp HB B1. destruct (bounds64 lm Hlm14) as (C1 & C2 & C3 & C4 & C5 & C6). destruct (tables64 cexp N lm Hlm HN e Hev) as (HF & HI & Hr). destruct (goods64 cexp Hexp N lm Hlm Hlm14 HN) as [GF GI].
  destruct (real_tables N lm Hlm HN) as (er & Er & RF & RI). pose proof (XBW B B1) as HX. pose proof OmW as OW. destruct (Qn64 (S lm) ltac:(lia)) as [_ HQ].
  unfold XB in *. apply (rep_fwd A finF val u64 eta64 (pw 970) (f64_std cexp) C1 C2 C3 del64 C5 N lm Hlm HN GF e HF er Er RF); try assumption; [lra|lra|].
  set (x := sqrt 2 ^ lm * _) in *. apply Rle_trans with (2 * (32768 * W)); [apply Rmult_le_compat; lra|lra].
Qed.

Definition accF (l : list (list (car A) * list (car A))) (f : list (car A)) : list (car A) := fold_left (fun a x => mulAddCmplxTo A a (fst x) (snd x)) l f.
Definition accP (l : list (npoly N * npoly N)) (f : npoly N) : npoly N := fold_left (fun a x => padd a (pmul (fst x) (snd x))) l f.
Lemma accW X X' l l' : 1 <= X <= 32768 * W -> 1 <= X' <= 32768 * W ->
  Forall2 (fun x y => rep64 (S lm) X (fst x) (fst y) /\ rep64 (S lm) X' (snd x) (snd y)) l l' -> forall c f P, (1 <= c)%nat -> (Z.of_nat (2 * lm + 3 + c + length l) <= 1048576)%Z ->
  rep64 (2 * lm + 2 + c) (INR c * (X * X')) f P -> rep64 (2 * lm + 2 + c + length l) (INR (c + length l) * (X * X')) (accF l f) (accP l' P).
Proof.
  intros HX HX'. induction 1 as [|x y l l' [H1 H2] HF IH]; intros c f P Hc Hn H.
  { cbn [length accF accP fold_left]. rewrite !Nat.add_0_r. exact H. }
  cbn [length] in *. unfold accF, accP. cbn [fold_left]. fold (accF l) (accP l').
  replace (2 * lm + 2 + c + S (length l))%nat with (2 * lm + 2 + S c + length l)%nat by lia. replace (c + S (length l))%nat with (S c + length l)%nat by lia.
  apply IH; [lia|lia|]. destruct (bounds64 lm Hlm14) as (C1 & C2 & C3 & C4 & C5 & C6). destruct (real_tables N lm Hlm HN) as (er & Er & RF & RI). pose proof OmW as OW.
  assert (XX : 1 <= X * X' <= 32768 * W * (32768 * W)) by (split; [clear - HX HX'; nra|apply Rmult_le_compat; lra]).
  assert (Ic : 0 <= INR c <= 1048576) by (split; [apply pos_INR|rewrite INR_IZR_INZ; apply IZR_le; lia]).
  replace (2 * lm + 2 + S c)%nat with (S (2 * lm + 2 + c)) by lia. rewrite S_INR. replace ((INR c + 1) * (X * X')) with (INR c * (X * X') + X * X') by ring.
  assert (CX : 0 <= INR c * (X * X') <= 1048576 * (32768 * W * (32768 * W))) by (split; [apply Rmult_le_pos; lra|apply Rmult_le_compat; lra]).
  apply (rep_acc A finF val u64 eta64 (pw 970) (f64_std cexp) C1 C2 C3 del64 C5 N lm Hlm HN er Er) with (n := S lm) (n' := S lm); try assumption; try lra; try lia.
  destruct (Qn64 (2 * lm + 2 + c) ltac:(lia)) as [_ HQ]. apply Rle_trans with (2 * (1048577 * (32768 * W * (32768 * W)))); [apply Rmult_le_compat; lra|lra].
Qed.
Lemma sumW X X' o f0 g0 P0 R0 l l' : 1 <= X <= 32768 * W -> 1 <= X' <= 32768 * W -> length o = N -> rep64 (S lm) X f0 P0 -> rep64 (S lm) X' g0 R0 ->
  Forall2 (fun x y => rep64 (S lm) X (fst x) (fst y) /\ rep64 (S lm) X' (snd x) (snd y)) l l' -> (Z.of_nat (S (length l)) <= 1000000)%Z ->
  forall k, (k < 2 ^ lm)%nat -> let v := invFFTInPlace A (accF l (mulCmplxTo A o f0 g0)) (e_twInv A e) in
  let P := accP l' (pmul P0 R0) in let E := INR (3 * lm + 3 + S (length l)) * (29 * u64) * (INR (S (length l)) * (sqrt 2 ^ lm * (X * X') / INR (2 ^ lm))) in
  length v = N /\ finF (fst (cplx A v k)) /\ finF (snd (cplx A v k)) /\
  Rabs (val (fst (cplx A v k)) - IZR (cf P (Z.of_nat k))) <= E /\ Rabs (val (snd (cplx A v k)) - IZR (cf P (Z.of_nat (k + 2 ^ lm)))) <= E.
Proof.
  intros HX HX' Ho H0 G0 HF Hl k Hk v P E.
  destruct (bounds64 lm Hlm14) as (C1 & C2 & C3 & C4 & C5 & C6). destruct (real_tables N lm Hlm HN) as (er & Er & RF & RI). pose proof OmW as OW.
  destruct (tables64 cexp N lm Hlm HN e Hev) as (TF & TI & Hr). destruct (goods64 cexp Hexp N lm Hlm Hlm14 HN) as [GF GI].
  assert (XX : 1 <= X * X' <= 32768 * W * (32768 * W)) by (split; [clear - HX HX'; nra|apply Rmult_le_compat; lra]).
  assert (B0 : rep64 (2 * lm + 2 + 1) (INR 1 * (X * X')) (mulCmplxTo A o f0 g0) (pmul P0 R0)).
  { replace (2 * lm + 2 + 1)%nat with (S lm + S lm + 1)%nat by lia. cbn [INR]. rewrite Rmult_1_l.
    apply (rep_mul A finF val u64 eta64 (pw 970) (f64_std cexp) C1 C2 C3 del64 C5 N lm Hlm HN er Er); try assumption; try lra.
    destruct (Qn64 (S lm) ltac:(lia)) as [_ HQ]. apply Rle_trans with (2 * (32768 * W) * (2 * (32768 * W))); [|lra].
    apply Rmult_le_compat; [apply Rmult_le_pos; lra|apply Rmult_le_pos; lra|apply Rmult_le_compat; lra|apply Rmult_le_compat; lra]. }
  pose proof (accW X X' l l' HX HX' HF 1 _ _ ltac:(lia) ltac:(lia) B0) as HR. fold P in HR. change (1 + length l)%nat with (S (length l)) in HR.
  set (Y := INR (S (length l)) * (X * X')) in *.
  assert (IL : 1 <= INR (S (length l)) <= 1048576) by (rewrite INR_IZR_INZ; split; apply IZR_le; lia).
  assert (HY : 1 <= Y <= 1048576 * (32768 * W * (32768 * W))) by (unfold Y; split; [rewrite <- (Rmult_1_l 1); apply Rmult_le_compat; lra|apply Rmult_le_compat; lra]).
  assert (S2 : 1 <= sqrt 2 ^ lm <= 128).
  { split; [apply pow_ge1, sqrt2_ge1|]. apply Rle_trans with (sqrt 2 ^ 14); [apply pow_le_mono; [apply sqrt2_ge1|exact Hlm14]|]. rewrite <- sqrt2_pow. apply le_of_sq; [lra|]. rewrite sqrt_sqrt by apply pos_INR. rewrite INR_IZR_INZ. change (Z.of_nat (2 ^ 14)) with 16384%Z. lra. }
  destruct (rep_inv A finF val u64 eta64 (pw 970) (f64_std cexp) C1 C2 C3 del64 C5 N lm Hlm HN GI e TI er Er RI _ Y _ P ltac:(lra) HR) as [L H]; [|lia|].
  { destruct (Qn64 (2 * lm + 2 + 1 + length l + lm) ltac:(lia)) as [_ HQ].
    apply Rle_trans with (2 * (128 * (1048576 * (32768 * W * (32768 * W))))); [|lra]. apply Rmult_le_compat; [lra|nra|lra|]. apply Rmult_le_compat; lra. }
  fold v in L, H. split; [exact L|]. destruct (H k Hk) as ([F1 F2] & E1 & E2 & _).
  assert (EE : (Q ^ (2 * lm + 2 + 1 + length l + lm + 1) - 1) * (sqrt 2 ^ lm * Y / INR (2 ^ lm)) <= E).
  { unfold E. replace (2 * lm + 2 + 1 + length l + lm + 1)%nat with (3 * lm + 3 + S (length l))%nat by lia. destruct (Qn64 (3 * lm + 3 + S (length l)) ltac:(lia)) as [HQ HQ2].
    pose proof M14' as HM. replace (INR (S (length l)) * (sqrt 2 ^ lm * (X * X') / INR (2 ^ lm))) with (sqrt 2 ^ lm * Y / INR (2 ^ lm)) by (unfold Y; field; lra).
    apply Rmult_le_compat_r; [|exact HQ]. apply Rmult_le_pos; [apply Rmult_le_pos; lra|]. apply Rlt_le, Rinv_0_lt_compat. lra. }
  repeat split; try assumption; (eapply Rle_trans; [|exact EE]); assumption.
Qed.
End Sum.

Section SumZ.
Variable cexp : Z -> Z -> SpecFloat.spec_float * SpecFloat.spec_float.
Notation A := (f64Arith cexp).
Hypothesis Hexp : cexp_near A finF val 17 (5 * powerRZ 2 (-52)).
Variables (N : nat) (logN : Z).
Hypothesis HN : Z.of_nat N = (2 ^ logN)%Z.
Hypothesis HlogN : (4 <= logN <= 15)%Z.
Variable e : evaluator A.
Hypothesis Hev : NewEvaluator A N = Ok e.

Lemma centred_eq (sg : bool) w p : (0 < w <= 64)%Z -> tpoly sg w N p -> (if sg then p else ModelPoly.fwdFFT w p) = map (swrap w) p.
Proof.
  intros Hw [Lp Wp]. destruct sg; [|reflexivity]. rewrite <- (map_id p) at 1. apply map_ext_in. intros x Hx. symmetry. apply swrap_small; [lia|].
  rewrite Forall_forall in Wp. exact (Wp x Hx).
Qed.

Lemma sum_error (sg : bool) w o B B' p q l : (0 < w <= 64)%Z -> length o = N -> (1 <= B <= 2 ^ 64)%Z -> (1 <= B' <= 2 ^ 64)%Z ->
  (forall x, In x ((p, q) :: l) -> tpoly sg w N (fst x) /\ tpoly sg w N (snd x) /\
    forall i, (i < N)%nat -> (Z.abs (swrap w (nthZ (fst x) i)) <= B)%Z /\ (Z.abs (swrap w (nthZ (snd x) i)) <= B')%Z) ->
  (Z.of_nat (S (length l)) <= 1000000)%Z ->
  let F a := FwdFFTTo A e sg w o a in let c a := pol N (map (swrap w) a) in
  let v := invFFTInPlace A (fold_left (fun a x => mulAddCmplxTo A a (F (fst x)) (F (snd x))) l (mulCmplxTo A o (F p) (F q))) (e_twInv A e) in
  let P := fold_left (fun s x => padd s (pmul (c (fst x)) (c (snd x)))) l (pmul (c p) (c q)) in
  let n := INR (S (length l)) in let E := (3 * IZR logN + n) * 29 * powerRZ 2 (-53) * (n * INR N * sqrt (INR N / 2) * IZR B * IZR B') in
  length v = N /\ forall k, (2 * k < N)%nat -> finF (fst (cplx A v k)) /\ finF (snd (cplx A v k)) /\
  Rabs (val (fst (cplx A v k)) - IZR (cf P (Z.of_nat k))) <= E /\ Rabs (val (snd (cplx A v k)) - IZR (cf P (Z.of_nat (k + N / 2)))) <= E.
Proof.
  intros Hw Ho HB HB' HI Hl F c v P n E.
  destruct (pow2_lm N logN HN HlogN) as (lm & L3 & L14 & EN & EL). assert (N2 : N = (2 * 2 ^ lm)%nat) by (rewrite EN; reflexivity).
  assert (Rb : forall b, (1 <= b <= 2 ^ 64)%Z -> 1 <= IZR b <= 18446744073709551616) by (intros b Hb; split; apply IZR_le; lia).
  assert (FW : forall a b, (1 <= b <= 2 ^ 64)%Z -> tpoly sg w N a -> (forall i, (i < N)%nat -> (Z.abs (swrap w (nthZ a i)) <= b)%Z) ->
    rep A finF val u64 eta64 del64 N lm (S lm) (XB lm (IZR b)) (F a) (c a)).
  { intros a b Hb Ha Hi. unfold F, c. rewrite <- (centred_eq sg w a Hw Ha). apply (fwdW cexp Hexp N lm L3 L14 EN e Hev); try assumption; [apply Ha| |now apply Rb].
    intros i Hii. pose proof (cbound64 N logN HN HlogN sg w a b Hw Ha Hi i Hii) as G. destruct sg; rewrite <- abs_IZR; apply IZR_le; [exact G|].
    unfold ModelPoly.fwdFFT in G. rewrite nthZ_map in G by (destruct Ha; lia). exact G. }
  destruct (HI (p, q) (or_introl eq_refl)) as (Hp & Hq & Hpq). cbn [fst snd] in *.
  assert (F2 : Forall2 (fun x y => rep A finF val u64 eta64 del64 N lm (S lm) (XB lm (IZR B)) (fst x) (fst y) /\ rep A finF val u64 eta64 del64 N lm (S lm) (XB lm (IZR B')) (snd x) (snd y))
    (map (fun x => (F (fst x), F (snd x))) l) (map (fun x => (c (fst x), c (snd x))) l)).
  { assert (HI' : forall x, In x l -> tpoly sg w N (fst x) /\ tpoly sg w N (snd x) /\ forall i, (i < N)%nat -> (Z.abs (swrap w (nthZ (fst x) i)) <= B)%Z /\ (Z.abs (swrap w (nthZ (snd x) i)) <= B')%Z) by (intros x Hx; apply HI; now right).
    clear - HI' FW HB HB'. induction l as [|x l IH]; cbn [map]; constructor.
    - cbn [fst snd]. destruct (HI' x (or_introl eq_refl)) as (H1 & H2 & H3). split; apply FW; try assumption; intros i Hi; now apply H3.
    - apply IH. intros y Hy. apply HI'. now right. }
  assert (EF : accF cexp (map (fun x => (F (fst x), F (snd x))) l) (mulCmplxTo A o (F p) (F q)) = fold_left (fun a x => mulAddCmplxTo A a (F (fst x)) (F (snd x))) l (mulCmplxTo A o (F p) (F q))).
  { unfold accF. generalize (mulCmplxTo A o (F p) (F q)). clear. induction l as [|x l IH]; intros f; cbn [map fold_left]; [reflexivity|apply IH]. }
  assert (EP : accP N (map (fun x => (c (fst x), c (snd x))) l) (pmul (c p) (c q)) = P).
  { unfold accP, P. generalize (pmul (c p) (c q)). clear. induction l as [|x l IH]; intros f; cbn [map fold_left]; [reflexivity|apply IH]. }
  assert (HS := sumW cexp Hexp N lm L3 L14 EN e Hev (XB lm (IZR B)) (XB lm (IZR B')) o (F p) (F q) (c p) (c q) _ _
    (XBW N lm L3 L14 EN _ (Rb B HB)) (XBW N lm L3 L14 EN _ (Rb B' HB')) Ho (FW p B HB Hp (fun i Hi => proj1 (Hpq i Hi))) (FW q B' HB' Hq (fun i Hi => proj2 (Hpq i Hi))) F2).
  rewrite map_length in HS. specialize (HS Hl). cbn zeta in HS. rewrite EF, EP in HS. fold v in HS.
  assert (EE : INR (3 * lm + 3 + S (length l)) * (29 * u64) * (INR (S (length l)) * (sqrt 2 ^ lm * (XB lm (IZR B) * XB lm (IZR B')) / INR (2 ^ lm))) = E).
  { unfold E. fold n. rewrite XB_mul. pose proof (M14' N lm L3 L14 EN) as HM. rewrite EL, N2, plus_INR. fold n.
    replace (INR (3 * lm + 3)) with (3 * IZR (Z.of_nat (S lm))) by (rewrite !INR_IZR_INZ, <- mult_IZR; f_equal; lia).
    rewrite mult_INR. replace (INR 2 * INR (2 ^ lm) / 2) with (INR (2 ^ lm)) by (cbn [INR]; field). rewrite sqrt2_pow. cbn [INR]. field. lra. }
  rewrite EE in HS. assert (NH : (N / 2 = 2 ^ lm)%nat) by (rewrite N2, Nat.mul_comm; apply Nat.div_mul; lia).
  split; [apply (HS 0%nat); lia|]. intros k Hk. rewrite NH. apply (HS k). lia.
Qed.
End SumZ.
