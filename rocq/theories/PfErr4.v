(** Lemmas: float vectors that represent the transform of an integer polynomial, and the error of their operations. *)
From Verif Require Import Base NegaRing ModelNum ModelVec ModelPoly ModelFFT SpecNum SpecVec SpecPoly SpecFFT SpecFFTReal SpecRound
  PfNum PfVec PfPoly PfFFT PfFFT2 PfFFT3 PfFFT4 PfFFT6 PfFFTReal PfNetGen PfNetB PfNetGen2 PfNorm PfErr PfErr2 PfRoundQ.
From Coq Require Import Reals Lra Lia.
Open Scope R_scope.

Lemma l2_mul n (r s : nat -> R) : (forall k, (k < n)%nat -> 0 <= r k) -> (forall k, (k < n)%nat -> 0 <= s k) -> l2 n (fun k => r k * s k) <= l2 n r * l2 n s.
Proof.
  intros Hr Hs. eapply Rle_trans; [apply (l2_le n _ (fun k => l2 n r * s k))|].
  - intros k Hk. rewrite Rabs_pos_eq by (apply Rmult_le_pos; auto). apply Rmult_le_compat_r; [auto|].
    pose proof (l2_at n r k Hk) as H. rewrite Rabs_pos_eq in H by auto. exact H.
  - rewrite l2_scale by apply l2_nn. lra.
Qed.
Lemma sqrt2_pow n : sqrt (INR (2 ^ n)) = sqrt 2 ^ n.
Proof.
  induction n as [|n IH]; [cbn; apply sqrt_1|]. cbn [Nat.pow pow]. rewrite mult_INR, sqrt_mult by apply pos_INR. rewrite IH. reflexivity.
Qed.

Section Err4.
Variable A : arith.
Variable fin : car A -> Prop.
Variable vl : car A -> R.
Variables u eta Om : R.
Hypothesis Hstd : stdmodel A fin vl u eta Om.
Hypothesis Hu : 0 <= u <= / 8.
Hypothesis He : 0 <= eta <= / 32.
Hypothesis HOm : 16 <= Om.
Variable del : R.
Hypothesis Hdel : 0 <= del <= / 4.
Variables (N lm : nat).
Hypothesis Hlm : (3 <= lm)%nat.
Hypothesis HN : N = (2 ^ S lm)%nat.
Notation M := (2 ^ lm)%nat.
Notation C := (car A * car A)%type.
Notation vC := (vC A vl).
Notation finC := (finC A fin).
Notation gam := (gam u).
Notation kap := (kap u del).
Notation kw := (kw u eta del lm).
Notation om := (om eta lm).
Notation apv := (apv A fin vl).
Notation good := (good A fin vl del lm).
Hypothesis HgF : good (gF A lm) (gF RA lm).
Hypothesis HgI : good (gI A lm) (gI RA lm).
Variable e : evaluator A.
Hypothesis HeF : gTWF A lm lm (e_tw A e).
Hypothesis HeI : gTWI A lm 0 (e_twInv A e).
Variable er : evaluator RA.
Hypothesis Her : NewEvaluator RA N = Ok er.
Hypothesis HrF : gTWF RA lm lm (e_tw RA er).
Hypothesis HrI : gTWI RA lm 0 (e_twInv RA er).

Let Hex : exact RA N (zR N) := real_exact N lm Hlm HN.
Notation Q := (1 + kw)%R.
Lemma u_kap : u <= kap /\ gam <= kap.
Proof.
  pose proof (gam_nn u Hu) as G. pose proof (tet_bounds u Hu del Hdel) as T. unfold PfErr.kap. split; [nra|].
  assert (gam <= tet u del) by (unfold tet; nra). nra.
Qed.
Lemma M1 : 1 <= INR M. Proof. change 1 with (INR 1). apply le_INR. pose proof (Mpos lm). lia. Qed.
Lemma Q1 : 1 <= Q. Proof. pose proof (kw_nn u eta Hu He del Hdel lm). lra. Qed.
Lemma Qn n : 1 <= Q ^ n. Proof. apply pow_ge1, Q1. Qed.
Lemma om_eta : 22 * eta <= om. Proof. unfold PfErr2.om. pose proof M1. nra. Qed.

Lemma apv_le n E E' x y : E <= E' -> apv n E x y -> apv n E' x y.
Proof. intros H [F D]. split; [exact F|lra]. Qed.
(** Elementwise error c * |y| + d * eta. *)
Lemma apv_elem (x : nat -> C) (y : nat -> Cx) c Y : (forall k, (k < M)%nat -> finC (x k)) ->
  (forall k, (k < M)%nat -> nm (Csub (vC (x k)) (y k)) <= c * nm (y k) + 22 * eta) -> 0 <= c -> l2 M (fun k => nm (y k)) <= Y -> 1 <= Y ->
  apv M ((c + om) * Y) x y.
Proof.
  intros F E Hc HY Y1. split; [exact F|]. eapply Rle_trans; [apply (l2_le M _ (fun k => c * nm (y k) + 22 * eta))|].
  { intros k Hk. rewrite Rabs_pos_eq by apply nm_nn. now apply E. }
  eapply Rle_trans; [apply l2_tri|]. rewrite l2_scale by exact Hc. pose proof (l2_const M (22 * eta) ltac:(lra)) as H. fold om in H.
  assert (c * l2 M (fun k => nm (y k)) <= c * Y) by (apply Rmult_le_compat_l; assumption).
  pose proof (om_nn eta He lm) as O. assert (om <= om * Y) by nra. unfold PfErr2.om in *. lra.
Qed.

(** [fp] represents the transform of P: the exact transform has norm at most X and the distance to it is ((1+kw)^n - 1) X. *)
Definition rep (n : nat) (X : R) (fp : list (car A)) (P : npoly N) : Prop :=
  length fp = N /\ exists v, transform RA N (zR N) v P /\
    apv M ((Q ^ n - 1) * X) (cplx A fp) (cplx RA v) /\ l2 M (fun k => nm (cplx RA v k)) <= X.
Lemma rep_mono n n' X fp P : (n <= n')%nat -> 0 <= X -> rep n X fp P -> rep n' X fp P.
Proof.
  intros Hn HX (L & v & T & H & HB). split; [exact L|]. exists v. split; [exact T|]. split; [|exact HB]. eapply apv_le; [|exact H].
  apply Rmult_le_compat_r; [exact HX|]. pose proof (pow_le_mono Q n n' Q1 Hn). lra.
Qed.
Lemma rep_peq n X fp (P P' : npoly N) : peq 0 P P' -> rep n X fp P -> rep n X fp P'.
Proof. intros E (L & v & T & H). split; [exact L|]. exists v. split; [|exact H]. now apply (transform_peq RA N (zR N) _ P P'). Qed.

(** Folding. *)
Lemma foldConv_err (sg : bool) w x B : (if sg then Rabs (IZR x) <= B else Rabs (IZR (swrap w x)) <= B) -> B <= Om ->
  fin (foldConv A sg w x) /\ Rabs (vl (foldConv A sg w x) - foldConv RA sg w x) <= u * Rabs (foldConv RA sg w x) + eta /\ Rabs (foldConv RA sg w x) <= B.
Proof.
  intros HB HO. unfold foldConv. set (z := if sg then x else swrap w x). assert (Hz : Rabs (IZR z) <= B) by (unfold z; destruct sg; exact HB).
  destruct (sm_of _ _ _ _ _ _ Hstd z ltac:(lra)) as [F E]. split; [exact F|]. split; [exact E|exact Hz].
Qed.
Definition cbound (sg : bool) (w : Z) (B : R) (p : list Z) : Prop :=
  forall i, (i < N)%nat -> if sg then Rabs (IZR (nthZ p i)) <= B else Rabs (IZR (swrap w (nthZ p i))) <= B.
Lemma fold_apv sg w outA outR p B : length outA = N -> length outR = N -> cbound sg w B p -> 1 <= B -> B <= Om ->
  apv M ((Q ^ 1 - 1) * (sqrt 2 ^ lm * (sqrt 2 * B))) (cplx A (foldPolyTo A sg w outA p)) (cplx RA (foldPolyTo RA sg w outR p)) /\
  l2 M (fun k => nm (cplx RA (foldPolyTo RA sg w outR p) k)) <= sqrt 2 ^ lm * (sqrt 2 * B) /\ 1 <= sqrt 2 ^ lm * (sqrt 2 * B).
Proof.
  intros HA HR HB B1 BO. destruct (gfold_spec A N lm Hlm HN sg w outA p HA) as [_ EA]. destruct (gfold_spec RA N lm Hlm HN sg w outR p HR) as [_ ER].
  pose proof sqrt2_ge1 as S1. pose proof (pow_ge1 (sqrt 2) lm S1) as Sn.
  assert (HX : 1 <= sqrt 2 ^ lm * (sqrt 2 * B)) by (rewrite <- (Rmult_1_l 1); apply Rmult_le_compat; nra).
  assert (EN : forall k, (k < M)%nat -> (k < N /\ k + M < N)%nat) by (intros k Hk; rewrite (NM N lm HN); lia).
  assert (HY : l2 M (fun k => nm (cplx RA (foldPolyTo RA sg w outR p) k)) <= sqrt 2 ^ lm * (sqrt 2 * B)).
  { rewrite <- sqrt2_pow, <- l2_const_sqrt by nra. apply l2_le. intros k Hk. rewrite Rabs_pos_eq by apply nm_nn. rewrite ER by exact Hk.
    destruct (EN k Hk) as [K1 K2]. destruct (foldConv_err sg w _ B (HB _ K1) BO) as (_ & _ & V1). destruct (foldConv_err sg w _ B (HB _ K2) BO) as (_ & _ & V2).
    unfold nm. cbn [fst snd]. eapply Rle_trans; [apply hyp_le; eassumption|]. replace (hyp B B) with (hyp (B * 1) (B * 1)) by (rewrite Rmult_1_r; reflexivity).
    rewrite hyp_scale, Rabs_pos_eq by lra. unfold hyp. replace (1 * 1 + 1 * 1) with 2 by ring. lra. }
  split; [|split; assumption]. eapply apv_le; [|apply (apv_elem _ _ u (sqrt 2 ^ lm * (sqrt 2 * B))); [| |exact (proj1 Hu)|exact HY|exact HX]].
  - apply Rmult_le_compat_r; [lra|]. cbn [pow]. unfold PfErr2.kw. pose proof u_kap. lra.
  - intros k Hk. rewrite EA by exact Hk. destruct (EN k Hk) as [K1 K2]. split; cbn [fst snd]; [apply (foldConv_err sg w _ B (HB _ K1) BO)|apply (foldConv_err sg w _ B (HB _ K2) BO)].
  - intros k Hk. rewrite EA, ER by exact Hk. destruct (EN k Hk) as [K1 K2]. destruct (foldConv_err sg w _ B (HB _ K1) BO) as (_ & V1 & _). destruct (foldConv_err sg w _ B (HB _ K2) BO) as (_ & V2 & _).
    unfold nm, Csub, PfErr.vC. cbn [fst snd]. eapply Rle_trans; [apply hyp_le; [exact V1|exact V2]|].
    eapply Rle_trans; [apply hyp_err; try apply Rabs_pos; lra|]. rewrite hyp_abs. lra.
Qed.
Lemma rep_fwdB bfs fw (Hbf : forall s, locOK A fin vl u eta Om del true (bfs s)) (Hfw : computes A N lm fw (netF A bfs lm lm)) sg w out p B : length out = N -> length p = N -> cbound sg w B p -> 1 <= B -> B <= Om ->
  Q ^ S lm * (sqrt 2 ^ lm * (sqrt 2 ^ lm * (sqrt 2 * B))) <= Om / 32 ->
  rep (S lm) (sqrt 2 ^ lm * (sqrt 2 ^ lm * (sqrt 2 * B))) (fw (foldPolyTo A sg w out p)) (pol N (if sg then p else ModelPoly.fwdFFT w p)).
Proof.
  intros Ho Hp HB B1 BO HO. set (outR := repeat (a0 RA) N). assert (HR : length outR = N) by apply repeat_length.
  destruct (gfold_spec A N lm Hlm HN sg w out p Ho) as [LA _]. destruct (gfold_spec RA N lm Hlm HN sg w outR p HR) as [LR _].
  destruct (fold_apv sg w out outR p B Ho HR HB B1 BO) as (E1 & E2 & E3).
  destruct (Hfw _ LA) as [L1 CA]. destruct (gfwdFFT_computes RA N lm Hlm HN (e_tw RA er) HrF _ LR) as [_ CR].
  split; [exact L1|]. exists (FwdFFTTo RA er sg w outR p). split; [now apply (FwdFFTTo_spec RA N (zR N) er Hex Her)|].
  pose proof Q1 as HQ.
  destruct (fwd_apvB A fin vl u eta Om Hu He del Hdel lm bfs _ _ (Q ^ 1 - 1) _ Hbf HgF E1 E2 E3) with (s := lm) as [F1 F2]; [cbn [pow]; lra| |lia|].
  { replace (1 + (Q ^ 1 - 1)) with Q by (cbn [pow]; lra). exact HO. }
  replace ((1 + (Q ^ 1 - 1)) * Q ^ lm) with (Q ^ S lm) in F1 by (cbn [pow]; ring).
  split; [|eapply Rle_trans; [|exact F2]; right; apply l2_ext; intros k Hk; unfold FwdFFTTo; rewrite CR by exact Hk; reflexivity].
  eapply apv_ext; [| |exact F1]; intros k Hk; symmetry; [now apply CA|now apply CR].
Qed.
Lemma rep_fwd sg w out p B : length out = N -> length p = N -> cbound sg w B p -> 1 <= B -> B <= Om ->
  Q ^ S lm * (sqrt 2 ^ lm * (sqrt 2 ^ lm * (sqrt 2 * B))) <= Om / 32 ->
  rep (S lm) (sqrt 2 ^ lm * (sqrt 2 ^ lm * (sqrt 2 * B))) (FwdFFTTo A e sg w out p) (pol N (if sg then p else ModelPoly.fwdFFT w p)).
Proof.
  apply (rep_fwdB (fun _ => fwdButterfly A) (fun v => fwdFFTInPlace A v (e_tw A e))); [intros s; apply (dirb_ok A fin vl u eta Om Hstd Hu He HOm del Hdel true)|].
  intros v Hv. destruct (gfwdFFT_computes A N lm Hlm HN (e_tw A e) HeF v Hv) as [L H]. split; [exact L|]. intros k Hk. rewrite <- gfwdN_net. now apply H.
Qed.
Lemma rep_zero n : rep n 0 (repeat (a0 A) N) pzero.
Proof.
  assert (HZ : forall k, cplx RA (repeat 0 N) k = (0, 0)).
  { intros k. unfold SpecFFT.cplx. cbn [a0 realArith]. assert (G : forall i, nth i (repeat 0 N) 0 = 0) by (intros i; destruct (Nat.lt_ge_cases i N); [apply nth_repeat|apply nth_overflow; rewrite repeat_length; assumption]). now rewrite !G. }
  assert (HA : forall k, cplx A (repeat (a0 A) N) k = (a0 A, a0 A)).
  { intros k. unfold SpecFFT.cplx. assert (G : forall i, nth i (repeat (a0 A) N) (a0 A) = a0 A) by (intros i; destruct (Nat.lt_ge_cases i N); [apply nth_repeat|apply nth_overflow; rewrite repeat_length; assumption]). now rewrite !G. }
  destruct (sm_0 _ _ _ _ _ _ Hstd) as [F0 V0].
  assert (N00 : nm (0, 0) = 0) by (unfold nm, hyp; cbn [fst snd]; replace (0 * 0 + 0 * 0) with 0 by ring; apply sqrt_0).
  assert (L0 : forall n, l2 n (fun _ => 0) <= 0) by (intros m; pose proof (l2_const m 0 ltac:(lra)); lra).
  split; [apply repeat_length|]. exists (repeat 0 N). split; [|split].
  - split; [apply repeat_length|]. intros m k r _ _ _. rewrite HZ. symmetry. apply (evalZ_zero RA N (zR N) Hex).
  - split; [intros k _; rewrite HA; now split|]. rewrite Rmult_0_r. eapply Rle_trans; [|apply (L0 M)]. right. apply l2_ext. intros k _. rewrite HZ, HA.
    unfold PfErr.vC, Csub. cbn [fst snd]. rewrite V0, Rminus_0_r. exact N00.
  - eapply Rle_trans; [|apply (L0 M)]. right. apply l2_ext. intros k _. rewrite HZ. exact N00.
Qed.
(** Pointwise products. *)
Lemma prod_apv cm (Hcm : cmOK A fin vl u eta Om cm) (x x' : nat -> C) (y y' : nat -> Cx) n n' X X' : 1 <= X -> 1 <= X' ->
  apv M ((Q ^ n - 1) * X) x y -> l2 M (fun k => nm (y k)) <= X -> apv M ((Q ^ n' - 1) * X') x' y' -> l2 M (fun k => nm (y' k)) <= X' ->
  Q ^ n * X * (Q ^ n' * X') <= Om / 4 ->
  apv M ((Q ^ (n + n' + 1) - 1) * (X * X')) (fun k => cm (x k) (x' k)) (fun k => Cmul (y k) (y' k)) /\
  l2 M (fun k => nm (Cmul (y k) (y' k))) <= X * X'.
Proof.
  intros X1 X1' Hx Hy Hx' Hy' HO.
  pose proof (apv_norm A fin vl M _ x y X Hx Hy) as Nx. pose proof (apv_norm A fin vl M _ x' y' X' Hx' Hy') as Nx'.
  replace (X + (Q ^ n - 1) * X) with (Q ^ n * X) in Nx by ring. replace (X' + (Q ^ n' - 1) * X') with (Q ^ n' * X') in Nx' by ring.
  destruct Hx as [Fx Ex]. destruct Hx' as [Fx' Ex'].
  assert (P : forall z : nat -> Cx, forall k, (k < M)%nat -> 0 <= nm (z k)) by (intros; apply nm_nn).
  assert (Bk : forall k, (k < M)%nat -> nm (vC (x k)) * nm (vC (x' k)) <= Om / 4).
  { intros k Hk. eapply Rle_trans; [|exact HO]. pose proof (l2_at M (fun k => nm (vC (x k))) k Hk) as H1. pose proof (l2_at M (fun k => nm (vC (x' k))) k Hk) as H2.
    cbv beta in H1, H2. rewrite Rabs_pos_eq in H1, H2 by apply nm_nn. apply Rmult_le_compat; try apply nm_nn; lra. }
  assert (Ek : forall k, (k < M)%nat -> finC (cm (x k) (x' k)) /\
     nm (Csub (vC (cm (x k) (x' k))) (Cmul (vC (x k)) (vC (x' k)))) <= gam * (nm (vC (x k)) * nm (vC (x' k))) + 10 * eta).
  { intros k Hk. apply Hcm; [now apply Fx|now apply Fx'|now apply Bk]. }
  split.
  2:{ eapply Rle_trans; [right; apply l2_ext; intros k Hk; apply nm_mul|]. eapply Rle_trans; [apply l2_mul; apply P|].
      apply Rmult_le_compat; try apply l2_nn; assumption. }
  split; [intros k Hk; now apply Ek|].
  set (a := fun k => nm (vC (x k))). set (b := fun k => nm (vC (x' k))). set (c := fun k => nm (Csub (vC (x k)) (y k))). set (d := fun k => nm (Csub (vC (x' k)) (y' k))).
  eapply Rle_trans; [apply (l2_le M _ (fun k => (gam * (a k * b k) + 22 * eta) + (c k * b k + nm (y k) * d k)))|].
  { intros k Hk. rewrite Rabs_pos_eq by apply nm_nn. eapply Rle_trans; [apply (nm_dist _ (Cmul (vC (x k)) (vC (x' k))))|].
    destruct (Ek k Hk) as [_ E]. fold (a k) (b k) in E.
    assert (D : nm (Csub (Cmul (vC (x k)) (vC (x' k))) (Cmul (y k) (y' k))) <= c k * b k + nm (y k) * d k).
    { replace (Csub (Cmul (vC (x k)) (vC (x' k))) (Cmul (y k) (y' k))) with (Cadd (Cmul (Csub (vC (x k)) (y k)) (vC (x' k))) (Cmul (y k) (Csub (vC (x' k)) (y' k))))
        by (unfold Csub, Cadd, Cmul; cbn [fst snd]; f_equal; ring).
      eapply Rle_trans; [apply nm_tri|]. rewrite !nm_mul. unfold b, c, d. lra. }
    lra. }
  eapply Rle_trans; [apply l2_tri|]. eapply Rle_trans; [apply Rplus_le_compat; apply l2_tri|].
  pose proof (gam_nn u Hu) as G. pose proof (l2_const M (22 * eta) ltac:(lra)) as HC. change (INR M * (22 * eta)) with om in HC.
  rewrite l2_scale by exact G.
  assert (Lab : l2 M (fun k => a k * b k) <= (Q ^ n * X) * (Q ^ n' * X')).
  { eapply Rle_trans; [apply l2_mul; intros; apply nm_nn|]. apply Rmult_le_compat; try apply l2_nn; assumption. }
  assert (Lcb : l2 M (fun k => c k * b k) <= ((Q ^ n - 1) * X) * (Q ^ n' * X')).
  { eapply Rle_trans; [apply l2_mul; intros; apply nm_nn|]. apply Rmult_le_compat; try apply l2_nn; assumption. }
  assert (Lyd : l2 M (fun k => nm (y k) * d k) <= X * ((Q ^ n' - 1) * X')).
  { eapply Rle_trans; [apply l2_mul; intros; apply nm_nn|]. apply Rmult_le_compat; try apply l2_nn; assumption. }
  pose proof (Qn n) as q1. pose proof (Qn n') as q2. set (q := Q ^ n) in *. set (q' := Q ^ n') in *.
  assert (XX : 1 <= X * X') by nra. set (Z2 := X * X') in *.
  assert (gam * l2 M (fun k => a k * b k) <= gam * (q * q' * Z2)) by (apply Rmult_le_compat_l; [exact G|]; unfold Z2; lra).
  replace (Q ^ (n + n' + 1)) with (q * q' * Q) by (unfold q, q'; rewrite !pow_add; cbn [pow]; ring).
  pose proof u_kap as [_ GK]. pose proof (om_nn eta He lm) as O. unfold PfErr2.kw in *. fold om in *.
  assert (Hq : 1 <= q * q') by nra. set (qq := q * q') in *.
  assert (om <= om * (qq * Z2)) by (assert (1 <= qq * Z2) by nra; nra).
  assert (gam * (qq * Z2) <= kap * (qq * Z2)) by (apply Rmult_le_compat_r; [nra|exact GK]).
  assert (E3 : (q - 1) * X * (q' * X') + X * ((q' - 1) * X') = (qq - 1) * Z2) by (unfold qq, Z2; ring).
  replace ((qq * (1 + (kap + om)) - 1) * Z2) with ((qq - 1) * Z2 + kap * (qq * Z2) + om * (qq * Z2)) by ring. lra.
Qed.
(** What is needed of a product with accumulation. *)
Definition acOK (ac : C -> C -> C -> C) : Prop := forall o p q, finC o -> finC p -> finC q -> nm (vC o) + nm (vC p) * nm (vC q) <= Om / 8 ->
  finC (ac o p q) /\ nm (Csub (vC (ac o p q)) (Cadd (vC o) (Cmul (vC p) (vC q)))) <= kap * (nm (vC o) + nm (vC p) * nm (vC q)) + 22 * eta.
Lemma cmac_OK : acOK (fun o a b => cadd2 A o (cmulG A a b)).
Proof.
  intros o p q Fo Fp Fq HO. pose proof (nm_nn (vC o)) as No. pose proof (nm_nn (vC p)) as Np. pose proof (nm_nn (vC q)) as Nq.
  assert (PQ : 0 <= nm (vC p) * nm (vC q)) by (apply Rmult_le_pos; assumption).
  destruct (cmul_err A fin vl u eta Om Hstd Hu He HOm p q Fp Fq) as [F1 E1]; [lra|]. set (m := cmulG A p q) in *. clearbody m.
  pose proof (gam_nn u Hu) as G. pose proof (gam_small u Hu) as G2. pose proof (nm_le_dist (vC m) (Cmul (vC p) (vC q))) as Bm. rewrite (nm_mul (vC p)) in Bm. set (W := nm (vC p) * nm (vC q)) in *.
  set (D := nm (Csub (vC m) (Cmul (vC p) (vC q)))) in *. assert (D0 : 0 <= D) by apply nm_nn.
  assert (gam * W <= W / 2) by nra.
  pose proof (nm_tri (vC o) (vC m)) as T.
  destruct (cadd_err A fin vl u eta Om Hstd Hu He o m Fo F1) as [F2 E2]; [lra|]. split; [exact F2|].
  eapply Rle_trans; [apply (nm_dist _ (Cadd (vC o) (vC m)))|].
  replace (Csub (Cadd (vC o) (vC m)) (Cadd (vC o) (Cmul (vC p) (vC q)))) with (Csub (vC m) (Cmul (vC p) (vC q))) by (unfold Csub, Cadd; cbn [fst snd]; f_equal; ring). fold D.
  assert (K : u + gam + u * gam <= kap).
  { pose proof (tet_bounds u Hu del Hdel) as Ht. unfold PfErr.kap. assert (gam <= tet u del) by (unfold tet; nra). nra. }
  assert (u * nm (Cadd (vC o) (vC m)) <= u * (nm (vC o) + (W + D))) by (apply Rmult_le_compat_l; lra).
  assert ((1 + u) * D <= (1 + u) * (gam * W + 10 * eta)) by (apply Rmult_le_compat_l; lra).
  assert (B3 : (u + gam + u * gam) * (nm (vC o) + W) <= kap * (nm (vC o) + W)) by (apply Rmult_le_compat_r; lra).
  assert (0 <= gam * nm (vC o)) by (apply Rmult_le_pos; lra). assert (0 <= u * gam * nm (vC o)) by (apply Rmult_le_pos; [apply Rmult_le_pos; lra|lra]).
  assert (u * eta <= eta) by nra. lra.
Qed.
Lemma acc_apv ac (Hac : acOK ac) (z x x' : nat -> C) (t y y' : nat -> Cx) m n n' X X' Y : 1 <= X -> 1 <= X' -> 0 <= Y -> (n + n' <= m)%nat ->
  apv M ((Q ^ m - 1) * Y) z t -> l2 M (fun k => nm (t k)) <= Y ->
  apv M ((Q ^ n - 1) * X) x y -> l2 M (fun k => nm (y k)) <= X -> apv M ((Q ^ n' - 1) * X') x' y' -> l2 M (fun k => nm (y' k)) <= X' ->
  Q ^ m * (Y + X * X') <= Om / 8 ->
  apv M ((Q ^ S m - 1) * (Y + X * X')) (fun k => ac (z k) (x k) (x' k)) (fun k => Cadd (t k) (Cmul (y k) (y' k))) /\
  l2 M (fun k => nm (Cadd (t k) (Cmul (y k) (y' k)))) <= Y + X * X'.
Proof.
  intros X1 X1' Y0 Hm Hz Ht Hx Hy Hx' Hy' HO.
  pose proof (apv_norm A fin vl M _ z t Y Hz Ht) as Nz. pose proof (apv_norm A fin vl M _ x y X Hx Hy) as Nx. pose proof (apv_norm A fin vl M _ x' y' X' Hx' Hy') as Nx'.
  replace (Y + (Q ^ m - 1) * Y) with (Q ^ m * Y) in Nz by ring.
  replace (X + (Q ^ n - 1) * X) with (Q ^ n * X) in Nx by ring. replace (X' + (Q ^ n' - 1) * X') with (Q ^ n' * X') in Nx' by ring.
  destruct Hz as [Fz Ez]. destruct Hx as [Fx Ex]. destruct Hx' as [Fx' Ex'].
  set (g := fun k => nm (vC (z k))) in *. set (h := fun k => nm (Csub (vC (z k)) (t k))) in *.
  set (a := fun k => nm (vC (x k))) in *. set (b := fun k => nm (vC (x' k))) in *. set (c := fun k => nm (Csub (vC (x k)) (y k))) in *. set (d := fun k => nm (Csub (vC (x' k)) (y' k))) in *.
  pose proof (Qn n) as q1. pose proof (Qn n') as q2. pose proof (Qn m) as q0. pose proof (pow_le_mono Q _ _ Q1 Hm) as qm. rewrite pow_add in qm.
  assert (Lab : l2 M (fun k => a k * b k) <= (Q ^ n * X) * (Q ^ n' * X')).
  { eapply Rle_trans; [apply l2_mul; intros; apply nm_nn|]. apply Rmult_le_compat; try apply l2_nn; assumption. }
  assert (Lcb : l2 M (fun k => c k * b k) <= ((Q ^ n - 1) * X) * (Q ^ n' * X')).
  { eapply Rle_trans; [apply l2_mul; intros; apply nm_nn|]. apply Rmult_le_compat; try apply l2_nn; assumption. }
  assert (Lyd : l2 M (fun k => nm (y k) * d k) <= X * ((Q ^ n' - 1) * X')).
  { eapply Rle_trans; [apply l2_mul; intros; apply nm_nn|]. apply Rmult_le_compat; try apply l2_nn; assumption. }
  set (q := Q ^ m) in *. set (qa := Q ^ n) in *. set (qb := Q ^ n') in *.
  assert (XX : 1 <= X * X') by nra. set (Z2 := X * X') in *.
  assert (Lab' : l2 M (fun k => a k * b k) <= q * Z2).
  { eapply Rle_trans; [exact Lab|]. replace (qa * X * (qb * X')) with (qa * qb * Z2) by (unfold Z2; ring). apply Rmult_le_compat_r; lra. }
  assert (Ldf : l2 M (fun k => c k * b k) + l2 M (fun k => nm (y k) * d k) <= (q - 1) * Z2).
  { apply Rle_trans with ((qa * qb - 1) * Z2); [|apply Rmult_le_compat_r; lra]. replace ((qa * qb - 1) * Z2) with ((qa - 1) * X * (qb * X') + X * ((qb - 1) * X')) by (unfold Z2; ring). lra. }
  assert (Ek : forall k, (k < M)%nat -> finC (ac (z k) (x k) (x' k)) /\
     nm (Csub (vC (ac (z k) (x k) (x' k))) (Cadd (vC (z k)) (Cmul (vC (x k)) (vC (x' k))))) <= kap * (g k + a k * b k) + 22 * eta).
  { intros k Hk. apply Hac; [now apply Fz|now apply Fx|now apply Fx'|]. fold (g k) (a k) (b k). eapply Rle_trans; [|exact HO]. rewrite Rmult_plus_distr_l.
    pose proof (l2_at M g k Hk) as H1. pose proof (l2_at M (fun k => a k * b k) k Hk) as H2. cbv beta in H2.
    rewrite Rabs_pos_eq in H1 by apply nm_nn. rewrite Rabs_pos_eq in H2 by (apply Rmult_le_pos; apply nm_nn). lra. }
  split.
  2:{ eapply Rle_trans; [apply (l2_le M _ (fun k => nm (t k) + nm (y k) * nm (y' k)))|].
      - intros k Hk. rewrite Rabs_pos_eq by apply nm_nn. rewrite <- nm_mul. apply nm_tri.
      - eapply Rle_trans; [apply l2_tri|]. apply Rplus_le_compat; [exact Ht|]. eapply Rle_trans; [apply l2_mul; intros; apply nm_nn|].
        apply Rmult_le_compat; try apply l2_nn; assumption. }
  split; [intros k Hk; now apply Ek|].
  eapply Rle_trans; [apply (l2_le M _ (fun k => (kap * (g k + a k * b k) + 22 * eta) + (h k + (c k * b k + nm (y k) * d k))))|].
  { intros k Hk. rewrite Rabs_pos_eq by apply nm_nn. eapply Rle_trans; [apply (nm_dist _ (Cadd (vC (z k)) (Cmul (vC (x k)) (vC (x' k)))))|].
    destruct (Ek k Hk) as [_ E].
    assert (D : nm (Csub (Cadd (vC (z k)) (Cmul (vC (x k)) (vC (x' k)))) (Cadd (t k) (Cmul (y k) (y' k)))) <= h k + (c k * b k + nm (y k) * d k)).
    { replace (Csub (Cadd (vC (z k)) (Cmul (vC (x k)) (vC (x' k)))) (Cadd (t k) (Cmul (y k) (y' k))))
        with (Cadd (Csub (vC (z k)) (t k)) (Cadd (Cmul (Csub (vC (x k)) (y k)) (vC (x' k))) (Cmul (y k) (Csub (vC (x' k)) (y' k)))))
        by (unfold Csub, Cadd, Cmul; cbn [fst snd]; f_equal; ring).
      eapply Rle_trans; [apply nm_tri|]. apply Rplus_le_compat_l. eapply Rle_trans; [apply nm_tri|]. rewrite !nm_mul. unfold b, c, d. lra. }
    lra. }
  eapply Rle_trans; [apply l2_tri|]. eapply Rle_trans; [apply Rplus_le_compat; apply l2_tri|].
  pose proof (kap_nn u eta Hu He del Hdel) as KN. pose proof (l2_const M (22 * eta) ltac:(lra)) as HC. change (INR M * (22 * eta)) with om in HC.
  rewrite l2_scale by exact KN. pose proof (l2_tri M g (fun k => a k * b k)) as Tg. cbv beta in Tg. pose proof (l2_tri M (fun k => c k * b k) (fun k => nm (y k) * d k)) as Tc. cbv beta in Tc.
  assert (B1 : kap * l2 M (fun k => g k + a k * b k) <= kap * (q * (Y + Z2))) by (apply Rmult_le_compat_l; [exact KN|]; rewrite Rmult_plus_distr_l; lra).
  change (Q ^ S m) with (Q * q). pose proof (om_nn eta He lm) as O. unfold PfErr2.kw in *. fold om in *.
  assert (B2 : om <= om * (q * (Y + Z2))) by (assert (1 <= q * (Y + Z2)) by nra; nra).
  replace (((1 + (kap + om)) * q - 1) * (Y + Z2)) with ((q - 1) * Y + (q - 1) * Z2 + kap * (q * (Y + Z2)) + om * (q * (Y + Z2))) by ring. lra.
Qed.
Lemma rep_mulB cm (Hcm : cmOK A fin vl u eta Om cm) n n' X X' o f f' P P' : length o = N -> 1 <= X -> 1 <= X' -> rep n X f P -> rep n' X' f' P' ->
  Q ^ n * X * (Q ^ n' * X') <= Om / 4 -> rep (n + n' + 1) (X * X') (cmplxLoop A (fun _ a b => cm a b) o f f') (pmul P P').
Proof.
  intros Ho X1 X1' (L & v & T & H & HB) (L' & v' & T' & H' & HB') HO.
  destruct (prod_apv cm Hcm _ _ _ _ n n' X X' X1 X1' H HB H' HB' HO) as [E1 E2].
  destruct (gloop_spec A N lm Hlm HN (fun _ a b => cm a b) o f f' Ho) as [LA EA].
  pose proof (repeat_length (0 : car RA) N) as LR. destruct (gloop_spec RA N lm Hlm HN (fun _ a b => cmulG RA a b) _ v v' LR) as [_ ER].
  split; [exact LA|]. exists (mulCmplxTo RA (repeat (0 : car RA) N) v v'). split.
  { now apply (pointwise RA N (zR N) er Hex Her _ v v' P P' 0%Z). }
  split; [|eapply Rle_trans; [|exact E2]; right; apply l2_ext; intros k Hk; unfold mulCmplxTo; rewrite ER by exact Hk; reflexivity].
  eapply apv_ext; [| |exact E1]; intros k Hk; symmetry; [now rewrite EA by exact Hk|unfold mulCmplxTo; now rewrite ER by exact Hk].
Qed.
Lemma rep_mul n n' X X' o f f' P P' : length o = N -> 1 <= X -> 1 <= X' -> rep n X f P -> rep n' X' f' P' ->
  Q ^ n * X * (Q ^ n' * X') <= Om / 4 -> rep (n + n' + 1) (X * X') (mulCmplxTo A o f f') (pmul P P').
Proof. exact (rep_mulB (cmulG A) (cmul_err A fin vl u eta Om Hstd Hu He HOm) n n' X X' o f f' P P'). Qed.
Lemma rep_accB ac (Hac : acOK ac) m n n' X X' Y o f f' R0 P P' : 1 <= X -> 1 <= X' -> 0 <= Y -> (n + n' <= m)%nat -> rep m Y o R0 -> rep n X f P -> rep n' X' f' P' ->
  Q ^ m * (Y + X * X') <= Om / 8 ->
  rep (S m) (Y + X * X') (cmplxLoop A ac o f f') (padd R0 (pmul P P')).
Proof.
  intros X1 X1' Y0 Hm (Lo & vo & To & Ho & HBo) (L & v & T & H & HB) (L' & v' & T' & H' & HB') HO2.
  destruct (acc_apv ac Hac _ _ _ _ _ _ m n n' X X' Y X1 X1' Y0 Hm Ho HBo H HB H' HB' HO2) as [F1 F2].
  destruct (gloop_spec A N lm Hlm HN ac o f f' Lo) as [LA EA].
  assert (LR : length vo = N) by apply To. destruct (gloop_spec RA N lm Hlm HN (fun o a b => cadd2 RA o (cmulG RA a b)) vo v v' LR) as [_ ER].
  split; [exact LA|]. exists (mulAddCmplxTo RA vo v v'). split.
  { now apply (pointwise_acc RA N (zR N) er Hex Her vo v v' R0 P P' 0%Z). }
  split; [|eapply Rle_trans; [|exact F2]; right; apply l2_ext; intros k Hk; unfold mulAddCmplxTo; rewrite ER by exact Hk; reflexivity].
  eapply apv_ext; [| |exact F1]; intros k Hk; symmetry; [now rewrite EA by exact Hk|unfold mulAddCmplxTo; now rewrite ER by exact Hk].
Qed.
Lemma rep_acc m n n' X X' Y o f f' R0 P P' : 1 <= X -> 1 <= X' -> 0 <= Y -> (n + n' <= m)%nat -> rep m Y o R0 -> rep n X f P -> rep n' X' f' P' ->
  Q ^ m * (Y + X * X') <= Om / 8 ->
  rep (S m) (Y + X * X') (mulAddCmplxTo A o f f') (padd R0 (pmul P P')).
Proof. exact (rep_accB _ cmac_OK m n n' X X' Y o f f' R0 P P'). Qed.
(** Inverse transform. *)
Lemma real_inv v P : transform RA N (zR N) v P -> forall k, (k < M)%nat ->
  cplx RA (invFFTInPlace RA v (e_twInv RA er)) k = (IZR (cf P (Z.of_nat k)), IZR (cf P (Z.of_nat (k + M)))).
Proof.
  intros T. destruct (NewEvaluator_inv RA N (zR N) er Hex Her) as (l' & _ & HN' & TF & TI & _).
  assert (l' = lm) as ->. { rewrite HN in HN'. apply Nat.pow_inj_r in HN'; lia. }
  exact (proj2 (inv_transform RA N lm (zR N) Hex Hlm HN _ _ v P TF TI T)).
Qed.
(** What is needed of the final scaling. *)
Definition dvOK (post : car A -> car A) : Prop := forall b, fin b -> Rabs (vl b / INR M) <= Om -> fin (post b) /\ Rabs (vl (post b) - vl b / INR M) <= u * Rabs (vl b / INR M) + eta.
Lemma rep_invB bfs post iv (Hbf : forall s, locOK A fin vl u eta Om del false (bfs s)) (Hpost : dvOK post)
  (Hiv : forall v, length v = N -> exists v', iv v = map post v' /\ length v' = N /\ forall k, (k < M)%nat -> cplx A v' k = netI A bfs lm lm (cplx A v) k) n Y f P : 1 <= Y -> rep n Y f P -> Q ^ (n + lm) * (sqrt 2 ^ lm * Y) <= Om / 32 ->
  length (iv f) = N /\
  forall k, (k < M)%nat -> let c := cplx A (iv f) k in let E := (Q ^ (n + lm + 1) - 1) * (sqrt 2 ^ lm * Y / INR M) in
    finC c /\ Rabs (vl (fst c) - IZR (cf P (Z.of_nat k))) <= E /\ Rabs (vl (snd c) - IZR (cf P (Z.of_nat (k + M)))) <= E /\
    Rabs (IZR (cf P (Z.of_nat k))) <= sqrt 2 ^ lm * Y / INR M /\ Rabs (IZR (cf P (Z.of_nat (k + M)))) <= sqrt 2 ^ lm * Y / INR M.
Proof.
  intros Y1 (L & v & T & H & HB) HO. assert (LR : length v = N) by apply T.
  destruct (Hiv f L) as (w & Ew & Lw & Cw). destruct (ginvFFT_computes RA N lm Hlm HN _ HrI v LR) as (wr & Ewr & Lwr & Cwr).
  destruct (inv_apvB A fin vl u eta Om Hu He del Hdel lm bfs _ _ (Q ^ n - 1) Y Hbf HgI H HB Y1) with (s := lm) as [[F1 F2] F3]; [pose proof (Qn n); lra| |lia|].
  { replace (1 + (Q ^ n - 1)) with (Q ^ n) by ring. rewrite <- pow_add. exact HO. }
  replace ((1 + (Q ^ n - 1)) * Q ^ lm) with (Q ^ (n + lm)) in F2 by (rewrite pow_add; ring).
  split; [rewrite Ew, map_length; exact Lw|]. intros k Hk c E.
  pose proof (real_inv v P T k Hk) as HR. rewrite Ewr, (cplx_map RA N lm Hlm HN) in HR by assumption.
  assert (Ec : c = (post (fst (cplx A w k)), post (snd (cplx A w k)))).
  { unfold c. rewrite Ew. now apply (cplx_map A N lm Hlm HN). }
  rewrite Cw in Ec by exact Hk. rewrite Cwr in HR by exact Hk. cbn [adivn realArith] in HR.
  specialize (F1 k Hk).
  pose proof (Rle_trans _ _ _ (l2_at M (fun k => nm (Csub (vC (netI A bfs lm lm (cplx A f) k)) (ginvN RA lm lm (cplx RA v) k))) k Hk) F2) as D.
  pose proof (Rle_trans _ _ _ (l2_at M (fun k => nm (ginvN RA lm lm (cplx RA v) k)) k Hk) F3) as B. cbv beta in D, B.
  rewrite Rabs_pos_eq in D, B by apply nm_nn.
  set (x := netI A bfs lm lm (cplx A f) k) in *. set (y := ginvN RA lm lm (cplx RA v) k) in *. clearbody x y.
  injection HR as R1 R2. rewrite <- R1, <- R2, Ec. cbn [fst snd]. clear R1 R2 Ec c.
  set (q := Q ^ (n + lm)) in *. set (S := sqrt 2 ^ lm * Y) in *.
  assert (S1 : 1 <= S). { unfold S. pose proof (pow_ge1 (sqrt 2) lm sqrt2_ge1). rewrite <- (Rmult_1_l 1). apply Rmult_le_compat; lra. }
  pose proof (Qn (n + lm)) as q1. fold q in q1. pose proof M1 as HM. set (m := INR M) in *.
  assert (EM : IZR (Z.of_nat M) = m) by (unfold m; symmetry; apply INR_IZR_INZ). 
  assert (ME : forall a b, Rabs a <= S * q -> fin b -> vl b = a -> forall r, Rabs (a - r) <= (q - 1) * S ->
    fin (post b) /\ Rabs (vl (post b) - r / m) <= E).
  { intros a b Ba Fb Vb r Hr. assert (Im : 0 < / m <= 1) by (split; [apply Rinv_0_lt_compat; lra|rewrite <- Rinv_1; apply Rinv_le_contravar; lra]).
    assert (Bd : Rabs (a / m) = Rabs a * / m) by (unfold Rdiv; rewrite Rabs_mult, (Rabs_pos_eq (/ m)) by lra; reflexivity).
    assert (Sm : 0 <= S * / m) by (apply Rmult_le_pos; lra).
    assert (Bd' : Rabs a * / m <= q * (S * / m)) by (replace (q * (S * / m)) with (S * q * / m) by ring; apply Rmult_le_compat_r; lra).
    destruct (Hpost b Fb) as [F V].
    { fold m. rewrite Vb, Bd. assert (S * q * / m <= S * q * 1) by (apply Rmult_le_compat_l; [nra|lra]). lra. }
    split; [exact F|]. fold m in V. rewrite Vb, Bd in V.
    assert (Dd : Rabs (a / m - r / m) <= (q - 1) * (S * / m)).
    { replace (a / m - r / m) with ((a - r) * / m) by (unfold Rdiv; ring). rewrite Rabs_mult, (Rabs_pos_eq (/ m)) by lra.
      replace ((q - 1) * (S * / m)) with ((q - 1) * S * / m) by ring. apply Rmult_le_compat_r; lra. }
    replace (vl (post b) - r / m) with ((vl (post b) - a / m) + (a / m - r / m)) by ring.
    eapply Rle_trans; [apply Rabs_triang|].
    unfold E. replace (Q ^ (n + lm + 1)) with (q * Q) by (unfold q; rewrite (pow_add _ (n + lm) 1); cbn [pow]; ring).
    replace (S / m) with (S * / m) by reflexivity.
    pose proof u_kap as [UK _]. pose proof (om_nn eta He lm) as O. unfold PfErr2.kw in *.
    assert (OE : eta <= om * (q * (S * / m))).
    { unfold PfErr2.om. fold m. replace (m * (22 * eta) * (q * (S * / m))) with (22 * eta * (q * S)) by (field; lra). assert (1 <= q * S) by nra. nra. }
    assert (0 <= q * (S * / m)) by (apply Rmult_le_pos; lra).
    assert (u * (Rabs a * / m) <= u * (q * (S * / m))) by (apply Rmult_le_compat_l; lra).
    assert (u * (q * (S * / m)) <= kap * (q * (S * / m))) by (apply Rmult_le_compat_r; lra).
    replace ((q * (1 + (kap + om)) - 1) * (S * / m)) with ((q - 1) * (S * / m) + kap * (q * (S * / m)) + om * (q * (S * / m))) by ring. lra. }
  assert (Bx : nm (vC x) <= S * q). { pose proof (nm_le_dist (vC x) y). replace (S * q) with (S + (q - 1) * S) by ring. lra. }
  pose proof (hyp_fst (vl (fst x)) (vl (snd x))) as X1. pose proof (hyp_snd (vl (fst x)) (vl (snd x))) as X2. change (hyp (vl (fst x)) (vl (snd x))) with (nm (vC x)) in X1, X2.
  pose proof (hyp_fst (vl (fst x) - fst y) (vl (snd x) - snd y)) as D1. pose proof (hyp_snd (vl (fst x) - fst y) (vl (snd x) - snd y)) as D2.
  change (hyp (vl (fst x) - fst y) (vl (snd x) - snd y)) with (nm (Csub (vC x) y)) in D1, D2.
  rewrite EM. destruct F1 as [Fx1 Fx2].
  destruct (ME (vl (fst x)) (fst x)) with (r := fst y) as [A1 A2]; [lra|exact Fx1|reflexivity|lra|].
  destruct (ME (vl (snd x)) (snd x)) with (r := snd y) as [A3 A4]; [lra|exact Fx2|reflexivity|lra|].
  split; [split; assumption|]. split; [assumption|]. split; [assumption|].
  assert (Im : 0 <= / m) by (left; apply Rinv_0_lt_compat; lra).
  pose proof (hyp_fst (fst y) (snd y)) as C1. pose proof (hyp_snd (fst y) (snd y)) as C2. change (hyp (fst y) (snd y)) with (nm y) in C1, C2.
  unfold Rdiv. rewrite !Rabs_mult, (Rabs_pos_eq (/ m)) by exact Im. split; (apply Rmult_le_compat_r; [exact Im|]); [exact (Rle_trans _ _ _ C1 B)|exact (Rle_trans _ _ _ C2 B)].
Qed.
Lemma rep_inv n Y f P : 1 <= Y -> rep n Y f P -> Q ^ (n + lm) * (sqrt 2 ^ lm * Y) <= Om / 32 -> (lm <= 64)%nat ->
  length (invFFTInPlace A f (e_twInv A e)) = N /\
  forall k, (k < M)%nat -> let c := cplx A (invFFTInPlace A f (e_twInv A e)) k in let E := (Q ^ (n + lm + 1) - 1) * (sqrt 2 ^ lm * Y / INR M) in
    finC c /\ Rabs (vl (fst c) - IZR (cf P (Z.of_nat k))) <= E /\ Rabs (vl (snd c) - IZR (cf P (Z.of_nat (k + M)))) <= E /\
    Rabs (IZR (cf P (Z.of_nat k))) <= sqrt 2 ^ lm * Y / INR M /\ Rabs (IZR (cf P (Z.of_nat (k + M)))) <= sqrt 2 ^ lm * Y / INR M.
Proof.
  intros Y1 Hr HO H64. apply (rep_invB (fun _ => invButterfly A) (fun x => adivn A x (Z.of_nat M)) (fun v => invFFTInPlace A v (e_twInv A e))); try assumption.
  - intros s. apply (dirb_ok A fin vl u eta Om Hstd Hu He HOm del Hdel false).
  - intros b Fb Bb. rewrite INR_IZR_INZ in *. apply (sm_div _ _ _ _ _ _ Hstd b _ Fb); try assumption; [|exists lm; now rewrite Nat2Z.inj_pow].
    rewrite Nat2Z.inj_pow. split; [apply Z.pow_pos_nonneg; lia|]. apply Z.pow_le_mono_r; lia.
  - intros v Hv. destruct (ginvFFT_computes A N lm Hlm HN _ HeI v Hv) as (w & Ew & Lw & Cw). exists w. split; [exact Ew|]. split; [exact Lw|]. intros k Hk. rewrite <- ginvN_net. now apply Cw.
Qed.
(** Rounding and unfolding give the coefficients of P. *)
Lemma rep_unfold (acc : Z -> Z -> Z) sg w n Y f P out : 1 <= Y -> rep n Y f P -> (0 < w <= 64)%Z -> (lm <= 64)%nat -> length out = N ->
  u <= / 4503599627370496 -> eta <= / 1267650600228229401496703205376 -> 1180591620717411303424 <= Om ->
  sqrt 2 ^ lm * Y / INR M <= 2199023255552 -> (Q ^ (n + lm + 1) - 1) * (sqrt 2 ^ lm * Y / INR M) <= 3 / 8 ->
  Q ^ (n + lm) * (sqrt 2 ^ lm * Y) <= Om / 32 ->
  unfoldPoly A acc sg w out (invFFTv A e w f) = tab N (fun i => acc (nthZ out i) (twrap sg w (cf P (Z.of_nat i)))).
Proof.
  intros Y1 Hr Hw H64 Ho Hu2 He2 HO2 HV HE HO. destruct (rep_inv n Y f P Y1 Hr HO H64) as [L H]. unfold invFFTv.
  set (v := invFFTInPlace A f (e_twInv A e)) in *.
  apply (gunfold_spec A N lm Hlm HN acc sg w _ (fun i => cf P (Z.of_nat i))); [unfold floatModQInPlace; rewrite map_length; exact L|exact Ho|].
  intros k Hk. unfold floatModQInPlace. rewrite (cplx_map A N lm Hlm HN) by assumption. cbn [fst snd]. destruct (H k Hk) as ([F1 F2] & E1 & E2 & B1 & B2).
  assert (HU : 0 <= u <= / 4503599627370496) by (split; [exact (proj1 Hu)|exact Hu2]). assert (HEt : 0 <= eta <= / 1267650600228229401496703205376) by (split; [exact (proj1 He)|exact He2]).
  split; apply (modQ_round A fin vl u eta Om Hstd HU HEt HO2); try assumption.
  - exact (Rle_trans _ _ _ E1 HE).
  - exact (Rle_trans _ _ _ B1 HV).
  - exact (Rle_trans _ _ _ E2 HE).
  - exact (Rle_trans _ _ _ B2 HV).
Qed.
End Err4.
