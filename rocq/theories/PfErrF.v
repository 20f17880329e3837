(** Lemmas: rounding error of the fused butterflies and products of the AVX2 kernels. *)
From Verif Require Import Base ModelNum ModelAsm ModelFFT ModelFused SpecFFT SpecFFTReal SpecRound SpecFused PfFFT PfFFTReal PfNetGen PfNetGen2 PfNorm PfErr PfErr2 PfErr3 PfErr4.
From Coq Require Import Reals Lra Lia.
Open Scope R_scope.

Section ErrF.
Variable A : arith.
Variable G : fops (car A).
Variable fin : car A -> Prop.
Variable vl : car A -> R.
Variables u eta Om : R.
Hypothesis Hstd : stdmodel A fin vl u eta Om.
Hypothesis Hfm : fusedmodel A G fin vl u eta Om.
Hypothesis Hu : 0 <= u <= / 8.
Hypothesis He : 0 <= eta <= / 32.
Hypothesis HOm : 16 <= Om.
Notation C := (car A * car A)%type.
Notation vC := (vC A vl).
Notation finC := (finC A fin).
Notation gam := (gam u).

(** One rounding after another: c' approximates c, r approximates s + c'. *)
Lemma fused_real s c c' r : Rabs (c' - c) <= u * Rabs c + eta -> Rabs (r - (s + c')) <= u * Rabs (s + c') + eta ->
  Rabs (r - (s + c)) <= (2 * u + u * u) * (Rabs s + Rabs c) + 3 * eta.
Proof.
  intros H1 H2. pose proof (Rabs_pos s) as P1. pose proof (Rabs_pos c) as P2.
  assert (B : Rabs (s + c') <= Rabs s + Rabs c + (u * Rabs c + eta)).
  { replace (s + c') with (s + (c + (c' - c))) by ring. eapply Rle_trans; [apply Rabs_triang|]. pose proof (Rabs_triang c (c' - c)). lra. }
  replace (r - (s + c)) with ((r - (s + c')) + (c' - c)) by ring. eapply Rle_trans; [apply Rabs_triang|].
  set (x := Rabs s) in *. set (y := Rabs c) in *. set (z := Rabs (s + c')) in *.
  assert (u * z <= u * (x + y + (u * y + eta))) by (apply Rmult_le_compat_l; lra).
  assert (u * eta <= eta) by nra. assert (0 <= u * x) by (apply Rmult_le_pos; lra). assert (0 <= u * u * x) by (apply Rmult_le_pos; [apply Rmult_le_pos; lra|lra]).
  clear - H1 H2 H H0 H3 H4. nra.
Qed.
Lemma fused_Om s c c' : Rabs (c' - c) <= u * Rabs c + eta -> Rabs s + Rabs c <= Om / 4 -> Rabs (s + c') <= Om.
Proof.
  intros H1 H2. pose proof (Rabs_pos s) as P1. pose proof (Rabs_pos c) as P2.
  replace (s + c') with (s + (c + (c' - c))) by ring. eapply Rle_trans; [apply Rabs_triang|]. pose proof (Rabs_triang c (c' - c)). nra.
Qed.
(** A product rounded and then combined in each of the three ways. *)
Lemma fnma_err x y z t s : fin x -> fin y -> fin t -> Rabs (vl t - s) <= u * Rabs s + eta -> Rabs (vl x * vl y) + Rabs s <= Om / 4 -> z = s - vl x * vl y ->
  fin (ffnma G x y t) /\ Rabs (vl (ffnma G x y t) - z) <= (2 * u + u * u) * (Rabs (vl x * vl y) + Rabs s) + 3 * eta.
Proof.
  intros Fx Fy Ft H1 HO ->. assert (HO' : Rabs (- (vl x * vl y)) + Rabs s <= Om / 4) by (rewrite Rabs_Ropp; exact HO).
  pose proof (fused_Om _ _ _ H1 HO') as B. replace (- (vl x * vl y) + vl t) with (vl t - vl x * vl y) in B by ring.
  destruct (fm_fnma _ _ _ _ _ _ _ Hfm x y t Fx Fy Ft B) as [F1 E1]. split; [exact F1|].
  pose proof (fused_real (- (vl x * vl y)) s (vl t) (vl (ffnma G x y t)) H1) as E. rewrite Rabs_Ropp in E.
  replace (s - vl x * vl y) with (- (vl x * vl y) + s) by ring. apply E. replace (- (vl x * vl y) + vl t) with (vl t - vl x * vl y) by ring. exact E1.
Qed.
Lemma fma_err x y z t s : fin x -> fin y -> fin t -> Rabs (vl t - s) <= u * Rabs s + eta -> Rabs (vl x * vl y) + Rabs s <= Om / 4 -> z = vl x * vl y + s ->
  fin (ffma G x y t) /\ Rabs (vl (ffma G x y t) - z) <= (2 * u + u * u) * (Rabs (vl x * vl y) + Rabs s) + 3 * eta.
Proof.
  intros Fx Fy Ft H1 HO ->. pose proof (fused_Om _ _ _ H1 HO) as B.
  destruct (fm_fma _ _ _ _ _ _ _ Hfm x y t Fx Fy Ft B) as [F1 E1]. split; [exact F1|]. exact (fused_real _ _ _ _ H1 E1).
Qed.
Lemma fms_err x y z t s : fin x -> fin y -> fin t -> Rabs (vl t - s) <= u * Rabs s + eta -> Rabs (vl x * vl y) + Rabs s <= Om / 4 -> z = vl x * vl y - s ->
  fin (ffms G x y t) /\ Rabs (vl (ffms G x y t) - z) <= (2 * u + u * u) * (Rabs (vl x * vl y) + Rabs s) + 3 * eta.
Proof.
  intros Fx Fy Ft H1 HO ->. assert (H1' : Rabs (- vl t - - s) <= u * Rabs (- s) + eta) by (replace (- vl t - - s) with (- (vl t - s)) by ring; rewrite !Rabs_Ropp; exact H1).
  assert (HO' : Rabs (vl x * vl y) + Rabs (- s) <= Om / 4) by (rewrite Rabs_Ropp; exact HO). pose proof (fused_Om _ _ _ H1' HO') as B.
  destruct (fm_fms _ _ _ _ _ _ _ Hfm x y t Fx Fy Ft B) as [F1 E1]. split; [exact F1|]. pose proof (fused_real _ _ _ _ H1' E1) as E. rewrite Rabs_Ropp in E. exact E.
Qed.
Lemma mul_err1 x y : fin x -> fin y -> Rabs (vl x * vl y) <= Om -> fin (fmul G x y) /\ Rabs (vl (fmul G x y) - vl x * vl y) <= u * Rabs (vl x * vl y) + eta.
Proof. intros. rewrite (fm_mul _ _ _ _ _ _ _ Hfm). now apply (sm_mul _ _ _ _ _ _ Hstd). Qed.

Lemma cauchy2 p q : Rabs (vl (fst p) * vl (fst q)) + Rabs (vl (snd p) * vl (snd q)) <= nm (vC p) * nm (vC q) /\
  Rabs (vl (fst p) * vl (snd q)) + Rabs (vl (snd p) * vl (fst q)) <= nm (vC p) * nm (vC q).
Proof.
  split.
  { rewrite !Rabs_mult. unfold nm, PfErr.vC. cbn [fst snd]. rewrite <- (hyp_abs (vl (fst p))), <- (hyp_abs (vl (fst q))). apply cauchy. }
  { rewrite !Rabs_mult. unfold nm, PfErr.vC. cbn [fst snd]. rewrite <- (hyp_abs (vl (fst p))), <- (hyp_abs (vl (fst q))).
    eapply Rle_trans; [apply cauchy|]. right. f_equal. unfold hyp. f_equal. ring. }
Qed.
(** Errors of both components give the error of the pair. *)
Lemma pair_err (r : C) (e1 e2 : R) o1 o2 W : 0 <= W ->
  Rabs (vl (fst r) - e1) <= (2 * u + u * u) * (Rabs o1 + W) + 3 * eta -> Rabs (vl (snd r) - e2) <= (2 * u + u * u) * (Rabs o2 + W) + 3 * eta ->
  nm (Csub (vC r) (e1, e2)) <= gam * (nm (o1, o2) + W) + 6 * eta.
Proof.
  intros HW E1 E2. unfold nm, Csub, PfErr.vC. cbn [fst snd]. eapply Rle_trans; [apply hyp_le; [exact E1|exact E2]|].
  assert (K : 0 <= 2 * u + u * u) by nra. pose proof (Rabs_pos o1). pose proof (Rabs_pos o2).
  eapply Rle_trans; [apply hyp_err; lra|]. pose proof (hyp_tri (Rabs o1) W (Rabs o2) W) as T. rewrite hyp_abs in T.
  assert (B : hyp W W <= 3 / 2 * W). { apply le_of_sq; [lra|]. rewrite hyp_sq. nra. }
  pose proof (hyp_nn o1 o2) as N. unfold gam. set (h := hyp o1 o2) in *.
  assert ((2 * u + u * u) * hyp (Rabs o1 + W) (Rabs o2 + W) <= (2 * u + u * u) * (3 / 2 * (h + W))) by (apply Rmult_le_compat_l; lra). lra.
Qed.
Definition cmAp (p q : C) : C := cmA G (fst p) (snd p) (fst q) (snd q).
Definition cmBp (p q : C) : C := cmB G (fst p) (snd p) (fst q) (snd q).
Lemma K2 s W : s <= W -> (2 * u + u * u) * s + 3 * eta <= (2 * u + u * u) * (Rabs 0 + W) + 3 * eta.
Proof. intros H. rewrite Rabs_R0. assert (0 <= 2 * u + u * u) by nra. assert ((2 * u + u * u) * s <= (2 * u + u * u) * (0 + W)) by (apply Rmult_le_compat_l; lra). lra. Qed.
Lemma nm_00 : nm (0, 0) = 0. Proof. unfold nm, hyp. cbn [fst snd]. replace (0 * 0 + 0 * 0) with 0 by ring. apply sqrt_0. Qed.
Ltac fin_pair p q W HW E1 E2 := 
  apply (Rle_trans _ (gam * (nm (0, 0) + W) + 6 * eta)); [apply pair_err; [exact HW|exact E1|exact E2]|rewrite nm_00, Rplus_0_l; lra].
Lemma cmAp_OK : cmOK A fin vl u eta Om cmAp.
Proof.
  intros p q [P1 P2] [Q1 Q2] HO. destruct (cauchy2 p q) as [S1 S2]. set (W := nm (vC p) * nm (vC q)) in *.
  assert (HW : 0 <= W) by (apply Rmult_le_pos; apply nm_nn).
  pose proof (Rabs_pos (vl (fst p) * vl (fst q))). pose proof (Rabs_pos (vl (snd p) * vl (snd q))). pose proof (Rabs_pos (vl (fst p) * vl (snd q))). pose proof (Rabs_pos (vl (snd p) * vl (fst q))).
  destruct (mul_err1 (fst p) (fst q) P1 Q1 ltac:(lra)) as [M1 N1]. destruct (mul_err1 (fst p) (snd q) P1 Q2 ltac:(lra)) as [M2 N2].
  destruct (fnma_err (snd p) (snd q) (vl (fst p) * vl (fst q) - vl (snd p) * vl (snd q)) _ _ P2 Q2 M1 N1 ltac:(lra) eq_refl) as [F1 E1].
  destruct (fma_err (snd p) (fst q) (vl (fst p) * vl (snd q) + vl (snd p) * vl (fst q)) _ _ P2 Q1 M2 N2 ltac:(lra) ltac:(ring)) as [F2 E2].
  split; [split; assumption|]. rewrite Rplus_comm in S1, S2.
  fin_pair p q W HW (Rle_trans _ _ _ E1 (K2 _ _ S1)) (Rle_trans _ _ _ E2 (K2 _ _ S2)).
Qed.
Lemma cmBp_OK : cmOK A fin vl u eta Om cmBp.
Proof.
  intros p q [P1 P2] [Q1 Q2] HO. destruct (cauchy2 p q) as [S1 S2]. set (W := nm (vC p) * nm (vC q)) in *.
  assert (HW : 0 <= W) by (apply Rmult_le_pos; apply nm_nn).
  pose proof (Rabs_pos (vl (fst p) * vl (fst q))). pose proof (Rabs_pos (vl (snd p) * vl (snd q))). pose proof (Rabs_pos (vl (fst p) * vl (snd q))). pose proof (Rabs_pos (vl (snd p) * vl (fst q))).
  destruct (mul_err1 (snd p) (snd q) P2 Q2 ltac:(lra)) as [M1 N1]. destruct (mul_err1 (snd p) (fst q) P2 Q1 ltac:(lra)) as [M2 N2].
  destruct (fms_err (fst p) (fst q) (vl (fst p) * vl (fst q) - vl (snd p) * vl (snd q)) _ _ P1 Q1 M1 N1 ltac:(lra) eq_refl) as [F1 E1].
  destruct (fma_err (fst p) (snd q) (vl (fst p) * vl (snd q) + vl (snd p) * vl (fst q)) _ _ P1 Q2 M2 N2 ltac:(lra) eq_refl) as [F2 E2].
  split; [split; assumption|].
  fin_pair p q W HW (Rle_trans _ _ _ E1 (K2 _ _ S1)) (Rle_trans _ _ _ E2 (K2 _ _ S2)).
Qed.
Lemma mulF_OK : cmOK A fin vl u eta Om (mulF G).
Proof.
  intros p q [P1 P2] [Q1 Q2] HO. destruct (cauchy2 q p) as [S1 S2]. rewrite (Rmult_comm (nm (vC q))) in S1, S2. set (W := nm (vC p) * nm (vC q)) in *.
  assert (HW : 0 <= W) by (apply Rmult_le_pos; apply nm_nn).
  pose proof (Rabs_pos (vl (fst q) * vl (fst p))). pose proof (Rabs_pos (vl (snd q) * vl (snd p))). pose proof (Rabs_pos (vl (fst q) * vl (snd p))). pose proof (Rabs_pos (vl (snd q) * vl (fst p))).
  destruct (mul_err1 (fst q) (fst p) Q1 P1 ltac:(lra)) as [M1 N1]. destruct (mul_err1 (snd q) (fst p) Q2 P1 ltac:(lra)) as [M2 N2].
  destruct (fnma_err (snd q) (snd p) (vl (fst p) * vl (fst q) - vl (snd p) * vl (snd q)) _ _ Q2 P2 M1 N1 ltac:(lra) ltac:(ring)) as [F1 E1].
  destruct (fma_err (fst q) (snd p) (vl (fst p) * vl (snd q) + vl (snd p) * vl (fst q)) _ _ Q1 P2 M2 N2 ltac:(lra) ltac:(ring)) as [F2 E2].
  split; [split; assumption|]. rewrite Rplus_comm in S1.
  fin_pair p q W HW (Rle_trans _ _ _ E1 (K2 _ _ S1)) (Rle_trans _ _ _ E2 (K2 _ _ S2)).
Qed.

Definition adF (p m : C) : C := (fadd G (fst p) (fst m), fadd G (snd p) (snd m)).
Definition sbF (p m : C) : C := (fsub G (fst p) (fst m), fsub G (snd p) (snd m)).
Definition ngF (m : C) : C := (fsub G (fofbits G 0) (fst m), fsub G (fofbits G 0) (snd m)).
Lemma adF_eq p m : adF p m = cadd2 A p m. Proof. unfold adF. now rewrite !(fm_add _ _ _ _ _ _ _ Hfm). Qed.
Lemma sbF_eq p m : sbF p m = csub2 A p m. Proof. unfold sbF. now rewrite !(fm_sub _ _ _ _ _ _ _ Hfm). Qed.
Lemma ngF_ok m : finC m -> finC (ngF m) /\ vC (ngF m) = (- vl (fst m), - vl (snd m)).
Proof.
  intros [M1 M2]. destruct (fm_neg _ _ _ _ _ _ _ Hfm _ M1) as [F1 E1]. destruct (fm_neg _ _ _ _ _ _ _ Hfm _ M2) as [F2 E2].
  split; [split; assumption|]. unfold ngF, PfErr.vC. cbn [fst snd]. now rewrite E1, E2.
Qed.
Lemma adF_OK : adOK A fin vl u eta Om adF. Proof. intros p q. rewrite adF_eq. apply (cadd_err A fin vl u eta Om Hstd); assumption. Qed.
Lemma sbF_OK : sbOK A fin vl u eta Om sbF. Proof. intros p q. rewrite sbF_eq. apply (csub_err A fin vl u eta Om Hstd); assumption. Qed.
Lemma adN_OK : adOK A fin vl u eta Om (fun p m => sbF p (ngF m)).
Proof.
  intros p m Fp Fm HO. destruct (ngF_ok m Fm) as [F1 E1]. pose proof (sbF_OK p (ngF m) Fp F1) as H. rewrite E1 in H.
  replace (Csub (vC p) (- vl (fst m), - vl (snd m))) with (Cadd (vC p) (vC m)) in H by (unfold Csub, Cadd, PfErr.vC; cbn [fst snd]; f_equal; ring).
  now apply H.
Qed.
Lemma sbN_OK : sbOK A fin vl u eta Om (fun p m => adF p (ngF m)).
Proof.
  intros p m Fp Fm HO. destruct (ngF_ok m Fm) as [F1 E1]. pose proof (adF_OK p (ngF m) Fp F1) as H. rewrite E1 in H.
  replace (Cadd (vC p) (- vl (fst m), - vl (snd m))) with (Csub (vC p) (vC m)) in H by (unfold Csub, Cadd, PfErr.vC; cbn [fst snd]; f_equal; ring).
  now apply H.
Qed.

Variable del : R.
Hypothesis Hdel : 0 <= del <= / 4.
Notation locOK := (locOK A fin vl u eta Om del).
Lemma fwdA_OK : locOK true (fwdA G).
Proof.
  intros w p q wr Fp Fq W1 W2 W3 B1 B2. cbv zeta. change (bfC A (fwdA G) w p q) with (adF p (cmAp q w), sbF p (cmAp q w)).
  destruct (fwd_localG A fin vl u eta Om Hu He HOm del Hdel _ _ _ cmAp_OK adF_OK sbF_OK w p q wr) as (F1 & F2 & E1 & E2); try assumption; [lra|lra|].
  unfold loD, hiD. cbn [rbf]. split; [exact F1|]. split; [exact F2|]. split; [eapply Rle_trans; [exact E1|lra]|eapply Rle_trans; [exact E2|lra]].
Qed.
Lemma fwdB_OK : locOK true (fwdB G).
Proof.
  intros w p q wr Fp Fq W1 W2 W3 B1 B2. cbv zeta. change (bfC A (fwdB G) w p q) with (sbF p (ngF (cmBp q w)), adF p (ngF (cmBp q w))).
  destruct (fwd_localG A fin vl u eta Om Hu He HOm del Hdel _ _ _ cmBp_OK adN_OK sbN_OK w p q wr) as (F1 & F2 & E1 & E2); try assumption; [lra|lra|].
  unfold loD, hiD. cbn [rbf]. split; [exact F1|]. split; [exact F2|]. split; [eapply Rle_trans; [exact E1|lra]|eapply Rle_trans; [exact E2|lra]].
Qed.
Lemma invA_OK : locOK false (invA G).
Proof.
  intros w p q wr Fp Fq W1 W2 W3 B1 B2. cbv zeta. change (bfC A (invA G) w p q) with (adF p q, cmAp (sbF p q) w). rewrite adF_eq, sbF_eq.
  destruct (inv_localG A fin vl u eta Om Hstd Hu He HOm del Hdel _ cmAp_OK w p q wr) as (F1 & F2 & E1 & E2); try assumption.
  unfold loD, hiD. cbn [rbf]. split; [exact F1|]. split; [exact F2|]. split; [eapply Rle_trans; [exact E1|lra]|eapply Rle_trans; [exact E2|lra]].
Qed.
Lemma invB_OK : locOK false (invB G).
Proof.
  intros w p q wr Fp Fq W1 W2 W3 B1 B2. cbv zeta. change (bfC A (invB G) w p q) with (adF p q, cmBp (sbF p q) w). rewrite adF_eq, sbF_eq.
  destruct (inv_localG A fin vl u eta Om Hstd Hu He HOm del Hdel _ cmBp_OK w p q wr) as (F1 & F2 & E1 & E2); try assumption.
  unfold loD, hiD. cbn [rbf]. split; [exact F1|]. split; [exact F2|]. split; [eapply Rle_trans; [exact E1|lra]|eapply Rle_trans; [exact E2|lra]].
Qed.
Lemma mulAddF_OK : acOK A fin vl u eta Om del (mulAddF G).
Proof.
  intros o p q [O1 O2] [P1 P2] [Q1 Q2] HO. destruct (cauchy2 q p) as [S1 S2]. rewrite (Rmult_comm (nm (vC q))) in S1, S2. set (W := nm (vC p) * nm (vC q)) in *.
  assert (HW : 0 <= W) by (apply Rmult_le_pos; apply nm_nn).
  pose proof (hyp_fst (vl (fst o)) (vl (snd o))) as B1. pose proof (hyp_snd (vl (fst o)) (vl (snd o))) as B2. change (hyp (vl (fst o)) (vl (snd o))) with (nm (vC o)) in B1, B2.
  pose proof (nm_nn (vC o)) as No. set (n := nm (vC o)) in *.
  pose proof (Rabs_pos (vl (fst q) * vl (fst p))). pose proof (Rabs_pos (vl (snd q) * vl (snd p))). pose proof (Rabs_pos (vl (fst q) * vl (snd p))). pose proof (Rabs_pos (vl (snd q) * vl (fst p))).
  pose proof (Rabs_triang (vl (fst q) * vl (fst p)) (vl (fst o))) as T1. pose proof (Rabs_triang (vl (snd q) * vl (fst p)) (vl (snd o))) as T2.
  destruct (fm_fma _ _ _ _ _ _ _ Hfm (fst q) (fst p) (fst o) Q1 P1 O1 ltac:(lra)) as [M1 N1].
  destruct (fm_fma _ _ _ _ _ _ _ Hfm (snd q) (fst p) (snd o) Q2 P1 O2 ltac:(lra)) as [M2 N2].
  destruct (fnma_err (snd q) (snd p) (vl (fst o) + (vl (fst p) * vl (fst q) - vl (snd p) * vl (snd q))) _ _ Q2 P2 M1 N1 ltac:(lra) ltac:(ring)) as [F1 E1].
  destruct (fma_err (fst q) (snd p) (vl (snd o) + (vl (fst p) * vl (snd q) + vl (snd p) * vl (fst q))) _ _ Q1 P2 M2 N2 ltac:(lra) ltac:(ring)) as [F2 E2].
  split; [split; assumption|].
  assert (K : 0 <= 2 * u + u * u) by nra.
  assert (L : forall s t, s <= t -> (2 * u + u * u) * s + 3 * eta <= (2 * u + u * u) * t + 3 * eta) by (intros s t Hs; assert ((2 * u + u * u) * s <= (2 * u + u * u) * t) by (apply Rmult_le_compat_l; lra); lra).
  apply (Rle_trans _ (gam * (n + W) + 6 * eta)).
  - apply (pair_err (mulAddF G o p q) _ _ (vl (fst o)) (vl (snd o)) W HW).
    + eapply Rle_trans; [exact E1|]. apply L. lra.
    + eapply Rle_trans; [exact E2|]. apply L. lra.
  - destruct (u_kap u eta Hu He del Hdel) as [_ GK]. assert (gam * (n + W) <= kap u del * (n + W)) by (apply Rmult_le_compat_r; lra). lra.
Qed.
End ErrF.
