(** Lemmas: error of the complex operations and of one butterfly in the standard model. *)
From Verif Require Import Base ModelNum ModelFFT SpecFFT SpecFFTReal SpecRound PfFFT PfNorm.
From Coq Require Import Reals Lra Lia.
Open Scope R_scope.

Section Err.
Variable A : arith.
Variable fin : car A -> Prop.
Variable vl : car A -> R.
Variables u eta Om : R.
Hypothesis Hstd : stdmodel A fin vl u eta Om.
Hypothesis Hu : 0 <= u <= / 8.
Hypothesis He : 0 <= eta <= / 32.
Hypothesis HOm : 16 <= Om.
Notation C := (car A * car A)%type.
Definition vC (p : C) : Cx := (vl (fst p), vl (snd p)).
Definition finC (p : C) : Prop := fin (fst p) /\ fin (snd p).
Definition gam : R := 3 / 2 * (2 * u + u * u).

Lemma gam_nn : 0 <= gam. Proof. unfold gam. nra. Qed.
Lemma hyp_err S1 S2 c d : 0 <= S1 -> 0 <= S2 -> 0 <= c -> 0 <= d -> hyp (c * S1 + d) (c * S2 + d) <= c * hyp S1 S2 + 2 * d.
Proof.
  intros. eapply Rle_trans; [apply hyp_tri|]. rewrite hyp_scale, Rabs_pos_eq by assumption.
  pose proof (hyp_sum d d) as H3. rewrite Rabs_pos_eq in H3 by assumption. lra.
Qed.
Lemma cadd_err p q : finC p -> finC q -> nm (Cadd (vC p) (vC q)) <= Om ->
  finC (cadd2 A p q) /\ nm (Csub (vC (cadd2 A p q)) (Cadd (vC p) (vC q))) <= u * nm (Cadd (vC p) (vC q)) + 2 * eta.
Proof.
  intros [P1 P2] [Q1 Q2] Ho. unfold nm, Csub, Cadd, vC, cadd2, finC in *. cbn [fst snd] in *.
  pose proof (hyp_fst (vl (fst p) + vl (fst q)) (vl (snd p) + vl (snd q))) as B1. pose proof (hyp_snd (vl (fst p) + vl (fst q)) (vl (snd p) + vl (snd q))) as B2.
  destruct (sm_add _ _ _ _ _ _ Hstd (fst p) (fst q) P1 Q1 ltac:(lra)) as [F1 E1]. destruct (sm_add _ _ _ _ _ _ Hstd (snd p) (snd q) P2 Q2 ltac:(lra)) as [F2 E2].
  split; [split; assumption|]. eapply Rle_trans; [apply hyp_le; [exact E1|exact E2]|].
  eapply Rle_trans; [apply hyp_err; try apply Rabs_pos; lra|]. rewrite hyp_abs. lra.
Qed.
Lemma csub_err p q : finC p -> finC q -> nm (Csub (vC p) (vC q)) <= Om ->
  finC (csub2 A p q) /\ nm (Csub (vC (csub2 A p q)) (Csub (vC p) (vC q))) <= u * nm (Csub (vC p) (vC q)) + 2 * eta.
Proof.
  intros [P1 P2] [Q1 Q2] Ho. unfold nm, Csub, vC, csub2, finC in *. cbn [fst snd] in *.
  pose proof (hyp_fst (vl (fst p) - vl (fst q)) (vl (snd p) - vl (snd q))) as B1. pose proof (hyp_snd (vl (fst p) - vl (fst q)) (vl (snd p) - vl (snd q))) as B2.
  destruct (sm_sub _ _ _ _ _ _ Hstd (fst p) (fst q) P1 Q1 ltac:(lra)) as [F1 E1]. destruct (sm_sub _ _ _ _ _ _ Hstd (snd p) (snd q) P2 Q2 ltac:(lra)) as [F2 E2].
  split; [split; assumption|]. eapply Rle_trans; [apply hyp_le; [exact E1|exact E2]|].
  eapply Rle_trans; [apply hyp_err; try apply Rabs_pos; lra|]. rewrite hyp_abs. lra.
Qed.

(** x*y +- z*t in floating point. *)
Lemma two_prod x y z t (op : car A -> car A -> car A) (rop : R -> R -> R) :
  (forall a b, fin a -> fin b -> Rabs (rop (vl a) (vl b)) <= Om -> fin (op a b) /\ Rabs (vl (op a b) - rop (vl a) (vl b)) <= u * Rabs (rop (vl a) (vl b)) + eta) ->
  (forall a b a' b', Rabs (rop a b - rop a' b') <= Rabs (a - a') + Rabs (b - b')) -> (forall a b, Rabs (rop a b) <= Rabs a + Rabs b) ->
  fin x -> fin y -> fin z -> fin t -> Rabs (vl x * vl y) + Rabs (vl z * vl t) <= Om / 4 ->
  fin (op (amul A x y) (amul A z t)) /\
  Rabs (vl (op (amul A x y) (amul A z t)) - rop (vl x * vl y) (vl z * vl t)) <= (2 * u + u * u) * (Rabs (vl x * vl y) + Rabs (vl z * vl t)) + 5 * eta.
Proof.
  intros Hop Hlip Hb Fx Fy Fz Ft Ho. set (a := vl x * vl y) in *. set (b := vl z * vl t) in *.
  pose proof (Rabs_pos a) as Pa. pose proof (Rabs_pos b) as Pb.
  destruct (sm_mul _ _ _ _ _ _ Hstd x y Fx Fy ltac:(fold a; lra)) as [F1 E1]. fold a in E1.
  destruct (sm_mul _ _ _ _ _ _ Hstd z t Fz Ft ltac:(fold b; lra)) as [F2 E2]. fold b in E2.
  set (p := amul A x y) in *. set (q := amul A z t) in *.
  assert (Bp : Rabs (vl p) <= (1 + u) * Rabs a + eta). { replace (vl p) with (a + (vl p - a)) by ring. eapply Rle_trans; [apply Rabs_triang|]. lra. }
  assert (Bq : Rabs (vl q) <= (1 + u) * Rabs b + eta). { replace (vl q) with (b + (vl q - b)) by ring. eapply Rle_trans; [apply Rabs_triang|]. lra. }
  assert (Bs : Rabs (rop (vl p) (vl q)) <= (1 + u) * (Rabs a + Rabs b) + 2 * eta) by (eapply Rle_trans; [apply Hb|]; lra).
  destruct (Hop p q F1 F2) as [F3 E3]; [nra|]. split; [exact F3|].
  replace (vl (op p q) - rop a b) with ((vl (op p q) - rop (vl p) (vl q)) + (rop (vl p) (vl q) - rop a b)) by ring.
  eapply Rle_trans; [apply Rabs_triang|]. pose proof (Hlip (vl p) (vl q) a b) as HL. set (S := Rabs a + Rabs b) in *.
  assert (0 <= S) by (unfold S; lra).
  assert (u * Rabs (rop (vl p) (vl q)) <= u * ((1 + u) * S + 2 * eta)) by (apply Rmult_le_compat_l; lra).
  assert (u * (2 * eta) <= 2 * eta) by nra.
  assert (Rabs (vl p - a) + Rabs (vl q - b) <= u * S + 2 * eta) by (unfold S; lra).
  nra.
Qed.
Lemma cmul_err p q : finC p -> finC q -> nm (vC p) * nm (vC q) <= Om / 4 ->
  finC (cmulG A p q) /\ nm (Csub (vC (cmulG A p q)) (Cmul (vC p) (vC q))) <= gam * (nm (vC p) * nm (vC q)) + 10 * eta.
Proof.
  intros [P1 P2] [Q1 Q2] Ho. set (P := nm (vC p)) in *. set (Q := nm (vC q)) in *.
  assert (HPQ : 0 <= P * Q) by (apply Rmult_le_pos; apply nm_nn).
  assert (S1 : Rabs (vl (fst p) * vl (fst q)) + Rabs (vl (snd p) * vl (snd q)) <= P * Q).
  { rewrite !Rabs_mult. unfold P, Q, nm, vC. cbn [fst snd]. rewrite <- (hyp_abs (vl (fst p))), <- (hyp_abs (vl (fst q))). apply cauchy. }
  assert (S2 : Rabs (vl (fst p) * vl (snd q)) + Rabs (vl (snd p) * vl (fst q)) <= P * Q).
  { rewrite !Rabs_mult. unfold P, Q, nm, vC. cbn [fst snd]. rewrite <- (hyp_abs (vl (fst p))), <- (hyp_abs (vl (fst q))).
    eapply Rle_trans; [apply cauchy|]. right. f_equal. unfold hyp. f_equal. ring. }
  destruct (two_prod (fst p) (fst q) (snd p) (snd q) (asub A) Rminus) as [F1 E1].
  { apply (sm_sub _ _ _ _ _ _ Hstd). }
  { intros. replace (a - b - (a' - b')) with ((a - a') + - (b - b')) by ring. eapply Rle_trans; [apply Rabs_triang|]. rewrite Rabs_Ropp. lra. }
  { intros. unfold Rminus. eapply Rle_trans; [apply Rabs_triang|]. rewrite Rabs_Ropp. lra. }
  1-4: assumption. { lra. }
  destruct (two_prod (fst p) (snd q) (snd p) (fst q) (aadd A) Rplus) as [F2 E2].
  { apply (sm_add _ _ _ _ _ _ Hstd). }
  { intros. replace (a + b - (a' + b')) with ((a - a') + (b - b')) by ring. apply Rabs_triang. }
  { intros. apply Rabs_triang. }
  1-4: assumption. { lra. }
  split; [split; assumption|].
  assert (K : 0 <= 2 * u + u * u) by nra.
  assert (B : forall s, s <= P * Q -> (2 * u + u * u) * s + 5 * eta <= (2 * u + u * u) * (P * Q) + 5 * eta) by (intros s Hs; nra).
  unfold nm, Csub, Cmul, cmulG, vC. cbn [fst snd].
  eapply Rle_trans; [apply hyp_le; [eapply Rle_trans; [exact E1|apply B, S1]|eapply Rle_trans; [exact E2|apply B, S2]]|].
  eapply Rle_trans; [apply hyp_err; try lra|].
  assert (hyp (P * Q) (P * Q) <= 3 / 2 * (P * Q)). { apply le_of_sq; [lra|]. rewrite hyp_sq. nra. }
  unfold gam. nra.
Qed.

Variable del : R.
Hypothesis Hdel : 0 <= del <= / 4.
Definition tet : R := del + gam * (1 + del).
Lemma gam_small : gam <= / 2. Proof. unfold gam. nra. Qed.
Lemma tet_bounds : 0 <= tet <= 1.
Proof. unfold tet. pose proof gam_nn. pose proof gam_small. nra. Qed.
Definition kap : R := (1 + u) * (1 + tet) - 1.

Lemma Cmul_sub_l x y z : Cmul (Csub x y) z = Csub (Cmul x z) (Cmul y z).
Proof. unfold Cmul, Csub. cbn [fst snd]. f_equal; ring. Qed.
Lemma Cmul_sub_r x y z : Cmul z (Csub x y) = Csub (Cmul z x) (Cmul z y).
Proof. unfold Cmul, Csub. cbn [fst snd]. f_equal; ring. Qed.

(** What is needed of a complex product, sum and difference. *)
Definition cmOK (cm : C -> C -> C) : Prop := forall p q, finC p -> finC q -> nm (vC p) * nm (vC q) <= Om / 4 ->
  finC (cm p q) /\ nm (Csub (vC (cm p q)) (Cmul (vC p) (vC q))) <= gam * (nm (vC p) * nm (vC q)) + 10 * eta.
Definition adOK (ad : C -> C -> C) : Prop := forall p q, finC p -> finC q -> nm (Cadd (vC p) (vC q)) <= Om ->
  finC (ad p q) /\ nm (Csub (vC (ad p q)) (Cadd (vC p) (vC q))) <= u * nm (Cadd (vC p) (vC q)) + 2 * eta.
Definition sbOK (sb : C -> C -> C) : Prop := forall p q, finC p -> finC q -> nm (Csub (vC p) (vC q)) <= Om ->
  finC (sb p q) /\ nm (Csub (vC (sb p q)) (Csub (vC p) (vC q))) <= u * nm (Csub (vC p) (vC q)) + 2 * eta.
Lemma mulw_errG cm (Hcm : cmOK cm) v w (wr : Cx) : finC v -> finC w -> nm (Csub (vC w) wr) <= del -> nm wr = 1 -> nm (vC v) <= Om / 8 ->
  finC (cm v w) /\ nm (Csub (vC (cm v w)) (Cmul (vC v) wr)) <= tet * nm (vC v) + 10 * eta.
Proof.
  intros Fv Fw Hw H1 Ho. assert (Bw : nm (vC w) <= 1 + del) by (pose proof (nm_le_dist (vC w) wr); lra).
  pose proof (nm_nn (vC v)) as P1. pose proof (nm_nn (vC w)) as P2.
  destruct (Hcm v w Fv Fw) as [F E]; [nra|]. split; [exact F|].
  eapply Rle_trans; [apply (nm_dist _ (Cmul (vC v) (vC w)))|]. rewrite <- Cmul_sub_r, nm_mul.
  assert (nm (vC v) * nm (vC w) <= nm (vC v) * (1 + del)) by (apply Rmult_le_compat_l; lra).
  assert (gam * (nm (vC v) * nm (vC w)) <= gam * (nm (vC v) * (1 + del))) by (apply Rmult_le_compat_l; [apply gam_nn|assumption]).
  assert (nm (vC v) * nm (Csub (vC w) wr) <= nm (vC v) * del) by (apply Rmult_le_compat_l; lra).
  unfold tet. lra.
Qed.

Lemma fwd_localG cm ad sb (Hcm : cmOK cm) (Had : adOK ad) (Hsb : sbOK sb) w p q (wr : Cx) : finC p -> finC q -> finC w -> nm (Csub (vC w) wr) <= del -> nm wr = 1 -> nm (vC p) <= Om / 8 -> nm (vC q) <= Om / 8 ->
  let o := (ad p (cm q w), sb p (cm q w)) in let r := (Cadd (vC p) (Cmul (vC q) wr), Csub (vC p) (Cmul (vC q) wr)) in
  finC (fst o) /\ finC (snd o) /\
  nm (Csub (vC (fst o)) (fst r)) <= u * nm (fst r) + (1 + u) * tet * nm (vC q) + 22 * eta /\
  nm (Csub (vC (snd o)) (snd r)) <= u * nm (snd r) + (1 + u) * tet * nm (vC q) + 22 * eta.
Proof.
  intros Fp Fq Fw Hw H1 Bp Bq. cbn [fst snd]. cbv zeta.
  destruct (mulw_errG cm Hcm q w wr Fq Fw Hw H1 Bq) as [Fm Em]. set (m := cm q w) in *. clearbody m.
  pose proof tet_bounds as Ht. pose proof (nm_nn (vC q)) as Nq. pose proof (nm_nn (vC p)) as Np. pose proof (nm_nn (Csub (vC m) (Cmul (vC q) wr))) as Nd.
  set (D := nm (Csub (vC m) (Cmul (vC q) wr))) in *.
  assert (Tq : tet * nm (vC q) <= nm (vC q)) by nra.
  assert (NM : nm (Cmul (vC q) wr) = nm (vC q)) by (rewrite nm_mul, H1; ring).
  assert (Bm : nm (vC m) <= nm (vC q) + D) by (pose proof (nm_le_dist (vC m) (Cmul (vC q) wr)); unfold D; lra).
  destruct (Had p m Fp Fm) as [F1 E1]. { eapply Rle_trans; [apply nm_tri|]. nra. }
  destruct (Hsb p m Fp Fm) as [F2 E2]. { eapply Rle_trans; [apply nm_sub_tri|]. nra. }
  split; [exact F1|]. split; [exact F2|].
  assert (D1 : nm (Csub (Cadd (vC p) (vC m)) (Cadd (vC p) (Cmul (vC q) wr))) = D).
  { unfold D. f_equal. unfold Csub, Cadd. cbn [fst snd]. f_equal; ring. }
  assert (D2 : nm (Csub (Csub (vC p) (vC m)) (Csub (vC p) (Cmul (vC q) wr))) = D).
  { unfold D. rewrite <- nm_opp. f_equal. unfold Csub. cbn [fst snd]. f_equal; ring. }
  assert (G : forall x y z : Cx, nm (Csub x y) <= u * nm y + 2 * eta -> nm (Csub y z) = D -> nm (Csub x z) <= u * nm z + (1 + u) * tet * nm (vC q) + 22 * eta).
  { intros x y z Ha Hb. eapply Rle_trans; [apply (nm_dist x y z)|]. pose proof (nm_le_dist y z) as Hc. rewrite Hb in *.
    assert (u * nm y <= u * (nm z + D)) by (apply Rmult_le_compat_l; lra).
    assert ((1 + u) * D <= (1 + u) * (tet * nm (vC q) + 10 * eta)) by (apply Rmult_le_compat_l; lra). nra. }
  split; [exact (G _ _ _ E1 D1)|exact (G _ _ _ E2 D2)].
Qed.
Lemma inv_localG cm (Hcm : cmOK cm) w p q (wr : Cx) : finC p -> finC q -> finC w -> nm (Csub (vC w) wr) <= del -> nm wr = 1 -> nm (vC p) <= Om / 32 -> nm (vC q) <= Om / 32 ->
  let o := (cadd2 A p q, cm (csub2 A p q) w) in let r := (Cadd (vC p) (vC q), Cmul (Csub (vC p) (vC q)) wr) in
  finC (fst o) /\ finC (snd o) /\
  nm (Csub (vC (fst o)) (fst r)) <= kap * nm (fst r) + 22 * eta /\
  nm (Csub (vC (snd o)) (snd r)) <= kap * nm (snd r) + 22 * eta.
Proof.
  intros Fp Fq Fw Hw H1 Bp Bq. cbn [fst snd]. cbv zeta.
  pose proof tet_bounds as Ht. pose proof (nm_nn (vC q)) as Nq. pose proof (nm_nn (vC p)) as Np.
  destruct (cadd_err p q Fp Fq) as [F1 E1]. { eapply Rle_trans; [apply nm_tri|]. lra. }
  destruct (csub_err p q Fp Fq) as [F2 E2]. { eapply Rle_trans; [apply nm_sub_tri|]. lra. }
  set (t := csub2 A p q) in *. clearbody t. set (tr := Csub (vC p) (vC q)) in *.
  assert (Bt : nm tr <= Om / 16) by (eapply Rle_trans; [apply nm_sub_tri|]; lra). pose proof (nm_nn tr) as Nt.
  assert (Bt' : nm (vC t) <= nm tr + (u * nm tr + 2 * eta)) by (pose proof (nm_le_dist (vC t) tr); lra).
  destruct (mulw_errG cm Hcm t w wr F2 Fw Hw H1) as [F3 E3]; [nra|]. split; [exact F1|]. split; [exact F3|].
  assert (K1 : u <= kap) by (unfold kap; nra).
  split.
  - eapply Rle_trans; [exact E1|]. pose proof (nm_nn (Cadd (vC p) (vC q))). nra.
  - eapply Rle_trans; [apply (nm_dist _ (Cmul (vC t) wr))|]. rewrite <- Cmul_sub_l, !nm_mul, H1, !Rmult_1_r.
    assert (tet * nm (vC t) <= tet * (nm tr + (u * nm tr + 2 * eta))) by (apply Rmult_le_compat_l; lra).
    assert (tet * (2 * eta) <= 2 * eta) by nra. unfold kap. nra.
Qed.
Lemma fwd_local w p q (wr : Cx) : finC p -> finC q -> finC w -> nm (Csub (vC w) wr) <= del -> nm wr = 1 -> nm (vC p) <= Om / 8 -> nm (vC q) <= Om / 8 ->
  let o := bfC A (fwdButterfly A) w p q in let r := (Cadd (vC p) (Cmul (vC q) wr), Csub (vC p) (Cmul (vC q) wr)) in
  finC (fst o) /\ finC (snd o) /\
  nm (Csub (vC (fst o)) (fst r)) <= u * nm (fst r) + (1 + u) * tet * nm (vC q) + 22 * eta /\
  nm (Csub (vC (snd o)) (snd r)) <= u * nm (snd r) + (1 + u) * tet * nm (vC q) + 22 * eta.
Proof. exact (fwd_localG (cmulG A) (cadd2 A) (csub2 A) cmul_err cadd_err csub_err w p q wr). Qed.
Lemma inv_local w p q (wr : Cx) : finC p -> finC q -> finC w -> nm (Csub (vC w) wr) <= del -> nm wr = 1 -> nm (vC p) <= Om / 32 -> nm (vC q) <= Om / 32 ->
  let o := bfC A (invButterfly A) w p q in let r := (Cadd (vC p) (vC q), Cmul (Csub (vC p) (vC q)) wr) in
  finC (fst o) /\ finC (snd o) /\
  nm (Csub (vC (fst o)) (fst r)) <= kap * nm (fst r) + 22 * eta /\
  nm (Csub (vC (snd o)) (snd r)) <= kap * nm (snd r) + 22 * eta.
Proof. exact (inv_localG (cmulG A) cmul_err w p q wr). Qed.
End Err.
