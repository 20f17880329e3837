(** Lemmas: the final rounding and reduction recover the integer when the error is below 3/8. *)
From Verif Require Import Base NegaRing ModelNum ModelVec ModelPoly ModelFFT SpecNum SpecVec SpecPoly SpecFFT SpecFFTReal SpecRound
  PfNum PfVec PfPoly PfFFT PfFFT2 PfFFT3 PfFFT4 PfFFT6 PfFFTReal PfNetGen PfNetGen2 PfNorm PfErr PfErr2.
From Coq Require Import Reals Lra Lia.
Open Scope R_scope.

Lemma IZR_near a b : Rabs (IZR a - IZR b) < 1 -> a = b.
Proof.
  intros H. rewrite <- minus_IZR in H. apply Rabs_def2 in H. destruct H as [H1 H2].
  assert ((a - b < 1)%Z) by (apply lt_IZR; exact H1). assert ((-1 < a - b)%Z) by (apply lt_IZR; lra). lia.
Qed.
Lemma Rabs_le_add a b c d : Rabs (a - b) <= d -> Rabs b <= c -> Rabs a <= c + d.
Proof. intros H1 H2. replace a with (b + (a - b)) by ring. eapply Rle_trans; [apply Rabs_triang|]. lra. Qed.

Section Round.
Variable A : arith.
Variable fin : car A -> Prop.
Variable vl : car A -> R.
Variables u eta Om : R.
Hypothesis Hstd : stdmodel A fin vl u eta Om.
Hypothesis Hu : 0 <= u <= / 4503599627370496.
Hypothesis He : 0 <= eta <= / 1267650600228229401496703205376.
Hypothesis HOm : 1180591620717411303424 <= Om.

Lemma modQ_round sg w x c : fin x -> (0 < w <= 64)%Z -> Rabs (vl x - IZR c) <= 3 / 8 -> Rabs (IZR c) <= 2199023255552 ->
  twrap sg w (around A (floatModQ A w x)) = twrap sg w c.
Proof.
  intros Fx Hw Ex Bc. set (q := IZR (2 ^ w)).
  assert (EW : (2 ^ w = 2 ^ Z.of_nat (Z.to_nat w))%Z) by (rewrite Z2Nat.id by lia; reflexivity).
  assert (Hq : 1 <= q <= 18446744073709551616).
  { unfold q. split; apply IZR_le; [pose proof (Z.pow_pos_nonneg 2 w); lia|]. change 18446744073709551616%Z with (2 ^ 64)%Z. apply Z.pow_le_mono_r; lia. }
  assert (Iq : 0 < / q <= 1) by (split; [apply Rinv_0_lt_compat; lra|rewrite <- Rinv_1; apply Rinv_le_contravar; lra]).
  assert (Heq : eta * q <= / 64).
  { apply Rle_trans with (/ 1267650600228229401496703205376 * 18446744073709551616); [apply Rmult_le_compat; lra|lra]. }
  assert (Bx : Rabs (vl x) <= 2199023255553) by (pose proof (Rabs_le_add _ _ _ _ Ex Bc); lra).
  (* quotient *)
  assert (Bxq : Rabs (vl x / q) = Rabs (vl x) * / q) by (unfold Rdiv; rewrite Rabs_mult, (Rabs_pos_eq (/ q)) by lra; reflexivity).
  assert (Bxq' : Rabs (vl x) * / q <= Rabs (vl x)) by (pose proof (Rabs_pos (vl x)); nra).
  destruct (sm_div _ _ _ _ _ _ Hstd x (2 ^ w) Fx) as [Fa Ea].
  { split; [apply Z.pow_pos_nonneg; lia|apply Z.pow_le_mono_r; lia]. } { exists (Z.to_nat w). exact EW. } { fold q. lra. }
  fold q in Ea. set (a := adivn A x (2 ^ w)) in *. rewrite Bxq in Ea.
  pose proof (sm_round _ _ _ _ _ _ Hstd a Fa) as En. set (n := around A a) in *.
  assert (Ba : Rabs (vl a) * q <= 2199023255557).
  { pose proof (Rabs_le_add _ _ _ _ Ea (Req_le _ _ Bxq)) as H.
    apply Rle_trans with ((Rabs (vl x) * / q + (u * (Rabs (vl x) * / q) + eta)) * q); [apply Rmult_le_compat_r; lra|].
    replace ((Rabs (vl x) * / q + (u * (Rabs (vl x) * / q) + eta)) * q) with (Rabs (vl x) + u * Rabs (vl x) + eta * q) by (field; lra).
    assert (u * Rabs (vl x) <= / 4503599627370496 * 2199023255553) by (apply Rmult_le_compat; try apply Rabs_pos; lra). lra. }
  assert (Bn : Rabs (IZR n) * q <= 4398046511120).
  { destruct (Z.eq_dec n 0) as [-> |Hn]; [rewrite Rabs_R0; lra|].
    assert (1 <= Rabs (IZR n)) by (rewrite <- abs_IZR; apply IZR_le; lia).
    assert (Rabs (IZR n) <= Rabs (vl a) + / 2) by (apply (Rabs_le_add _ _ _ _ En); lra).
    apply Rle_trans with ((2 * Rabs (vl a)) * q); [apply Rmult_le_compat_r; lra|lra]. }
  assert (Bn' : Rabs (IZR n) <= 4398046511120) by (pose proof (Rabs_pos (IZR n)); nra).
  (* product *)
  destruct (sm_of _ _ _ _ _ _ Hstd n ltac:(lra)) as [Fb Eb]. set (b := aofZ A n) in *.
  destruct (sm_of _ _ _ _ _ _ Hstd (2 ^ w)%Z) as [Fg _]. { fold q. rewrite Rabs_pos_eq by lra. lra. }
  assert (Vg : vl (aofZ A (2 ^ w)) = q). { unfold q. rewrite EW. apply (sm_ofp _ _ _ _ _ _ Hstd). lia. }
  set (g := aofZ A (2 ^ w)) in *.
  assert (Eqb : Rabs (q * vl b - q * IZR n) <= / 256).
  { replace (q * vl b - q * IZR n) with (q * (vl b - IZR n)) by ring. rewrite Rabs_mult, (Rabs_pos_eq q) by lra.
    apply Rle_trans with (q * (u * Rabs (IZR n) + eta)); [apply Rmult_le_compat_l; lra|].
    replace (q * (u * Rabs (IZR n) + eta)) with (u * (Rabs (IZR n) * q) + eta * q) by ring.
    assert (u * (Rabs (IZR n) * q) <= / 4503599627370496 * 4398046511120) by (apply Rmult_le_compat; try lra; apply Rmult_le_pos; [apply Rabs_pos|lra]).
    assert (eta * q <= / 1267650600228229401496703205376 * 18446744073709551616) by (apply Rmult_le_compat; lra). lra. }
  assert (Bqn : Rabs (q * IZR n) <= 4398046511120) by (rewrite Rabs_mult, (Rabs_pos_eq q) by lra; lra).
  pose proof (Rabs_le_add _ _ _ _ Eqb Bqn) as Bqb.
  destruct (sm_mul _ _ _ _ _ _ Hstd g b Fg Fb) as [Fp Ep]; [rewrite Vg; lra|]. rewrite Vg in Ep. set (p := amul A g b) in *.
  assert (Ep' : Rabs (vl p - q * vl b) <= / 256).
  { assert (u * Rabs (q * vl b) <= / 4503599627370496 * 4398046511121) by (apply Rmult_le_compat; try apply Rabs_pos; lra). lra. }
  assert (Epn : Rabs (vl p - q * IZR n) <= / 128).
  { replace (vl p - q * IZR n) with ((vl p - q * vl b) + (q * vl b - q * IZR n)) by ring. eapply Rle_trans; [apply Rabs_triang|]. lra. }
  pose proof (Rabs_le_add _ _ _ _ Epn Bqn) as Bp.
  assert (Bxp : Rabs (vl x - vl p) <= 6597069766700) by (eapply Rle_trans; [apply Rabs_triang|]; rewrite Rabs_Ropp; lra).
  destruct (sm_sub _ _ _ _ _ _ Hstd x p Fx Fp ltac:(lra)) as [Ft Et]. set (t := asub A x p) in *.
  assert (Et' : Rabs (vl t - (vl x - vl p)) <= / 128).
  { assert (u * Rabs (vl x - vl p) <= / 4503599627370496 * 6597069766700) by (apply Rmult_le_compat; try apply Rabs_pos; lra). lra. }
  pose proof (sm_round _ _ _ _ _ _ Hstd t Ft) as Em. 
  assert (Hm : around A t = (c - 2 ^ w * n)%Z).
  { apply IZR_near. rewrite minus_IZR, mult_IZR. fold q.
    replace (IZR (around A t) - (IZR c - q * IZR n)) with ((IZR (around A t) - vl t) + (vl t - (vl x - vl p)) + (vl x - IZR c) + - (vl p - q * IZR n)) by ring.
    eapply Rle_lt_trans; [apply Rabs_triang|]. rewrite Rabs_Ropp.
    eapply Rle_lt_trans; [apply Rplus_le_compat_r; apply Rabs_triang|].
    eapply Rle_lt_trans; [apply Rplus_le_compat_r, Rplus_le_compat_r; apply Rabs_triang|]. lra. }
  assert (Bm : Rabs (IZR (c - 2 ^ w * n)) <= 6597069766700).
  { rewrite minus_IZR, mult_IZR. fold q. eapply Rle_trans; [apply Rabs_triang|]. rewrite Rabs_Ropp. lra. }
  unfold floatModQ. fold a n g b. change (amul A g b) with p. change (asub A x p) with t. rewrite Hm. set (m := (c - 2 ^ w * n)%Z) in *.
  destruct (sm_of _ _ _ _ _ _ Hstd m ltac:(lra)) as [Fo Eo].
  pose proof (sm_round _ _ _ _ _ _ Hstd _ Fo) as Er.
  assert (around A (aofZ A m) = m) as ->.
  { apply IZR_near. replace (IZR (around A (aofZ A m)) - IZR m) with ((IZR (around A (aofZ A m)) - vl (aofZ A m)) + (vl (aofZ A m) - IZR m)) by ring.
    eapply Rle_lt_trans; [apply Rabs_triang|].
    assert (u * Rabs (IZR m) <= / 4503599627370496 * 6597069766700) by (apply Rmult_le_compat; try apply Rabs_pos; lra). lra. }
  apply twrap_cong. exists (- n)%Z. unfold m. lia.
Qed.
End Round.
