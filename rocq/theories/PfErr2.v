(** Lemmas: error of one level and of all levels of the butterfly networks in the standard model. *)
From Verif Require Import Base ModelNum ModelFFT SpecFFT SpecFFTReal SpecRound PfFFT PfFFT2 PfNetGen PfNetB PfNorm PfErr.
From Coq Require Import Reals Lra Lia.
Open Scope R_scope.

Notation RA := realArith.
Definition dirb (A : arith) (d : bool) : bfT A := if d then fwdButterfly A else invButterfly A.

Lemma pair_idx h k : (0 < h)%nat -> (k mod (2 * h) < h)%nat -> ((k + h) / (2 * h) = k / (2 * h))%nat /\ ((k + h) mod (2 * h) = k mod (2 * h) + h)%nat.
Proof.
  intros Hh Hk. pose proof (Nat.div_mod k (2 * h) ltac:(lia)) as E. split; symmetry.
  - apply (Nat.div_unique _ _ _ (k mod (2 * h) + h)); lia.
  - apply (Nat.mod_unique _ _ (k / (2 * h))); lia.
Qed.
Lemma T_lo A bf h W a k : (0 < h)%nat -> (k mod (2 * h) < h)%nat -> T A bf h W a k = fst (bfC A bf (W (k / (2 * h))%nat) (a k) (a (k + h)%nat)).
Proof. intros Hh Hk. unfold T. rewrite (proj2 (Nat.ltb_lt _ _) Hk). reflexivity. Qed.
Lemma T_hi A bf h W a k : (0 < h)%nat -> (k mod (2 * h) < h)%nat -> T A bf h W a (k + h)%nat = snd (bfC A bf (W (k / (2 * h))%nat) (a k) (a (k + h)%nat)).
Proof.
  intros Hh Hk. destruct (pair_idx h k Hh Hk) as [E1 E2]. unfold T. rewrite E1, E2. rewrite (proj2 (Nat.ltb_ge _ _)) by lia.
  rewrite Nat.add_sub. reflexivity.
Qed.
(** Every index is the low or the high one of its pair. *)
Lemma pair_cases h m k : (0 < h)%nat -> (k < 2 * h * m)%nat -> exists j, (j mod (2 * h) < h)%nat /\ (j + h < 2 * h * m)%nat /\ (k = j \/ k = j + h)%nat.
Proof.
  intros Hh Hk. pose proof (Nat.div_mod k (2 * h) ltac:(lia)) as E. pose proof (Nat.mod_upper_bound k (2 * h) ltac:(lia)) as B.
  assert (D : (k / (2 * h) < m)%nat) by (apply Nat.div_lt_upper_bound; lia).
  set (q := (k / (2 * h))%nat) in *. set (r := (k mod (2 * h))%nat) in *.
  assert (P : (2 * h * q + 2 * h <= 2 * h * m)%nat) by (replace (2 * h * q + 2 * h)%nat with (2 * h * S q)%nat by lia; apply Nat.mul_le_mono_l; lia).
  set (y := (2 * h * q)%nat) in *. clearbody q r.
  destruct (Nat.lt_ge_cases r h) as [C|C].
  - exists k. split; [|split; [lia|now left]]. rewrite <- (Nat.mod_unique k (2 * h) q r); [exact C|lia|unfold y in *; lia].
  - exists (k - h)%nat. split; [|split; [lia|right; lia]].
    rewrite <- (Nat.mod_unique (k - h) (2 * h) q (r - h)); [lia|lia|unfold y in *; lia].
Qed.

Definition rbf (d : bool) (w p q : Cx) : Cx * Cx :=
  if d then (Cadd p (Cmul q w), Csub p (Cmul q w)) else (Cadd p q, Cmul (Csub p q) w).
Lemma rbf_eq d w p q : bfC RA (dirb RA d) w p q = rbf d w p q.
Proof. destruct d; reflexivity. Qed.
Lemma rbf_energy d w p q : nm w = 1 ->
  nm (fst (rbf d w p q)) * nm (fst (rbf d w p q)) + nm (snd (rbf d w p q)) * nm (snd (rbf d w p q)) = 2 * (nm p * nm p) + 2 * (nm q * nm q).
Proof.
  intros Hw. assert (W : fst w * fst w + snd w * snd w = 1) by (rewrite <- nm_sq, Hw; ring).
  destruct d; cbn [rbf fst snd].
  - rewrite (nm_sq (Cadd _ _)), (nm_sq (Csub _ _)). rewrite <- (Rmult_1_r (nm q * nm q)).
    replace (nm q * nm q * 1) with (nm (Cmul q w) * nm (Cmul q w)) by (rewrite nm_mul, Hw; ring). rewrite !nm_sq. unfold Cadd, Csub. cbn [fst snd]. ring.
  - rewrite nm_mul, Hw, Rmult_1_r, !nm_sq. unfold Cadd, Csub. cbn [fst snd]. ring.
Qed.
Lemma rbf_lin d w p q p' q' : rbf d w (Csub p p') (Csub q q') =
  (Csub (fst (rbf d w p q)) (fst (rbf d w p' q')), Csub (snd (rbf d w p q)) (snd (rbf d w p' q'))).
Proof. destruct d; unfold rbf, Cadd, Csub, Cmul; cbn [fst snd]; do 2 f_equal; ring. Qed.

Notation TR d h W x := (T RA (dirb RA d) h W x).
Lemma T_energy d h m (W : nat -> Cx) (x : nat -> Cx) : (0 < h)%nat -> (forall i, (i < m)%nat -> nm (W i) = 1) ->
  l2 (2 * h * m) (fun k => nm (TR d h W x k)) <= sqrt 2 * l2 (2 * h * m) (fun k => nm (x k)).
Proof.
  intros Hh HW. apply le_of_sq; [apply Rmult_le_pos; [apply sqrt_pos|apply l2_nn]|].
  set (Lx := l2 _ (fun k => nm (x k))). replace (sqrt 2 * Lx * (sqrt 2 * Lx)) with ((sqrt 2 * sqrt 2) * (Lx * Lx)) by ring.
  rewrite sqrt_sqrt by lra. unfold Lx. rewrite !l2_sq, <- sm_scale. apply sm_pairs; [exact Hh|].
  intros k Hk Hm. rewrite T_lo, T_hi by assumption. rewrite !rbf_eq. right. apply rbf_energy. apply HW. apply Nat.div_lt_upper_bound; lia.
Qed.
Lemma T_lin d h m (W : nat -> Cx) (x y : nat -> Cx) k : (0 < h)%nat -> (k < 2 * h * m)%nat ->
  TR d h W (fun k => Csub (x k) (y k)) k = Csub (TR d h W x k) (TR d h W y k).
Proof.
  intros Hh Hk. destruct (pair_cases h m k Hh Hk) as (j & H1 & H2 & [-> | ->]).
  - rewrite !T_lo by assumption. rewrite !rbf_eq, rbf_lin. reflexivity.
  - rewrite !T_hi by assumption. rewrite !rbf_eq, rbf_lin. reflexivity.
Qed.
Definition hi (h k : nat) : nat := if Nat.ltb (k mod (2 * h)) h then (k + h)%nat else k.
Lemma hi_bound h m (r : nat -> R) : (0 < h)%nat -> l2 (2 * h * m) (fun k => r (hi h k)) <= sqrt 2 * l2 (2 * h * m) r.
Proof.
  intros Hh. apply le_of_sq; [apply Rmult_le_pos; [apply sqrt_pos|apply l2_nn]|].
  set (Lx := l2 _ r). replace (sqrt 2 * Lx * (sqrt 2 * Lx)) with ((sqrt 2 * sqrt 2) * (Lx * Lx)) by ring.
  rewrite sqrt_sqrt by lra. unfold Lx. rewrite !l2_sq, <- sm_scale. apply sm_pairs; [exact Hh|].
  intros k Hk Hm. destruct (pair_idx h k Hh Hm) as [E1 E2]. unfold hi. rewrite E2, (proj2 (Nat.ltb_lt _ _) Hm), (proj2 (Nat.ltb_ge _ _)) by lia.
  pose proof (sq_nn (r k)). lra.
Qed.

Section Net.
Variable A : arith.
Variable fin : car A -> Prop.
Variable vl : car A -> R.
Variables u eta Om : R.
Hypothesis Hstd : stdmodel A fin vl u eta Om.
Hypothesis Hu : 0 <= u <= / 8.
Hypothesis He : 0 <= eta <= / 32.
Hypothesis HOm : 16 <= Om.
Variable del : R.
Hypothesis Hdel : 0 <= del <= / 4.
Notation C := (car A * car A)%type.
Notation vC := (vC A vl).
Notation finC := (finC A fin).
Notation kap := (kap u del).
Notation tet := (tet u del).

Lemma kap_nn : 0 <= kap. Proof. pose proof (tet_bounds u Hu del Hdel). unfold PfErr.kap. nra. Qed.

(** What is needed of a butterfly: the error of one butterfly, forward ([d = true]) or inverse. *)
Definition loD (d : bool) : R := if d then u else kap.
Definition hiD (d : bool) : R := if d then (1 + u) * tet else 0.
Definition locOK (d : bool) (bf : bfT A) : Prop := forall w p q (wr : Cx), finC p -> finC q -> finC w -> nm (Csub (vC w) wr) <= del -> nm wr = 1 ->
  nm (vC p) <= Om / 32 -> nm (vC q) <= Om / 32 ->
  let o := bfC A bf w p q in let r := rbf d wr (vC p) (vC q) in
  finC (fst o) /\ finC (snd o) /\ nm (Csub (vC (fst o)) (fst r)) <= (loD d * nm (fst r) + hiD d * nm (vC q)) + 22 * eta /\
  nm (Csub (vC (snd o)) (snd r)) <= (loD d * nm (snd r) + hiD d * nm (vC q)) + 22 * eta.
Lemma dirb_ok d : locOK d (dirb A d).
Proof.
  intros w p q wr Fp Fq W1 W2 W3 B1 B2. unfold loD, hiD, dirb. destruct d; cbv zeta.
  - destruct (fwd_local A fin vl u eta Om Hstd Hu He HOm del Hdel w p q wr) as (F1 & F2 & E1 & E2); try assumption; [lra|lra|]. cbn [rbf].
    split; [exact F1|]. split; [exact F2|]. split; [eapply Rle_trans; [exact E1|lra]|eapply Rle_trans; [exact E2|lra]].
  - destruct (inv_local A fin vl u eta Om Hstd Hu He HOm del Hdel w p q wr) as (F1 & F2 & E1 & E2); try assumption. cbn [rbf].
    split; [exact F1|]. split; [exact F2|]. split; [eapply Rle_trans; [exact E1|lra]|eapply Rle_trans; [exact E2|lra]].
Qed.

(** One level, against the exact level on the same input. *)
Lemma level_err d bf (Hbf : locOK d bf) h m (w : nat -> C) (wr : nat -> Cx) (x : nat -> C) Y : (0 < h)%nat ->
  (forall i, (i < m)%nat -> finC (w i) /\ nm (Csub (vC (w i)) (wr i)) <= del /\ nm (wr i) = 1) ->
  (forall k, (k < 2 * h * m)%nat -> finC (x k)) ->
  l2 (2 * h * m) (fun k => nm (vC (x k))) <= Y -> Y <= Om / 32 ->
  (forall k, (k < 2 * h * m)%nat -> finC (T A bf h w x k)) /\
  l2 (2 * h * m) (fun k => nm (Csub (vC (T A bf h w x k)) (TR d h wr (fun k => vC (x k)) k))) <= kap * (sqrt 2 * Y) + INR (2 * h * m) * (22 * eta).
Proof.
  intros Hh Hw Hf HY HO. set (n := (2 * h * m)%nat) in *.
  set (lo := loD d). set (hi' := hiD d).
  pose proof (tet_bounds u Hu del Hdel) as Ht. pose proof kap_nn as Hk.
  assert (Hlh : 0 <= lo /\ 0 <= hi' /\ lo + hi' = kap). { unfold lo, hi', loD, hiD. destruct d; unfold PfErr.kap in *; nra. }
  assert (Bx : forall k, (k < n)%nat -> nm (vC (x k)) <= Om / 32).
  { intros k Hkn. eapply Rle_trans; [|exact HO]. eapply Rle_trans; [|exact HY].
    eapply Rle_trans; [apply Rle_abs|]. apply (l2_at n (fun k => nm (vC (x k))) k Hkn). }
  assert (Loc : forall k, (k < n)%nat -> finC (T A bf h w x k) /\
    nm (Csub (vC (T A bf h w x k)) (TR d h wr (fun k => vC (x k)) k)) <=
    (lo * nm (TR d h wr (fun k => vC (x k)) k) + hi' * nm (vC (x (hi h k)))) + 22 * eta).
  { intros k Hkn. destruct (pair_cases h m k Hh Hkn) as (j & H1 & H2 & Hj).
    assert (Hi : (j / (2 * h) < m)%nat) by (apply Nat.div_lt_upper_bound; lia).
    destruct (Hw _ Hi) as (W1 & W2 & W3). set (i := (j / (2 * h))%nat) in *.
    assert (Q : let o := bfC A bf (w i) (x j) (x (j + h)%nat) in let r := rbf d (wr i) (vC (x j)) (vC (x (j + h)%nat)) in
      finC (fst o) /\ finC (snd o) /\ nm (Csub (vC (fst o)) (fst r)) <= (lo * nm (fst r) + hi' * nm (vC (x (j + h)%nat))) + 22 * eta /\
      nm (Csub (vC (snd o)) (snd r)) <= (lo * nm (snd r) + hi' * nm (vC (x (j + h)%nat))) + 22 * eta).
    { pose proof (Bx j ltac:(fold n in H2; lia)) as B1. pose proof (Bx (j + h)%nat H2) as B2. exact (Hbf (w i) (x j) (x (j + h)%nat) (wr i) (Hf j ltac:(fold n in H2; lia)) (Hf _ H2) W1 W2 W3 B1 B2). }
    cbv zeta in Q. destruct Q as (Q1 & Q2 & Q3 & Q4).
    destruct Hj as [-> | ->].
    - rewrite !T_lo by assumption. fold i. rewrite rbf_eq. unfold hi. rewrite (proj2 (Nat.ltb_lt _ _) H1). split; assumption.
    - rewrite !T_hi by assumption. fold i. rewrite rbf_eq. unfold hi. destruct (pair_idx h j Hh H1) as [_ E2]. rewrite E2, (proj2 (Nat.ltb_ge _ _)) by lia. split; assumption. }
  split; [intros k Hkn; apply Loc; exact Hkn|].
  eapply Rle_trans. { apply l2_le. intros k Hkn. rewrite Rabs_pos_eq by apply nm_nn. apply (proj2 (Loc k Hkn)). }
  eapply Rle_trans; [apply l2_tri|]. apply Rplus_le_compat; [|apply l2_const; lra].
  eapply Rle_trans; [apply l2_tri|].
  rewrite (l2_scale n lo) by apply Hlh. rewrite (l2_scale n hi' (fun k => nm (vC (x (hi h k))))) by apply Hlh.
  pose proof (T_energy d h m wr (fun k => vC (x k)) Hh ltac:(intros i Hi; apply Hw; exact Hi)) as E1. fold n in E1.
  pose proof (hi_bound h m (fun k => nm (vC (x k))) Hh) as E2. fold n in E2. cbv beta in E2.
  set (a := l2 n (fun k => nm (TR d h wr (fun k => vC (x k)) k))) in *. set (b := l2 n (fun k => nm (vC (x (hi h k))))) in *.
  set (c := l2 n (fun k => nm (vC (x k)))) in *.
  assert (S2 : 0 <= sqrt 2) by apply sqrt_pos. destruct Hlh as (L1 & L2 & L3). rewrite <- L3.
  assert (sqrt 2 * c <= sqrt 2 * Y) by (apply Rmult_le_compat_l; assumption).
  assert (lo * a <= lo * (sqrt 2 * Y)) by (apply Rmult_le_compat_l; lra).
  assert (hi' * b <= hi' * (sqrt 2 * Y)) by (apply Rmult_le_compat_l; lra). lra.
Qed.

(** The computed vector [x] is within E of the exact vector [y] in euclidean norm. *)
Definition apv (n : nat) (E : R) (x : nat -> C) (y : nat -> Cx) : Prop :=
  (forall k, (k < n)%nat -> finC (x k)) /\ l2 n (fun k => nm (Csub (vC (x k)) (y k))) <= E.
Lemma apv_norm n E x y X : apv n E x y -> l2 n (fun k => nm (y k)) <= X -> l2 n (fun k => nm (vC (x k))) <= X + E.
Proof.
  intros [_ H] HX. eapply Rle_trans; [apply (l2_le n _ (fun k => nm (y k) + nm (Csub (vC (x k)) (y k))))|].
  - intros k _. rewrite Rabs_pos_eq by apply nm_nn. apply nm_le_dist.
  - eapply Rle_trans; [apply l2_tri|]. lra.
Qed.
Lemma apv_ext n E x y x' y' : (forall k, (k < n)%nat -> x k = x' k) -> (forall k, (k < n)%nat -> y k = y' k) -> apv n E x y -> apv n E x' y'.
Proof.
  intros Hx Hy [H1 H2]. split; [intros k Hk; rewrite <- Hx by exact Hk; apply H1; exact Hk|].
  rewrite (l2_ext n _ (fun k => nm (Csub (vC (x k)) (y k)))); [exact H2|]. intros k Hk. rewrite Hx, Hy by exact Hk. reflexivity.
Qed.
Lemma sqrt2_ge1 : 1 <= sqrt 2. Proof. rewrite <- sqrt_1. apply sqrt_le_1; lra. Qed.

Variable lm : nat.
Notation M := (2 ^ lm)%nat.
Definition om : R := INR M * (22 * eta).
Lemma om_nn : 0 <= om. Proof. unfold om. apply Rmult_le_pos; [apply pos_INR|lra]. Qed.
Definition kw : R := kap + om.
Lemma kw_nn : 0 <= kw. Proof. pose proof kap_nn. pose proof om_nn. unfold kw. lra. Qed.

Lemma level_apv d bf (Hbf : locOK d bf) h m (w : nat -> C) (wr : nat -> Cx) x y eps X : (0 < h)%nat -> (2 * h * m = M)%nat ->
  (forall i, (i < m)%nat -> finC (w i) /\ nm (Csub (vC (w i)) (wr i)) <= del /\ nm (wr i) = 1) ->
  apv M (eps * X) x y -> l2 M (fun k => nm (y k)) <= X -> 1 <= X -> 0 <= eps -> (1 + eps) * X <= Om / 32 ->
  apv M (((1 + eps) * (1 + kw) - 1) * (sqrt 2 * X)) (T A bf h w x) (TR d h wr y) /\ l2 M (fun k => nm (TR d h wr y k)) <= sqrt 2 * X.
Proof.
  intros Hh HM Hw Hx Hy HX Hep HO. pose proof sqrt2_ge1 as S2. pose proof om_nn as Hom. pose proof kap_nn as Hk.
  pose proof (apv_norm M _ x y X Hx Hy) as HN. destruct Hx as [Fx Ex].
  rewrite <- HM in *. destruct (level_err d bf Hbf h m w wr x ((1 + eps) * X) Hh Hw Fx ltac:(lra) HO) as [FT ET].
  split; [split; [exact FT|]|].
  - eapply Rle_trans; [apply (l2_le _ _ (fun k => nm (Csub (vC (T A bf h w x k)) (TR d h wr (fun k => vC (x k)) k)) + nm (TR d h wr (fun k => Csub (vC (x k)) (y k)) k)))|].
    { intros k Hk'. rewrite Rabs_pos_eq by apply nm_nn. rewrite (T_lin d h m) by assumption. apply nm_dist. }
    eapply Rle_trans; [apply l2_tri|].
    pose proof (T_energy d h m wr (fun k => Csub (vC (x k)) (y k)) Hh ltac:(intros i Hi; apply Hw; exact Hi)) as E1.
    assert (sqrt 2 * l2 (2 * h * m) (fun k => nm (Csub (vC (x k)) (y k))) <= sqrt 2 * (eps * X)) by (apply Rmult_le_compat_l; lra).
    assert (EO : INR (2 * h * m) * (22 * eta) = om) by (unfold om; rewrite HM; reflexivity). rewrite EO in ET.
    assert (G1 : 1 <= (1 + eps) * (sqrt 2 * X)). { assert (1 <= sqrt 2 * X) by nra. nra. }
    assert (om <= om * ((1 + eps) * (sqrt 2 * X))) by nra.
    replace (((1 + eps) * (1 + kw) - 1) * (sqrt 2 * X)) with (kap * (sqrt 2 * ((1 + eps) * X)) + om * ((1 + eps) * (sqrt 2 * X)) + sqrt 2 * (eps * X)) by (unfold kw; ring).
    lra.
  - eapply Rle_trans; [apply (T_energy d h m wr y Hh)|].
    + intros i Hi. apply Hw. exact Hi.
    + apply Rmult_le_compat_l; lra.
Qed.

Definition good (g : nat -> nat -> C) (r : nat -> nat -> Cx) : Prop :=
  forall s i, (s < lm)%nat -> (i < 2 ^ s)%nat -> finC (g s i) /\ nm (Csub (vC (g s i)) (r s i)) <= del /\ nm (r s i) = 1.
Notation epn eps s := ((1 + eps) * (1 + kw) ^ s - 1).
Notation Xn X s := (sqrt 2 ^ s * X).
Lemma pow_ge1 a n : 1 <= a -> 1 <= a ^ n. Proof. intros H. induction n as [|n IH]; cbn [pow]; [lra|]. nra. Qed.
Lemma pow_le_mono a n k : 1 <= a -> (n <= k)%nat -> a ^ n <= a ^ k. Proof. intros. apply Rle_pow; assumption. Qed.
Lemma bound_mono eps X s : 0 <= eps -> 1 <= X -> (s <= lm)%nat -> (1 + eps) * (1 + kw) ^ lm * Xn X lm <= Om / 32 -> (1 + epn eps s) * Xn X s <= Om / 32.
Proof.
  intros He' HX Hs HO. eapply Rle_trans; [|exact HO]. pose proof kw_nn. pose proof sqrt2_ge1.
  replace (1 + epn eps s) with ((1 + eps) * (1 + kw) ^ s) by ring.
  pose proof (pow_le_mono (1 + kw) s lm ltac:(lra) Hs). pose proof (pow_le_mono (sqrt 2) s lm ltac:(lra) Hs).
  pose proof (pow_ge1 (1 + kw) s ltac:(lra)). pose proof (pow_ge1 (sqrt 2) s ltac:(lra)).
  apply Rmult_le_compat; [apply Rmult_le_pos; lra|apply Rmult_le_pos; lra|apply Rmult_le_compat_l; lra|apply Rmult_le_compat_r; lra].
Qed.
Lemma epn_nn eps s : 0 <= eps -> 0 <= epn eps s.
Proof. intros H. pose proof kw_nn. pose proof (pow_ge1 (1 + kw) s ltac:(lra)). nra. Qed.
Lemma Xn_ge X s : 1 <= X -> 1 <= Xn X s.
Proof. intros H. pose proof (pow_ge1 (sqrt 2) s sqrt2_ge1). nra. Qed.

Lemma fwd_apvB bfs x y eps X : (forall s, locOK true (bfs s)) -> good (gF A lm) (gF RA lm) -> apv M (eps * X) x y -> l2 M (fun k => nm (y k)) <= X -> 1 <= X -> 0 <= eps ->
  (1 + eps) * (1 + kw) ^ lm * Xn X lm <= Om / 32 -> forall s, (s <= lm)%nat ->
  apv M (epn eps s * Xn X s) (netF A bfs lm s x) (gfwdN RA lm s y) /\ l2 M (fun k => nm (gfwdN RA lm s y k)) <= Xn X s.
Proof.
  intros Hbf Hg Hx Hy HX Hep HO. induction s as [|s IH]; intros Hs.
  - cbn [netF gfwdN pow]. replace (((1 + eps) * 1 - 1) * (1 * X)) with (eps * X) by ring. rewrite Rmult_1_l. split; assumption.
  - specialize (IH ltac:(lia)). destruct IH as [I1 I2]. cbn [netF gfwdN].
    assert (EM : (2 * 2 ^ (lm - 1 - s) * 2 ^ s = M)%nat) by (rewrite <- Nat.pow_succ_r', <- Nat.pow_add_r; f_equal; lia).
    assert (Ph : (0 < 2 ^ (lm - 1 - s))%nat) by (apply Nat.neq_0_lt_0, Nat.pow_nonzero; lia).
    destruct (level_apv true (bfs s) (Hbf s) (2 ^ (lm - 1 - s)) (2 ^ s) (gF A lm s) (gF RA lm s) (netF A bfs lm s x) (gfwdN RA lm s y) (epn eps s) (Xn X s) Ph EM
      ltac:(intros i Hi; apply Hg; [lia|exact Hi]) I1 I2 (Xn_ge X s HX) (epn_nn eps s Hep) (bound_mono eps X s Hep HX ltac:(lia) HO)) as [J1 J2].
    cbn [dirb] in J1, J2. cbn [pow].
    replace (((1 + eps) * ((1 + kw) * (1 + kw) ^ s) - 1) * (sqrt 2 * sqrt 2 ^ s * X)) with (((1 + epn eps s) * (1 + kw) - 1) * (sqrt 2 * Xn X s)) by ring.
    replace (sqrt 2 * sqrt 2 ^ s * X) with (sqrt 2 * Xn X s) by ring. split; assumption.
Qed.
Lemma inv_apvB bfs x y eps X : (forall s, locOK false (bfs s)) -> good (gI A lm) (gI RA lm) -> apv M (eps * X) x y -> l2 M (fun k => nm (y k)) <= X -> 1 <= X -> 0 <= eps ->
  (1 + eps) * (1 + kw) ^ lm * Xn X lm <= Om / 32 -> forall s, (s <= lm)%nat ->
  apv M (epn eps s * Xn X s) (netI A bfs lm s x) (ginvN RA lm s y) /\ l2 M (fun k => nm (ginvN RA lm s y k)) <= Xn X s.
Proof.
  intros Hbf Hg Hx Hy HX Hep HO. induction s as [|s IH]; intros Hs.
  - cbn [netI ginvN pow]. replace (((1 + eps) * 1 - 1) * (1 * X)) with (eps * X) by ring. rewrite Rmult_1_l. split; assumption.
  - specialize (IH ltac:(lia)). destruct IH as [I1 I2]. cbn [netI ginvN].
    assert (EM : (2 * 2 ^ s * 2 ^ (lm - 1 - s) = M)%nat) by (rewrite <- Nat.pow_succ_r', <- Nat.pow_add_r; f_equal; lia).
    assert (Ph : (0 < 2 ^ s)%nat) by (apply Nat.neq_0_lt_0, Nat.pow_nonzero; lia).
    destruct (level_apv false (bfs s) (Hbf s) (2 ^ s) (2 ^ (lm - 1 - s)) (gI A lm (lm - 1 - s)) (gI RA lm (lm - 1 - s)) (netI A bfs lm s x) (ginvN RA lm s y) (epn eps s) (Xn X s) Ph EM
      ltac:(intros i Hi; apply Hg; [lia|exact Hi]) I1 I2 (Xn_ge X s HX) (epn_nn eps s Hep) (bound_mono eps X s Hep HX ltac:(lia) HO)) as [J1 J2].
    cbn [dirb] in J1, J2. cbn [pow].
    replace (((1 + eps) * ((1 + kw) * (1 + kw) ^ s) - 1) * (sqrt 2 * sqrt 2 ^ s * X)) with (((1 + epn eps s) * (1 + kw) - 1) * (sqrt 2 * Xn X s)) by ring.
    replace (sqrt 2 * sqrt 2 ^ s * X) with (sqrt 2 * Xn X s) by ring. split; assumption.
Qed.
Lemma fwd_apv x y eps X : good (gF A lm) (gF RA lm) -> apv M (eps * X) x y -> l2 M (fun k => nm (y k)) <= X -> 1 <= X -> 0 <= eps ->
  (1 + eps) * (1 + kw) ^ lm * Xn X lm <= Om / 32 -> forall s, (s <= lm)%nat ->
  apv M (epn eps s * Xn X s) (gfwdN A lm s x) (gfwdN RA lm s y) /\ l2 M (fun k => nm (gfwdN RA lm s y k)) <= Xn X s.
Proof. intros. rewrite (gfwdN_net A). apply fwd_apvB; try assumption. intros s'. apply (dirb_ok true). Qed.
Lemma inv_apv x y eps X : good (gI A lm) (gI RA lm) -> apv M (eps * X) x y -> l2 M (fun k => nm (y k)) <= X -> 1 <= X -> 0 <= eps ->
  (1 + eps) * (1 + kw) ^ lm * Xn X lm <= Om / 32 -> forall s, (s <= lm)%nat ->
  apv M (epn eps s * Xn X s) (ginvN A lm s x) (ginvN RA lm s y) /\ l2 M (fun k => nm (ginvN RA lm s y k)) <= Xn X s.
Proof. intros. rewrite (ginvN_net A). apply inv_apvB; try assumption. intros s'. apply (dirb_ok false). Qed.
End Net.
