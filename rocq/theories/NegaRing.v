(** The ring Z[X]/(X^N+1), used as the specification of polynomial arithmetic.
    An element is an [N]-antiperiodic function Z -> Z: [cf p k] is the coefficient of X^k in the
    Laurent sense (X^N = -1, so [cf p (k+N) = - cf p k]).  Equality is taken modulo [Q]
    ([Q = 0]: exact integer coefficients). *)
From Verif Require Import Base.
From Coq Require Import Ring Permutation.

Record npoly (N : nat) : Type := mkNP {
  cf : Z -> Z;
  cf_anti : forall k, cf (k + Z.of_nat N) = - cf k
}.
Arguments mkNP {N}.
Arguments cf {N}.
Arguments cf_anti {N}.

(* ------------------------------------------------------------------ *)
(** ** Periodic sums *)

Lemma psum_shift_nat (N : nat) (g : Z -> Z) (c : nat) :
  (forall k, g (k + Z.of_nat N) = g k) ->
  zsum N (fun i => g (Z.of_nat i + Z.of_nat c)) = zsum N (fun i => g (Z.of_nat i)).
Proof.
  intros Hg. induction c as [|c IH].
  - apply zsum_ext; intros; f_equal; lia.
  - rewrite <- IH.
    destruct N as [|n]; [reflexivity|].
    symmetry. rewrite zsum_S_l. cbn [zsum].
    rewrite (zsum_ext n (fun i => g (Z.of_nat (S i) + Z.of_nat c))
                        (fun i => g (Z.of_nat i + Z.of_nat (S c)))) by (intros; f_equal; lia).
    assert (g (Z.of_nat n + Z.of_nat (S c)) = g (Z.of_nat 0 + Z.of_nat c)) as ->.
    { rewrite <- (Hg (Z.of_nat 0 + Z.of_nat c)). f_equal; lia. }
    lia.
Qed.

Lemma zsum_shift (N : nat) (g : Z -> Z) (c : Z) :
  (forall k, g (k + Z.of_nat N) = g k) ->
  zsum N (fun i => g (Z.of_nat i + c)) = zsum N (fun i => g (Z.of_nat i)).
Proof.
  intros Hg. destruct (Z_le_gt_dec 0 c) as [Hc|Hc].
  - rewrite <- (psum_shift_nat N g (Z.to_nat c) Hg).
    apply zsum_ext; intros; f_equal; lia.
  - rewrite <- (psum_shift_nat N (fun k => g (k + c)) (Z.to_nat (- c))).
    + apply zsum_ext; intros; f_equal; lia.
    + intros k. rewrite <- (Hg (k + c)). f_equal; lia.
Qed.

Lemma zsum_reflect (N : nat) (g : Z -> Z) (c : Z) :
  (forall k, g (k + Z.of_nat N) = g k) ->
  zsum N (fun i => g (c - Z.of_nat i)) = zsum N (fun i => g (Z.of_nat i)).
Proof.
  intros Hg. rewrite zsum_rev.
  rewrite <- (zsum_shift N g (c - Z.of_nat N + 1) Hg).
  apply zsum_ext; intros i Hi; f_equal; lia.
Qed.

Definition lsum (l : list Z) : Z := fold_right Z.add 0 l.

Lemma lsum_app l1 l2 : lsum (l1 ++ l2) = lsum l1 + lsum l2.
Proof. unfold lsum. induction l1 as [|x l1 IH]; cbn [app fold_right]; [lia|]. rewrite IH; lia. Qed.

Lemma zsum_lsum n f : zsum n f = lsum (map f (seq 0 n)).
Proof.
  induction n as [|n IH]; [reflexivity|].
  rewrite seq_S, map_app, lsum_app, <- IH. cbn. lia.
Qed.

Lemma lsum_perm l1 l2 : Permutation l1 l2 -> lsum l1 = lsum l2.
Proof. unfold lsum. induction 1; cbn [fold_right]; lia. Qed.

(** Reindexing a sum along a bijection of [0..n-1]. *)
Lemma zsum_reindex n (f : nat -> Z) (s : nat -> nat) :
  (forall i, (i < n)%nat -> (s i < n)%nat) ->
  (forall i j, (i < n)%nat -> (j < n)%nat -> s i = s j -> i = j) ->
  zsum n (fun i => f (s i)) = zsum n f.
Proof.
  intros Hr Hi. rewrite !zsum_lsum. apply lsum_perm.
  rewrite <- (map_map s f). apply Permutation_map.
  apply NoDup_Permutation_bis.
  - clear Hr. assert (forall l, NoDup l -> (forall i, In i l -> (i < n)%nat) -> NoDup (map s l)) as H.
    { induction l as [|x l IH]; intros Hnd Hl; cbn; [constructor|].
      inversion Hnd; subst. constructor.
      - intros Hin. apply in_map_iff in Hin as (y & Hy & Hyl).
        apply H1. rewrite <- (Hi y x); auto.
        + apply Hl; now right.
        + apply Hl; now left.
      - apply IH; auto. intros; apply Hl; now right. }
    apply H; [apply seq_NoDup|]. intros i Hin; apply in_seq in Hin; lia.
  - rewrite map_length. lia.
  - intros x Hx. apply in_map_iff in Hx as (y & <- & Hy).
    apply in_seq in Hy. apply in_seq. specialize (Hr y). lia.
Qed.

Lemma zsum_dilate (N : nat) (g : Z -> Z) (e : Z) :
  Z.gcd e (Z.of_nat N) = 1 ->
  (forall k, g (k + Z.of_nat N) = g k) ->
  zsum N (fun i => g (e * Z.of_nat i)) = zsum N (fun i => g (Z.of_nat i)).
Proof.
  intros He Hg. destruct N as [|n]; [reflexivity|]. set (N := S n) in *.
  assert (Hper : forall j k, g (k + j * Z.of_nat N) = g k).
  { intros j. apply (Z.peano_ind (fun j => forall k, g (k + j * Z.of_nat N) = g k)).
    - intros; f_equal; lia.
    - intros x IH k. rewrite <- (IH k), <- (Hg (k + x * Z.of_nat N)). f_equal; lia.
    - intros x IH k. rewrite <- (IH k), <- (Hg (k + Z.pred x * Z.of_nat N)). f_equal; lia. }
  assert (HN : 0 < Z.of_nat N) by (unfold N; lia).
  rewrite <- (zsum_reindex N (fun i => g (Z.of_nat i))
                (fun i => Z.to_nat ((e * Z.of_nat i) mod Z.of_nat N))).
  - apply zsum_ext; intros i Hi.
    pose proof (Z.mod_pos_bound (e * Z.of_nat i) (Z.of_nat N) HN).
    rewrite Z2Nat.id by lia.
    rewrite <- (Hper (e * Z.of_nat i / Z.of_nat N) ((e * Z.of_nat i) mod Z.of_nat N)).
    f_equal. pose proof (Z.div_mod (e * Z.of_nat i) (Z.of_nat N)). lia.
  - intros i Hi. pose proof (Z.mod_pos_bound (e * Z.of_nat i) (Z.of_nat N) HN). lia.
  - intros i j Hi Hj H.
    pose proof (Z.mod_pos_bound (e * Z.of_nat i) (Z.of_nat N) HN).
    pose proof (Z.mod_pos_bound (e * Z.of_nat j) (Z.of_nat N) HN).
    assert ((e * Z.of_nat i) mod Z.of_nat N = (e * Z.of_nat j) mod Z.of_nat N) as H' by lia.
    apply eqm_mod_eq in H'. destruct H' as [q Hq].
    assert (Z.of_nat N | Z.of_nat i - Z.of_nat j) as [r Hr].
    { apply Gauss with e.
      - exists q. lia.
      - apply Zgcd_1_rel_prime. now rewrite Z.gcd_comm. }
    assert (r = 0) by nia. lia.
Qed.

(* ------------------------------------------------------------------ *)
(** ** Operations *)

Section Ops.
Context {N : nat}.
Notation NZ := (Z.of_nat N).
Notation poly := (npoly N).

Definition pzero : poly := mkNP (fun _ => 0) (fun _ => eq_refl).

Lemma padd_anti (p q : poly) k : cf p (k + NZ) + cf q (k + NZ) = - (cf p k + cf q k).
Proof. rewrite !cf_anti; lia. Qed.
Definition padd (p q : poly) : poly := mkNP (fun k => cf p k + cf q k) (padd_anti p q).

Lemma popp_anti (p : poly) k : - cf p (k + NZ) = - - cf p k.
Proof. rewrite !cf_anti; lia. Qed.
Definition popp (p : poly) : poly := mkNP (fun k => - cf p k) (popp_anti p).

Lemma psub_anti (p q : poly) k : cf p (k + NZ) - cf q (k + NZ) = - (cf p k - cf q k).
Proof. rewrite !cf_anti; lia. Qed.
Definition psub (p q : poly) : poly := mkNP (fun k => cf p k - cf q k) (psub_anti p q).

Lemma pscale_anti c (p : poly) k : c * cf p (k + NZ) = - (c * cf p k).
Proof. rewrite !cf_anti; lia. Qed.
Definition pscale (c : Z) (p : poly) : poly := mkNP (fun k => c * cf p k) (pscale_anti c p).

(** Multiplication by X^d. *)
Lemma pshift_anti d (p : poly) k : cf p (k + NZ - d) = - cf p (k - d).
Proof. rewrite <- cf_anti; f_equal; lia. Qed.
Definition pshift (d : Z) (p : poly) : poly := mkNP (fun k => cf p (k - d)) (pshift_anti d p).

(** Negacyclic convolution. *)
Lemma pmul_anti (p q : poly) k :
  zsum N (fun i => cf p (Z.of_nat i) * cf q (k + NZ - Z.of_nat i)) =
  - zsum N (fun i => cf p (Z.of_nat i) * cf q (k - Z.of_nat i)).
Proof.
  rewrite <- zsum_opp. apply zsum_ext; intros i _.
  replace (k + NZ - Z.of_nat i) with ((k - Z.of_nat i) + NZ) by lia.
  rewrite cf_anti; lia.
Qed.
Definition pmul (p q : poly) : poly :=
  mkNP (fun k => zsum N (fun i => cf p (Z.of_nat i) * cf q (k - Z.of_nat i))) (pmul_anti p q).

Fixpoint psum (n : nat) (f : nat -> poly) : poly :=
  match n with O => pzero | S n' => padd (psum n' f) (f n') end.

Lemma cf_psum n f k : cf (psum n f) k = zsum n (fun i => cf (f i) k).
Proof. induction n; cbn; auto. rewrite IHn; reflexivity. Qed.

Lemma cf_anti_mul (p : poly) k j : cf p (k + (2 * j) * NZ) = cf p k.
Proof.
  revert k. apply (Z.peano_ind (fun j => forall k, cf p (k + (2 * j) * NZ) = cf p k)).
  - intros; f_equal; lia.
  - intros x IH k. rewrite <- (IH k).
    replace (k + 2 * Z.succ x * NZ) with (k + 2 * x * NZ + NZ + NZ) by lia.
    rewrite !cf_anti; lia.
  - intros x IH k. rewrite <- (IH k).
    replace (k + 2 * x * NZ) with (k + 2 * Z.pred x * NZ + NZ + NZ) by lia.
    rewrite !cf_anti; lia.
Qed.

Lemma cf_anti_odd (p : poly) k j : cf p (k + (2 * j + 1) * NZ) = - cf p k.
Proof.
  replace (k + (2 * j + 1) * NZ) with (k + (2 * j) * NZ + NZ) by lia.
  rewrite cf_anti, cf_anti_mul; reflexivity.
Qed.

Lemma cf_anti_sub (p : poly) k : cf p (k - NZ) = - cf p k.
Proof.
  replace (cf p k) with (cf p (k - NZ + NZ)) by (f_equal; lia).
  rewrite cf_anti; lia.
Qed.

Lemma cf_mod2N (p : poly) k : cf p (k mod (2 * NZ)) = cf p k.
Proof.
  destruct (Z.eq_dec NZ 0) as [H0|H0].
  - rewrite H0; f_equal. apply Zmod_0_r.
  - rewrite <- (cf_anti_mul p (k mod (2 * NZ)) (k / (2 * NZ))). f_equal.
    pose proof (Z.div_mod k (2 * NZ)). lia.
Qed.

Lemma cf_eqm2N (p : poly) k l : eqm (2 * NZ) k l -> cf p k = cf p l.
Proof. intros [j H]. rewrite <- (cf_anti_mul p l j). f_equal; lia. Qed.

(** Every coefficient is, up to sign, one with index in [0,N). *)
Lemma cf_reduce (p : poly) k : (0 < N)%nat ->
  exists i, (i < N)%nat /\
   ((exists j, k = Z.of_nat i + (2 * j) * NZ) /\ cf p k = cf p (Z.of_nat i) \/
    (exists j, k = Z.of_nat i + (2 * j + 1) * NZ) /\ cf p k = - cf p (Z.of_nat i)).
Proof.
  intros HN. set (m := k mod (2 * NZ)).
  assert (0 <= m < 2 * NZ) by (apply Z.mod_pos_bound; lia).
  assert (k = m + (2 * (k / (2 * NZ))) * NZ) as Hk.
  { pose proof (Z.div_mod k (2 * NZ)). unfold m; lia. }
  destruct (Z_lt_ge_dec m NZ).
  - exists (Z.to_nat m). split; [lia|]. left. rewrite Z2Nat.id by lia. split.
    + eexists; exact Hk.
    + rewrite Hk at 1. now rewrite cf_anti_mul.
  - exists (Z.to_nat (m - NZ)). split; [lia|]. right. rewrite Z2Nat.id by lia. split.
    + exists (k / (2 * NZ)). lia.
    + replace k with ((m - NZ) + (2 * (k / (2 * NZ)) + 1) * NZ) at 1 by lia.
      now rewrite cf_anti_odd.
Qed.

End Ops.


(** X^0 = 1 (for the degenerate N = 0 everything is 0). *)
Definition one_cf (N : nat) (k : Z) : Z :=
  if Z.eqb (Z.of_nat N) 0 then 0
  else if Z.eqb (k mod (2 * Z.of_nat N)) 0 then 1
  else if Z.eqb (k mod (2 * Z.of_nat N)) (Z.of_nat N) then -1 else 0.

Lemma mod2N_add (NZ k : Z) : 0 < NZ ->
  (k + NZ) mod (2 * NZ) = if k mod (2 * NZ) <? NZ then k mod (2 * NZ) + NZ else k mod (2 * NZ) - NZ.
Proof.
  intros H. pose proof (Z.mod_pos_bound k (2 * NZ)).
  pose proof (Z.div_mod k (2 * NZ)).
  destruct (Z.ltb_spec (k mod (2 * NZ)) NZ).
  - symmetry. apply Z.mod_unique with (k / (2 * NZ)); lia.
  - symmetry. apply Z.mod_unique with (k / (2 * NZ) + 1); lia.
Qed.

Lemma one_cf_anti N k : one_cf N (k + Z.of_nat N) = - one_cf N k.
Proof.
  unfold one_cf. destruct (Z.eqb_spec (Z.of_nat N) 0); [reflexivity|].
  rewrite mod2N_add by lia.
  pose proof (Z.mod_pos_bound k (2 * Z.of_nat N)).
  destruct (Z.ltb_spec (k mod (2 * Z.of_nat N)) (Z.of_nat N));
  destruct (Z.eqb_spec (k mod (2 * Z.of_nat N)) 0);
  destruct (Z.eqb_spec (k mod (2 * Z.of_nat N)) (Z.of_nat N));
  repeat match goal with |- context [?a =? ?b] => destruct (Z.eqb_spec a b) end; lia.
Qed.

Definition pone {N : nat} : npoly N := mkNP (one_cf N) (one_cf_anti N).

(** X^d *)
Definition pmono {N : nat} (d : Z) : npoly N := pshift d pone.

(** The constant polynomial c. *)
Definition pconst {N : nat} (c : Z) : npoly N := pscale c pone.

(** Equality of coefficients modulo Q. *)
Definition peq {N : nat} (Q : Z) (p q : npoly N) : Prop := forall k, eqm Q (cf p k) (cf q k).

(** Coefficients bounded in absolute value. *)
Definition pbound {N : nat} (b : Z) (p : npoly N) : Prop := forall k, Z.abs (cf p k) <= b.

(* ------------------------------------------------------------------ *)
(** ** Setoid ring *)

Section Ring.
Context {N : nat} (Q : Z).
Notation poly := (npoly N).
Notation NZ := (Z.of_nat N).
Implicit Types p q r : poly.

Lemma peq_refl p : peq Q p p.
Proof. intro; reflexivity. Qed.
Lemma peq_sym p q : peq Q p q -> peq Q q p.
Proof. intros H k; symmetry; apply H. Qed.
Lemma peq_trans p q r : peq Q p q -> peq Q q r -> peq Q p r.
Proof. intros H1 H2 k; rewrite (H1 k); apply H2. Qed.

Global Instance peq_equiv : Equivalence (@peq N Q).
Proof. split; [intro; apply peq_refl | intros ? ?; apply peq_sym | intros ? ? ?; apply peq_trans]. Qed.

Global Instance padd_proper : Proper (peq Q ==> peq Q ==> peq Q) (@padd N).
Proof. intros p p' Hp q q' Hq k; cbn; rewrite (Hp k), (Hq k); reflexivity. Qed.
Global Instance psub_proper : Proper (peq Q ==> peq Q ==> peq Q) (@psub N).
Proof. intros p p' Hp q q' Hq k; cbn; rewrite (Hp k), (Hq k); reflexivity. Qed.
Global Instance popp_proper : Proper (peq Q ==> peq Q) (@popp N).
Proof. intros p p' Hp k; cbn; rewrite (Hp k); reflexivity. Qed.
Global Instance pmul_proper : Proper (peq Q ==> peq Q ==> peq Q) (@pmul N).
Proof.
  intros p p' Hp q q' Hq k; cbn. apply zsum_eqm; intros.
  rewrite (Hp (Z.of_nat i)), (Hq (k - Z.of_nat i)); reflexivity.
Qed.
Global Instance pscale_proper : Proper (eqm Q ==> peq Q ==> peq Q) (@pscale N).
Proof. intros c c' Hc p p' Hp k; cbn; rewrite Hc, (Hp k); reflexivity. Qed.
Global Instance pshift_proper : Proper (eq ==> peq Q ==> peq Q) (@pshift N).
Proof. intros d d' -> p p' Hp k; cbn. apply Hp. Qed.

Lemma psum_proper n (f g : nat -> poly) :
  (forall i, (i < n)%nat -> peq Q (f i) (g i)) -> peq Q (psum n f) (psum n g).
Proof.
  intros H k. rewrite !cf_psum. apply zsum_eqm. intros i Hi; now apply H.
Qed.

(** Pointwise equality suffices on 0..N-1. *)
Lemma peq_coeffs p q :
  (0 < N)%nat ->
  (forall i, (i < N)%nat -> eqm Q (cf p (Z.of_nat i)) (cf q (Z.of_nat i))) -> peq Q p q.
Proof.
  intros HN H k.
  destruct (cf_reduce p k HN) as (i & Hi & [[[j Hj] Hp]|[[j Hj] Hp]]); rewrite Hp.
  - replace (cf q k) with (cf q (Z.of_nat i)); [auto|]. rewrite Hj, cf_anti_mul; reflexivity.
  - replace (cf q k) with (- cf q (Z.of_nat i)); [rewrite H; auto; reflexivity|].
    rewrite Hj, cf_anti_odd; reflexivity.
Qed.

Lemma padd_comm p q : peq Q (padd p q) (padd q p).
Proof. intro k; cbn; apply eqm_eq; lia. Qed.
Lemma padd_assoc p q r : peq Q (padd p (padd q r)) (padd (padd p q) r).
Proof. intro k; cbn; apply eqm_eq; lia. Qed.
Lemma padd_0_l p : peq Q (padd pzero p) p.
Proof. intro k; cbn; apply eqm_eq; lia. Qed.
Lemma padd_opp p : peq Q (padd p (popp p)) pzero.
Proof. intro k; cbn; apply eqm_eq; lia. Qed.
Lemma psub_def p q : peq Q (psub p q) (padd p (popp q)).
Proof. intro k; cbn; apply eqm_eq; lia. Qed.

Lemma pmul_periodic p q (k i : Z) :
  cf p (i + NZ) * cf q (k - (i + NZ)) = cf p i * cf q (k - i).
Proof.
  replace (k - (i + NZ)) with (k - i - NZ) by lia.
  rewrite cf_anti, cf_anti_sub; lia.
Qed.

Lemma pmul_comm p q : peq Q (pmul p q) (pmul q p).
Proof.
  intro k; cbn. apply eqm_eq.
  rewrite <- (zsum_reflect N (fun i => cf q i * cf p (k - i)) k).
  - apply zsum_ext; intros i _. replace (k - (k - Z.of_nat i)) with (Z.of_nat i) by lia. lia.
  - intros; apply pmul_periodic.
Qed.

Lemma pmul_assoc p q r : peq Q (pmul p (pmul q r)) (pmul (pmul p q) r).
Proof.
  intro k; cbn. apply eqm_eq.
  rewrite (zsum_ext N (fun i => zsum N (fun j => cf p (Z.of_nat j) * cf q (Z.of_nat i - Z.of_nat j)) * cf r (k - Z.of_nat i))
    (fun i => zsum N (fun j => cf p (Z.of_nat j) * cf q (Z.of_nat i - Z.of_nat j) * cf r (k - Z.of_nat i)))).
  2:{ intros; rewrite zsum_scale_r; reflexivity. }
  rewrite zsum_swap. apply zsum_ext; intros j _.
  rewrite <- zsum_scale_l.
  rewrite <- (zsum_shift N (fun i => cf p (Z.of_nat j) * cf q (i - Z.of_nat j) * cf r (k - i)) (Z.of_nat j)).
  - apply zsum_ext; intros i _.
    replace (Z.of_nat i + Z.of_nat j - Z.of_nat j) with (Z.of_nat i) by lia.
    replace (k - (Z.of_nat i + Z.of_nat j)) with (k - Z.of_nat j - Z.of_nat i) by lia. lia.
  - intros i. replace (i + NZ - Z.of_nat j) with (i - Z.of_nat j + NZ) by lia.
    replace (k - (i + NZ)) with (k - i - NZ) by lia. rewrite cf_anti, cf_anti_sub; lia.
Qed.

Lemma pmul_add_r p q r : peq Q (pmul p (padd q r)) (padd (pmul p q) (pmul p r)).
Proof. intro k; cbn. apply eqm_eq. rewrite <- zsum_add. apply zsum_ext; intros; lia. Qed.
Lemma pmul_add_l p q r : peq Q (pmul (padd p q) r) (padd (pmul p r) (pmul q r)).
Proof. intro k; cbn. apply eqm_eq. rewrite <- zsum_add. apply zsum_ext; intros; lia. Qed.

Lemma one_cf_at i : (i < N)%nat -> one_cf N (Z.of_nat i) = if Nat.eqb i 0 then 1 else 0.
Proof.
  intros Hi. unfold one_cf. rewrite !Z.mod_small by lia.
  destruct (Z.eqb_spec NZ 0), (Z.eqb_spec (Z.of_nat i) 0), (Z.eqb_spec (Z.of_nat i) NZ), (Nat.eqb_spec i 0); lia.
Qed.

Lemma cf_N0 p k : N = O -> cf p k = 0.
Proof.
  intros H. pose proof (cf_anti p k) as H1.
  replace (k + NZ) with k in H1 by lia. lia.
Qed.

Lemma pmul_1_l p : peq Q (pmul pone p) p.
Proof.
  intro k; cbn. apply eqm_eq. destruct (Nat.eq_dec N 0) as [H|H].
  - rewrite (cf_N0 p k H), <- (zsum_zero N). apply zsum_ext; intros; lia.
  - rewrite (zsum_single N _ O); [|lia|].
    + rewrite one_cf_at by lia. cbn [Nat.eqb]. rewrite Z.mul_1_l. f_equal. lia.
    + intros i Hi Hne. rewrite one_cf_at by lia. destruct (Nat.eqb_spec i 0); [congruence|]. apply Z.mul_0_l.
Qed.

Lemma npoly_ring : ring_theory (@pzero N) pone padd pmul psub popp (peq Q).
Proof.
  split.
  - apply padd_0_l.
  - apply padd_comm.
  - apply padd_assoc.
  - apply pmul_1_l.
  - apply pmul_comm.
  - apply pmul_assoc.
  - intros; apply pmul_add_l.
  - apply psub_def.
  - apply padd_opp.
Qed.

Lemma npoly_ring_ext : ring_eq_ext (@padd N) pmul popp (peq Q).
Proof.
  split.
  - apply padd_proper.
  - apply pmul_proper.
  - apply popp_proper.
Qed.

Add Ring npoly_Ring : npoly_ring (setoid (peq_equiv) npoly_ring_ext).

Lemma pscale_mul c p : peq Q (pscale c p) (pmul (pconst c) p).
Proof.
  rewrite <- (pmul_1_l p) at 1. intro k; cbn. apply eqm_eq. rewrite <- zsum_scale_l.
  apply zsum_ext; intros; lia.
Qed.

Lemma pscale_mul_l c p q : peq Q (pmul (pscale c p) q) (pscale c (pmul p q)).
Proof. rewrite !pscale_mul. ring. Qed.
Lemma pscale_mul_r c p q : peq Q (pmul p (pscale c q)) (pscale c (pmul p q)).
Proof. rewrite !pscale_mul. ring. Qed.

Lemma pshift_mul d p q : peq Q (pmul (pshift d p) q) (pshift d (pmul p q)).
Proof.
  rewrite pmul_comm. intro k. cbn. apply eqm_eq.
  rewrite <- (zsum_reflect N (fun i => cf p i * cf q (k - d - i)) (k - d)).
  - apply zsum_ext; intros i _. replace (k - d - (k - d - Z.of_nat i)) with (Z.of_nat i) by lia.
    replace (k - Z.of_nat i - d) with (k - d - Z.of_nat i) by lia. lia.
  - intros; apply pmul_periodic.
Qed.

Lemma pshift_mono d p : peq Q (pshift d p) (pmul (pmono d) p).
Proof.
  unfold pmono. rewrite pshift_mul. now rewrite pmul_1_l.
Qed.

Lemma pshift_add d e p : peq Q (pshift d (pshift e p)) (pshift (d + e) p).
Proof. intro k; cbn. apply eqm_eq; f_equal; lia. Qed.

Lemma pshift_0 p : peq Q (pshift 0 p) p.
Proof. intro k; cbn. apply eqm_eq; f_equal; lia. Qed.

Lemma pmono_add d e : peq Q (pmul (@pmono N d) (pmono e)) (pmono (d + e)).
Proof. rewrite <- pshift_mono. unfold pmono. apply pshift_add. Qed.

Lemma pmono_0 : peq Q (@pmono N 0) pone.
Proof. apply pshift_0. Qed.

Lemma pshift_eqm d e p : eqm (2 * NZ) d e -> peq Q (pshift d p) (pshift e p).
Proof.
  intros [j H] k; cbn. apply eqm_eq. apply cf_eqm2N. exists (- j). lia.
Qed.

Lemma pmono_eqm d e : eqm (2 * NZ) d e -> peq Q (@pmono N d) (pmono e).
Proof. apply pshift_eqm. Qed.

Lemma pshift_N d p : peq Q (pshift (d + NZ) p) (popp (pshift d p)).
Proof. intro k; cbn. apply eqm_eq. rewrite <- cf_anti_sub. f_equal; lia. Qed.

Lemma pmul_psum_r p n (f : nat -> poly) : peq Q (pmul p (psum n f)) (psum n (fun i => pmul p (f i))).
Proof.
  induction n as [|n IH]; cbn [psum]; [ring|]. rewrite pmul_add_r, IH. reflexivity.
Qed.
Lemma pmul_psum_l p n (f : nat -> poly) : peq Q (pmul (psum n f) p) (psum n (fun i => pmul (f i) p)).
Proof.
  induction n as [|n IH]; cbn [psum]; [ring|]. rewrite pmul_add_l, IH. reflexivity.
Qed.
Lemma psum_add n (f g : nat -> poly) : peq Q (psum n (fun i => padd (f i) (g i))) (padd (psum n f) (psum n g)).
Proof. induction n as [|n IH]; cbn [psum]; [ring|]. rewrite IH. ring. Qed.
Lemma psum_sub n (f g : nat -> poly) : peq Q (psum n (fun i => psub (f i) (g i))) (psub (psum n f) (psum n g)).
Proof. induction n as [|n IH]; cbn [psum]; [ring|]. rewrite IH. ring. Qed.
Lemma psum_opp n (f : nat -> poly) : peq Q (psum n (fun i => popp (f i))) (popp (psum n f)).
Proof. induction n as [|n IH]; cbn [psum]; [ring|]. rewrite IH. ring. Qed.
Lemma psum_swap n m (f : nat -> nat -> poly) :
  peq Q (psum n (fun i => psum m (fun j => f i j))) (psum m (fun j => psum n (fun i => f i j))).
Proof.
  intro k. rewrite !cf_psum. apply eqm_eq.
  rewrite (zsum_ext n _ (fun i => zsum m (fun j => cf (f i j) k))) by (intros; apply cf_psum).
  rewrite (zsum_ext m _ (fun j => zsum n (fun i => cf (f i j) k))) by (intros; apply cf_psum).
  apply zsum_swap.
Qed.
Lemma pscale_psum c n (f : nat -> poly) : peq Q (pscale c (psum n f)) (psum n (fun i => pscale c (f i))).
Proof.
  intro k. cbn. rewrite !cf_psum, <- zsum_scale_l. reflexivity.
Qed.
Lemma pshift_psum d n (f : nat -> poly) : peq Q (pshift d (psum n f)) (psum n (fun i => pshift d (f i))).
Proof. intro k. cbn. rewrite !cf_psum. reflexivity. Qed.

Lemma peq_divide R p q : (R | Q) -> peq Q p q -> peq R p q.
Proof. intros HR H k. eapply eqm_divide; eauto. Qed.

End Ring.

Lemma peq_0_any {N} Q (p q : npoly N) : peq 0 p q -> peq Q p q.
Proof. intros H k. eapply eqm_divide; [|apply H]. exists 0; reflexivity. Qed.

(* ------------------------------------------------------------------ *)
(** ** Bounds *)

Section Bounds.
Context {N : nat}.
Implicit Types p q : npoly N.

Lemma pbound_coeffs b p :
  (0 < N)%nat -> (forall i, (i < N)%nat -> Z.abs (cf p (Z.of_nat i)) <= b) -> pbound b p.
Proof.
  intros HN H k.
  destruct (cf_reduce p k HN) as (i & Hi & [[_ Hp]|[_ Hp]]); rewrite Hp; specialize (H i Hi); lia.
Qed.

Lemma pbound_nonneg b p : pbound b p -> 0 <= b.
Proof. intros H; specialize (H 0); lia. Qed.

Lemma pbound_le b b' p : b <= b' -> pbound b p -> pbound b' p.
Proof. intros H1 H2 k; specialize (H2 k); lia. Qed.
Lemma pbound_zero : pbound 0 (@pzero N).
Proof. intro; cbn; lia. Qed.
Lemma pbound_add b c p q : pbound b p -> pbound c q -> pbound (b + c) (padd p q).
Proof. intros H1 H2 k; cbn; specialize (H1 k); specialize (H2 k); lia. Qed.
Lemma pbound_sub b c p q : pbound b p -> pbound c q -> pbound (b + c) (psub p q).
Proof. intros H1 H2 k; cbn; specialize (H1 k); specialize (H2 k); lia. Qed.
Lemma pbound_opp b p : pbound b p -> pbound b (popp p).
Proof. intros H1 k; cbn; specialize (H1 k); lia. Qed.
Lemma pbound_shift b d p : pbound b p -> pbound b (pshift d p).
Proof. intros H1 k; cbn; apply H1. Qed.
Lemma pbound_scale b c p : pbound b p -> pbound (Z.abs c * b) (pscale c p).
Proof. intros H k; cbn. specialize (H k). rewrite Z.abs_mul. nia. Qed.
Lemma pbound_mul b c p q : pbound b p -> pbound c q -> pbound (Z.of_nat N * (b * c)) (pmul p q).
Proof.
  intros H1 H2 k; cbn. apply zsum_abs_le. intros i _. rewrite Z.abs_mul.
  specialize (H1 (Z.of_nat i)). specialize (H2 (k - Z.of_nat i)). nia.
Qed.
Lemma pbound_psum n b f : (forall i, (i < n)%nat -> pbound b (f i)) -> pbound (Z.of_nat n * b) (@psum N n f).
Proof.
  intros H k. rewrite cf_psum. apply zsum_abs_le. intros i Hi; now apply H.
Qed.
Lemma pbound_one : pbound 1 (@pone N).
Proof.
  intro k; cbn; unfold one_cf.
  repeat match goal with |- context [if ?b then _ else _] => destruct b end; lia.
Qed.
End Bounds.

(* ------------------------------------------------------------------ *)
(** ** Automorphisms  X -> X^d *)

(** The substitution [p(X) |-> p(X^d)] written out on the coefficients 0..N-1. *)
Definition psubst {N : nat} (d : Z) (p : npoly N) : npoly N :=
  psum N (fun i => pscale (cf p (Z.of_nat i)) (pmono (d * Z.of_nat i))).

(** [dilate h p] reads the coefficients along multiples of the odd number 2h+1. *)
Lemma dilate_anti {N : nat} h (p : npoly N) k :
  cf p ((2 * h + 1) * (k + Z.of_nat N)) = - cf p ((2 * h + 1) * k).
Proof.
  replace ((2 * h + 1) * (k + Z.of_nat N)) with ((2 * h + 1) * k + (2 * h + 1) * Z.of_nat N) by lia.
  apply cf_anti_odd.
Qed.
Definition dilate {N : nat} (h : Z) (p : npoly N) : npoly N :=
  mkNP (fun k => cf p ((2 * h + 1) * k)) (dilate_anti h p).

Section Auto.
Context {N : nat} (Q : Z).
Notation NZ := (Z.of_nat N).
Implicit Types p q : npoly N.

Lemma dilate_proper h p q : peq Q p q -> peq Q (dilate h p) (dilate h q).
Proof. intros H k; cbn; apply H. Qed.

Lemma dilate_mul h p q : Z.gcd (2 * h + 1) NZ = 1 ->
  peq Q (dilate h (pmul p q)) (pmul (dilate h p) (dilate h q)).
Proof.
  intros Hg k; cbn. apply eqm_eq.
  rewrite <- (zsum_dilate N (fun i => cf p i * cf q ((2 * h + 1) * k - i)) (2 * h + 1) Hg).
  - apply zsum_ext; intros i _. f_equal. f_equal. lia.
  - intros; apply pmul_periodic.
Qed.

Lemma dilate_one h : (0 < N)%nat -> Z.gcd (2 * h + 1) NZ = 1 -> peq 0 (dilate h (@pone N)) pone.
Proof.
  intros HN Hg. apply peq_coeffs; [assumption|].
  intros i Hi. cbn. apply eqm_eq.
  rewrite one_cf_at by assumption. unfold one_cf.
  destruct (Z.eqb_spec NZ 0); [lia|].
  assert (forall m, ((2 * h + 1) * Z.of_nat i) mod (2 * NZ) = m -> (NZ | m) -> i = O) as Hdiv.
  { intros m Hm [c Hc].
    assert (NZ | Z.of_nat i) as [d Hd].
    { apply Gauss with (2 * h + 1).
      - pose proof (Z.div_mod ((2 * h + 1) * Z.of_nat i) (2 * NZ)) as E.
        rewrite E, Hm, Hc by lia.
        exists (2 * ((2 * h + 1) * Z.of_nat i / (2 * NZ)) + c). ring.
      - apply Zgcd_1_rel_prime. now rewrite Z.gcd_comm. }
    assert (d = 0) by nia. lia. }
  destruct (Nat.eqb_spec i 0) as [->|Hi0].
  - rewrite Z.mul_0_r, Z.mod_0_l by lia. reflexivity.
  - destruct (Z.eqb_spec (((2 * h + 1) * Z.of_nat i) mod (2 * NZ)) 0) as [E|_].
    { exfalso; apply Hi0; apply (Hdiv 0); auto. exists 0; lia. }
    destruct (Z.eqb_spec (((2 * h + 1) * Z.of_nat i) mod (2 * NZ)) NZ) as [E|_].
    { exfalso; apply Hi0; apply (Hdiv NZ); auto. exists 1; lia. }
    reflexivity.
Qed.

Lemma odd_inv_gcd d h : eqm (2 * NZ) (d * (2 * h + 1)) 1 -> Z.gcd (2 * h + 1) NZ = 1.
Proof.
  intros [j Hj]. apply Zgcd_1_rel_prime.
  apply bezout_rel_prime. apply Bezout_intro with d (- (2 * j)). lia.
Qed.

(** Reading along multiples of [e] undoes the substitution of X^d when d*e = 1 mod 2N. *)
Lemma psubst_dilate d h p : (0 < N)%nat -> eqm (2 * NZ) (d * (2 * h + 1)) 1 ->
  peq Q (psubst d p) (dilate h p).
Proof.
  intros HN Hinv.
  assert (Hone : forall k i, one_cf N (k - d * i) = one_cf N ((2 * h + 1) * k - i)).
  { intros k i. pose proof (dilate_one h HN (odd_inv_gcd d h Hinv) (k - d * i)) as H1.
    apply eqm0_eq in H1. cbn in H1. rewrite <- H1.
    change (cf (@pone N) ((2 * h + 1) * (k - d * i)) = cf (@pone N) ((2 * h + 1) * k - i)).
    apply cf_eqm2N. destruct Hinv as [j Hj]. exists (- (j * i)).
    replace ((2 * h + 1) * (k - d * i) - ((2 * h + 1) * k - i)) with (- ((d * (2 * h + 1) - 1) * i)) by ring.
    rewrite Hj; ring. }
  assert (E : peq Q (dilate h p) (dilate h (pmul p pone))).
  { apply dilate_proper. rewrite pmul_comm, pmul_1_l. reflexivity. }
  rewrite E. intro k. unfold psubst. rewrite cf_psum. cbn. apply eqm_eq.
  apply zsum_ext; intros i _. rewrite Hone. reflexivity.
Qed.

End Auto.
