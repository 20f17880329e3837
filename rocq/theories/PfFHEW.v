From Verif Require Import Base NegaRing SpecNum ModelNum PfNum ModelVec SpecVec PfVec ModelPoly SpecPoly PfPoly PfPerm PfSplit ModelGadget SpecGadget PfGadget ModelEncoder ModelLWE SpecLWE PfLWE PfLWE2 PfKS PfKS2 ModelGLWE SpecGLWE PfGLWE PfGLWE2 PfGLWE3 PfGLWE4
  ModelBoot SpecBoot PfBoot PfBoot2 PfBoot4 ModelBFV SpecBFV PfBFV PfBFV2 PfBFV4 ModelFHEW SpecFHEW.

(** ** Powers of five *)
Lemma five_pow2 (t : nat) : exists q, 5 ^ (2 ^ Z.of_nat t) = 1 + 2 ^ (Z.of_nat t + 2) * (2 * q + 1).
Proof.
  induction t as [|t (q & IH)]; [exists 0; reflexivity|].
  replace (Z.of_nat (S t)) with (Z.of_nat t + 1) by lia. rewrite Z.pow_add_r by lia. change (2 ^ 1) with 2. rewrite Z.pow_mul_r by (first [lia | apply Z.pow_nonneg; lia]). rewrite IH.
  set (T := 2 ^ (Z.of_nat t + 2)). replace (2 ^ (Z.of_nat t + 1 + 2)) with (2 * T) by (unfold T; replace (Z.of_nat t + 1 + 2) with (1 + (Z.of_nat t + 2)) by lia; rewrite (Z.pow_add_r 2 1) by lia; reflexivity).
  assert (exists u, T = 4 * u) as (u & Eu). { exists (2 ^ Z.of_nat t). unfold T. rewrite Z.pow_add_r by lia. change (2 ^ 2) with 4. ring. }
  exists (q + u * (2 * q + 1) * (2 * q + 1)). rewrite (Z.pow_2_r). 
  transitivity (1 + 2 * T * (2 * q + 1) + T * T * (2 * q + 1) * (2 * q + 1)); [ring|]. rewrite Eu at 3. ring.
Qed.
Lemma five_order n : 1 <= n -> eqm (2 ^ (n + 1)) (5 ^ (2 ^ (n - 1))) 1.
Proof.
  intros Hn. destruct (five_pow2 (Z.to_nat (n - 1))) as (q & E). rewrite Z2Nat.id in E by lia. exists (2 * q + 1). rewrite E. replace (n - 1 + 2) with (n + 1) by lia. ring.
Qed.
Lemma five_odd i : 0 <= i -> Z.odd (5 ^ i) = true.
Proof. intros Hi. destruct (Z.eq_dec i 0) as [->|]; [reflexivity|]. now rewrite Z.odd_pow by lia. Qed.
Lemma five_log (m : nat) : forall a, a mod 4 = 1 -> exists i, 0 <= i < 2 ^ Z.of_nat m /\ eqm (2 ^ (Z.of_nat m + 2)) a (5 ^ i).
Proof.
  induction m as [|m IH]; intros a Ha.
  - exists 0. split; [cbn; lia|]. change (2 ^ (Z.of_nat 0 + 2)) with 4. change (5 ^ 0) with 1. exists (a / 4). pose proof (Z.div_mod a 4 ltac:(lia)). lia.
  - destruct (IH a Ha) as (i & Hi & (c & Ec)). set (T := 2 ^ (Z.of_nat m + 2)) in *.
    assert (2 ^ Z.of_nat (S m) = 2 * 2 ^ Z.of_nat m) as E1 by (replace (Z.of_nat (S m)) with (1 + Z.of_nat m) by lia; rewrite (Z.pow_add_r 2 1) by lia; reflexivity).
    assert (2 ^ (Z.of_nat (S m) + 2) = 2 * T) as E2 by (unfold T; replace (Z.of_nat (S m) + 2) with (1 + (Z.of_nat m + 2)) by lia; rewrite (Z.pow_add_r 2 1) by lia; reflexivity).
    rewrite E1, E2. destruct (Zeven_odd_dec c) as [He|Ho].
    + apply Zeven_ex in He. destruct He as (d & ->). exists i. split; [lia|]. exists d. lia.
    + apply Zodd_ex in Ho. destruct Ho as (d & ->). exists (i + 2 ^ Z.of_nat m). split; [lia|]. rewrite Z.pow_add_r by lia.
      destruct (five_pow2 m) as (q & Eq). fold T in Eq. rewrite Eq.
      assert (exists u, 5 ^ i = 2 * u + 1) as (u & Eu). { exists (5 ^ i / 2). pose proof (Z.div_mod (5 ^ i) 2 ltac:(lia)) as D. rewrite Zmod_odd, five_odd in D by lia. lia. }
      exists (d - (u * (2 * q + 1) + q)). rewrite Eu in *. lia.
Qed.
Lemma five_mod4 i : 0 <= i -> 5 ^ i mod 4 = 1.
Proof. intros Hi. rewrite <- (Z2Nat.id i) by lia. induction (Z.to_nat i) as [|x IH]; [reflexivity|]. rewrite Nat2Z.inj_succ, Z.pow_succ_r by lia. rewrite Z.mul_mod, IH by lia. reflexivity. Qed.

Section Table.
Variables (N : nat) (n : Z).
Hypothesis Hn : 1 <= n.
Hypothesis HNn : Z.of_nat N = 2 ^ n.
Notation NZ := (Z.of_nat N).
Notation M := (2 * NZ).

Lemma tN2 : exists h, NZ = 2 * h /\ h = 2 ^ (n - 1) /\ 0 < h /\ Z.of_nat (N / 2) = h.
Proof.
  exists (2 ^ (n - 1)). assert (NZ = 2 * 2 ^ (n - 1)) as E by (rewrite HNn; replace n with (1 + (n - 1)) at 1 by lia; rewrite Z.pow_add_r by lia; reflexivity).
  split; [exact E|]. split; [reflexivity|]. split; [apply Z.pow_pos_nonneg; lia|]. rewrite Nat2Z.inj_div, E. change (Z.of_nat 2) with 2. rewrite Z.mul_comm. apply Z.div_mul. lia.
Qed.
Lemma tM : 2 ^ (n + 1) = M.
Proof. rewrite Z.pow_add_r by lia. rewrite HNn. change (2 ^ 1) with 2. ring. Qed.
Lemma five_half : eqm M (5 ^ Z.of_nat (N / 2)) 1.
Proof. destruct tN2 as (h & _ & Eh & _ & ->). rewrite Eh, <- tM. apply five_order. lia. Qed.

(** What entry v of the table says about position a. *)
Definition entry_ok (v a : Z) : Prop :=
  (exists i, (1 <= i < N / 2)%nat /\ v = Z.of_nat i /\ eqm M a (5 ^ Z.of_nat i)) \/
  (exists i, (1 <= i < N / 2)%nat /\ v = - Z.of_nat i /\ eqm M a (- 5 ^ Z.of_nat i)) \/
  (v = M /\ eqm M a (-1)) \/ (v = 0 /\ eqm M a 1).

Lemma mod4_M a b : eqm M a b -> a mod 4 = b mod 4.
Proof. intros (c & E). destruct tN2 as (h & Eh & _). replace a with (b + (c * h) * 4) by lia. apply Z_mod_plus_full. Qed.

Lemma autIdxMap_spec a : 0 <= a < M -> Z.odd a = true -> entry_ok (nthZ (autIdxMap N) (Z.to_nat a)) a.
Proof.
  intros Ha Ho. destruct tN2 as (h & Eh & Eh' & Hh & EH). unfold autIdxMap.
  pose (J := fun q (s : list Z * Z) => length (fst s) = (2 * N)%nat /\ snd s = 5 ^ Z.of_nat q mod M /\
    forall j i, 0 <= j < M -> (i < q)%nat -> (eqm M j (5 ^ Z.of_nat i) -> exists i', (i' < q)%nat /\ nthZ (fst s) (Z.to_nat j) = Z.of_nat i' /\ eqm M j (5 ^ Z.of_nat i')) /\
      (eqm M j (- 5 ^ Z.of_nat i) -> exists i', (i' < q)%nat /\ nthZ (fst s) (Z.to_nat j) = - Z.of_nat i' /\ eqm M j (- 5 ^ Z.of_nat i'))).
  match goal with |- entry_ok (nthZ (let '(_, _) := ?g in _) _) _ => assert (J (N / 2)%nat g) as X end.
  { apply (forN_ind J).
    - split; [apply repeat_length|]. split; [cbn; symmetry; apply Z.mod_small; lia|]. intros j i _ Hi. lia.
    - intros q (m, b) Hq (L & Eb & HJ). cbn [fst snd] in *. rewrite Nat.add_0_l.
      assert (0 < b < M /\ eqm M b (5 ^ Z.of_nat q)) as (Hb & Qb).
      { pose proof (Z.mod_pos_bound (5 ^ Z.of_nat q) M ltac:(lia)). assert (eqm M b (5 ^ Z.of_nat q)) as Q by (exists (- (5 ^ Z.of_nat q / M)); rewrite Eb; pose proof (Z.div_mod (5 ^ Z.of_nat q) M ltac:(lia)); lia).
        split; [|exact Q]. pose proof (mod4_M _ _ Q) as Q4. rewrite five_mod4 in Q4 by lia. destruct (Z.eq_dec b 0) as [->|]; [discriminate Q4|lia]. }
      assert (b mod 4 = 1) as B4 by (rewrite (mod4_M _ _ Qb); apply five_mod4; lia).
      unfold J; cbn [fst snd]. split; [now rewrite !upd_length|]. split.
      { rewrite Z.rem_mod_nonneg by lia. rewrite Eb, Z.mul_mod_idemp_l by lia. replace (Z.of_nat (S q)) with (Z.of_nat q + 1) by lia. rewrite Z.pow_add_r by lia. reflexivity. }
      assert (forall j, 0 <= j < M -> nthZ (upd (upd m (Z.to_nat b) (Z.of_nat q)) (Z.to_nat (M - b)) (- Z.of_nat q)) (Z.to_nat j) = if j =? M - b then - Z.of_nat q else if j =? b then Z.of_nat q else nthZ m (Z.to_nat j)) as EV.
      { intros j Hj. rewrite !nthZ_upd by (rewrite ?upd_length, L; lia).
        destruct (Z.eqb_spec j (M - b)) as [->|H1]; [now rewrite Nat.eqb_refl|]. destruct (Nat.eqb_spec (Z.to_nat j) (Z.to_nat (M - b))); [lia|].
        destruct (Z.eqb_spec j b) as [->|H2]; [now rewrite Nat.eqb_refl|]. destruct (Nat.eqb_spec (Z.to_nat j) (Z.to_nat b)); [lia|reflexivity]. }
      intros j i Hj Hi. rewrite EV by exact Hj. split; intros Hji.
      + assert (j mod 4 = 1) as J4 by (rewrite (mod4_M _ _ Hji); apply five_mod4; lia).
        destruct (Z.eqb_spec j (M - b)) as [->|H1]; [exfalso; clear - J4 B4 Eh; pose proof (Z.div_mod b 4 ltac:(lia)); pose proof (Z.div_mod (M - b) 4 ltac:(lia)); lia|].
        destruct (Z.eqb_spec j b) as [->|H2]; [exists q; split; [lia|]; split; [reflexivity|exact Qb]|].
        destruct (Nat.eq_dec i q) as [->|Hne].
        * exfalso. apply H2. apply (eqm_small M); [rewrite Hji, Qb; reflexivity|lia|lia].
        * destruct (proj1 (HJ j i Hj ltac:(lia)) Hji) as (i' & Hi' & E1 & E2). exists i'. split; [lia|]. split; assumption.
      + assert (j mod 4 = 3) as J4. { rewrite (mod4_M _ _ Hji). pose proof (five_mod4 (Z.of_nat i) ltac:(lia)) as F. pose proof (Z.div_mod (5 ^ Z.of_nat i) 4 ltac:(lia)) as D. rewrite F in D. symmetry. apply (Z.mod_unique _ _ (- (5 ^ Z.of_nat i / 4) - 1)); lia. }
        destruct (Z.eqb_spec j (M - b)) as [->|H1].
        { exists q. split; [lia|]. split; [reflexivity|]. destruct Qb as (c & Ec). exists (1 - c). lia. }
        destruct (Z.eqb_spec j b) as [->|H2]; [rewrite B4 in J4; discriminate|].
        destruct (Nat.eq_dec i q) as [->|Hne].
        * exfalso. apply H1. apply (eqm_small M); [rewrite Hji|lia|lia]. destruct Qb as (c & Ec). exists (c - 1). lia.
        * destruct (proj2 (HJ j i Hj ltac:(lia)) Hji) as (i' & Hi' & E1 & E2). exists i'. split; [lia|]. split; assumption. }
  match goal with |- entry_ok (nthZ (let '(_, _) := ?g in _) _) _ => destruct g as (m, b) end. destruct X as (L & _ & HJ). cbn [fst snd] in *.
  assert (nthZ (upd m (2 * N - 1) M) (Z.to_nat a) = if a =? M - 1 then M else nthZ m (Z.to_nat a)) as ->.
  { rewrite nthZ_upd by lia. destruct (Z.eqb_spec a (M - 1)), (Nat.eqb_spec (Z.to_nat a) (2 * N - 1)); lia || reflexivity. }
  assert (a mod 4 = 1 \/ a mod 4 = 3) as [A4|A4].
  { pose proof (Z.mod_pos_bound a 4 ltac:(lia)). pose proof (Z.div_mod a 4 ltac:(lia)) as D. apply Zodd_bool_iff in Ho. apply Zodd_ex in Ho. destruct Ho as (c & Ec). lia. }
  - destruct (five_log (Z.to_nat (n - 1)) a A4) as (i & Hi & Qi). rewrite Z2Nat.id in * by lia. replace (n - 1 + 2) with (n + 1) in Qi by lia. rewrite tM in Qi. rewrite <- Eh' in Hi.
    destruct (Z.eqb_spec a (M - 1)) as [->|Hne].
    { exfalso. pose proof (Z.div_mod (M - 1) 4 ltac:(lia)). lia. }
    rewrite <- (Z2Nat.id i) in Qi by lia. destruct (proj1 (HJ a (Z.to_nat i) Ha ltac:(lia)) Qi) as (i' & Hi' & -> & E2).
    destruct i' as [|i']; [right; right; right; split; [reflexivity|exact E2]|left; exists (S i'); split; [lia|]; split; [reflexivity|exact E2]].
  - destruct (Z.eqb_spec a (M - 1)) as [->|Hne]; [right; right; left; split; [reflexivity|]; exists 1; lia|].
    assert ((- a) mod 4 = 1) as N4. { pose proof (Z.div_mod a 4 ltac:(lia)) as D. symmetry. apply (Z.mod_unique _ _ (- (a / 4) - 1)); lia. }
    destruct (five_log (Z.to_nat (n - 1)) (- a) N4) as (i & Hi & (c & Ec)). rewrite Z2Nat.id in * by lia. replace (n - 1 + 2) with (n + 1) in Ec by lia. rewrite tM in Ec. rewrite <- Eh' in Hi.
    assert (eqm M a (- 5 ^ Z.of_nat (Z.to_nat i))) as Qi by (rewrite Z2Nat.id by lia; exists (- c); lia).
    destruct (proj2 (HJ a (Z.to_nat i) Ha ltac:(lia)) Qi) as (i' & Hi' & -> & E2).
    destruct i' as [|i']; [exfalso; apply Hne; apply (eqm_small M); [rewrite E2; exists (-1); cbn; lia|lia|lia]|right; left; exists (S i'); split; [lia|]; split; [reflexivity|exact E2]].
Qed.
End Table.
