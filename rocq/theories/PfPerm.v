(** Lemmas on PermutePoly: the substitution X -> X^d. *)
From Verif Require Import Base NegaRing ModelNum ModelVec ModelPoly SpecNum SpecPoly PfNum PfPoly.

(** A loop writing pairwise distinct cells. *)
Lemma forN_upd_inj {A} (d : A) n (idx : nat -> nat) (val : nat -> A -> A) l :
  (forall i, (i < n)%nat -> (idx i < length l)%nat) ->
  (forall i j, (i < n)%nat -> (j < n)%nat -> idx i = idx j -> i = j) ->
  let r := forN 0 n (fun i s => upd s (idx i) (val i (nth (idx i) s d))) l in
  length r = length l /\
  (forall i, (i < n)%nat -> nth (idx i) r d = val i (nth (idx i) l d)) /\
  (forall k, (forall i, (i < n)%nat -> idx i <> k) -> nth k r d = nth k l d).
Proof.
  intros Hr Hi r. unfold r.
  set (P := fun m (s : list A) => length s = length l /\
     (forall i, (i < m)%nat -> nth (idx i) s d = val i (nth (idx i) l d)) /\
     (forall k, (forall i, (i < m)%nat -> idx i <> k) -> nth k s d = nth k l d)).
  apply (forN_ind P); unfold P.
  - split; [reflexivity|]. split; [intros; lia|reflexivity].
  - intros t s Ht (Ls & H1 & H2). cbn [Nat.add]. split; [now rewrite upd_length|]. split.
    + intros i Hit. destruct (Nat.eq_dec i t) as [->|Hne].
      * rewrite nth_upd_same by (rewrite Ls; apply Hr; lia). rewrite H2; [reflexivity|].
        intros i Hi' Heq. apply Hi in Heq; lia.
      * rewrite nth_upd_other; [apply H1; lia|]. intros Heq. apply Hi in Heq; lia.
    + intros k Hk. rewrite nth_upd_other by (intros ->; apply (Hk t); [lia|reflexivity]).
      apply H2. intros i Hi'. apply Hk. lia.
Qed.

Lemma odd_inverse d n : 0 <= n -> Z.odd d = true -> exists h, eqm (2 * 2 ^ n) (d * (2 * h + 1)) 1.
Proof.
  intros Hn Hd.
  assert (Hrp : rel_prime d (2 ^ (n + 1))).
  { apply rel_prime_Zpower_r; [lia|]. apply rel_prime_sym. apply prime_rel_prime; [apply prime_2|].
    intros Hdiv. apply Zdivide_mod in Hdiv. rewrite Zmod_odd, Hd in Hdiv. discriminate. }
  destruct (rel_prime_bezout _ _ Hrp) as [u v Huv].
  rewrite Z.pow_add_r in Huv by lia. change (2 ^ 1) with 2 in Huv.
  destruct (Z.odd u) eqn:Hu.
  - exists (u / 2). pose proof (Z_div_mod_eq_full u 2) as Eu. rewrite Zmod_odd, Hu in Eu.
    rewrite <- Eu. exists (- v). lia.
  - exfalso. pose proof (Z_div_mod_eq_full u 2) as Eu. rewrite Zmod_odd, Hu in Eu.
    assert (2 * (u / 2 * d + v * 2 ^ n) = 1) as Hbad. { rewrite <- Huv. rewrite Eu at 2. ring. }
    lia.
Qed.

Section Perm.
Variable N : nat.
Variable n : Z.
Hypothesis Hn : 0 <= n <= 62.
Hypothesis HNn : Z.of_nat N = 2 ^ n.
Notation NZ := (Z.of_nat N).

Lemma Npos : (0 < N)%nat.
Proof. pose proof (pow2_pos n ltac:(lia)). lia. Qed.

Lemma div64 : (2 * NZ | 2 ^ 64).
Proof.
  exists (2 ^ (63 - n)). rewrite HNn. rewrite <- Z.pow_succ_r, <- Z.pow_add_r by lia. f_equal. lia.
Qed.

Definition pj (d : Z) (i : nat) : Z := Z.land (swrap 64 (d * Z.of_nat i)) (2 * NZ - 1).

Lemma pj_eq d i : pj d i = (d * Z.of_nat i) mod (2 * NZ).
Proof.
  unfold pj. rewrite (land_mask N Npos _ n) by (try lia; assumption).
  apply eqm_mod_eq. apply (eqm_divide (2 ^ 64)); [apply div64|]. apply swrap_eqm.
Qed.

Definition pidx (d : Z) (i : nat) : nat := Z.to_nat (if pj d i <? NZ then pj d i else pj d i - NZ).

Lemma pj_range d i : 0 <= pj d i < 2 * NZ.
Proof. rewrite pj_eq. apply Z.mod_pos_bound. pose proof Npos; lia. Qed.
Lemma pidx_lt d i : (pidx d i < N)%nat.
Proof. unfold pidx. pose proof (pj_range d i). destruct (Z.ltb_spec (pj d i) NZ); lia. Qed.

Lemma pidx_eqm d i : eqm NZ (Z.of_nat (pidx d i)) (d * Z.of_nat i).
Proof.
  pose proof (pj_range d i) as H. pose proof (pj_eq d i) as E.
  assert (eqm (2 * NZ) (pj d i) (d * Z.of_nat i)) as [k Hk] by (rewrite E; apply eqm_mod).
  unfold pidx. destruct (Z.ltb_spec (pj d i) NZ); rewrite Z2Nat.id by lia.
  - exists (2 * k). lia.
  - exists (2 * k - 1). lia.
Qed.

Lemma pidx_inj d : Z.odd d = true ->
  forall i j, (i < N)%nat -> (j < N)%nat -> pidx d i = pidx d j -> i = j.
Proof.
  intros Hd i j Hi Hj H.
  destruct (odd_inverse d n ltac:(lia) Hd) as [h [k Hk]].
  assert (eqm NZ (d * Z.of_nat i) (d * Z.of_nat j)) as [q Hq].
  { rewrite <- (pidx_eqm d i), <- (pidx_eqm d j), H. reflexivity. }
  assert (Z.of_nat i = Z.of_nat j); [|lia].
  apply (eqm_small NZ); [|lia|lia].
  exists ((2 * h + 1) * q - 2 * k * (Z.of_nat i - Z.of_nat j)).
  rewrite <- HNn in Hk.
  transitivity ((2 * h + 1) * (d * Z.of_nat i - d * Z.of_nat j) - (d * (2 * h + 1) - 1) * (Z.of_nat i - Z.of_nat j));
    [ring|]. rewrite Hq, Hk. ring.
Qed.

(** What position k receives. *)
Lemma pidx_hits d h (p : npoly N) k : eqm (2 * NZ) (d * (2 * h + 1)) 1 -> (k < N)%nat ->
  exists i, (i < N)%nat /\ pidx d i = k /\
    cf (dilate h p) (Z.of_nat k) = if pj d i <? NZ then cf p (Z.of_nat i) else - cf p (Z.of_nat i).
Proof.
  intros [q Hq] Hk. pose proof Npos as HN.
  cbn [cf dilate].
  destruct (cf_reduce p ((2 * h + 1) * Z.of_nat k) HN) as (i & Hi & [[[j Hj] Hp]|[[j Hj] Hp]]); exists i; split; try exact Hi.
  - assert (E : pj d i = Z.of_nat k).
    { rewrite pj_eq. symmetry. apply Z.mod_unique with (q * Z.of_nat k - d * j); [lia|].
      replace (Z.of_nat i) with ((2 * h + 1) * Z.of_nat k - 2 * j * NZ) by lia.
      replace (d * ((2 * h + 1) * Z.of_nat k - 2 * j * NZ)) with
        ((d * (2 * h + 1) - 1) * Z.of_nat k + Z.of_nat k - d * 2 * j * NZ) by ring.
      rewrite Hq. ring. }
    unfold pidx. rewrite E. destruct (Z.ltb_spec (Z.of_nat k) NZ); [|lia]. split; [lia|exact Hp].
  - assert (E : pj d i = Z.of_nat k + NZ).
    { rewrite pj_eq. assert (Hod : Z.odd d = true).
      { assert (Z.odd (d * (2 * h + 1)) = true) as Ho.
        { replace (d * (2 * h + 1)) with (1 + 2 * (q * NZ)) by lia. rewrite Z.odd_add_mul_2. reflexivity. }
        rewrite Z.odd_mul in Ho. apply andb_prop in Ho. tauto. }
      pose proof (Z_div_mod_eq_full d 2) as Ed. rewrite Zmod_odd, Hod in Ed.
      set (d2 := d / 2) in *.
      symmetry. apply Z.mod_unique with (q * Z.of_nat k - d * j - d2 - 1); [lia|].
      replace (Z.of_nat i) with ((2 * h + 1) * Z.of_nat k - (2 * j + 1) * NZ) by lia.
      replace (d * ((2 * h + 1) * Z.of_nat k - (2 * j + 1) * NZ)) with
        ((d * (2 * h + 1) - 1) * Z.of_nat k + Z.of_nat k - d * 2 * j * NZ - d * NZ) by ring.
      rewrite Hq. rewrite Ed at 2. ring. }
    unfold pidx. rewrite E. destruct (Z.ltb_spec (Z.of_nat k + NZ) NZ); [lia|]. split; [lia|exact Hp].
Qed.

(** The three loops, through one scheme: [acc b o x] combines the old value o with (-1)^b x. *)
Lemma perm_loop (acc : bool -> Z -> Z -> Z) d out p :
  Z.odd d = true -> length out = N ->
  let r := forN 0 N (fun i s => upd s (pidx d i) (acc (pj d i <? NZ) (nth (pidx d i) s 0) (nthZ p i))) out in
  length r = N /\
  forall h k, eqm (2 * NZ) (d * (2 * h + 1)) 1 -> (k < N)%nat ->
    exists i, (i < N)%nat /\
      nthZ r k = acc (pj d i <? NZ) (nthZ out k) (nthZ p i) /\
      cf (dilate h (pol N p)) (Z.of_nat k) = if pj d i <? NZ then nthZ p i else - nthZ p i.
Proof.
  intros Hd Ho r.
  destruct (forN_upd_inj 0 N (pidx d) (fun i o => acc (pj d i <? NZ) o (nthZ p i)) out) as (L & H1 & _).
  { intros; rewrite Ho; apply pidx_lt. }
  { apply pidx_inj; exact Hd. }
  split; [unfold r; lia|]. intros h k Hh Hk.
  destruct (pidx_hits d h (pol N p) k Hh Hk) as (i & Hi & E & Hc). exists i. split; [exact Hi|]. split.
  - rewrite <- E. unfold r, nthZ at 1. rewrite H1 by exact Hi. reflexivity.
  - rewrite Hc, cf_pol_at by (try apply Npos; exact Hi). reflexivity.
Qed.

Lemma land1_odd d : Z.odd d = true -> (Z.land d 1 =? 0) = false.
Proof. intros H. rewrite land_1, Zmod_odd, H. reflexivity. Qed.
Lemma land1_even d : Z.odd d = false -> (Z.land d 1 =? 0) = true.
Proof. intros H. rewrite land_1, Zmod_odd, H. reflexivity. Qed.

Lemma upd_pj {d i} (o : list Z) x y :
  (if pj d i <? NZ then upd o (Z.to_nat (pj d i)) x else upd o (Z.to_nat (pj d i - NZ)) y)
  = upd o (pidx d i) (if pj d i <? NZ then x else y).
Proof. unfold pidx. destruct (pj d i <? NZ); reflexivity. Qed.

Lemma PermutePolyTo_unfold w out p d : Z.odd d = true ->
  PermutePolyTo w N out p d =
  Some (forN 0 N (fun i s => upd s (pidx d i) ((fun (b : bool) (o x : Z) => if b then x else wrap w (- x)) (pj d i <? NZ) (nth (pidx d i) s 0) (nthZ p i))) out).
Proof.
  intros Hd. unfold PermutePolyTo. rewrite land1_odd by exact Hd. f_equal.
  apply forN_ext. intros i s _. cbn zeta. apply upd_pj.
Qed.
Lemma PermuteAddPolyTo_unfold w out p d : Z.odd d = true ->
  PermuteAddPolyTo w N out p d =
  Some (forN 0 N (fun i s => upd s (pidx d i) ((fun (b : bool) (o x : Z) => if b then wrap w (o + x) else wrap w (o - x)) (pj d i <? NZ) (nth (pidx d i) s 0) (nthZ p i))) out).
Proof.
  intros Hd. unfold PermuteAddPolyTo. rewrite land1_odd by exact Hd. f_equal.
  apply forN_ext. intros i s _. cbn zeta. unfold pidx, pj.
  match goal with |- context [?a <? NZ] => destruct (a <? NZ) end; reflexivity.
Qed.
Lemma PermuteSubPolyTo_unfold w out p d : Z.odd d = true ->
  PermuteSubPolyTo w N out p d =
  Some (forN 0 N (fun i s => upd s (pidx d i) ((fun (b : bool) (o x : Z) => if b then wrap w (o - x) else wrap w (o + x)) (pj d i <? NZ) (nth (pidx d i) s 0) (nthZ p i))) out).
Proof.
  intros Hd. unfold PermuteSubPolyTo. rewrite land1_odd by exact Hd. f_equal.
  apply forN_ext. intros i s _. cbn zeta. unfold pidx, pj.
  match goal with |- context [?a <? NZ] => destruct (a <? NZ) end; reflexivity.
Qed.

Lemma PermutePolyTo_spec w out p d : 0 <= w -> Z.odd d = true -> length out = N -> wpoly w N p ->
  exists r, PermutePolyTo w N out p d = Some r /\ wpoly w N r /\
    peq (2 ^ w) (pol N r) (psubst d (pol N p)).
Proof.
  intros Hw Hd Ho Hp. rewrite (PermutePolyTo_unfold w out p d Hd). eexists; split; [reflexivity|].
  destruct (odd_inverse d n ltac:(lia) Hd) as [h Hh]. rewrite <- HNn in Hh.
  destruct (perm_loop (fun (b : bool) (o x : Z) => if b then x else wrap w (- x)) d out p Hd Ho) as [L H].
  split.
  - split; [exact L|]. apply (list_of_nth N Npos); [exact L|]. intros k Hk.
    destruct (H h k Hh Hk) as (i & Hi & -> & _). destruct (pj d i <? NZ); [|now apply wrap_range].
    now apply (nth_word N Npos w).
  - rewrite (psubst_dilate _ d h _ Npos Hh). apply pol_peq; [exact Npos|]. intros k Hk.
    destruct (H h k Hh Hk) as (i & Hi & -> & ->). destruct (pj d i <? NZ); [reflexivity|apply wrap_eqm].
Qed.

(** The old output does not matter (every cell is written). *)
Lemma PermutePolyTo_indep w out out' p d : Z.odd d = true -> length out = N -> length out' = N ->
  PermutePolyTo w N out p d = PermutePolyTo w N out' p d.
Proof.
  intros Hd Ho Ho'. rewrite !(PermutePolyTo_unfold w _ p d Hd). f_equal.
  destruct (odd_inverse d n ltac:(lia) Hd) as [h Hh]. rewrite <- HNn in Hh.
  set (acc := fun (b : bool) (o x : Z) => if b then x else wrap w (- x)).
  destruct (forN_upd_inj 0 N (pidx d) (fun i o => acc (pj d i <? NZ) o (nthZ p i)) out) as (L & H1 & _);
    [intros; rewrite Ho; apply pidx_lt|apply pidx_inj; exact Hd|].
  destruct (forN_upd_inj 0 N (pidx d) (fun i o => acc (pj d i <? NZ) o (nthZ p i)) out') as (L' & H1' & _);
    [intros; rewrite Ho'; apply pidx_lt|apply pidx_inj; exact Hd|].
  apply (list_ext 0).
  { transitivity (length out); [exact L|]. transitivity (length out'); [congruence|]. symmetry. exact L'. }
  intros k Hk. assert (Hk' : (k < N)%nat) by (eapply Nat.lt_le_trans; [exact Hk|]; apply Nat.eq_le_incl; transitivity (length out); [exact L|exact Ho]).
  destruct (pidx_hits d h (pol N p) k Hh Hk') as (i & Hi & <- & _).
  etransitivity; [exact (H1 i Hi)|]. symmetry. exact (H1' i Hi).
Qed.

Lemma PermuteAddPolyTo_spec w out p d : 0 <= w -> Z.odd d = true -> length out = N -> wpoly w N p ->
  exists r, PermuteAddPolyTo w N out p d = Some r /\ wpoly w N r /\
    peq (2 ^ w) (pol N r) (padd (pol N out) (psubst d (pol N p))).
Proof.
  intros Hw Hd Ho Hp. rewrite (PermuteAddPolyTo_unfold w out p d Hd). eexists; split; [reflexivity|].
  destruct (odd_inverse d n ltac:(lia) Hd) as [h Hh]. rewrite <- HNn in Hh.
  destruct (perm_loop (fun (b : bool) (o x : Z) => if b then wrap w (o + x) else wrap w (o - x)) d out p Hd Ho) as [L H].
  split.
  - split; [exact L|]. apply (list_of_nth N Npos); [exact L|]. intros k Hk.
    destruct (H h k Hh Hk) as (i & Hi & -> & _). destruct (pj d i <? NZ); now apply wrap_range.
  - rewrite (psubst_dilate _ d h _ Npos Hh). apply pol_peq; [exact Npos|]. intros k Hk. cbn [cf padd].
    fold (cf (dilate h (pol N p)) (Z.of_nat k)). fold (cf (pol N out) (Z.of_nat k)).
    destruct (H h k Hh Hk) as (i & Hi & -> & Hc).
    change (cf (pol N p) ((2 * h + 1) * Z.of_nat k)) with (cf (dilate h (pol N p)) (Z.of_nat k)).
    rewrite Hc, cf_pol_at by (try apply Npos; exact Hk).
    destruct (pj d i <? NZ); rewrite wrap_eqm; apply eqm_eq; lia.
Qed.
Lemma PermuteSubPolyTo_spec w out p d : 0 <= w -> Z.odd d = true -> length out = N -> wpoly w N p ->
  exists r, PermuteSubPolyTo w N out p d = Some r /\ wpoly w N r /\
    peq (2 ^ w) (pol N r) (psub (pol N out) (psubst d (pol N p))).
Proof.
  intros Hw Hd Ho Hp. rewrite (PermuteSubPolyTo_unfold w out p d Hd). eexists; split; [reflexivity|].
  destruct (odd_inverse d n ltac:(lia) Hd) as [h Hh]. rewrite <- HNn in Hh.
  destruct (perm_loop (fun (b : bool) (o x : Z) => if b then wrap w (o - x) else wrap w (o + x)) d out p Hd Ho) as [L H].
  split.
  - split; [exact L|]. apply (list_of_nth N Npos); [exact L|]. intros k Hk.
    destruct (H h k Hh Hk) as (i & Hi & -> & _). destruct (pj d i <? NZ); now apply wrap_range.
  - rewrite (psubst_dilate _ d h _ Npos Hh). apply pol_peq; [exact Npos|]. intros k Hk. cbn [cf psub].
    destruct (H h k Hh Hk) as (i & Hi & -> & Hc).
    change (cf (pol N p) ((2 * h + 1) * Z.of_nat k)) with (cf (dilate h (pol N p)) (Z.of_nat k)).
    rewrite Hc, cf_pol_at by (try apply Npos; exact Hk).
    destruct (pj d i <? NZ); rewrite wrap_eqm; apply eqm_eq; lia.
Qed.

Lemma Permute_even w out p d : Z.odd d = false ->
  PermutePolyTo w N out p d = None /\ PermuteAddPolyTo w N out p d = None /\ PermuteSubPolyTo w N out p d = None.
Proof.
  intros H. unfold PermutePolyTo, PermuteAddPolyTo, PermuteSubPolyTo. rewrite (land1_even d H). auto.
Qed.

(** psubst is a ring automorphism. *)
Lemma psubst_mul Q d (p q : npoly N) : Z.odd d = true -> peq Q (psubst d (pmul p q)) (pmul (psubst d p) (psubst d q)).
Proof.
  intros Hd. destruct (odd_inverse d n ltac:(lia) Hd) as [h Hh]. rewrite <- HNn in Hh.
  rewrite !(psubst_dilate _ d h _ Npos Hh). apply dilate_mul. apply (odd_inv_gcd d h Hh).
Qed.
Lemma psubst_proper Q d (p q : npoly N) : Z.odd d = true -> peq Q p q -> peq Q (psubst d p) (psubst d q).
Proof.
  intros Hd H. destruct (odd_inverse d n ltac:(lia) Hd) as [h Hh]. rewrite <- HNn in Hh.
  rewrite !(psubst_dilate _ d h _ Npos Hh). now apply dilate_proper.
Qed.
Lemma psubst_add Q d (p q : npoly N) : Z.odd d = true -> peq Q (psubst d (padd p q)) (padd (psubst d p) (psubst d q)).
Proof.
  intros Hd. destruct (odd_inverse d n ltac:(lia) Hd) as [h Hh]. rewrite <- HNn in Hh.
  rewrite !(psubst_dilate _ d h _ Npos Hh). intro k; reflexivity.
Qed.
Lemma psubst_sub Q d (p q : npoly N) : Z.odd d = true -> peq Q (psubst d (psub p q)) (psub (psubst d p) (psubst d q)).
Proof.
  intros Hd. destruct (odd_inverse d n ltac:(lia) Hd) as [h Hh]. rewrite <- HNn in Hh.
  rewrite !(psubst_dilate _ d h _ Npos Hh). intro k; reflexivity.
Qed.
Lemma psubst_scale Q d c (p : npoly N) : Z.odd d = true -> peq Q (psubst d (pscale c p)) (pscale c (psubst d p)).
Proof.
  intros Hd. destruct (odd_inverse d n ltac:(lia) Hd) as [h Hh]. rewrite <- HNn in Hh.
  rewrite !(psubst_dilate _ d h _ Npos Hh). intro k; reflexivity.
Qed.
Lemma psubst_compose Q d e (p : npoly N) : Z.odd d = true -> Z.odd e = true ->
  peq Q (psubst e (psubst d p)) (psubst (d * e) p).
Proof.
  intros Hd He. destruct (odd_inverse d n ltac:(lia) Hd) as [h Hh]. rewrite <- HNn in Hh.
  destruct (odd_inverse e n ltac:(lia) He) as [g Hg]. rewrite <- HNn in Hg.
  rewrite (psubst_dilate _ e g _ Npos Hg). rewrite (dilate_proper Q g _ _ (psubst_dilate Q d h p Npos Hh)).
  assert (Hhg : eqm (2 * NZ) (d * e * (2 * (2 * h * g + h + g) + 1)) 1).
  { replace (d * e * (2 * (2 * h * g + h + g) + 1)) with ((d * (2 * h + 1)) * (e * (2 * g + 1))) by ring.
    rewrite Hh, Hg. reflexivity. }
  rewrite (psubst_dilate _ (d * e) _ _ Npos Hhg). intro k. cbn [cf dilate]. apply eqm_eq. f_equal. ring.
Qed.
Lemma psubst_1mod Q d (p : npoly N) : eqm (2 * NZ) d 1 -> peq Q (psubst d p) p.
Proof.
  intros Hd. assert (Hh : eqm (2 * NZ) (d * (2 * 0 + 1)) 1) by (rewrite Hd; reflexivity).
  rewrite (psubst_dilate _ d 0 _ Npos Hh). intro k. cbn [cf dilate]. apply eqm_eq. f_equal. lia.
Qed.
Lemma psubst_eqm Q d e (p : npoly N) : eqm (2 * NZ) d e -> peq Q (psubst d p) (psubst e p).
Proof.
  intros H. unfold psubst. apply psum_proper. intros i Hi. apply pscale_proper; [reflexivity|].
  apply pmono_eqm. rewrite H. reflexivity.
Qed.
Lemma psubst_mono Q d k : Z.odd d = true -> peq Q (psubst d (@pmono N k)) (pmono (d * k)).
Proof.
  intros Hd. destruct (odd_inverse d n ltac:(lia) Hd) as [h Hh]. rewrite <- HNn in Hh.
  rewrite (psubst_dilate _ d h _ Npos Hh).
  intro j. cbn [cf dilate pmono pshift pone]. apply eqm_eq.
  pose proof (dilate_one h Npos (odd_inv_gcd d h Hh) (j - d * k)) as H1. apply eqm0_eq in H1.
  cbn [cf dilate pone] in H1. rewrite <- H1.
  change (cf (@pone N) ((2 * h + 1) * j - k) = cf (@pone N) ((2 * h + 1) * (j - d * k))).
  apply cf_eqm2N. destruct Hh as [q Hq]. exists (q * k).
  replace ((2 * h + 1) * j - k - (2 * h + 1) * (j - d * k)) with ((d * (2 * h + 1) - 1) * k) by ring.
  rewrite Hq; ring.
Qed.
Lemma psubst_opp Q d (p : npoly N) : Z.odd d = true -> peq Q (psubst d (popp p)) (popp (psubst d p)).
Proof.
  intros Hd. destruct (odd_inverse d n ltac:(lia) Hd) as [h Hh]. rewrite <- HNn in Hh.
  rewrite !(psubst_dilate _ d h _ Npos Hh). intro k; reflexivity.
Qed.
Lemma psubst_one Q d : Z.odd d = true -> peq Q (psubst d (@pone N)) pone.
Proof.
  intros Hd. rewrite <- (psubst_proper Q d _ _ Hd (pmono_0 Q)), psubst_mono by exact Hd.
  rewrite Z.mul_0_r. apply pmono_0.
Qed.

Lemma Permute_compose w o1 o2 o3 p d e r1 r2 : 0 <= w -> Z.odd d = true -> Z.odd e = true ->
  length o1 = N -> length o2 = N -> length o3 = N -> wpoly w N p ->
  PermutePolyTo w N o1 p d = Some r1 -> PermutePolyTo w N o2 r1 e = Some r2 ->
  PermutePolyTo w N o3 p (d * e) = Some r2.
Proof.
  intros Hw Hd He H1 H2 H3 Hp E1 E2.
  destruct (PermutePolyTo_spec w o1 p d Hw Hd H1 Hp) as (r1' & E1' & W1 & P1).
  rewrite E1 in E1'. injection E1' as <-.
  destruct (PermutePolyTo_spec w o2 r1 e Hw He H2 W1) as (r2' & E2' & W2 & P2).
  rewrite E2 in E2'. injection E2' as <-.
  assert (Hde : Z.odd (d * e) = true) by (rewrite Z.odd_mul, Hd, He; reflexivity).
  destruct (PermutePolyTo_spec w o3 p (d * e) Hw Hde H3 Hp) as (r3 & E3 & W3 & P3).
  rewrite E3. f_equal. apply (pol_inj N Npos w _ _ W3 W2). rewrite P3, P2.
  rewrite (psubst_proper _ e _ _ He P1). symmetry. now apply psubst_compose.
Qed.

Lemma Permute_inverse w o1 o2 p d e r1 : 0 <= w -> Z.odd d = true -> Z.odd e = true ->
  eqm (2 * NZ) (d * e) 1 -> length o1 = N -> length o2 = N -> wpoly w N p ->
  PermutePolyTo w N o1 p d = Some r1 -> PermutePolyTo w N o2 r1 e = Some p.
Proof.
  intros Hw Hd He Hi H1 H2 Hp E1.
  destruct (PermutePolyTo_spec w o1 p d Hw Hd H1 Hp) as (r1' & E1' & W1 & P1).
  rewrite E1 in E1'. injection E1' as <-.
  destruct (PermutePolyTo_spec w o2 r1 e Hw He H2 W1) as (r2 & E2 & W2 & P2).
  rewrite E2. f_equal. apply (pol_inj N Npos w _ _ W2 Hp). rewrite P2.
  rewrite (psubst_proper _ e _ _ He P1), psubst_compose by assumption. now apply psubst_1mod.
Qed.

End Perm.
