(** Lemmas on split multiplication (math/poly/poly_mul.go). *)
From Verif Require Import Base NegaRing ModelNum ModelVec ModelPoly SpecNum SpecPoly PfNum PfPoly.

(* ------------------------------------------------------------------ *)
(** ** Digits *)

Lemma digitU_eq w sb i x : 0 <= sb -> digitU w sb i x = (x / 2 ^ (Z.of_nat i * sb)) mod 2 ^ sb.
Proof.
  intros. unfold digitU. rewrite Z.shiftr_div_pow2 by nia.
  rewrite <- Z.land_ones by lia. rewrite Z.ones_equiv. reflexivity.
Qed.

Lemma digitU_sum w sb x m : 0 <= sb -> 
  zsum m (fun i => digitU w sb i x * 2 ^ (Z.of_nat i * sb)) = x mod 2 ^ (Z.of_nat m * sb).
Proof.
  intros Hsb. induction m as [|m IH].
  - cbn [zsum]. rewrite Z.mul_0_l, Z.pow_0_r, Z.mod_1_r. reflexivity.
  - cbn [zsum]. rewrite IH, digitU_eq by lia.
    replace (Z.of_nat (S m) * sb) with (Z.of_nat m * sb + sb) by lia.
    rewrite Z.pow_add_r by lia.
    pose proof (pow2_pos (Z.of_nat m * sb) ltac:(lia)). pose proof (pow2_pos sb ltac:(lia)).
    rewrite Z.rem_mul_r by lia. ring.
Qed.

Lemma swrap_pow_rem w sb a : 0 <= sb < w -> Z.rem a (swrap w (2 ^ sb)) = Z.rem a (2 ^ sb).
Proof.
  intros H. destruct (Z.eq_dec sb (w - 1)) as [->|Hne].
  - assert (E : swrap w (2 ^ (w - 1)) = - 2 ^ (w - 1)).
    { unfold swrap. replace (2 ^ (w - 1) + 2 ^ (w - 1)) with (2 ^ w).
      - rewrite Z.mod_same; [lia|]. pose proof (pow2_pos w); lia.
      - replace w with (Z.succ (w - 1)) at 1 by lia. rewrite Z.pow_succ_r by lia. lia. }
    rewrite E. pose proof (pow2_pos (w - 1) ltac:(lia)). apply Z.rem_opp_r. lia.
  - rewrite swrap_small; [reflexivity|lia|]. unfold sword.
    pose proof (pow2_pos sb ltac:(lia)).
    assert (2 ^ sb < 2 ^ (w - 1)) by (apply Z.pow_lt_mono_r; lia). lia.
Qed.

Lemma swrap_pow_small w e : 0 <= e < w - 1 -> swrap w (2 ^ e) = 2 ^ e.
Proof.
  intros H. rewrite swrap_small; [reflexivity|lia|]. unfold sword.
  pose proof (pow2_pos e ltac:(lia)).
  assert (2 ^ e < 2 ^ (w - 1)) by (apply Z.pow_lt_mono_r; lia). lia.
Qed.

Lemma quot_sword w x b : 0 < w -> 0 < b -> sword w x -> sword w (Z.quot x b).
Proof.
  intros Hw Hb [H1 H2]. unfold sword.
  pose proof (pow2_pos (w - 1) ltac:(lia)) as HP. set (P := 2 ^ (w - 1)) in *.
  destruct (Z_le_gt_dec 0 x).
  - pose proof (Z.quot_pos x b ltac:(lia) ltac:(lia)).
    rewrite Z.quot_div_nonneg in * by lia.
    assert (x / b <= x) by (apply Z.div_le_upper_bound; nia). lia.
  - replace x with (- (- x)) by lia. rewrite Z.quot_opp_l by lia.
    pose proof (Z.quot_pos (- x) b ltac:(lia) ltac:(lia)).
    rewrite Z.quot_div_nonneg in * by lia.
    assert ((- x) / b <= - x) by (apply Z.div_le_upper_bound; nia). lia.
Qed.

Lemma digitS_small w sb i x : 0 <= sb < w -> 0 <= Z.of_nat i * sb < w - 1 -> sword w x ->
  digitS w sb i x = Z.rem (Z.quot x (2 ^ (Z.of_nat i * sb))) (2 ^ sb).
Proof.
  intros Hsb Hi Hx. unfold digitS. rewrite swrap_pow_rem by lia.
  rewrite (swrap_pow_small w (Z.of_nat i * sb)) by lia.
  rewrite swrap_small; [reflexivity|lia|]. apply quot_sword; [lia| |exact Hx]. apply pow2_pos; lia.
Qed.

Lemma digitS_partial w sb x m : 0 <= sb < w -> sword w x ->
  (m = 0%nat \/ Z.of_nat (m - 1) * sb < w - 1) ->
  zsum m (fun i => digitS w sb i x * 2 ^ (Z.of_nat i * sb)) + Z.quot x (2 ^ (Z.of_nat m * sb)) * 2 ^ (Z.of_nat m * sb) = x.
Proof.
  intros Hsb Hx. induction m as [|m IH]; intros Hm.
  - cbn [zsum]. rewrite Z.mul_0_l, Z.pow_0_r, Z.quot_1_r. lia.
  - cbn [zsum]. assert (Hm' : Z.of_nat m * sb < w - 1).
    { destruct Hm as [Hm|Hm]; [lia|]. replace (S m - 1)%nat with m in Hm by lia. exact Hm. }
    rewrite digitS_small; [|lia|split; [apply Z.mul_nonneg_nonneg; lia|exact Hm']|exact Hx].
    replace (Z.of_nat (S m) * sb) with (Z.of_nat m * sb + sb) by lia.
    rewrite Z.pow_add_r by lia.
    pose proof (pow2_pos (Z.of_nat m * sb) ltac:(lia)). pose proof (pow2_pos sb ltac:(lia)).
    rewrite <- Z.quot_quot by lia.
    set (P := 2 ^ (Z.of_nat m * sb)) in *. set (B := 2 ^ sb) in *.
    pose proof (Z.quot_rem' (Z.quot x P) B) as E.
    transitivity (zsum m (fun i => digitS w sb i x * 2 ^ (Z.of_nat i * sb)) +
       (B * Z.quot (Z.quot x P) B + Z.rem (Z.quot x P) B) * P); [ring|].
    rewrite <- E. apply IH.
    destruct m; [now left|right].
    replace (S m - 1)%nat with m by lia. nia.
Qed.

Lemma digitS_sum w sb x m : 0 < sb < w -> sword w x -> (0 < m)%nat ->
  w <= Z.of_nat m * sb -> Z.of_nat (m - 1) * sb < w ->
  eqm (2 ^ w) (zsum m (fun i => digitS w sb i x * 2 ^ (Z.of_nat i * sb))) x.
Proof.
  intros Hsb Hx Hm0 Hm Hm1.
  destruct (Z.eq_dec (Z.of_nat (m - 1) * sb) (w - 1)) as [E|Hne].
  - destruct m as [|m]; [lia|]. replace (S m - 1)%nat with m in * by lia. cbn [zsum].
    assert (Hpart : zsum m (fun i => digitS w sb i x * 2 ^ (Z.of_nat i * sb)) + Z.quot x (2 ^ (Z.of_nat m * sb)) * 2 ^ (Z.of_nat m * sb) = x).
    { apply digitS_partial; [lia|exact Hx|]. destruct m; [now left|right]. replace (S m - 1)%nat with m by lia. nia. }
    set (s := zsum m (fun i => digitS w sb i x * 2 ^ (Z.of_nat i * sb))) in *.
    unfold digitS. rewrite E in *. rewrite swrap_pow_rem by lia.
    assert (Es : swrap w (2 ^ (w - 1)) = - 2 ^ (w - 1)).
    { unfold swrap. replace (2 ^ (w - 1) + 2 ^ (w - 1)) with (2 ^ w).
      - rewrite Z.mod_same; [lia|]. pose proof (pow2_pos w); lia.
      - replace w with (Z.succ (w - 1)) at 1 by lia. rewrite Z.pow_succ_r by lia. lia. }
    rewrite Es. unfold sword in Hx.
    assert (HP : 1 <= 2 ^ (w - 1)) by (pose proof (pow2_pos (w - 1)); lia).
    assert (Hw2 : 2 ^ w = 2 * 2 ^ (w - 1)).
    { replace w with (Z.succ (w - 1)) at 1 by lia. rewrite Z.pow_succ_r by lia. reflexivity. }
    assert (HB : 2 <= 2 ^ sb). { change 2 with (2 ^ 1) at 1. apply Z.pow_le_mono_r; lia. }
    rewrite Z.quot_opp_r by lia.
    destruct (Z.eq_dec x (- 2 ^ (w - 1))) as [Ex|Ex].
    + assert (Hq : Z.quot x (2 ^ (w - 1)) = -1).
      { rewrite Ex. rewrite Z.quot_opp_l by lia. rewrite Z.quot_same by lia. reflexivity. }
      rewrite Hq in *. change (- -1) with 1.
      assert (H1 : Z.rem (swrap w 1) (2 ^ sb) = 1).
      { rewrite swrap_small; [|lia|].
        - rewrite Z.rem_small by lia. reflexivity.
        - unfold sword. assert (2 <= 2 ^ (w - 1)); [|lia]. change 2 with (2 ^ 1) at 1. apply Z.pow_le_mono_r; lia. }
      rewrite H1. exists 1. rewrite Hw2. clear - Hpart. set (P := 2 ^ (w - 1)) in *. clearbody P s. lia.
    + assert (Hq : Z.quot x (2 ^ (w - 1)) = 0).
      { apply Z.quot_small_iff; [lia|]. rewrite (Z.abs_eq (2 ^ (w - 1))) by lia. lia. }
      rewrite Hq in *. change (- 0) with 0.
      rewrite swrap_small; [|lia|unfold sword; lia]. rewrite Z.rem_0_l by lia. apply eqm_eq. lia.
  - apply eqm_eq. pose proof (digitS_partial w sb x m ltac:(lia) Hx ltac:(right; lia)) as Hp.
    assert (Z.quot x (2 ^ (Z.of_nat m * sb)) = 0) as Hz; [|rewrite Hz in Hp; lia].
    assert (2 ^ w <= 2 ^ (Z.of_nat m * sb)) by (apply Z.pow_le_mono_r; lia).
    assert (2 ^ w = 2 * 2 ^ (w - 1)).
    { replace w with (Z.succ (w - 1)) at 1 by lia. rewrite Z.pow_succ_r by lia. reflexivity. }
    pose proof (pow2_pos (w - 1) ltac:(lia)). unfold sword in Hx.
    apply Z.quot_small_iff; [lia|]. rewrite (Z.abs_eq (2 ^ (Z.of_nat m * sb))) by lia. lia.
Qed.

Lemma digit_sum sg w sb x m : 0 < sb < w -> tword sg w x -> (0 < m)%nat ->
  w <= Z.of_nat m * sb -> Z.of_nat (m - 1) * sb < w ->
  eqm (2 ^ w) (zsum m (fun i => digit sg w sb i x * 2 ^ (Z.of_nat i * sb))) x.
Proof.
  intros Hsb Hx H0 H1 H2. destruct sg; cbn [digit].
  - apply digitS_sum; assumption.
  - rewrite digitU_sum by lia. apply eqm_eq. apply Z.mod_small. unfold tword, uword in Hx.
    assert (2 ^ w <= 2 ^ (Z.of_nat m * sb)) by (apply Z.pow_le_mono_r; lia). lia.
Qed.

(** Digits are small (so that the transform of a product of digit polynomials is in range). *)
Lemma digit_bound sg w sb i x : 0 < sb < w -> Z.abs (digit sg w sb i x) < 2 ^ sb.
Proof.
  intros Hsb. pose proof (pow2_pos sb ltac:(lia)). destruct sg; cbn [digit].
  - unfold digitS. rewrite swrap_pow_rem by lia.
    pose proof (Z.rem_bound_abs (swrap w (Z.quot x (swrap w (2 ^ (Z.of_nat i * sb))))) (2 ^ sb) ltac:(lia)). lia.
  - rewrite digitU_eq by lia. pose proof (Z.mod_pos_bound (x / 2 ^ (Z.of_nat i * sb)) (2 ^ sb) ltac:(lia)). lia.
Qed.

Lemma splitCount_spec w sb : 0 < sb -> 0 < w ->
  (0 < splitCount w sb)%nat /\ w <= Z.of_nat (splitCount w sb) * sb /\ Z.of_nat (splitCount w sb - 1) * sb < w.
Proof.
  intros Hsb Hw. unfold splitCount, ceilDiv.
  pose proof (Z.div_mod (w + sb - 1) sb ltac:(lia)) as E.
  pose proof (Z.mod_pos_bound (w + sb - 1) sb ltac:(lia)) as B.
  assert (1 <= (w + sb - 1) / sb) by (apply Z.div_le_lower_bound; lia).
  set (q := (w + sb - 1) / sb) in *. clearbody q. split; [lia|].
  replace (Z.of_nat (Z.to_nat q)) with q by lia.
  replace (Z.of_nat (Z.to_nat q - 1)) with (q - 1) by lia. nia.
Qed.

Lemma splitCount_1 w sb : 0 < sb -> 0 < w -> splitCount w sb <> 1%nat -> sb < w.
Proof. intros Hs Hw H. destruct (splitCount_spec w sb Hs Hw) as (H1 & H2 & H3). nia. Qed.

(* ------------------------------------------------------------------ *)
(** ** Sums *)

Lemma zsum_tail n m f : (m <= n)%nat -> zsum n f = zsum m f + zsum (n - m) (fun i => f (m + i)%nat).
Proof. intros. rewrite <- zsum_app. f_equal. lia. Qed.

Lemma zsum_guard n i (g : nat -> Z) : (i <= n)%nat ->
  zsum n (fun k => if (i <=? k)%nat then g (k - i)%nat else 0) = zsum (n - i) g.
Proof.
  intros H. rewrite (zsum_tail n i) by lia.
  rewrite (zsum_ext i _ (fun _ => 0)), zsum_zero.
  - rewrite Z.add_0_l. apply zsum_ext. intros j Hj. destruct (Nat.leb_spec i (i + j)); [|lia]. f_equal. lia.
  - intros k Hk. destruct (Nat.leb_spec i k); [lia|reflexivity].
Qed.

Section Split.
Variable N : nat.
Hypothesis HN : (0 < N)%nat.

Definition conv (cnt : nat) (A B : nat -> npoly N) (k : nat) : npoly N :=
  psum cnt (fun i => if (i <=? k)%nat then pmul (A i) (B (k - i)%nat) else pzero).

(** Skipping the digit pairs with i + j >= cnt is harmless modulo 2^w. *)
Lemma conv_sum w sb cnt (A B : nat -> npoly N) : 0 <= sb -> 0 <= w -> w <= Z.of_nat cnt * sb ->
  peq (2 ^ w) (psum cnt (fun k => pscale (2 ^ (Z.of_nat k * sb)) (conv cnt A B k)))
    (pmul (psum cnt (fun i => pscale (2 ^ (Z.of_nat i * sb)) (A i)))
          (psum cnt (fun j => pscale (2 ^ (Z.of_nat j * sb)) (B j)))).
Proof.
  intros Hsb Hw Hc. rewrite pmul_psum_l.
  assert (E : peq (2 ^ w) (psum cnt (fun k => pscale (2 ^ (Z.of_nat k * sb)) (conv cnt A B k)))
     (psum cnt (fun i => psum cnt (fun k => if (i <=? k)%nat then pscale (2 ^ (Z.of_nat k * sb)) (pmul (A i) (B (k - i)%nat)) else pzero)))).
  { rewrite psum_swap. apply psum_proper. intros k Hk. unfold conv. rewrite pscale_psum.
    apply psum_proper. intros i Hi. destruct (i <=? k)%nat; [reflexivity|].
    intro t; cbn. apply eqm_eq; lia. }
  rewrite E. apply psum_proper. intros i Hi. rewrite pmul_psum_r.
  intro t. rewrite !cf_psum.
  set (g := fun j => 2 ^ (Z.of_nat (i + j) * sb) * cf (pmul (A i) (B j)) t).
  rewrite (zsum_ext cnt _ (fun k => if (i <=? k)%nat then g (k - i)%nat else 0)).
  2:{ intros k Hk. destruct (Nat.leb_spec i k); [|reflexivity]. unfold g.
      replace (i + (k - i))%nat with k by lia. reflexivity. }
  rewrite zsum_guard by lia.
  transitivity (zsum cnt g).
  - rewrite (zsum_tail cnt (cnt - i)) by lia.
    rewrite <- (Z.add_0_r (zsum (cnt - i) g)) at 1. apply eqm_add; [reflexivity|].
    symmetry. rewrite <- (zsum_zero (cnt - (cnt - i))). apply zsum_eqm. intros j Hj. unfold g.
    exists (2 ^ (Z.of_nat (i + (cnt - i + j)) * sb - w) * cf (pmul (A i) (B (cnt - i + j)%nat)) t).
    replace (Z.of_nat (i + (cnt - i + j)) * sb) with (w + (Z.of_nat (i + (cnt - i + j)) * sb - w)) at 1 by lia.
    assert (0 <= Z.of_nat (i + (cnt - i + j)) * sb - w) by nia.
    rewrite Z.pow_add_r by lia. ring.
  - apply zsum_eqm. intros j Hj. unfold g.
    rewrite (pscale_mul_l _ _ _ _ t). cbn [cf pscale]. rewrite (pscale_mul_r _ _ _ _ t). cbn [cf pscale].
    apply eqm_eq. replace (Z.of_nat (i + j) * sb) with (Z.of_nat i * sb + Z.of_nat j * sb) by lia.
    rewrite Z.pow_add_r by lia. ring.
Qed.

(** ** Loops *)

Definition all_len (cnt : nat) (s : list (list Z)) : Prop :=
  length s = cnt /\ forall k, (k < cnt)%nat -> length (nth k s []) = N.

Lemma splitAcc_inner cnt i f0 f1 o :
  (i < cnt)%nat -> all_len cnt o ->
  let r := forN 0 (cnt - i) (fun j o => upd o (i + j) (fmulAdd N (nth (i + j) o []) (nth i f0 []) (nth j f1 []))) o in
  all_len cnt r /\
  forall k, (k < cnt)%nat -> peq 0 (pol N (nth k r []))
    (if (i <=? k)%nat then padd (pol N (nth k o [])) (pmul (pol N (nth i f0 [])) (pol N (nth (k - i) f1 []))) else pol N (nth k o [])).
Proof.
  intros Hi [Lo Ho] r. unfold r.
  set (P := fun m (s : list (list Z)) => all_len cnt s /\
    forall k, (k < cnt)%nat -> peq 0 (pol N (nth k s []))
    (if ((i <=? k)%nat && (k <? i + m)%nat)%bool then padd (pol N (nth k o [])) (pmul (pol N (nth i f0 [])) (pol N (nth (k - i) f1 []))) else pol N (nth k o []))).
  assert (HP : P (cnt - i)%nat (forN 0 (cnt - i) (fun j o => upd o (i + j) (fmulAdd N (nth (i + j) o []) (nth i f0 []) (nth j f1 []))) o)).
  { apply (forN_ind P); unfold P.
    - split; [split; assumption|]. intros k Hk.
      destruct ((i <=? k)%nat && (k <? i + 0)%nat)%bool eqn:E; [lia|reflexivity].
    - intros t s Ht [[Ls Hs] H]. cbn [Nat.add].
      assert (Lf : length (fmulAdd N (nth (i + t) s []) (nth i f0 []) (nth t f1 [])) = N).
      { unfold fmulAdd. rewrite fadd_length, nmul_length, Hs by lia. lia. }
      split; [split|].
      + now rewrite upd_length.
      + intros k Hk. rewrite nth_upd. destruct ((k =? i + t)%nat && (i + t <? length s)%nat)%bool; [exact Lf|now apply Hs].
      + intros k Hk. rewrite nth_upd. rewrite Ls.
        destruct ((k =? i + t)%nat && (i + t <? cnt)%nat)%bool eqn:E.
        * assert (k = (i + t)%nat) by lia. subst k.
          destruct ((i <=? i + t)%nat && (i + t <? i + S t)%nat)%bool eqn:E2; [|lia].
          unfold fmulAdd. rewrite pol_fadd by (try exact HN; rewrite ?nmul_length; auto).
          rewrite pol_nmul by exact HN. rewrite H by exact Hk.
          destruct ((i <=? i + t)%nat && (i + t <? i + t)%nat)%bool eqn:E3; [lia|].
          replace (i + t - i)%nat with t by lia. reflexivity.
        * rewrite H by exact Hk.
          destruct ((i <=? k)%nat && (k <? i + t)%nat)%bool eqn:E3;
          destruct ((i <=? k)%nat && (k <? i + S t)%nat)%bool eqn:E4; try reflexivity; lia. }
  destruct HP as [H1 H2]. split; [exact H1|]. intros k Hk. rewrite H2 by exact Hk.
  destruct (Nat.leb_spec i k); destruct ((k <? i + (cnt - i))%nat) eqn:E; cbn [andb]; try reflexivity; lia.
Qed.

Lemma splitAcc_spec cnt f0 f1 :
  all_len cnt (splitAcc N cnt f0 f1) /\
  forall k, (k < cnt)%nat ->
    peq 0 (pol N (nth k (splitAcc N cnt f0 f1) []))
          (conv cnt (fun i => pol N (nth i f0 [])) (fun j => pol N (nth j f1 [])) k).
Proof.
  unfold splitAcc.
  set (P := fun m (s : list (list Z)) => all_len cnt s /\ forall k, (k < cnt)%nat ->
    peq 0 (pol N (nth k s []))
     (psum m (fun i => if (i <=? k)%nat then pmul (pol N (nth i f0 [])) (pol N (nth (k - i) f1 [])) else pzero))).
  match goal with |- all_len cnt ?r /\ _ => assert (HP : P cnt r) end; [|exact HP].
  apply (forN_ind P); unfold P.
  - split; [split|].
    + apply repeat_length.
    + intros k Hk. rewrite nth_repeat_lt by exact Hk. apply repeat_length.
    + intros k Hk. rewrite nth_repeat_lt by exact Hk. cbn [psum]. now apply pol_zero.
  - intros t s Ht [Hs H]. cbn [Nat.add].
    destruct (splitAcc_inner cnt t f0 f1 s Ht Hs) as [H1 H2]. split; [exact H1|].
    intros k Hk. rewrite H2 by exact Hk. cbn [psum].
    destruct (t <=? k)%nat; rewrite H by exact Hk; [reflexivity|]. rewrite padd_comm, padd_0_l. reflexivity.
Qed.

Lemma recombine_gen (op : Z -> Z -> Z) sg w sb cnt acc s (pop : npoly N -> npoly N -> npoly N) base :
  (forall a b t, eqm (2 ^ w) (cf (pop a b) t) (op (cf a t) (cf b t))) ->
  (Proper (eqm (2 ^ w) ==> eqm (2 ^ w) ==> eqm (2 ^ w)) op) ->
  0 < w -> 0 <= sb -> (0 < cnt)%nat -> all_len cnt s ->
  length (acc (invFFTs sg w (nth 0 s []))) = N ->
  peq (2 ^ w) (pol N (acc (invFFTs sg w (nth 0 s [])))) (pop base (pol N (nth 0 s []))) ->
  (forall a b c, peq (2 ^ w) (pop (pop a b) c) (pop a (padd b c))) ->
  let r := forN 1 (cnt - 1) (fun i o =>
    map2 (fun a b => twrap sg w (op a (twrap sg w (Z.shiftl b (Z.of_nat i * sb))))) o
         (invFFTs sg w (nth i s []))) (acc (invFFTs sg w (nth 0 s []))) in
  length r = N /\ ((1 < cnt)%nat -> Forall (tword sg w) r) /\
  peq (2 ^ w) (pol N r) (pop base (psum cnt (fun k => pscale (2 ^ (Z.of_nat k * sb)) (pol N (nth k s []))))).
Proof.
  intros Hpop Hop Hw Hsb Hcnt [Ls Hs] Hacc Hbase Hassoc r. unfold r.
  assert (Hpr : forall a a' b b', peq (2 ^ w) a a' -> peq (2 ^ w) b b' -> peq (2 ^ w) (pop a b) (pop a' b')).
  { intros a a' b b' Ha Hb t. rewrite !Hpop. now rewrite (Ha t), (Hb t). }
  assert (Htw : forall x, tword sg w (twrap sg w x)).
  { intros x. destruct sg; cbn; [apply swrap_range|apply wrap_range]; lia. }
  set (P := fun m (o : list Z) => length o = N /\ ((0 < m)%nat -> Forall (tword sg w) o) /\
     peq (2 ^ w) (pol N o) (pop base (psum (S m) (fun k => pscale (2 ^ (Z.of_nat k * sb)) (pol N (nth k s [])))))).
  match goal with |- length ?r = N /\ _ => assert (HP : P (cnt - 1)%nat r) end.
  { apply (forN_ind P); unfold P.
    - split; [exact Hacc|]. split; [lia|]. rewrite Hbase. apply Hpr; [reflexivity|].
      cbn [psum]. rewrite padd_0_l. intro t; cbn. rewrite Z.mul_0_l, Z.pow_0_r. apply eqm_eq; lia.
    - intros t o Ht (Lo & _ & H).
      assert (Li : length (invFFTs sg w (nth (1 + t) s [])) = N) by (unfold invFFTs; rewrite map_length; apply Hs; lia).
      split; [rewrite map2_length; lia|]. split.
      + intros _. apply Forall_map2. intros x y. apply Htw.
      + change (psum (S (S t)) ?f) with (padd (psum (S t) f) (f (S t))).
        rewrite <- Hassoc. rewrite <- (Hpr _ _ _ _ H (reflexivity _)).
        apply pol_peq; [exact HN|]. intros i Hi. rewrite Hpop.
        rewrite nthZ_map2 by lia. rewrite twrap_eqm, twrap_eqm. cbn [cf pscale].
        change (pol_cf N o (Z.of_nat i)) with (cf (pol N o) (Z.of_nat i)).
        change (pol_cf N (nth (S t) s []) (Z.of_nat i)) with (cf (pol N (nth (S t) s [])) (Z.of_nat i)).
        rewrite !cf_pol_at by assumption. change (1 + t)%nat with (S t).
        unfold invFFTs. rewrite nthZ_map by (rewrite Hs; lia).
        rewrite Z.shiftl_mul_pow2 by nia. rewrite twrap_eqm. rewrite Z.mul_comm. reflexivity. }
  destruct HP as (H1 & H2 & H3). split; [exact H1|]. split; [intros; apply H2; lia|].
  replace (S (cnt - 1)) with cnt in H3 by lia. exact H3.
Qed.

Lemma invFFTs_pol sg w a : length a = N -> peq (2 ^ w) (pol N (invFFTs sg w a)) (pol N a).
Proof.
  intros Ha. apply pol_peq; [exact HN|]. intros i Hi. unfold invFFTs. rewrite nthZ_map by lia.
  rewrite cf_pol_at by assumption. apply twrap_eqm.
Qed.
Lemma invFFTs_length sg w a : length (invFFTs sg w a) = length a.
Proof. apply map_length. Qed.
Lemma pol_taddv sg w a b : length a = N -> length b = N ->
  peq (2 ^ w) (pol N (taddv sg w a b)) (padd (pol N a) (pol N b)).
Proof.
  intros Ha Hb. apply pol_peq; [exact HN|]. intros i Hi. unfold taddv.
  rewrite nthZ_map2 by lia. cbn [cf padd]. rewrite !cf_pol_at by assumption. apply twrap_eqm.
Qed.
Lemma pol_tsubv sg w a b : length a = N -> length b = N ->
  peq (2 ^ w) (pol N (tsubv sg w a b)) (psub (pol N a) (pol N b)).
Proof.
  intros Ha Hb. apply pol_peq; [exact HN|]. intros i Hi. unfold tsubv.
  rewrite nthZ_map2 by lia. cbn [cf psub]. rewrite !cf_pol_at by assumption. apply twrap_eqm.
Qed.

Lemma splitPoly_len sg w sb cnt p : length p = N -> all_len cnt (splitPoly sg w sb cnt p).
Proof.
  intros Hp. split; [apply tab_length|]. intros k Hk. unfold splitPoly. rewrite nth_tab by exact Hk.
  rewrite fwdFFT_length, map_length. exact Hp.
Qed.

Lemma splitPoly_sum sg w sb cnt p : 0 < sb < w -> tpoly sg w N p -> (0 < cnt)%nat ->
  w <= Z.of_nat cnt * sb -> Z.of_nat (cnt - 1) * sb < w ->
  peq (2 ^ w) (psum cnt (fun i => pscale (2 ^ (Z.of_nat i * sb)) (pol N (nth i (splitPoly sg w sb cnt p) [])))) (pol N p).
Proof.
  intros Hsb [Lp Wp] H0 H1 H2. symmetry. apply pol_peq; [exact HN|]. intros t Ht. rewrite cf_psum.
  rewrite <- (digit_sum sg w sb (nthZ p t) cnt Hsb); try assumption.
  - apply zsum_eqm. intros i Hi. cbn [cf pscale].
    change (pol_cf N ?l (Z.of_nat t)) with (cf (pol N l) (Z.of_nat t)). rewrite cf_pol_at by assumption.
    unfold splitPoly. rewrite nth_tab by exact Hi. unfold fwdFFT.
    rewrite nthZ_map by (rewrite map_length; lia). rewrite nthZ_map by lia.
    rewrite swrap_eqm. apply eqm_eq; ring.
  - apply (Forall_nth_lt _ _ 0 _ Wp). lia.
Qed.

(** Size of the digit polynomials. *)
Lemma splitPoly_bound sg w sb cnt p i : 0 < sb < w -> length p = N -> (i < cnt)%nat ->
  pbound (2 ^ sb) (pol N (nth i (splitPoly sg w sb cnt p) [])).
Proof.
  intros Hsb Lp Hi. apply pbound_coeffs; [exact HN|]. intros t Ht. rewrite cf_pol_at by assumption.
  unfold splitPoly. rewrite nth_tab by exact Hi. unfold fwdFFT.
  rewrite nthZ_map by (rewrite map_length; lia). rewrite nthZ_map by lia.
  pose proof (digit_bound sg w sb i (nthZ p t) Hsb) as Hb.
  assert (2 ^ sb <= 2 ^ (w - 1)) by (apply Z.pow_le_mono_r; lia).
  rewrite swrap_small; [lia|lia|]. unfold sword. lia.
Qed.

Lemma conv_bound cnt b c (A B : nat -> npoly N) k : (k < cnt)%nat -> 0 <= b -> 0 <= c ->
  (forall i, (i < cnt)%nat -> pbound b (A i)) -> (forall i, (i < cnt)%nat -> pbound c (B i)) ->
  pbound (Z.of_nat cnt * (Z.of_nat N * (b * c))) (conv cnt A B k).
Proof.
  intros Hk Hb Hc HA HB. unfold conv. apply pbound_psum. intros i Hi.
  destruct (Nat.leb_spec i k).
  - apply pbound_mul; [now apply HA|]. apply HB. lia.
  - eapply pbound_le; [|apply pbound_zero]. nia.
Qed.

(** ** The three multiplications *)
Lemma splitMul_sum sg w sb cnt p0 p1 : 0 < sb < w -> tpoly sg w N p0 -> tpoly sg w N p1 -> (0 < cnt)%nat ->
  w <= Z.of_nat cnt * sb -> Z.of_nat (cnt - 1) * sb < w ->
  peq (2 ^ w) (psum cnt (fun k => pscale (2 ^ (Z.of_nat k * sb))
     (pol N (nth k (splitAcc N cnt (splitPoly sg w sb cnt p0) (splitPoly sg w sb cnt p1)) []))))
    (pmul (pol N p0) (pol N p1)).
Proof.
  intros Hsb Hp0 Hp1 H0 H1 H2.
  rewrite <- (splitPoly_sum sg w sb cnt p0), <- (splitPoly_sum sg w sb cnt p1) by assumption.
  rewrite <- conv_sum by lia. apply psum_proper. intros k Hk.
  apply pscale_proper; [reflexivity|]. apply peq_0_any.
  destruct (splitAcc_spec cnt (splitPoly sg w sb cnt p0) (splitPoly sg w sb cnt p1)) as [_ H].
  now apply H.
Qed.

Lemma shortMul_sum sg w sb cnt p fp : 0 < sb < w -> tpoly sg w N p -> (0 < cnt)%nat ->
  w <= Z.of_nat cnt * sb -> Z.of_nat (cnt - 1) * sb < w ->
  peq (2 ^ w) (psum cnt (fun k => pscale (2 ^ (Z.of_nat k * sb)) (pol N (nth k (shortProds sg w sb N cnt p fp) []))))
    (pmul (pol N p) (pol N fp)).
Proof.
  intros Hsb Hp H0 H1 H2.
  rewrite <- (splitPoly_sum sg w sb cnt p) by assumption. rewrite pmul_psum_l.
  apply psum_proper. intros k Hk. rewrite pscale_mul_l. apply pscale_proper; [reflexivity|].
  unfold shortProds.
  rewrite nth_indep with (d' := fmul N [] fp) by (rewrite map_length; unfold splitPoly; rewrite tab_length; lia).
  rewrite (map_nth (fun f => fmul N f fp)). apply peq_0_any. now apply pol_nmul.
Qed.
Lemma shortProds_len sg w sb cnt p fp : length p = N -> all_len cnt (shortProds sg w sb N cnt p fp).
Proof.
  intros Hp. split.
  - unfold shortProds. rewrite map_length. apply tab_length.
  - intros k Hk. unfold shortProds.
    rewrite nth_indep with (d' := fmul N [] fp) by (rewrite map_length; unfold splitPoly; rewrite tab_length; lia).
    rewrite (map_nth (fun f => fmul N f fp)). apply nmul_length.
Qed.

Lemma recombine_spec sg w sb cnt acc s base :
  0 < w -> 0 <= sb -> (1 < cnt)%nat -> all_len cnt s ->
  length (acc (invFFTs sg w (nth 0 s []))) = N ->
  peq (2 ^ w) (pol N (acc (invFFTs sg w (nth 0 s [])))) (padd base (pol N (nth 0 s []))) ->
  tpoly sg w N (recombine sg w sb cnt acc s) /\
  peq (2 ^ w) (pol N (recombine sg w sb cnt acc s)) (padd base (psum cnt (fun k => pscale (2 ^ (Z.of_nat k * sb)) (pol N (nth k s []))))).
Proof.
  intros Hw Hsb Hcnt Hs Hl Hb.
  destruct (recombine_gen Z.add sg w sb cnt acc s padd base) as (H1 & H2 & H3); try assumption; try lia.
  - intros; reflexivity.
  - apply eqm_add.
  - intros a b c t; cbn. apply eqm_eq; lia.
  - split; [|exact H3]. split; [exact H1|]. exact (H2 Hcnt).
Qed.
Lemma recombineSub_spec sg w sb cnt acc s base :
  0 < w -> 0 <= sb -> (1 < cnt)%nat -> all_len cnt s ->
  length (acc (invFFTs sg w (nth 0 s []))) = N ->
  peq (2 ^ w) (pol N (acc (invFFTs sg w (nth 0 s [])))) (psub base (pol N (nth 0 s []))) ->
  tpoly sg w N (recombineSub sg w sb cnt acc s) /\
  peq (2 ^ w) (pol N (recombineSub sg w sb cnt acc s)) (psub base (psum cnt (fun k => pscale (2 ^ (Z.of_nat k * sb)) (pol N (nth k s []))))).
Proof.
  intros Hw Hsb Hcnt Hs Hl Hb.
  destruct (recombine_gen Z.sub sg w sb cnt acc s psub base) as (H1 & H2 & H3); try assumption; try lia.
  - intros; reflexivity.
  - apply eqm_sub.
  - intros a b c t; cbn. apply eqm_eq; lia.
  - split; [|exact H3]. split; [exact H1|]. exact (H2 Hcnt).
Qed.

Lemma tpoly_invFFTs sg w f : 0 < w -> length f = N -> tpoly sg w N (invFFTs sg w f).
Proof.
  intros Hw L. split; [now rewrite invFFTs_length|]. apply Forall_map'. intros x.
  destruct sg; cbn; [apply swrap_range|apply wrap_range]; lia.
Qed.
Lemma tpoly_taddv sg w a b : 0 < w -> length a = N -> length b = N -> tpoly sg w N (taddv sg w a b).
Proof.
  intros Hw La Lb. split; [unfold taddv; rewrite map2_length; lia|]. apply Forall_map2. intros x y.
  destruct sg; cbn; [apply swrap_range|apply wrap_range]; lia.
Qed.
Lemma tpoly_tsubv sg w a b : 0 < w -> length a = N -> length b = N -> tpoly sg w N (tsubv sg w a b).
Proof.
  intros Hw La Lb. split; [unfold tsubv; rewrite map2_length; lia|]. apply Forall_map2. intros x y.
  destruct sg; cbn; [apply swrap_range|apply wrap_range]; lia.
Qed.

Lemma fft_mul_pol w p0 p1 : length p0 = N -> length p1 = N ->
  peq (2 ^ w) (pol N (fmul N (fwdFFT w p0) (fwdFFT w p1))) (pmul (pol N p0) (pol N p1)).
Proof. intros H0 H1. rewrite pol_fmul_fwd by assumption. rewrite pol_fwdFFT by assumption. reflexivity. Qed.

Lemma MulPolyTo_spec sg w logN p0 p1 : 0 < w -> 0 < splitBits logN -> tpoly sg w N p0 -> tpoly sg w N p1 ->
  tpoly sg w N (MulPolyTo sg w logN N p0 p1) /\
  peq (2 ^ w) (pol N (MulPolyTo sg w logN N p0 p1)) (pmul (pol N p0) (pol N p1)).
Proof.
  intros Hw Hsb Hp0 Hp1. unfold MulPolyTo. cbn zeta. set (sb := splitBits logN) in *.
  destruct (splitCount_spec w sb Hsb Hw) as (C0 & C1 & C2). pose proof (splitCount_1 w sb Hsb Hw) as C3.
  set (cnt := splitCount w sb) in *.
  assert (Lm : length (fmul N (fwdFFT w p0) (fwdFFT w p1)) = N) by apply nmul_length.
  destruct (Nat.eqb_spec cnt 1) as [E|E].
  - split; [now apply tpoly_invFFTs|]. rewrite invFFTs_pol by exact Lm.
    apply fft_mul_pol; [apply Hp0|apply Hp1].
  - specialize (C3 E). destruct (splitAcc_spec cnt (splitPoly sg w sb cnt p0) (splitPoly sg w sb cnt p1)) as [Ls _].
    destruct (recombine_spec sg w sb cnt (fun x => x) (splitAcc N cnt (splitPoly sg w sb cnt p0) (splitPoly sg w sb cnt p1)) pzero) as [H1 H2];
      try assumption; try lia.
    + rewrite invFFTs_length. apply Ls; lia.
    + rewrite padd_0_l. apply invFFTs_pol. apply Ls; lia.
    + split; [exact H1|]. rewrite H2, padd_0_l. apply splitMul_sum; try assumption; lia.
Qed.
Lemma MulAddPolyTo_spec sg w logN out p0 p1 : 0 < w -> 0 < splitBits logN -> length out = N -> tpoly sg w N p0 -> tpoly sg w N p1 ->
  tpoly sg w N (MulAddPolyTo sg w logN N out p0 p1) /\
  peq (2 ^ w) (pol N (MulAddPolyTo sg w logN N out p0 p1)) (padd (pol N out) (pmul (pol N p0) (pol N p1))).
Proof.
  intros Hw Hsb Ho Hp0 Hp1. unfold MulAddPolyTo. cbn zeta. set (sb := splitBits logN) in *.
  destruct (splitCount_spec w sb Hsb Hw) as (C0 & C1 & C2). pose proof (splitCount_1 w sb Hsb Hw) as C3.
  set (cnt := splitCount w sb) in *.
  assert (Lm : length (invFFTs sg w (fmul N (fwdFFT w p0) (fwdFFT w p1))) = N) by (rewrite invFFTs_length; apply nmul_length).
  destruct (Nat.eqb_spec cnt 1) as [E|E].
  - split; [now apply tpoly_taddv|]. rewrite pol_taddv by assumption. rewrite invFFTs_pol by apply nmul_length.
    rewrite fft_mul_pol; [reflexivity|apply Hp0|apply Hp1].
  - specialize (C3 E). destruct (splitAcc_spec cnt (splitPoly sg w sb cnt p0) (splitPoly sg w sb cnt p1)) as [Ls _].
    set (s := splitAcc N cnt (splitPoly sg w sb cnt p0) (splitPoly sg w sb cnt p1)) in *.
    assert (L0 : length (invFFTs sg w (nth 0 s [])) = N) by (rewrite invFFTs_length; apply Ls; lia).
    destruct (recombine_spec sg w sb cnt (taddv sg w out) s (pol N out)) as [H1 H2];
      try assumption; try lia.
    + apply tpoly_taddv; assumption.
    + rewrite pol_taddv by assumption. rewrite invFFTs_pol by (apply Ls; lia). reflexivity.
    + split; [exact H1|]. rewrite H2. unfold s. rewrite splitMul_sum by (try assumption; lia). reflexivity.
Qed.
Lemma MulSubPolyTo_spec sg w logN out p0 p1 : 0 < w -> 0 < splitBits logN -> length out = N -> tpoly sg w N p0 -> tpoly sg w N p1 ->
  tpoly sg w N (MulSubPolyTo sg w logN N out p0 p1) /\
  peq (2 ^ w) (pol N (MulSubPolyTo sg w logN N out p0 p1)) (psub (pol N out) (pmul (pol N p0) (pol N p1))).
Proof.
  intros Hw Hsb Ho Hp0 Hp1. unfold MulSubPolyTo. cbn zeta. set (sb := splitBits logN) in *.
  destruct (splitCount_spec w sb Hsb Hw) as (C0 & C1 & C2). pose proof (splitCount_1 w sb Hsb Hw) as C3.
  set (cnt := splitCount w sb) in *.
  assert (Lm : length (invFFTs sg w (fmul N (fwdFFT w p0) (fwdFFT w p1))) = N) by (rewrite invFFTs_length; apply nmul_length).
  destruct (Nat.eqb_spec cnt 1) as [E|E].
  - split; [now apply tpoly_tsubv|]. rewrite pol_tsubv by assumption. rewrite invFFTs_pol by apply nmul_length.
    rewrite fft_mul_pol; [reflexivity|apply Hp0|apply Hp1].
  - specialize (C3 E). destruct (splitAcc_spec cnt (splitPoly sg w sb cnt p0) (splitPoly sg w sb cnt p1)) as [Ls _].
    set (s := splitAcc N cnt (splitPoly sg w sb cnt p0) (splitPoly sg w sb cnt p1)) in *.
    assert (L0 : length (invFFTs sg w (nth 0 s [])) = N) by (rewrite invFFTs_length; apply Ls; lia).
    destruct (recombineSub_spec sg w sb cnt (tsubv sg w out) s (pol N out)) as [H1 H2];
      try assumption; try lia.
    + apply tpoly_tsubv; assumption.
    + rewrite pol_tsubv by assumption. rewrite invFFTs_pol by (apply Ls; lia). reflexivity.
    + split; [exact H1|]. rewrite H2. unfold s. rewrite splitMul_sum by (try assumption; lia). reflexivity.
Qed.

Lemma ShortMul_spec sg w logN p fp : 0 < w -> 0 < splitBitsShort logN -> tpoly sg w N p ->
  tpoly sg w N (ShortFFTPolyMulPolyTo sg w logN N p fp) /\
  peq (2 ^ w) (pol N (ShortFFTPolyMulPolyTo sg w logN N p fp)) (pmul (pol N p) (pol N fp)).
Proof.
  intros Hw Hsb Hp. unfold ShortFFTPolyMulPolyTo. cbn zeta. set (sb := splitBitsShort logN) in *.
  destruct (splitCount_spec w sb Hsb Hw) as (C0 & C1 & C2). pose proof (splitCount_1 w sb Hsb Hw) as C3.
  set (cnt := splitCount w sb) in *.
  assert (Lm : length (fmul N (fwdFFT w p) fp) = N) by apply nmul_length.
  destruct (Nat.eqb_spec cnt 1) as [E|E].
  - split; [now apply tpoly_invFFTs|]. rewrite invFFTs_pol by exact Lm.
    apply pol_fmul_fwd; [assumption|apply Hp].
  - specialize (C3 E). pose proof (shortProds_len sg w sb cnt p fp (proj1 Hp)) as Ls.
    set (s := shortProds sg w sb N cnt p fp) in *.
    destruct (recombine_spec sg w sb cnt (fun x => x) s pzero) as [H1 H2]; try assumption; try lia.
    + rewrite invFFTs_length. apply Ls; lia.
    + rewrite padd_0_l. apply invFFTs_pol. apply Ls; lia.
    + split; [exact H1|]. rewrite H2, padd_0_l. apply shortMul_sum; try assumption; lia.
Qed.
Lemma ShortMulAdd_spec sg w logN out p fp : 0 < w -> 0 < splitBitsShort logN -> length out = N -> tpoly sg w N p ->
  tpoly sg w N (ShortFFTPolyMulAddPolyTo sg w logN N out p fp) /\
  peq (2 ^ w) (pol N (ShortFFTPolyMulAddPolyTo sg w logN N out p fp)) (padd (pol N out) (pmul (pol N p) (pol N fp))).
Proof.
  intros Hw Hsb Ho Hp. unfold ShortFFTPolyMulAddPolyTo. cbn zeta. set (sb := splitBitsShort logN) in *.
  destruct (splitCount_spec w sb Hsb Hw) as (C0 & C1 & C2). pose proof (splitCount_1 w sb Hsb Hw) as C3.
  set (cnt := splitCount w sb) in *.
  assert (Lm : length (invFFTs sg w (fmul N (fwdFFT w p) fp)) = N) by (rewrite invFFTs_length; apply nmul_length).
  destruct (Nat.eqb_spec cnt 1) as [E|E].
  - split; [now apply tpoly_taddv|]. rewrite pol_taddv by assumption. rewrite invFFTs_pol by apply nmul_length.
    rewrite pol_fmul_fwd; [reflexivity|assumption|apply Hp].
  - specialize (C3 E). pose proof (shortProds_len sg w sb cnt p fp (proj1 Hp)) as Ls.
    set (s := shortProds sg w sb N cnt p fp) in *.
    assert (L0 : length (invFFTs sg w (nth 0 s [])) = N) by (rewrite invFFTs_length; apply Ls; lia).
    destruct (recombine_spec sg w sb cnt (taddv sg w out) s (pol N out)) as [H1 H2]; try assumption; try lia.
    + apply tpoly_taddv; assumption.
    + rewrite pol_taddv by assumption. rewrite invFFTs_pol by (apply Ls; lia). reflexivity.
    + split; [exact H1|]. rewrite H2. unfold s. rewrite shortMul_sum by (try assumption; lia). reflexivity.
Qed.
Lemma ShortMulSub_spec sg w logN out p fp : 0 < w -> 0 < splitBitsShort logN -> length out = N -> tpoly sg w N p ->
  tpoly sg w N (ShortFFTPolyMulSubPolyTo sg w logN N out p fp) /\
  peq (2 ^ w) (pol N (ShortFFTPolyMulSubPolyTo sg w logN N out p fp)) (psub (pol N out) (pmul (pol N p) (pol N fp))).
Proof.
  intros Hw Hsb Ho Hp. unfold ShortFFTPolyMulSubPolyTo. cbn zeta. set (sb := splitBitsShort logN) in *.
  destruct (splitCount_spec w sb Hsb Hw) as (C0 & C1 & C2). pose proof (splitCount_1 w sb Hsb Hw) as C3.
  set (cnt := splitCount w sb) in *.
  assert (Lm : length (invFFTs sg w (fmul N (fwdFFT w p) fp)) = N) by (rewrite invFFTs_length; apply nmul_length).
  destruct (Nat.eqb_spec cnt 1) as [E|E].
  - split; [now apply tpoly_tsubv|]. rewrite pol_tsubv by assumption. rewrite invFFTs_pol by apply nmul_length.
    rewrite pol_fmul_fwd; [reflexivity|assumption|apply Hp].
  - specialize (C3 E). pose proof (shortProds_len sg w sb cnt p fp (proj1 Hp)) as Ls.
    set (s := shortProds sg w sb N cnt p fp) in *.
    assert (L0 : length (invFFTs sg w (nth 0 s [])) = N) by (rewrite invFFTs_length; apply Ls; lia).
    destruct (recombineSub_spec sg w sb cnt (tsubv sg w out) s (pol N out)) as [H1 H2]; try assumption; try lia.
    + apply tpoly_tsubv; assumption.
    + rewrite pol_tsubv by assumption. rewrite invFFTs_pol by (apply Ls; lia). reflexivity.
    + split; [exact H1|]. rewrite H2. unfold s. rewrite shortMul_sum by (try assumption; lia). reflexivity.
Qed.

(** Every accumulated digit product stays within 2^48. *)
Lemma split_bound sg w logN p0 p1 k : 0 < w <= 64 -> 0 <= logN <= 32 -> Z.of_nat N = 2 ^ logN ->
  length p0 = N -> length p1 = N ->
  let sb := splitBits logN in let cnt := splitCount w sb in
  (1 < cnt)%nat -> (k < cnt)%nat ->
  pbound (2 ^ splitLogBound) (pol N (nth k (splitAcc N cnt (splitPoly sg w sb cnt p0) (splitPoly sg w sb cnt p1)) [])).
Proof.
  intros Hw HlN EN L0 L1 sb cnt Hc Hk.
  assert (Hsb : 4 <= sb /\ 4 * sb <= 48 - logN).
  { unfold sb, splitBits, splitLogBound. split; [apply Z.div_le_lower_bound; lia|].
    apply Z.mul_div_le; lia. }
  destruct (splitCount_spec w sb ltac:(lia) ltac:(lia)) as (C0 & C1 & C2).
  pose proof (splitCount_1 w sb ltac:(lia) ltac:(lia) ltac:(unfold cnt in *; lia)) as C3.
  fold cnt in C0, C1, C2.
  destruct (splitAcc_spec cnt (splitPoly sg w sb cnt p0) (splitPoly sg w sb cnt p1)) as [_ H].
  intro t. rewrite (eqm0_eq _ _ (H k Hk t)). revert t.
  eapply pbound_le; [|apply (conv_bound cnt (2 ^ sb) (2 ^ sb)); try exact Hk; try (pose proof (pow2_pos sb); lia);
    intros; now apply splitPoly_bound; [lia| |]].
  rewrite EN. assert (Z.of_nat cnt <= 2 ^ 5) as Hcnt by (change (2 ^ 5) with 32; nia).
  pose proof (pow2_pos logN ltac:(lia)). pose proof (pow2_pos sb ltac:(lia)).
  transitivity (2 ^ 5 * (2 ^ logN * (2 ^ sb * 2 ^ sb))); [nia|].
  rewrite <- !Z.pow_add_r by lia. unfold splitLogBound. apply Z.pow_le_mono_r; lia.
Qed.
Lemma short_bound sg w logN p fp k : 0 < w -> 0 <= logN <= 30 -> Z.of_nat N = 2 ^ logN ->
  length p = N -> pbound (2 ^ ShortLogBound) (pol N fp) ->
  let sb := splitBitsShort logN in let cnt := splitCount w sb in
  (1 < cnt)%nat -> (k < cnt)%nat ->
  pbound (2 ^ splitLogBound) (pol N (nth k (shortProds sg w sb N cnt p fp) [])).
Proof.
  intros Hw HlN EN Lp Hf sb cnt Hc Hk.
  assert (Hsb : 1 <= sb /\ 2 * sb <= 32 - logN).
  { unfold sb, splitBitsShort, splitLogBound, ShortLogBound. split; [apply Z.div_le_lower_bound; lia|].
    apply Z.mul_div_le; lia. }
  pose proof (splitCount_1 w sb ltac:(lia) ltac:(lia) ltac:(unfold cnt in *; lia)) as C3.
  unfold shortProds.
  rewrite nth_indep with (d' := fmul N [] fp) by (rewrite map_length; unfold splitPoly; rewrite tab_length; lia).
  rewrite (map_nth (fun f => fmul N f fp)).
  intro t. rewrite (eqm0_eq _ _ (pol_nmul N HN _ _ t)). revert t.
  eapply pbound_le; [|apply (pbound_mul (2 ^ sb) (2 ^ ShortLogBound)); [apply splitPoly_bound; (lia || assumption)|exact Hf]].
  rewrite EN. unfold splitLogBound, ShortLogBound. rewrite <- !Z.pow_add_r by lia. apply Z.pow_le_mono_r; lia.
Qed.

End Split.
