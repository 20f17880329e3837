(** Lemmas on coefficient lists as ring elements, monomial multiplication. *)
From Verif Require Import Base NegaRing ModelNum ModelVec ModelPoly SpecNum SpecVec SpecPoly PfNum PfVec.

Section Pol.
Variable N : nat.
Hypothesis HN : (0 < N)%nat.
Notation NZ := (Z.of_nat N).

Lemma cf_pol l k : cf (pol N l) k =
  let j := k mod (2 * NZ) in if j <? NZ then nthZ l (Z.to_nat j) else - nthZ l (Z.to_nat (j - NZ)).
Proof. destruct N; [lia|reflexivity]. Qed.

Lemma cf_pol_at l i : (i < N)%nat -> cf (pol N l) (Z.of_nat i) = nthZ l i.
Proof.
  intros. rewrite cf_pol. cbn zeta. rewrite Z.mod_small by lia.
  destruct (Z.ltb_spec (Z.of_nat i) NZ); [|lia]. now rewrite Nat2Z.id.
Qed.

Lemma pol_peq Q l p : (forall i, (i < N)%nat -> eqm Q (nthZ l i) (cf p (Z.of_nat i))) -> peq Q (pol N l) p.
Proof. intros H. apply peq_coeffs; [exact HN|]. intros i Hi. rewrite cf_pol_at by exact Hi. auto. Qed.

Lemma peq_pol Q l p : peq Q (pol N l) p -> forall i, (i < N)%nat -> eqm Q (nthZ l i) (cf p (Z.of_nat i)).
Proof. intros H i Hi. rewrite <- (cf_pol_at l i Hi). apply H. Qed.

Lemma pol_inj w l1 l2 : wpoly w N l1 -> wpoly w N l2 -> peq (2 ^ w) (pol N l1) (pol N l2) -> l1 = l2.
Proof.
  intros [L1 W1] [L2 W2] H. apply nthZ_ext; [lia|]. intros i Hi.
  apply (eqm_small (2 ^ w)).
  - rewrite <- (cf_pol_at l2 i) by lia. apply peq_pol; [exact H|lia].
  - apply (Forall_nth_lt _ _ 0 _ W1). lia.
  - apply (Forall_nth_lt _ _ 0 _ W2). lia.
Qed.

Lemma pol_vadd w a b : length a = N -> length b = N ->
  peq (2 ^ w) (pol N (vadd w a b)) (padd (pol N a) (pol N b)).
Proof.
  intros Ha Hb. apply pol_peq. intros i Hi. unfold vadd.
  rewrite nthZ_map2 by lia. cbn [cf padd]. rewrite !cf_pol_at by lia. apply wrap_eqm.
Qed.
Lemma pol_vsub w a b : length a = N -> length b = N ->
  peq (2 ^ w) (pol N (vsub w a b)) (psub (pol N a) (pol N b)).
Proof.
  intros Ha Hb. apply pol_peq. intros i Hi. unfold vsub.
  rewrite nthZ_map2 by lia. cbn [cf psub]. rewrite !cf_pol_at by lia. apply wrap_eqm.
Qed.
Lemma pol_map Q f g a : length a = N -> (forall x, eqm Q (f x) (g x)) ->
  forall i, (i < N)%nat -> eqm Q (nthZ (map f a) i) (g (nthZ a i)).
Proof. intros Ha H i Hi. rewrite nthZ_map by lia. apply H. Qed.
Lemma pol_vneg w a : length a = N -> peq (2 ^ w) (pol N (vneg w a)) (popp (pol N a)).
Proof.
  intros Ha. apply pol_peq. intros i Hi. unfold vneg. rewrite nthZ_map by lia.
  cbn [cf popp]. rewrite !cf_pol_at by lia. apply wrap_eqm.
Qed.
Lemma pol_vscale w c a : length a = N -> peq (2 ^ w) (pol N (vscale w c a)) (pscale c (pol N a)).
Proof.
  intros Ha. apply pol_peq. intros i Hi. unfold vscale. rewrite nthZ_map by lia.
  cbn [cf pscale]. rewrite !cf_pol_at by lia. apply wrap_eqm.
Qed.

Lemma pol_fwdFFT w a : length a = N -> peq (2 ^ w) (pol N (fwdFFT w a)) (pol N a).
Proof.
  intros Ha. apply pol_peq. intros i Hi. unfold fwdFFT. rewrite nthZ_map by lia.
  rewrite !cf_pol_at by lia. apply swrap_eqm.
Qed.
Lemma pol_invFFT w a : length a = N -> peq (2 ^ w) (pol N (invFFT w a)) (pol N a).
Proof.
  intros Ha. apply pol_peq. intros i Hi. unfold invFFT. rewrite nthZ_map by lia.
  rewrite !cf_pol_at by lia. apply wrap_eqm.
Qed.
Lemma pol_fadd a b : length a = N -> length b = N -> peq 0 (pol N (fadd a b)) (padd (pol N a) (pol N b)).
Proof.
  intros Ha Hb. apply pol_peq. intros i Hi. unfold fadd.
  rewrite nthZ_map2 by lia. cbn [cf padd]. rewrite !cf_pol_at by lia. reflexivity.
Qed.
Lemma pol_fsub a b : length a = N -> length b = N -> peq 0 (pol N (fsub a b)) (psub (pol N a) (pol N b)).
Proof.
  intros Ha Hb. apply pol_peq. intros i Hi. unfold fsub.
  rewrite nthZ_map2 by lia. cbn [cf psub]. rewrite !cf_pol_at by lia. reflexivity.
Qed.
Lemma pol_fneg a : length a = N -> peq 0 (pol N (fneg a)) (popp (pol N a)).
Proof.
  intros Ha. apply pol_peq. intros i Hi. unfold fneg. rewrite nthZ_map by lia.
  cbn [cf popp]. rewrite !cf_pol_at by lia. reflexivity.
Qed.
Lemma pol_zero : peq 0 (pol N (repeat 0 N)) pzero.
Proof. apply pol_peq. intros i Hi. rewrite nthZ_repeat0. reflexivity. Qed.

Lemma nmul_length a b : length (nmul N a b) = N.
Proof. apply tab_length. Qed.

Lemma pol_nmul a b : peq 0 (pol N (nmul N a b)) (pmul (pol N a) (pol N b)).
Proof.
  apply pol_peq. intros k Hk. unfold nmul. rewrite nthZ_tab by lia. cbn [cf pmul].
  apply eqm_eq. apply zsum_ext. intros i Hi.
  change (pol_cf N a (Z.of_nat i)) with (cf (pol N a) (Z.of_nat i)).
  change (pol_cf N b (Z.of_nat k - Z.of_nat i)) with (cf (pol N b) (Z.of_nat k - Z.of_nat i)).
  rewrite cf_pol_at by lia. f_equal.
  destruct (Nat.leb_spec i k).
  - replace (Z.of_nat k - Z.of_nat i) with (Z.of_nat (k - i)) by lia. rewrite cf_pol_at by lia. reflexivity.
  - replace (Z.of_nat k - Z.of_nat i) with (Z.of_nat (k + N - i) - NZ) by lia.
    rewrite cf_anti_sub, cf_pol_at by lia. reflexivity.
Qed.

Lemma pol_monomial d : peq 0 (pol N (monomial N d)) (pmono d).
Proof.
  apply pol_peq. intros i Hi. unfold monomial. rewrite nthZ_tab by lia. cbn [cf pmono pshift pone].
  apply eqm_eq. unfold one_cf. destruct (Z.eqb_spec NZ 0); [lia|].
  pose proof (Z.mod_pos_bound d (2 * NZ) ltac:(lia)) as Hd.
  pose proof (Z.div_mod d (2 * NZ) ltac:(lia)) as Ed.
  set (k := d mod (2 * NZ)) in *.
  assert (E : (Z.of_nat i - d) mod (2 * NZ) = if k <=? Z.of_nat i then Z.of_nat i - k else Z.of_nat i - k + 2 * NZ).
  { symmetry. destruct (Z.leb_spec k (Z.of_nat i)).
    - apply Z.mod_unique with (- (d / (2 * NZ))); lia.
    - apply Z.mod_unique with (- (d / (2 * NZ)) - 1); lia. }
  rewrite E. clear E. clearbody k.
  destruct (Z.leb_spec k (Z.of_nat i));
  repeat match goal with |- context [?a =? ?b] => destruct (Z.eqb_spec a b) end; lia.
Qed.

Lemma pol_monomialSubOne d : peq 0 (pol N (monomialSubOne N d)) (psub (pmono d) pone).
Proof.
  apply pol_peq. intros i Hi. unfold monomialSubOne. rewrite nthZ_tab by lia. cbn [cf psub].
  apply eqm_eq. rewrite <- (eqm0_eq _ _ (pol_monomial d (Z.of_nat i))), cf_pol_at by lia.
  cbn [cf pone]. rewrite one_cf_at by lia. reflexivity.
Qed.

(** Products through the transform domain. *)
Lemma fwdFFT_length w a : length (fwdFFT w a) = length a.
Proof. apply map_length. Qed.
Lemma invFFT_length w a : length (invFFT w a) = length a.
Proof. apply map_length. Qed.
Lemma vadd_length w a b : length (vadd w a b) = Nat.min (length a) (length b).
Proof. apply map2_length. Qed.
Lemma vsub_length w a b : length (vsub w a b) = Nat.min (length a) (length b).
Proof. apply map2_length. Qed.
Lemma fadd_length a b : length (fadd a b) = Nat.min (length a) (length b).
Proof. apply map2_length. Qed.
Lemma fsub_length a b : length (fsub a b) = Nat.min (length a) (length b).
Proof. apply map2_length. Qed.

Lemma pol_fmul_fwd w p fp : length p = N ->
  peq (2 ^ w) (pol N (fmul N (fwdFFT w p) fp)) (pmul (pol N p) (pol N fp)).
Proof.
  intros Hp. unfold fmul. rewrite (peq_0_any _ _ _ (pol_nmul _ _)). rewrite pol_fwdFFT by exact Hp. reflexivity.
Qed.

Lemma pol_FFTPolyMulPolyTo w p fp : length p = N ->
  peq (2 ^ w) (pol N (FFTPolyMulPolyTo w N p fp)) (pmul (pol N p) (pol N fp)).
Proof.
  intros Hp. unfold FFTPolyMulPolyTo.
  rewrite pol_invFFT by apply nmul_length. now apply pol_fmul_fwd.
Qed.
Lemma pol_FFTPolyMulAddPolyTo w out p fp : length p = N -> length out = N ->
  peq (2 ^ w) (pol N (FFTPolyMulAddPolyTo w N out p fp)) (padd (pol N out) (pmul (pol N p) (pol N fp))).
Proof.
  intros Hp Ho. unfold FFTPolyMulAddPolyTo, invFFTAdd.
  rewrite pol_vadd by (rewrite ?invFFT_length; auto using nmul_length).
  rewrite pol_invFFT by apply nmul_length. rewrite pol_fmul_fwd by exact Hp. reflexivity.
Qed.
Lemma pol_FFTPolyMulSubPolyTo w out p fp : length p = N -> length out = N ->
  peq (2 ^ w) (pol N (FFTPolyMulSubPolyTo w N out p fp)) (psub (pol N out) (pmul (pol N p) (pol N fp))).
Proof.
  intros Hp Ho. unfold FFTPolyMulSubPolyTo, invFFTSub.
  rewrite pol_vsub by (rewrite ?invFFT_length; auto using nmul_length).
  rewrite pol_invFFT by apply nmul_length. rewrite pol_fmul_fwd by exact Hp. reflexivity.
Qed.

(** Word ranges. *)
Lemma Forall_map2 {A B C} (P : C -> Prop) (f : A -> B -> C) l1 l2 :
  (forall x y, P (f x y)) -> Forall P (map2 f l1 l2).
Proof. intros H. revert l2; induction l1; intros [|]; cbn; constructor; auto. Qed.
Lemma Forall_map' {A C} (P : C -> Prop) (f : A -> C) l : (forall x, P (f x)) -> Forall P (map f l).
Proof. intros H. induction l; cbn; constructor; auto. Qed.
Lemma vadd_words w a b : 0 <= w -> Forall (uword w) (vadd w a b).
Proof. intros. apply Forall_map2. intros; now apply wrap_range. Qed.
Lemma vsub_words w a b : 0 <= w -> Forall (uword w) (vsub w a b).
Proof. intros. apply Forall_map2. intros; now apply wrap_range. Qed.
Lemma vneg_words w a : 0 <= w -> Forall (uword w) (vneg w a).
Proof. intros. apply Forall_map'. intros; now apply wrap_range. Qed.
Lemma vscale_words w c a : 0 <= w -> Forall (uword w) (vscale w c a).
Proof. intros. apply Forall_map'. intros; now apply wrap_range. Qed.
Lemma invFFT_words w a : 0 <= w -> Forall (uword w) (invFFT w a).
Proof. intros. apply Forall_map'. intros; now apply wrap_range. Qed.

(** ** Monomial multiplication *)
Lemma seg_spec acc f p i0 ii0 n out : (i0 + n <= length out)%nat ->
  length (seg acc f p i0 ii0 n out) = length out /\
  forall j, nthZ (seg acc f p i0 ii0 n out) j =
   if ((i0 <=? j)%nat && (j <? i0 + n)%nat)%bool then acc (nthZ out j) (f (nthZ p (ii0 + (j - i0)))) else nthZ out j.
Proof.
  intros Hl. unfold seg.
  set (P := fun m (s : list Z) => length s = length out /\ forall j, nthZ s j =
   if ((i0 <=? j)%nat && (j <? i0 + m)%nat)%bool then acc (nthZ out j) (f (nthZ p (ii0 + (j - i0)))) else nthZ out j).
  apply (forN_ind P); unfold P.
  - split; [reflexivity|]. intros j. destruct ((i0 <=? j)%nat && (j <? i0 + 0)%nat)%bool eqn:E; [lia|reflexivity].
  - intros t s Ht [Ls Hs]. split; [now rewrite upd_length|]. intros j. cbn [Nat.add].
    unfold nthZ at 1. rewrite nth_upd. rewrite Ls.
    destruct ((j =? i0 + t)%nat && (i0 + t <? length out)%nat)%bool eqn:E.
    + assert (j = (i0 + t)%nat) by lia. subst j.
      destruct ((i0 <=? i0 + t)%nat && (i0 + t <? i0 + S t)%nat)%bool eqn:E2; [|lia].
      rewrite Hs. destruct ((i0 <=? i0 + t)%nat && (i0 + t <? i0 + t)%nat)%bool eqn:E3; [lia|].
      do 3 f_equal. lia.
    + fold (nthZ s j). rewrite Hs.
      destruct ((i0 <=? j)%nat && (j <? i0 + t)%nat)%bool eqn:E3;
      destruct ((i0 <=? j)%nat && (j <? i0 + S t)%nat)%bool eqn:E4; try reflexivity; lia.
Qed.

Lemma land_mask d n : 0 <= n -> NZ = 2 ^ n -> Z.land d (2 * NZ - 1) = d mod (2 * NZ).
Proof.
  intros Hn E. rewrite E. rewrite <- Z.pow_succ_r by lia.
  rewrite <- Z.land_ones by lia. f_equal. rewrite Z.ones_equiv. lia.
Qed.
Lemma land_mask1 d n : 0 <= n -> NZ = 2 ^ n -> Z.land d (NZ - 1) = d mod NZ.
Proof.
  intros Hn E. rewrite E. rewrite <- Z.land_ones by lia. f_equal. rewrite Z.ones_equiv. lia.
Qed.

Lemma cf_shift_red p d i : (i < N)%nat ->
  let k := d mod (2 * NZ) in
  cf (pshift d (pol N p)) (Z.of_nat i) =
   if NZ <=? k then
     (if Z.of_nat i <? k - NZ then nthZ p (Z.to_nat (Z.of_nat i + 2 * NZ - k)) else - nthZ p (Z.to_nat (Z.of_nat i - (k - NZ))))
   else (if Z.of_nat i <? k then - nthZ p (Z.to_nat (Z.of_nat i + NZ - k)) else nthZ p (Z.to_nat (Z.of_nat i - k))).
Proof.
  intros Hi k. cbn [cf pshift].
  change (pol_cf N p (Z.of_nat i - d)) with (cf (pol N p) (Z.of_nat i - d)).
  pose proof (Z.mod_pos_bound d (2 * NZ) ltac:(lia)) as Hd.
  assert (E : cf (pol N p) (Z.of_nat i - d) = cf (pol N p) (Z.of_nat i - k)).
  { apply cf_eqm2N. apply eqm_sub; [reflexivity|]. symmetry. apply eqm_mod. }
  rewrite E. fold k in Hd. clearbody k. clear E.
  destruct (Z.leb_spec NZ k).
  - destruct (Z.ltb_spec (Z.of_nat i) (k - NZ)).
    + rewrite <- (cf_pol_at p (Z.to_nat (Z.of_nat i + 2 * NZ - k))) by lia. rewrite Z2Nat.id by lia.
      apply cf_eqm2N. exists (-1). lia.
    + rewrite <- (cf_pol_at p (Z.to_nat (Z.of_nat i - (k - NZ)))) by lia. rewrite Z2Nat.id by lia.
      rewrite <- cf_anti_sub. f_equal. lia.
  - destruct (Z.ltb_spec (Z.of_nat i) k).
    + rewrite <- (cf_pol_at p (Z.to_nat (Z.of_nat i + NZ - k))) by lia. rewrite Z2Nat.id by lia.
      rewrite <- cf_anti_sub. f_equal. lia.
    + rewrite <- (cf_pol_at p (Z.to_nat (Z.of_nat i - k))) by lia. rewrite Z2Nat.id by lia. reflexivity.
Qed.

Lemma nth_word w p i : wpoly w N p -> (i < N)%nat -> uword w (nthZ p i).
Proof. intros [L W] Hi. apply (Forall_nth_lt _ _ 0 _ W). lia. Qed.

Lemma MonomialMul_spec acc w n out p d : 0 <= n -> NZ = 2 ^ n -> length out = N -> wpoly w N p ->
  length (MonomialMul acc w N out p d) = N /\
  forall i, (i < N)%nat ->
    nthZ (MonomialMul acc w N out p d) i = acc (nthZ out i) (wrap w (cf (pshift d (pol N p)) (Z.of_nat i))).
Proof.
  intros Hn E Ho Hp. unfold MonomialMul. cbn zeta. rewrite (land_mask d n Hn E).
  pose proof (Z.mod_pos_bound d (2 * NZ) ltac:(lia)) as Hd.
  pose proof (fun i Hi => cf_shift_red p d i Hi) as Hc. cbn zeta in Hc.
  set (k := d mod (2 * NZ)) in *. clearbody k.
  destruct (Z.leb_spec NZ k).
  - destruct (seg_spec acc (fun x => x) p (Z.to_nat 0) (Z.to_nat (- k + 2 * NZ)) (Z.to_nat (NZ - (- k + 2 * NZ))) out) as [L1 S1]; [lia|].
    match goal with |- length (seg _ ?f2 _ ?i2 ?ii2 ?n2 ?o1) = _ /\ _ =>
      destruct (seg_spec acc f2 p i2 ii2 n2 o1) as [L2 S2]; [rewrite L1; lia|] end.
    split; [lia|]. intros i Hi. rewrite S2, S1, Hc by exact Hi.
    destruct (Z.ltb_spec (Z.of_nat i) (k - NZ)).
    + destruct ((Z.to_nat (k - NZ) <=? i)%nat && (i <? Z.to_nat (k - NZ) + Z.to_nat (NZ - (k - NZ)))%nat)%bool eqn:E1; [lia|].
      destruct ((Z.to_nat 0 <=? i)%nat && (i <? Z.to_nat 0 + Z.to_nat (NZ - (- k + 2 * NZ)))%nat)%bool eqn:E2; [|lia].
      replace (Z.to_nat (- k + 2 * NZ) + (i - Z.to_nat 0))%nat with (Z.to_nat (Z.of_nat i + 2 * NZ - k)) by lia.
      rewrite wrap_small; [reflexivity|]. apply nth_word; [exact Hp|lia].
    + destruct ((Z.to_nat (k - NZ) <=? i)%nat && (i <? Z.to_nat (k - NZ) + Z.to_nat (NZ - (k - NZ)))%nat)%bool eqn:E1; [|lia].
      destruct ((Z.to_nat 0 <=? i)%nat && (i <? Z.to_nat 0 + Z.to_nat (NZ - (- k + 2 * NZ)))%nat)%bool eqn:E2; [lia|].
      do 3 f_equal. f_equal. lia.
  - destruct (Z.leb_spec 0 k); [|lia]. destruct (Z.ltb_spec k NZ); [|lia]. cbn [andb].
    destruct (seg_spec acc (fun x => wrap w (- x)) p (Z.to_nat 0) (Z.to_nat (- k + NZ)) (Z.to_nat (NZ - (- k + NZ))) out) as [L1 S1]; [lia|].
    match goal with |- length (seg _ ?f2 _ ?i2 ?ii2 ?n2 ?o1) = _ /\ _ =>
      destruct (seg_spec acc f2 p i2 ii2 n2 o1) as [L2 S2]; [rewrite L1; lia|] end.
    split; [lia|]. intros i Hi. rewrite S2, S1, Hc by exact Hi.
    destruct (Z.ltb_spec (Z.of_nat i) k).
    + destruct ((Z.to_nat k <=? i)%nat && (i <? Z.to_nat k + Z.to_nat (NZ - k))%nat)%bool eqn:E1; [lia|].
      destruct ((Z.to_nat 0 <=? i)%nat && (i <? Z.to_nat 0 + Z.to_nat (NZ - (- k + NZ)))%nat)%bool eqn:E2; [|lia].
      do 3 f_equal. f_equal. lia.
    + destruct ((Z.to_nat k <=? i)%nat && (i <? Z.to_nat k + Z.to_nat (NZ - k))%nat)%bool eqn:E1; [|lia].
      destruct ((Z.to_nat 0 <=? i)%nat && (i <? Z.to_nat 0 + Z.to_nat (NZ - (- k + NZ)))%nat)%bool eqn:E2; [lia|].
      replace (Z.to_nat 0 + (i - Z.to_nat k))%nat with (Z.to_nat (Z.of_nat i - k)) by lia.
      rewrite wrap_small; [reflexivity|]. apply nth_word; [exact Hp|lia].
Qed.

Lemma list_of_nth (P : Z -> Prop) l : length l = N -> (forall i, (i < N)%nat -> P (nthZ l i)) -> Forall P l.
Proof.
  intros L H. apply Forall_forall. intros x Hx. apply (In_nth _ _ 0) in Hx as (i & Hi & <-).
  apply H. lia.
Qed.

Lemma MonomialMulPolyTo_spec w n out p d : 0 <= n -> 0 <= w -> NZ = 2 ^ n -> length out = N -> wpoly w N p ->
  wpoly w N (MonomialMulPolyTo w N out p d) /\
  peq (2 ^ w) (pol N (MonomialMulPolyTo w N out p d)) (pmul (pmono d) (pol N p)).
Proof.
  intros Hn Hw E Ho Hp. destruct (MonomialMul_spec (accSet w) w n out p d Hn E Ho Hp) as [L H].
  unfold MonomialMulPolyTo. unfold accSet in *. split.
  - split; [exact L|]. apply list_of_nth; [exact L|]. intros i Hi. rewrite H by exact Hi. now apply wrap_range.
  - rewrite <- pshift_mono. apply pol_peq. intros i Hi. rewrite H by exact Hi. apply wrap_eqm.
Qed.
Lemma MonomialMulAddPolyTo_spec w n out p d : 0 <= n -> 0 <= w -> NZ = 2 ^ n -> length out = N -> wpoly w N p ->
  wpoly w N (MonomialMulAddPolyTo w N out p d) /\
  peq (2 ^ w) (pol N (MonomialMulAddPolyTo w N out p d)) (padd (pol N out) (pmul (pmono d) (pol N p))).
Proof.
  intros Hn Hw E Ho Hp. destruct (MonomialMul_spec (accAdd w) w n out p d Hn E Ho Hp) as [L H].
  unfold MonomialMulAddPolyTo. unfold accAdd in *. split.
  - split; [exact L|]. apply list_of_nth; [exact L|]. intros i Hi. rewrite H by exact Hi. now apply wrap_range.
  - rewrite <- pshift_mono. apply pol_peq. intros i Hi. rewrite H by exact Hi. cbn [cf padd].
    rewrite wrap_eqm, wrap_eqm, cf_pol_at by exact Hi. reflexivity.
Qed.
Lemma MonomialMulSubPolyTo_spec w n out p d : 0 <= n -> 0 <= w -> NZ = 2 ^ n -> length out = N -> wpoly w N p ->
  wpoly w N (MonomialMulSubPolyTo w N out p d) /\
  peq (2 ^ w) (pol N (MonomialMulSubPolyTo w N out p d)) (psub (pol N out) (pmul (pmono d) (pol N p))).
Proof.
  intros Hn Hw E Ho Hp. destruct (MonomialMul_spec (accSub w) w n out p d Hn E Ho Hp) as [L H].
  unfold MonomialMulSubPolyTo. unfold accSub in *. split.
  - split; [exact L|]. apply list_of_nth; [exact L|]. intros i Hi. rewrite H by exact Hi. now apply wrap_range.
  - rewrite <- pshift_mono. apply pol_peq. intros i Hi. rewrite H by exact Hi. cbn [cf psub].
    rewrite wrap_eqm, wrap_eqm, cf_pol_at by exact Hi. reflexivity.
Qed.

Lemma negRange_spec w lo hi p : 0 <= lo -> hi <= Z.of_nat (length p) ->
  length (negRange w lo hi p) = length p /\
  forall j, nthZ (negRange w lo hi p) j =
    if (lo <=? Z.of_nat j) && (Z.of_nat j <? hi) then wrap w (- nthZ p j) else nthZ p j.
Proof.
  intros Hlo Hhi. unfold negRange. destruct (Z_le_gt_dec hi lo) as [Hle|Hgt].
  - replace (Z.to_nat (hi - lo)) with O by lia. cbn [forN]. split; [reflexivity|].
    intros j. destruct ((lo <=? Z.of_nat j) && (Z.of_nat j <? hi)) eqn:E; [lia|reflexivity].
  - split; [apply (forN_upd_length _ _ (fun i => i) (fun i o => wrap w (- nthZ o i)))|]. intros j. unfold nthZ.
    rewrite (forN_upd_range 0 (Z.to_nat lo) (Z.to_nat (hi - lo)) (fun _ x => wrap w (- x)) p j) by lia.
    destruct ((lo <=? Z.of_nat j) && (Z.of_nat j <? hi)) eqn:E1;
    match goal with |- (if ?b then _ else _) = _ => destruct b eqn:E2 end; try reflexivity; lia.
Qed.

Lemma MonomialMulPolyInPlace_eq w n out p d : 0 <= n -> 0 <= w -> NZ = 2 ^ n -> length out = N -> wpoly w N p ->
  MonomialMulPolyInPlace w N p d = Some (MonomialMulPolyTo w N out p d).
Proof.
  intros Hn Hw E Ho Hp. unfold MonomialMulPolyInPlace. cbn zeta.
  rewrite (land_mask d n Hn E), (land_mask1 d n Hn E).
  destruct Hp as [Lp Wp].
  destruct (RotateInPlace_spec 0 p (d mod NZ)) as (v & -> & [Lv Hv]); [lia|]. f_equal.
  destruct (MonomialMul_spec (accSet w) w n out p d Hn E Ho (conj Lp Wp)) as [L H].
  pose proof (Z.mod_pos_bound d (2 * NZ) ltac:(lia)) as Hd.
  pose proof (Z.mod_pos_bound d NZ ltac:(lia)) as Hd1.
  assert (Ek : d mod NZ = if NZ <=? d mod (2 * NZ) then d mod (2 * NZ) - NZ else d mod (2 * NZ)).
  { pose proof (Z.div_mod d (2 * NZ) ltac:(lia)). symmetry.
    destruct (Z.leb_spec NZ (d mod (2 * NZ))).
    - apply Z.mod_unique with (2 * (d / (2 * NZ)) + 1); lia.
    - apply Z.mod_unique with (2 * (d / (2 * NZ))); lia. }
  rewrite Lp in Hv.
  assert (Hv' : forall i, (i < N)%nat -> nthZ v i =
     nthZ p (Z.to_nat (if Z.of_nat i <? d mod NZ then Z.of_nat i + NZ - d mod NZ else Z.of_nat i - d mod NZ))).
  { intros i Hi. set (kk := d mod NZ) in *. clearbody kk.
    destruct (Z.ltb_spec (Z.of_nat i) kk).
    - unfold nthZ. rewrite <- Hv by lia. f_equal. rewrite Z2Nat.id by lia.
      replace (Z.of_nat i + NZ - kk + kk) with (Z.of_nat i + 1 * NZ) by lia.
      rewrite Z_mod_plus_full, Z.mod_small by lia. lia.
    - unfold nthZ. rewrite <- Hv by lia. f_equal. rewrite Z2Nat.id by lia.
      replace (Z.of_nat i - kk + kk) with (Z.of_nat i) by lia.
      rewrite Z.mod_small by lia. lia. }
  assert (Ht : forall r, length r = N -> (forall i, (i < N)%nat -> nthZ r i = nthZ (MonomialMulPolyTo w N out p d) i) ->
     r = MonomialMulPolyTo w N out p d).
  { intros r Lr Hr. apply nthZ_ext; [unfold MonomialMulPolyTo; lia|]. rewrite Lr. exact Hr. }
  assert (Hw' : forall i, (i < N)%nat -> uword w (nthZ p i)) by (intros; now apply nth_word).
  pose proof (fun i Hi => cf_shift_red p d i Hi) as Hc. cbn zeta in Hc.
  rewrite Ek in *. clear Ek.
  set (k := d mod (2 * NZ)) in *. clearbody k.
  destruct (Z.leb_spec NZ k).
  - destruct (negRange_spec w (k - NZ) NZ v) as [Ln Hn']; [lia|lia|].
    apply Ht; [lia|]. intros i Hi. unfold MonomialMulPolyTo. rewrite H by exact Hi. unfold accSet.
    rewrite Hn', Hc, Hv' by exact Hi.
    destruct (Z.ltb_spec (Z.of_nat i) (k - NZ)).
    + destruct ((k - NZ <=? Z.of_nat i) && (Z.of_nat i <? NZ)) eqn:E1; [lia|].
      rewrite wrap_small by (apply Hw'; lia). f_equal. lia.
    + destruct ((k - NZ <=? Z.of_nat i) && (Z.of_nat i <? NZ)) eqn:E1; [|lia]. reflexivity.
  - destruct (Z.leb_spec 0 k); [|lia]. destruct (Z.ltb_spec k NZ); [|lia]. cbn [andb].
    destruct (negRange_spec w 0 k v) as [Ln Hn']; [lia|lia|].
    apply Ht; [lia|]. intros i Hi. unfold MonomialMulPolyTo. rewrite H by exact Hi. unfold accSet.
    rewrite Hn', Hc, Hv' by exact Hi.
    destruct (Z.leb_spec 0 (Z.of_nat i)); [|lia]. cbn [andb].
    destruct (Z.ltb_spec (Z.of_nat i) k).
    + reflexivity.
    + rewrite wrap_small by (apply Hw'; lia). reflexivity.
Qed.

(** Composition and inverse laws. *)
Lemma MonomialMul_compose w n o1 o2 o3 p d e : 0 <= n -> 0 <= w -> NZ = 2 ^ n ->
  length o1 = N -> length o2 = N -> length o3 = N -> wpoly w N p ->
  MonomialMulPolyTo w N o2 (MonomialMulPolyTo w N o1 p d) e = MonomialMulPolyTo w N o3 p (d + e).
Proof.
  intros Hn Hw E H1 H2 H3 Hp.
  destruct (MonomialMulPolyTo_spec w n o1 p d Hn Hw E H1 Hp) as [W1 P1].
  destruct (MonomialMulPolyTo_spec w n o2 _ e Hn Hw E H2 W1) as [W2 P2].
  destruct (MonomialMulPolyTo_spec w n o3 p (d + e) Hn Hw E H3 Hp) as [W3 P3].
  apply (pol_inj w _ _ W2 W3). rewrite P2, P3, P1.
  rewrite pmul_assoc, pmono_add. rewrite Z.add_comm. reflexivity.
Qed.

Lemma MonomialMul_zero w n o p d : 0 <= n -> 0 <= w -> NZ = 2 ^ n -> length o = N -> wpoly w N p ->
  (2 * NZ | d) -> MonomialMulPolyTo w N o p d = p.
Proof.
  intros Hn Hw E H1 Hp [c Hc].
  destruct (MonomialMulPolyTo_spec w n o p d Hn Hw E H1 Hp) as [W1 P1].
  apply (pol_inj w _ _ W1 Hp). rewrite P1, <- pshift_mono.
  rewrite (pshift_eqm _ d 0) by (exists c; lia). apply pshift_0.
Qed.

End Pol.
