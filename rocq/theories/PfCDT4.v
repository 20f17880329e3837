(** Lemmas: the table of NewCDTSampler and what Sample does with it. *)
From Coq Require Import Lia Floats.SpecFloat.
From Verif Require Import Base ModelNum ModelAsm ModelF64 ModelFFT ModelF64Arith PfF64 PfF64b PfF64d SpecRound PfRound PfValid ModelSampler SpecSampler PfSampler SpecNum PfNum ModelCDT SpecCDT PfCDT PfCDT2 PfCDT3.
From Coq Require Import Reals Lra.
Import ListNotations.
Open Scope Z_scope.

Lemma floor_spec x : finite x -> (IZR (floorZ x) <= val x < IZR (floorZ x) + 1)%R.
Proof.
  intros Hx. destruct x as [s|s| |s m e]; try (exfalso; exact Hx); [cbn [floorZ val]; lra|].
  change (val (S754_finite s m e)) with (IZR (cond_Zopp s (Zpos m)) * pw e)%R. set (z := cond_Zopp s (Zpos m)). unfold floorZ. fold z.
  destruct (Z.leb_spec 0 e) as [C|C]; [rewrite mult_IZR, pw_IZR by lia; lra|].
  assert (P : 0 < 2 ^ (- e)) by (apply Z.pow_pos_nonneg; lia). pose proof (Z.div_mod z (2 ^ (- e)) ltac:(lia)) as E. pose proof (Z.mod_pos_bound z (2 ^ (- e)) P) as B.
  set (n := z / 2 ^ (- e)) in *.
  assert (E1 : (pw (- e) * pw e = 1)%R) by (rewrite <- pw_add; replace (- e + e) with 0 by lia; apply pw_0). pose proof (pw_pos e) as Pe. pose proof (pw_pos (- e)) as Pn.
  assert (L1 : (IZR (n * 2 ^ (- e)) <= IZR z)%R) by (apply IZR_le; lia). assert (L2 : (IZR z < IZR ((n + 1) * 2 ^ (- e)))%R) by (apply IZR_lt; lia).
  rewrite mult_IZR, pw_IZR in L1, L2 by lia. rewrite plus_IZR in L2. split.
  - apply Rle_trans with (IZR n * pw (- e) * pw e)%R; [rewrite Rmult_assoc, E1; lra|apply Rmult_le_compat_r; lra].
  - apply Rlt_le_trans with ((IZR n + 1) * pw (- e) * pw e)%R; [apply Rmult_lt_compat_r; lra|rewrite Rmult_assoc, E1; lra].
Qed.
Lemma frac_finite c : is_fin c -> - 2 ^ 63 <= floorZ c < 2 ^ 63 -> finite (SFsub 53 1024 c (floorF c)).
Proof.
  intros Hc Hr. assert (Fc : finite c) by (destruct c; try exact Logic.I; exact Hc). pose proof (floor_spec c Fc) as S.
  assert (P63 : (pw 64 = IZR (2 ^ 64))%R) by (rewrite pw_IZR by lia; reflexivity).
  assert (Bn : (Rabs (IZR (floorZ c)) <= pw 64)%R) by (rewrite P63, <- abs_IZR; apply IZR_le; lia).
  assert (Bc : (Rabs (val c) <= pw 64)%R).
  { rewrite P63. assert (B1 : (IZR (- 2 ^ 63) <= IZR (floorZ c))%R) by (apply IZR_le; lia). assert (B2 : (IZR (floorZ c) + 1 <= IZR (2 ^ 63))%R) by (rewrite <- plus_IZR; apply IZR_le; lia).
    assert (B3 : (IZR (- 2 ^ 64) <= IZR (- 2 ^ 63))%R) by (apply IZR_le; lia). assert (B4 : (IZR (2 ^ 63) <= IZR (2 ^ 64))%R) by (apply IZR_le; lia).
    change (- 2 ^ 64) with (- (2 ^ 64)) in B3. rewrite opp_IZR in B3. apply Rabs_le. lra. }
  assert (L : (pw 64 <= pw 900)%R) by (apply pw_le; lia).
  assert (F2 : finF (floorF c) /\ (Rabs (val (floorF c)) <= pw 66)%R).
  { destruct c as [s|s| |s m e]; try (exfalso; exact Hc).
    - split; [exact Logic.I|]. cbn [floorF val]. rewrite Rabs_R0. apply Rlt_le, pw_pos.
    - unfold floorF. set (n := floorZ (S754_finite s m e)) in *.
      assert (R : (Rabs (IZR n * pw 0) <= pw 970)%R) by (rewrite pw_0, Rmult_1_r; assert (pw 900 <= pw 970)%R by (apply pw_le; lia); lra).
      destruct (BN_rok n 0 s R) as [F E]. split; [exact F|]. rewrite pw_0, Rmult_1_r in E.
      pose proof (Rabs_triang_inv (val (BN n 0 s)) (IZR n)) as T.
      assert (A1 : (pw (-53) * Rabs (IZR n) <= 1 * pw 64)%R) by (apply Rmult_le_compat; [apply Rlt_le, pw_pos|apply Rabs_pos|rewrite <- pw_0; apply pw_le; lia|exact Bn]).
      assert (A2 : (pw (-1075) <= pw 64)%R) by (apply pw_le; lia). replace 66 with (64 + 1 + 1) by reflexivity. rewrite !pw_add, pw_1. lra. }
  destruct F2 as [F2 B2].
  assert (F1 : finF c) by (destruct c; try (exfalso; exact Hc); exact Logic.I).
  destruct (sub_rok c (floorF c) F1 F2) as [F _].
  - eapply Rle_trans; [apply Rabs_triang|]. rewrite Rabs_Ropp. apply Rle_trans with (pw 66 + pw 66)%R; [assert (pw 64 <= pw 66)%R by (apply pw_le; lia); lra|].
    replace (pw 66 + pw 66)%R with (pw (66 + 1)) by (rewrite pw_add, pw_1; ring). apply pw_le. lia.
  - revert F. destruct (SFsub 53 1024 c (floorF c)); intros F; exact F.
Qed.
Lemma toI64_range x n : - 2 ^ 63 <= toI64 x n < 2 ^ 63.
Proof.
  unfold toI64. destruct x; try lia; destruct (Z.leb_spec (- 2 ^ 63) n); destruct (Z.ltb_spec n (2 ^ 63)); cbn [andb]; lia.
Qed.

Section S.
Variables (ex : f64 -> f64) (center sd : f64) (table : list Z) (offset : Z).
Hypotheses (Hex : exp_ok ex) (Hc : is_fin center) (Hr : - 2 ^ 63 <= floorZ center < 2 ^ 63) (H1 : is_pos (expDen sd)) (H2 : is_pos (normDen sd))
  (HR : NewCDTSampler ex center sd = Ret (table, offset)).
Lemma table_spec : nondecreasing table /\ (forall i, (i < length table)%nat -> 0 <= nthZ table i < 2 ^ 64) /\
  Z.of_nat (length table) = swrap 64 (cdtTailHi center sd - cdtTailLo center sd + 1).
Proof.
  unfold NewCDTSampler in HR. cbv zeta in HR. set (n := swrap 64 (cdtTailHi center sd - cdtTailLo center sd + 1)) in *.
  destruct (Z.ltb_spec n 0) as [C|C]; [discriminate|]. injection HR as E _. symmetry in E.
  assert (Hn : n < 2 ^ 63) by (apply (swrap_range 64); lia).
  pose proof (toI64_range (SFsub 53 1024 center (SFmul 53 1024 tailCutF sd)) (floorZ (SFsub 53 1024 center (SFmul 53 1024 tailCutF sd)))) as HL. fold (cdtTailLo center sd) in HL.
  destruct (loop_spec ex Hex (SFsub 53 1024 center (floorF center)) sd (frac_finite _ Hc Hr) H1 H2 (Z.to_nat n) (cdtTailLo center sd) (S754_zero false) Logic.I ltac:(lia) ltac:(lia)) as (L & B & M).
  rewrite <- E in *. split; [exact M|]. split; [|lia]. intros i Hi. specialize (B i ltac:(lia)). change (cdtWord (S754_zero false)) with 0 in B. exact B.
Qed.
End S.

Lemma cdt_total ex center sd : 0 <= cdtTailHi center sd - cdtTailLo center sd + 1 < 2 ^ 63 -> exists table offset, NewCDTSampler ex center sd = Ret (table, offset) /\
  Z.of_nat (length table) = cdtTailHi center sd - cdtTailLo center sd + 1.
Proof.
  intros H. unfold NewCDTSampler. cbv zeta. rewrite (swrap_small 64 (cdtTailHi center sd - cdtTailLo center sd + 1)) by (unfold sword; lia).
  destruct (Z.ltb_spec (cdtTailHi center sd - cdtTailLo center sd + 1) 0) as [C|C]; [lia|]. eexists _, _. split; [reflexivity|].
  assert (L : forall c n x f, length (cdtLoop ex c sd n x f) = n) by (intros c n; induction n as [|n IH]; intros x f; [reflexivity|cbn [cdtLoop length]; cbv zeta; rewrite IH; reflexivity]).
  rewrite L. lia.
Qed.
Lemma word_val x : is_nonneg x -> x <> S754_infinity false -> (val x < 1)%R -> (IZR (cdtWord x) <= val x * powerRZ 2 64 < IZR (cdtWord x) + 1)%R.
Proof.
  intros Hx Hi H. destruct (word_spec x Hx) as [_ [[[C|C] _]|(_ & _ & W)]]; [contradiction|lra|]. exact W.
Qed.
Lemma word_top x : is_nonneg x -> (1 <= val x)%R -> cdtWord x = 2 ^ 64 - 1.
Proof. intros Hx H. destruct (word_spec x Hx) as [_ [[_ E]|(_ & C & _)]]; [exact E|lra]. Qed.
Lemma sum_le x d : is_nonneg x -> is_nonneg d -> is_nonneg (SFadd 53 1024 x d) /\ (SFadd 53 1024 x d <> S754_infinity false -> (val x <= val (SFadd 53 1024 x d))%R).
Proof. intros Hx Hd. destruct (add_le x d Hx Hd) as (_ & H & [E|[_ L]]); (split; [exact H|]); [intros C; contradiction|intros _; exact L]. Qed.
Section T.
Variables (ex : f64 -> f64) (center sd : f64) (table : list Z) (offset : Z).
Hypotheses (Hex : exp_ok ex) (Hc : is_fin center) (Hr : - 2 ^ 63 <= floorZ center < 2 ^ 63) (H1 : is_pos (expDen sd)) (H2 : is_pos (normDen sd))
  (HR : NewCDTSampler ex center sd = Ret (table, offset)).
Lemma sample_value r : CDTSample table offset r = offset + below table r.
Proof. apply CDTSample_eq. apply (table_spec ex center sd table offset Hex Hc Hr H1 H2 HR). Qed.
Lemma sample_mono r r' : r <= r' -> CDTSample table offset r <= CDTSample table offset r'.
Proof. apply CDTSample_mono. apply (table_spec ex center sd table offset Hex Hc Hr H1 H2 HR). Qed.
Lemma sample_range r : (0 < length table)%nat -> r < nthZ table (length table - 1) -> offset <= CDTSample table offset r <= offset + Z.of_nat (length table) - 1.
Proof. apply CDTSample_range. apply (table_spec ex center sd table offset Hex Hc Hr H1 H2 HR). Qed.
End T.
Lemma loop_entry ex cf sd t lo : (forall x, cdtTerm ex cf sd x = t x) -> forall n k i, (i < n)%nat ->
  nthZ (cdtLoop ex cf sd n (lo + Z.of_nat k) (rsum t lo k)) i = cdtWord (rsum t lo (S (k + i))).
Proof.
  intros Ht n. induction n as [|n IH]; intros k i Hi; [lia|]. cbn [cdtLoop]. cbv zeta. rewrite Ht.
  change (SFadd 53 1024 (rsum t lo k) (t (lo + Z.of_nat k))) with (rsum t lo (S k)). destruct i as [|i]; [rewrite Nat.add_0_r; reflexivity|].
  replace (lo + Z.of_nat k + 1) with (lo + Z.of_nat (S k)) by lia.
  change (nthZ (cdtLoop ex cf sd n (lo + Z.of_nat (S k)) (rsum t lo (S k))) i = cdtWord (rsum t lo (S (k + S i)))). rewrite IH by lia. do 2 f_equal. lia.
Qed.
Lemma entry_spec ex center sd table offset : NewCDTSampler ex center sd = Ret (table, offset) ->
  let lo := cdtTailLo center sd in let c := SFsub 53 1024 center (floorF center) in
  (forall i, (i < length table)%nat -> nthZ table i = cdtWord (rsum (density ex sqrt2piF c sd) lo (S i))) /\
  (is_fin center -> - 2 ^ 63 <= floorZ center < 2 ^ 63 -> - 2 ^ 63 <= lo + floorZ center < 2 ^ 63 -> offset = lo + floorZ center).
Proof.
  unfold NewCDTSampler. cbv zeta. set (n := swrap 64 (cdtTailHi center sd - cdtTailLo center sd + 1)). destruct (n <? 0); [discriminate|]. intros E. injection E as E1 E2.
  assert (L : forall c n x f, length (cdtLoop ex c sd n x f) = n) by (intros c k; induction k as [|k IH]; intros x f; [reflexivity|cbn [cdtLoop length]; cbv zeta; rewrite IH; reflexivity]).
  split.
  - intros i Hi. rewrite <- E1 in Hi |- *. rewrite L in Hi.
    pose proof (loop_entry ex (SFsub 53 1024 center (floorF center)) sd (density ex sqrt2piF (SFsub 53 1024 center (floorF center)) sd) (cdtTailLo center sd) (fun x => eq_refl) (Z.to_nat n) 0 i Hi) as H.
    rewrite Z.add_0_r in H. exact H.
  - intros Hf Hr Ho. rewrite <- E2. assert (Et : toI64 center (floorZ center) = floorZ center).
    { unfold toI64. destruct (Z.leb_spec (- 2 ^ 63) (floorZ center)) as [_|C]; [|lia]. destruct (Z.ltb_spec (floorZ center) (2 ^ 63)) as [_|C]; [|lia]. destruct center; try reflexivity; exfalso; exact Hf. }
    rewrite Et. apply swrap_small; [lia|]. unfold sword. lia.
Qed.
Lemma tail_lo center sd : let t := SFsub 53 1024 center (SFmul 53 1024 tailCutF sd) in is_fin t -> (- IZR (2 ^ 63) <= val t < IZR (2 ^ 63))%R ->
  (IZR (cdtTailLo center sd) <= val t < IZR (cdtTailLo center sd) + 1)%R.
Proof.
  intros t Ht Hr. assert (Ft : finite t) by (destruct t; try exact Logic.I; exact Ht). pose proof (floor_spec t Ft) as S. unfold cdtTailLo. cbv zeta. fold t.
  assert (L1 : - 2 ^ 63 <= floorZ t). { apply Z.lt_succ_r, lt_IZR. rewrite succ_IZR. change (- 2 ^ 63) with (- (2 ^ 63)). rewrite opp_IZR. lra. }
  assert (L2 : floorZ t < 2 ^ 63) by (apply lt_IZR; lra).
  unfold toI64. rewrite (proj2 (Z.leb_le _ _) L1), (proj2 (Z.ltb_lt _ _) L2). cbn [andb]. destruct t; try exact S; exfalso; exact Ht.
Qed.
Lemma tail_hi center sd : let t := SFadd 53 1024 center (SFmul 53 1024 tailCutF sd) in is_fin t -> (- IZR (2 ^ 63) <= val t <= IZR (2 ^ 63 - 1))%R ->
  (IZR (cdtTailHi center sd) - 1 < val t <= IZR (cdtTailHi center sd))%R.
Proof.
  intros t Ht Hr. assert (Ft : finite (SFopp t)) by (destruct t; try exact Logic.I; exact Ht). pose proof (floor_spec _ Ft) as S.
  assert (Ev : val (SFopp t) = (- val t)%R) by (destruct t as [s|s| |s m e]; cbn [SFopp]; [cbn [val]; ring|cbn [val]; ring|cbn [val]; ring|rewrite !val_fin; destruct s; cbn [negb sgR]; ring]).
  rewrite Ev in S. unfold cdtTailHi. cbv zeta. fold t. set (n := ceilZ t). assert (En : IZR (floorZ (SFopp t)) = (- IZR n)%R) by (unfold n, ceilZ; rewrite opp_IZR; ring). rewrite En in S.
  assert (L1 : - 2 ^ 63 <= n). { apply le_IZR. change (- 2 ^ 63) with (- (2 ^ 63)). rewrite opp_IZR. lra. }
  assert (L2 : n < 2 ^ 63). { apply lt_IZR. replace (2 ^ 63) with (2 ^ 63 - 1 + 1) by lia. rewrite plus_IZR. lra. }
  unfold toI64. rewrite (proj2 (Z.leb_le _ _) L1), (proj2 (Z.ltb_lt _ _) L2). cbn [andb]. destruct t; try (exfalso; exact Ht); lra.
Qed.
