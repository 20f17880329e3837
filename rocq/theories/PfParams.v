(** Lemmas on parameter compilation (C41, C58) and on the scale. *)
From Verif Require Import Base ModelNum ModelFloat ModelGadget ModelParams SpecNum SpecGadget SpecParams PfNum PfFloat PfGadget.

Lemma math_Round_denotes r q : 0 <= q -> denotes r q 1 -> math_Round r = q.
Proof.
  intros Hq [H1 H2]. unfold math_Round. destruct r as [a b]; cbn [fst snd] in *.
  rewrite Z.mul_1_r in H2. subst a. symmetry. apply (Z.div_unique _ _ _ b); lia.
Qed.

Lemma DivRound_multiple q y : 0 <= q -> 0 < y -> is_float_int q -> is_float_int y -> is_float_int (q * y) -> DivRound (q * y) y = q.
Proof.
  intros Hq Hy Fq Fy Fx. unfold DivRound, fl_div.
  destruct (fl_of_int_float _ Fx) as [Hd1 Hv1]. destruct (fl_of_int_float _ Fy) as [Hd2 Hv2].
  destruct (fl_of_int (q * y)) as [a b]. destruct (fl_of_int y) as [c d]. cbn [fst snd] in *.
  rewrite Z.mul_1_r in Hv1, Hv2. subst a c. apply math_Round_denotes; [exact Hq|].
  destruct Fq as (k & j & Hk & Hj & ->). pose proof (pow2_pos j Hj) as Hp.
  assert (0 <= k * 2 ^ j * y * b * d) by (repeat apply Z.mul_nonneg_nonneg; lia).
  assert (0 < b * (y * d)) by (repeat apply Z.mul_pos_pos; lia).
  destruct (fl_exact (k * 2 ^ j * y * b * d) (b * (y * d)) k (- j)) as [E1 E2]; [assumption|assumption|lia| |].
  { right. split; [lia|]. rewrite Z.opp_involutive. ring. }
  split; [exact E1|]. rewrite Z.mul_1_r.
  destruct (fl _) as [p r]. cbn [fst snd] in *.
  apply (Z.mul_cancel_r _ _ (b * (y * d))); [lia|]. rewrite E2. ring.
Qed.

Lemma is_float_pow2 j : 0 <= j -> is_float_int (2 ^ j).
Proof. exact (fl_pow2_float j). Qed.

Lemma scale_pow2 w k : 0 < w -> 0 <= k <= w - 1 -> scaleOf w (2 ^ k) = 2 ^ (w - 1 - k).
Proof.
  intros Hw Hk. unfold scaleOf. pose proof (pow2_pos k ltac:(lia)) as Hp.
  destruct (Z.eqb_spec (2 ^ k) 0); [lia|].
  replace (2 ^ (w - 1)) with (2 ^ (w - 1 - k) * 2 ^ k) by (rewrite <- Z.pow_add_r by lia; f_equal; lia).
  pose proof (pow2_pos (w - 1 - k) ltac:(lia)).
  rewrite DivRound_multiple; try (apply is_float_pow2; lia); try lia.
  - apply wrap_small. unfold uword. split; [lia|]. apply Z.pow_lt_mono_r; lia.
  - rewrite <- Z.pow_add_r by lia. apply is_float_pow2. lia.
Qed.
Lemma scale_pow2_exact w k : 0 < w -> 0 <= k <= w - 1 -> scale_exact w (2 ^ k) (scaleOf w (2 ^ k)).
Proof.
  intros Hw Hk. rewrite scale_pow2 by assumption. unfold scale_exact.
  rewrite <- Z.pow_add_r by lia. f_equal; lia.
Qed.

Lemma f64_le0_false x : uword 64 x -> f64_le0 x = false -> f64_pos_or_nan x.
Proof.
  unfold f64_le0, f64_pos_or_nan, uword. intros Hx H.
  destruct (f64_nan x); [now left|]. cbn [negb andb] in H. right.
  apply orb_false_iff in H. destruct H as [H1 H2]. apply Z.leb_gt in H1. apply Z.eqb_neq in H2. lia.
Qed.
Lemma f64_le0_pos x : 0 < x < 2 ^ 63 -> f64_le0 x = false.
Proof.
  intros Hx. unfold f64_le0. destruct (Z.leb_spec (2 ^ 63) x); [lia|]. destruct (Z.eqb_spec x 0); [lia|].
  now rewrite andb_false_r.
Qed.

Lemma sword_small x : 0 < x -> sword 64 x -> 0 < x < 2 ^ 63.
Proof. unfold sword. change (64 - 1) with 63. lia. Qed.

Lemma Compile_sound w p g : 0 < w <= 64 -> lit_sane w p -> Compile w p = Ok g -> params_ok w g.
Proof.
  intros Hw (S1 & S2 & S3 & S4 & S5 & S6 & S7 & S8 & S9 & S10 & S11 & S12 & S13). unfold Compile.
  rewrite (swrap_small 64 _ ltac:(lia) S11).
  set (lut := if l_LUTSize p =? 0 then l_PolyRank p else l_LUTSize p).
  set (blk := if l_BlockSize p =? 0 then 1 else l_BlockSize p).
  destruct (Z.leb_spec (l_LWEDimension p) 0) as [|H1]; [discriminate|].
  destruct (Z.ltb_spec (l_GLWERank p * l_PolyRank p) (l_LWEDimension p)) as [|H2]; [discriminate|].
  destruct (Z.leb_spec (l_GLWERank p) 0) as [|H3]; [discriminate|].
  destruct (Z.ltb_spec lut (l_PolyRank p)) as [|H4]; [discriminate|].
  destruct (f64_le0 (l_LWEStdDev p)) eqn:E5; [discriminate|].
  destruct (f64_le0 (l_GLWEStdDev p)) eqn:E6; [discriminate|].
  destruct (Z.leb_spec blk 0) as [|H7]; [discriminate|].
  destruct (Z.eqb_spec (Z.rem (l_LWEDimension p) blk) 0) as [E8|]; [|discriminate]. cbn [negb].
  destruct (Z.eqb_spec (l_PolyRank p) 0) as [|H8]; [discriminate|].
  destruct (Z.eqb_spec (Z.rem lut (l_PolyRank p)) 0) as [E9|]; [|discriminate]. cbn [negb].
  destruct (IsPowerOfTwo (l_PolyRank p)) eqn:E10; [|discriminate]. cbn [negb].
  destruct ((l_Order p =? 0) || (l_Order p =? 1)) eqn:E11; [|discriminate]. cbn [negb].
  destruct (Log2 (l_PolyRank p)) as [lN| |] eqn:E12; try discriminate.
  destruct (CompileGadget w (l_BlindRotate p)) as [br| |] eqn:E13; try discriminate.
  destruct (CompileGadget w (l_KeySwitch p)) as [ks| |] eqn:E14; try discriminate.
  intros [= <-].
  apply IsPowerOfTwo_spec in E10. destruct E10 as (k & Hk & EN). pose proof (pow2_pos k Hk) as Hp.
  apply Log2_spec in E12. destruct E12 as (HN & HlN1 & HlN).
  assert (lN = k) as ->.
  { rewrite EN in HlN. destruct (Z.lt_trichotomy lN k) as [C|[C|C]]; [|exact C|].
    - assert (2 ^ (lN + 1) <= 2 ^ k) by (apply Z.pow_le_mono_r; lia). lia.
    - assert (2 ^ (k + 1) <= 2 ^ lN) by (apply Z.pow_le_mono_r; lia).
      rewrite Z.pow_add_r in H by lia. lia. }
  rewrite Z.rem_mod_nonneg in E8, E9 by lia.
  unfold params_ok; cbn.
  assert (l_LWEDimension p = blk * (l_LWEDimension p / blk)) as F8.
  { pose proof (Z.div_mod (l_LWEDimension p) blk ltac:(lia)). lia. }
  assert (lut = lut / l_PolyRank p * l_PolyRank p) as F9.
  { pose proof (Z.div_mod lut (l_PolyRank p) ltac:(lia)). lia. }
  destruct (CompileGadget_inv w _ _ Hw S9 S12 E13) as [G1 _].
  destruct (CompileGadget_inv w _ _ Hw S10 S13 E14) as [G2 _].
  assert (1 <= lut / l_PolyRank p) by (apply Z.div_le_lower_bound; lia).
  assert (0 < l_LWEDimension p / blk) by nia.
  repeat match goal with |- _ /\ _ => split end; try assumption; try lia; try (now apply f64_le0_false).
  apply orb_true_iff in E11. unfold OrderKeySwitchBlindRotate, OrderBlindRotateKeySwitch.
  destruct E11 as [E|E]; apply Z.eqb_eq in E; auto.
Qed.

Lemma Compile_fields w p g : Compile w p = Ok g ->
  p_lweDimension g = l_LWEDimension p /\ p_glweRank g = l_GLWERank p /\ p_polyRank g = l_PolyRank p /\
  p_lutSize g = (if l_LUTSize p =? 0 then l_PolyRank p else l_LUTSize p) /\
  p_blockSize g = (if l_BlockSize p =? 0 then 1 else l_BlockSize p) /\
  p_lweStdDev g = l_LWEStdDev p /\ p_glweStdDev g = l_GLWEStdDev p /\
  p_messageModulus g = l_MessageModulus p /\ p_scale g = scaleOf w (l_MessageModulus p) /\ p_order g = l_Order p /\
  CompileGadget w (l_BlindRotate p) = Ok (p_blindRotate g) /\ CompileGadget w (l_KeySwitch p) = Ok (p_keySwitch g).
Proof.
  unfold Compile. intros H.
  repeat (match type of H with (if ?b then _ else _) = _ => destruct b; [discriminate|] end).
  destruct (Log2 (l_PolyRank p)) as [lN| |] eqn:E12; try discriminate.
  destruct (CompileGadget w (l_BlindRotate p)) as [br| |] eqn:E13; try discriminate.
  destruct (CompileGadget w (l_KeySwitch p)) as [ks| |] eqn:E14; try discriminate.
  injection H as <-. cbn. repeat split.
Qed.

Lemma Compile_Literal w p g : 0 < w <= 64 -> lit_sane w p -> Compile w p = Ok g -> Compile w (Literal g) = Ok g.
Proof.
  intros Hw Hs H. pose proof (Compile_sound w p g Hw Hs H) as Hok.
  destruct Hs as (S1 & S2 & S3 & S4 & S5 & S6 & S7 & S8 & S9 & S10 & S11 & S12 & S13).
  destruct (Compile_fields w p g H) as (F1 & F2 & F3 & F4 & F5 & F6 & F7 & F8 & F9 & F10 & G1 & G2).
  assert (p_lutSize g <> 0 /\ p_blockSize g <> 0) as [N1 N2].
  { destruct Hok as (? & ? & ? & ? & E & ? & E2 & ? & _). pose proof (pow2_pos (p_logPolyRank g) ltac:(lia)).
    split; [rewrite E2, E; nia|lia]. }
  rewrite <- H. unfold Compile, Literal. cbn.
  rewrite F1, F2, F3, F6, F7, F8, F10.
  rewrite (proj1 (gadget_lit_roundtrip w _ _ Hw S9 S12 G1)), (proj1 (gadget_lit_roundtrip w _ _ Hw S10 S13 G2)).
  replace (if p_lutSize g =? 0 then l_PolyRank p else p_lutSize g) with (p_lutSize g) by (destruct (Z.eqb_spec (p_lutSize g) 0); congruence).
  replace (if p_blockSize g =? 0 then 1 else p_blockSize g) with (p_blockSize g) by (destruct (Z.eqb_spec (p_blockSize g) 0); congruence).
  rewrite F4, F5. reflexivity.
Qed.

Lemma Compile_complete w p : 0 < w <= 64 -> lit_sane w p -> lit_valid w p -> exists g, Compile w p = Ok g.
Proof.
  intros Hw (S1 & S2 & S3 & S4 & S5 & S6 & S7 & S8 & S9 & S10 & S11 & S12 & S13) V. unfold lit_valid in V.
  unfold Compile. set (blk := if l_BlockSize p =? 0 then 1 else l_BlockSize p) in *.
  destruct V as (V1 & V2 & V3 & V4 & V5 & V6 & V7 & V8 & V9 & [br V10] & [ks V11]).
  rewrite (swrap_small 64 _ ltac:(lia) S11).
  pose proof V3 as V3'. destruct V3 as (k & Hk & EN). pose proof (pow2_pos k Hk) as Hp.
  set (lut := if l_LUTSize p =? 0 then l_PolyRank p else l_LUTSize p).
  assert (exists e, 1 <= e /\ lut = e * l_PolyRank p) as (e & He & El).
  { unfold lut. destruct V4 as [E|(e & He & E)].
    - rewrite E. exists 1. change (0 =? 0) with true. cbn iota. lia.
    - exists e. split; [exact He|]. destruct (Z.eqb_spec (l_LUTSize p) 0) as [E0|]; [nia|exact E]. }
  destruct (Z.leb_spec (l_LWEDimension p) 0) as [|H1]; [lia|].
  destruct (Z.ltb_spec (l_GLWERank p * l_PolyRank p) (l_LWEDimension p)) as [|H2]; [lia|].
  destruct (Z.leb_spec (l_GLWERank p) 0) as [|H3]; [lia|].
  destruct (Z.ltb_spec lut (l_PolyRank p)) as [|H4]; [nia|].
  rewrite !f64_le0_pos by assumption.
  destruct (Z.leb_spec blk 0) as [|H7]; [lia|].
  rewrite Z.rem_mod_nonneg by lia. rewrite (proj2 (Z.mod_divide _ blk ltac:(lia)) V8). cbn [Z.eqb negb].
  destruct (Z.eqb_spec (l_PolyRank p) 0) as [|H8]; [lia|].
  rewrite Z.rem_mod_nonneg by nia. rewrite El, Z.mod_mul by lia. cbn [Z.eqb negb].
  rewrite (proj2 (IsPowerOfTwo_spec _) V3'). cbn [negb].
  assert ((l_Order p =? 0) || (l_Order p =? 1) = true) as ->.
  { apply orb_true_iff. rewrite !Z.eqb_eq. exact V9. }
  cbn [negb]. rewrite (proj2 (Log2_spec (l_PolyRank p) k)).
  - rewrite V10, V11. eexists; reflexivity.
  - split; [lia|]. unfold is_floor_log2. rewrite EN. rewrite Z.pow_add_r by lia. change (2 ^ 1) with 2. lia.
Qed.

Lemma MkCompile_sound w p g : 0 < w <= 64 -> lit_sane w (ml_Sub p) ->
  uword w (gl_base (ml_Acc p)) -> uword w (gl_base (ml_Relin p)) ->
  0 <= gl_level (ml_Acc p) * 64 < 2 ^ 63 -> 0 <= gl_level (ml_Relin p) * 64 < 2 ^ 63 ->
  MkCompile w p = Ok g ->
  params_ok w (mp_sub g) /\ 1 <= mp_partyCount g /\ p_glweRank (mp_sub g) = 1 /\
  p_lutSize (mp_sub g) = p_polyRank (mp_sub g) /\ gadget_ok w (mp_acc g) /\ gadget_ok w (mp_relin g) /\
  MkCompile w (MkLiteral g) = Ok g.
Proof.
  intros Hw Hs B1 B2 L1 L2 H. pose proof H as H0. unfold MkCompile in H.
  destruct (Compile w (ml_Sub p)) as [sub| |] eqn:E; try discriminate.
  destruct (Z.leb_spec (ml_PartyCount p) 0) as [|H1]; [discriminate|].
  destruct (Z.eqb_spec (p_glweRank sub) 1) as [H2|]; [|discriminate]. cbn [negb] in H.
  destruct (Z.eqb_spec (p_lutSize sub) (p_polyRank sub)) as [H3|]; [|discriminate]. cbn [negb] in H.
  destruct (CompileGadget w (ml_Acc p)) as [a| |] eqn:Ea; try discriminate.
  destruct (CompileGadget w (ml_Relin p)) as [r| |] eqn:Er; try discriminate.
  injection H as <-. cbn [mp_sub mp_partyCount mp_acc mp_relin].
  split; [eapply Compile_sound; eassumption|]. split; [lia|]. split; [exact H2|]. split; [exact H3|].
  split; [exact (proj1 (CompileGadget_inv w _ _ Hw B1 L1 Ea))|]. split; [exact (proj1 (CompileGadget_inv w _ _ Hw B2 L2 Er))|].
  unfold MkCompile, MkLiteral. cbn [ml_Sub ml_PartyCount ml_Acc ml_Relin mp_sub mp_partyCount mp_acc mp_relin].
  rewrite (Compile_Literal w _ _ Hw Hs E).
  destruct (Z.leb_spec (ml_PartyCount p) 0); [lia|]. rewrite H2, H3, !Z.eqb_refl. cbn [negb].
  rewrite (proj2 (gadget_lit_roundtrip w _ _ Hw B1 L1 Ea)), (proj2 (gadget_lit_roundtrip w _ _ Hw B2 L2 Er)). reflexivity.
Qed.

Ltac sane := unfold lit_sane, sword, uword; cbn; vm_compute; repeat split; discriminate || reflexivity.
Lemma compiles_of w p : 0 < w <= 64 -> lit_sane w p ->
  match Compile w p with Ok g => (p_scale g * p_messageModulus g =? 2 ^ (w - 1)) && (16 <=? p_polyRank g) | _ => false end = true ->
  compiles w p.
Proof.
  intros Hw Hs H. destruct (Compile w p) as [g| |] eqn:E; try discriminate. apply andb_true_iff in H. destruct H as [H1 H2].
  exists g. split; [exact E|]. split; [now apply (Compile_sound w p)|]. split; [now apply Z.eqb_eq|]. split; [now apply Z.leb_le|].
  now apply (Compile_Literal w p).
Qed.
Lemma mkcompiles_of w p : 0 < w <= 64 -> lit_sane w (ml_Sub p) ->
  uword w (gl_base (ml_Acc p)) -> uword w (gl_base (ml_Relin p)) ->
  0 <= gl_level (ml_Acc p) * 64 < 2 ^ 63 -> 0 <= gl_level (ml_Relin p) * 64 < 2 ^ 63 ->
  match MkCompile w p with Ok g => (p_scale (mp_sub g) * p_messageModulus (mp_sub g) =? 2 ^ (w - 1)) &&
     ((16 <=? p_polyRank (mp_sub g)) && (2 <=? mp_partyCount g)) | _ => false end = true ->
  mkcompiles w p.
Proof.
  intros Hw Hs B1 B2 L1 L2 H. destruct (MkCompile w p) as [g| |] eqn:E; try discriminate.
  rewrite !andb_true_iff in H. destruct H as [H1 [H2 H3]].
  destruct (MkCompile_sound w p g Hw Hs B1 B2 L1 L2 E) as (? & ? & ? & ? & ? & ? & ?).
  exists g. repeat match goal with |- _ /\ _ => split end; try assumption.
  - now apply Z.eqb_eq. - now apply Z.leb_le. - now apply Z.leb_le.
Qed.
Lemma shipped32 : Forall (compiles 32) paramsList_uint32.
Proof. repeat (constructor; [apply compiles_of; [lia|sane|vm_compute; reflexivity]|]). constructor. Qed.
Lemma shipped64 : Forall (compiles 64) paramsList_uint64.
Proof. repeat (constructor; [apply compiles_of; [lia|sane|vm_compute; reflexivity]|]). constructor. Qed.
Lemma shippedMk : Forall (mkcompiles 64) mkParamsList.
Proof.
  repeat (constructor; [apply mkcompiles_of; [lia|sane|sane|sane|sane|sane|vm_compute; reflexivity]|]). constructor.
Qed.
