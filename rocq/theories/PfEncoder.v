(** Lemmas on encoding and decoding (C20). *)
From Verif Require Import Base ModelNum ModelFloat ModelVec ModelEncoder ModelParams SpecNum SpecVec SpecParams PfNum PfFloat PfVec PfParams.

(** Reduction of a message: exact for power-of-two moduli, for every int; otherwise for non-negative ones. *)
Lemma encode_mod w msg mm : 0 < w <= 64 -> 0 < mm ->
  (exists k, 0 <= k <= w /\ mm = 2 ^ k) \/ 0 <= msg < 2 ^ w -> wrap w msg mod mm = msg mod mm.
Proof.
  intros Hw Hmm [(k & Hk & ->)|Hm].
  - unfold wrap. symmetry. apply Zmod_div_mod; [apply pow2_pos; lia|apply pow2_pos; lia|].
    exists (2 ^ (w - k)). rewrite <- Z.pow_add_r by lia. f_equal; lia.
  - now rewrite wrap_small by exact Hm.
Qed.

Definition decodes (w pt mm scale m : Z) : Prop := DecodeLWECustom w pt mm scale = Some m.

Lemma decode_of_round w x mm scale q : 0 < w <= 64 -> 0 < mm <= 2 ^ 63 -> DivRound x scale = q -> 0 <= q < 2 ^ w ->
  DecodeLWECustom w x mm scale = Some (q mod mm).
Proof.
  intros Hw Hmm E Hq. unfold DecodeLWECustom, decodeModulus. rewrite E, (wrap_small w q) by exact Hq.
  destruct (Z.eqb_spec mm 0) as [|_]; [lia|]. destruct (Z.eqb_spec mm 0) as [|_]; [lia|].
  rewrite swrap_small; [reflexivity|lia|]. pose proof (Z.mod_pos_bound q mm ltac:(lia)). unfold sword.
  change (64 - 1) with 63. lia.
Qed.

(** The core: m scaled plus error, wrapped, is a nearby multiple of the scale. *)
Lemma wrap_near w scale mm kk D m e : 0 < w -> 0 < scale -> 0 < mm -> 0 < kk -> 2 ^ w = kk * mm * scale + D ->
  0 <= m < mm -> 2 * (Z.abs e + Z.abs D) <= scale -> - scale <= 2 * e < scale ->
  exists q r, wrap w (m * scale + e) = q * scale + r /\ (r = e \/ r = e + D /\ e < 0) /\ q mod mm = m /\ 0 <= q /\ q * scale <= 2 ^ w + Z.abs D.
Proof.
  intros Hw Hs Hmm Hk HD Hm He He2. pose proof (pow2_pos w ltac:(lia)) as HQ.
  assert (mm * scale <= kk * mm * scale) as Hkm.
  { rewrite <- Z.mul_assoc. assert (0 <= mm * scale) by (apply Z.mul_nonneg_nonneg; lia). nia. }
  assert (m * scale <= (mm - 1) * scale) as Hm1 by (apply Z.mul_le_mono_nonneg_r; lia).
  assert (0 <= m * scale) as Hm0 by (apply Z.mul_nonneg_nonneg; lia).
  destruct (Z_lt_le_dec (m * scale + e) 0) as [Hneg|Hpos].
  - assert (m = 0) as -> by nia. rewrite Z.mul_0_l, Z.add_0_l in *.
    exists (kk * mm), (e + D). split; [|split; [right; lia|split; [apply Z.mod_mul; lia|split; [apply Z.mul_nonneg_nonneg; lia|lia]]]].
    unfold wrap. symmetry. apply (Z.mod_unique_pos _ _ (-1)); lia.
  - exists m, e. split; [|split; [now left|split; [now apply Z.mod_small|split; [lia|]]]].
    + rewrite wrap_small; [reflexivity|]. unfold uword. lia.
    + lia.
Qed.

Lemma q_lt_word w scale q r : 0 < w -> 1 < scale -> 0 <= q -> q * scale + r = wrap w (q * scale + r) -> - scale <= 2 * r -> q < 2 ^ w.
Proof.
  intros Hw Hs Hq E Hr. pose proof (wrap_range w (q * scale + r) ltac:(lia)) as [_ H]. rewrite <- E in H.
  assert (2 * q <= q * scale) by nia. nia.
Qed.

Lemma wrap_wrap w x : 0 <= w -> wrap w (wrap w x) = wrap w x.
Proof. intros. unfold wrap. apply Z.mod_mod. pose proof (pow2_pos w). lia. Qed.

(** Torus of at most 52 bits: division rounding is exact. *)
Lemma decode_small w msg mm scale kk D e : 0 < w <= 52 -> 2 <= scale < 2 ^ 53 -> 0 < mm -> 0 < kk ->
  2 ^ w = kk * mm * scale + D -> 2 * (Z.abs e + Z.abs D) <= scale -> - scale <= 2 * e < scale ->
  (- scale <= 2 * (e + D)) -> wrap w msg mod mm = msg mod mm ->
  DecodeLWECustom w (wrap w (EncodeLWECustom w msg mm scale + e)) mm scale = Some (msg mod mm).
Proof.
  intros Hw Hs Hmm Hk HD He He2 He3 Hmod. unfold EncodeLWECustom.
  destruct (Z.eqb_spec mm 0) as [|_]; [lia|]. rewrite Hmod.
  set (m := msg mod mm). pose proof (Z.mod_pos_bound msg mm Hmm) as Hm. fold m in Hm.
  assert (wrap w (wrap w (m * scale) + e) = wrap w (m * scale + e)) as ->.
  { unfold wrap. rewrite Zplus_mod_idemp_l. reflexivity. }
  destruct (wrap_near w scale mm kk D m e ltac:(lia) ltac:(lia) Hmm Hk HD Hm He He2) as (q & r & E & Hr & Hq & Hq0 & _).
  assert (2 ^ w <= 2 ^ 52) as Hw52 by (apply Z.pow_le_mono_r; lia).
  pose proof (wrap_range w (m * scale + e) ltac:(lia)) as HR.
  assert (mm <= 2 ^ 63).
  { assert (mm * 2 <= kk * mm * scale).
    { replace (kk * mm * scale) with (mm * (kk * scale)) by ring. apply Z.mul_le_mono_nonneg_l; nia. }
    assert (2 ^ 52 < 2 ^ 63) by reflexivity. assert (2 ^ 53 < 2 ^ 63) by reflexivity. lia. }
  rewrite (decode_of_round w _ mm scale q); [congruence|lia|lia| |split; [exact Hq0|]].
  - apply (DivRound_noisy_small _ _ _ r); [unfold uword in HR; lia|lia|exact E|].
    destruct Hr as [->|[-> ?]]; [lia|]. lia.
  - apply (q_lt_word w scale q r); [lia|lia|exact Hq0| |].
    + rewrite <- E. rewrite wrap_wrap by lia. reflexivity.
    + destruct Hr as [->|[-> ?]]; lia.
Qed.

(** Any torus up to 64 bits: the float64 quotient costs 2^13+2. *)
Lemma decode_large w msg mm scale kk D e : 0 < w <= 64 -> is_float_int scale -> 0 < scale -> 0 < mm <= 2 ^ 63 -> 0 < kk ->
  2 ^ w = kk * mm * scale + D -> 2 * (Z.abs e + Z.abs D) + 2 ^ 13 + 2 < scale ->
  wrap w msg mod mm = msg mod mm ->
  DecodeLWECustom w (wrap w (EncodeLWECustom w msg mm scale + e)) mm scale = Some (msg mod mm).
Proof.
  intros Hw Hf Hs Hmm Hk HD He Hmod. unfold EncodeLWECustom.
  destruct (Z.eqb_spec mm 0) as [|_]; [lia|]. rewrite Hmod.
  set (m := msg mod mm). pose proof (Z.mod_pos_bound msg mm ltac:(lia)) as Hm. fold m in Hm.
  assert (wrap w (wrap w (m * scale) + e) = wrap w (m * scale + e)) as ->.
  { unfold wrap. rewrite Zplus_mod_idemp_l. reflexivity. }
  assert (0 < 2 ^ 13) as P13 by reflexivity.
  destruct (wrap_near w scale mm kk D m e ltac:(lia) ltac:(lia) ltac:(lia) Hk HD Hm ltac:(lia) ltac:(lia)) as (q & r & E & Hr & Hq & Hq0 & _).
  assert (2 ^ w <= 2 ^ 64) as Hw64 by (apply Z.pow_le_mono_r; lia).
  pose proof (wrap_range w (m * scale + e) ltac:(lia)) as HR. unfold uword in HR.
  rewrite (decode_of_round w _ mm scale q); [congruence|lia|lia| |split; [exact Hq0|]].
  - apply (DivRound_noisy _ _ _ r); [lia|lia|exact Hf|exact E|].
    destruct Hr as [->|[-> ?]]; lia.
  - apply (q_lt_word w scale q r); [lia|lia|exact Hq0| |].
    + rewrite <- E. rewrite wrap_wrap by lia. reflexivity.
    + destruct Hr as [->|[-> ?]]; lia.
Qed.

(** The scale of compiled parameters. *)
Lemma scale_bounds w mm : 0 < w <= 52 -> 0 < mm < 2 ^ w ->
  2 * Z.abs (2 ^ w - 2 * mm * scaleOf w mm) <= 2 * mm /\ 1 <= scaleOf w mm < 2 ^ w.
Proof.
  intros Hw Hmm. unfold scaleOf. destruct (Z.eqb_spec mm 0) as [|_]; [lia|].
  assert (2 ^ w <= 2 ^ 52) as Hw52 by (apply Z.pow_le_mono_r; lia).
  assert (2 ^ w = 2 * 2 ^ (w - 1)) as E2 by (rewrite <- Z.pow_succ_r by lia; f_equal; lia).
  pose proof (pow2_pos (w - 1) ltac:(lia)).
  pose proof (DivRound_exact (2 ^ (w - 1)) mm ltac:(lia) ltac:(change (2 ^ 53) with (2 * 2 ^ 52); lia)) as H1.
  set (s := DivRound (2 ^ (w - 1)) mm) in *. clearbody s. unfold is_round_half_up in H1.
  assert (1 <= s) by nia.
  assert (s < 2 ^ w).
  { destruct (Z.eq_dec mm 1) as [->|]; [lia|]. assert (2 * (2 * s - 1) <= mm * (2 * s - 1)) by (apply Z.mul_le_mono_nonneg_r; lia). lia. }
  rewrite wrap_small by (unfold uword; lia). split; [|lia].
  rewrite E2. nia.
Qed.

Lemma EncodeGLWE_spec w N out messages mm scale : length out = N ->
  length (EncodeGLWECustomTo w N out messages mm scale) = N /\
  forall i, (i < N)%nat -> nthZ (EncodeGLWECustomTo w N out messages mm scale) i =
    if (i <? length messages)%nat then EncodeLWECustom w (nthZ messages i) mm scale else 0.
Proof.
  intros Hl. unfold EncodeGLWECustomTo. set (len := Nat.min N (length messages)).
  set (body := fun i o => _).
  set (P := fun (n : nat) (o : list Z) => length o = N /\
     forall i, (i < n)%nat -> nthZ o i = EncodeLWECustom w (nthZ messages i) mm scale).
  assert (P len (forN 0 len body out)) as [P1 P2].
  { apply (forN_ind P); unfold P; [split; [exact Hl|intros; lia]|].
    intros n s Hn [L H]. unfold body. replace (0 + n)%nat with n by lia.
    assert (n < N)%nat by lia.
    destruct (Z.eqb_spec mm 0) as [E|E]; rewrite !upd_length; split; try exact L; intros i Hi;
      rewrite !nthZ_upd by (rewrite ?upd_length; lia); rewrite !Nat.eqb_refl;
      destruct (Nat.eqb_spec i n) as [->|]; try (apply H; lia); unfold EncodeLWECustom;
      destruct (Z.eqb_spec mm 0); reflexivity || contradiction. }
  set (o := forN 0 len body out) in *. clearbody o.
  assert (length (firstn len o) = len) as Lf by (rewrite firstn_length; lia).
  rewrite Fill_spec, app_length, repeat_length, Lf, skipn_length. split; [lia|].
  intros i Hi. destruct (Nat.ltb_spec i (length messages)) as [Hm|Hm].
  - rewrite nthZ_app_l by lia. rewrite nthZ_firstn by lia. apply P2. lia.
  - rewrite nthZ_app_r by lia. apply nthZ_repeat0.
Qed.

Lemma DecodeGLWE_spec w N out pt mm scale vals :
  0 < mm -> (forall i, (i < Nat.min N (length out))%nat -> DecodeLWECustom w (nthZ pt i) mm scale = Some (vals i)) ->
  exists o, DecodeGLWECustomTo w N out pt mm scale = Some o /\ length o = length out /\
    (forall i, (i < Nat.min N (length out))%nat -> nthZ o i = vals i) /\
    (forall i, (N <= i)%nat -> nthZ o i = nthZ out i).
Proof.
  intros Hmm Hd. unfold DecodeGLWECustomTo. set (len := Nat.min N (length out)) in *.
  set (body := fun i st => _).
  set (P := fun (n : nat) (st : option (list Z * Z)) => exists o, st = Some (o, mm) /\ length o = length out /\
     (forall i, (i < n)%nat -> nthZ o i = vals i) /\ (forall i, (n <= i)%nat -> nthZ o i = nthZ out i)).
  assert (P len (forN 0 len body (Some (out, mm)))) as (o & E & L & H1 & H2).
  { apply (forN_ind P); unfold P.
    - exists out. repeat split; intros; lia || reflexivity.
    - intros n s Hn (o & -> & L & H1 & H2). unfold body. replace (0 + n)%nat with n by lia.
      specialize (Hd n Hn). unfold DecodeLWECustom in Hd. unfold decodeModulus in *.
      destruct (Z.eqb_spec mm 0) as [|_]; [lia|]. destruct (Z.eqb_spec mm 0) as [|_]; [lia|].
      injection Hd as Hd. rewrite Hd. eexists. split; [reflexivity|]. rewrite upd_length. split; [exact L|].
      split; intros i Hi; rewrite nthZ_upd by lia; destruct (Nat.eqb_spec i n); subst; try lia; auto.
      + apply H1. lia. + apply H2. lia. }
  rewrite E. exists o. repeat split; auto. intros i Hi. destruct (Nat.lt_ge_cases i len); [lia|]. apply H2. lia.
Qed.

Lemma decode_params_small w k msg e : 0 < w <= 52 -> 0 <= k <= w - 2 ->
  let mm := 2 ^ k in let scale := scaleOf w mm in
  - scale <= 2 * e < scale ->
  DecodeLWECustom w (wrap w (EncodeLWECustom w msg mm scale + e)) mm scale = Some (msg mod mm).
Proof.
  intros Hw Hk mm scale He. unfold scale, mm in *. clear scale mm. rewrite scale_pow2 in * by lia.
  pose proof (pow2_pos k ltac:(lia)) as Hp.
  assert (2 ^ w = 2 * 2 ^ k * 2 ^ (w - 1 - k) + 0) as E.
  { rewrite <- Z.pow_succ_r by lia. rewrite <- Z.pow_add_r by lia. rewrite Z.add_0_r. f_equal; lia. }
  assert (2 <= 2 ^ (w - 1 - k)) by (change 2 with (2 ^ 1) at 1; apply Z.pow_le_mono_r; lia).
  assert (2 ^ (w - 1 - k) < 2 ^ 53) by (apply Z.pow_lt_mono_r; lia).
  apply (decode_small w msg (2 ^ k) _ 2 0); try lia.
  apply encode_mod; [lia|lia|]. left. exists k. split; [lia|reflexivity].
Qed.
Lemma decode_params_large w k msg e : 0 < w <= 64 -> 0 <= k <= w - 2 ->
  let mm := 2 ^ k in let scale := scaleOf w mm in
  2 * Z.abs e + 2 ^ 13 + 2 < scale ->
  DecodeLWECustom w (wrap w (EncodeLWECustom w msg mm scale + e)) mm scale = Some (msg mod mm).
Proof.
  intros Hw Hk mm scale He. unfold scale, mm in *. clear scale mm. rewrite scale_pow2 in * by lia.
  pose proof (pow2_pos k ltac:(lia)) as Hp.
  assert (2 ^ w = 2 * 2 ^ k * 2 ^ (w - 1 - k) + 0) as E.
  { rewrite <- Z.pow_succ_r by lia. rewrite <- Z.pow_add_r by lia. rewrite Z.add_0_r. f_equal; lia. }
  assert (2 ^ k <= 2 ^ 63) by (apply Z.pow_le_mono_r; lia).
  apply (decode_large w msg (2 ^ k) _ 2 0); try lia.
  - apply is_float_pow2; lia.
  - apply encode_mod; [lia|lia|]. left. exists k. split; [lia|reflexivity].
Qed.
Lemma decode_params_any w mm msg e : 0 < w <= 52 -> 0 < mm < 2 ^ w -> 0 <= msg < 2 ^ w ->
  let scale := scaleOf w mm in
  2 * (Z.abs e + mm) < scale ->
  DecodeLWECustom w (wrap w (EncodeLWECustom w msg mm scale + e)) mm scale = Some (msg mod mm).
Proof.
  intros Hw Hmm Hmsg scale He. unfold scale in *. clear scale.
  pose proof (scale_bounds w mm Hw Hmm) as [H1 H2]. set (s := scaleOf w mm) in *. clearbody s.
  assert (2 ^ w < 2 ^ 53) by (apply Z.pow_lt_mono_r; lia).
  apply (decode_small w msg mm s 2 (2 ^ w - 2 * mm * s)); try lia.
  apply encode_mod; [lia|lia|]. now right.
Qed.
Lemma decode_nomod_small w s msg e : 0 < w <= 52 -> 1 <= s <= w - 1 -> - 2 ^ s <= 2 * e < 2 ^ s ->
  DecodeLWECustom w (wrap w (EncodeLWECustom w msg 0 (2 ^ s) + e)) 0 (2 ^ s) = Some (msg mod 2 ^ (w - s)).
Proof.
  intros Hw Hs He.
  assert (wrap w (DivRound (2 ^ w) (2 ^ s)) = 2 ^ (w - s)) as Em.
  { replace (2 ^ w) with (2 ^ (w - s) * 2 ^ s) by (rewrite <- Z.pow_add_r by lia; f_equal; lia).
    pose proof (pow2_pos s ltac:(lia)). pose proof (pow2_pos (w - s) ltac:(lia)).
    rewrite DivRound_multiple; try (apply is_float_pow2; lia); try lia.
    - apply wrap_small. unfold uword. split; [lia|]. apply Z.pow_lt_mono_r; lia.
    - rewrite <- Z.pow_add_r by lia. apply is_float_pow2. lia. }
  assert (2 ^ w = 1 * 2 ^ (w - s) * 2 ^ s + 0) as E.
  { rewrite Z.mul_1_l. rewrite <- Z.pow_add_r by lia. rewrite Z.add_0_r. f_equal; lia. }
  pose proof (pow2_pos (w - s) ltac:(lia)) as Hp.
  assert (2 <= 2 ^ s) by (change 2 with (2 ^ 1) at 1; apply Z.pow_le_mono_r; lia).
  assert (2 ^ s < 2 ^ 53) by (apply Z.pow_lt_mono_r; lia).
  assert (DecodeLWECustom w (wrap w (EncodeLWECustom w msg 0 (2 ^ s) + e)) 0 (2 ^ s) =
          DecodeLWECustom w (wrap w (EncodeLWECustom w msg (2 ^ (w - s)) (2 ^ s) + e)) (2 ^ (w - s)) (2 ^ s)) as ->.
  { unfold DecodeLWECustom, decodeModulus, EncodeLWECustom. rewrite Em.
    change (0 =? 0) with true. cbn iota.
    destruct (Z.eqb_spec (2 ^ (w - s)) 0) as [|_]; [lia|]. rewrite ?(proj2 (Z.eqb_neq (2 ^ (w - s)) 0)) by lia.
    assert (wrap w (wrap w msg * 2 ^ s) = wrap w (wrap w msg mod 2 ^ (w - s) * 2 ^ s)) as ->; [|reflexivity].
    unfold wrap at 1 3. rewrite E at 1. rewrite Z.add_0_r, Z.mul_1_l.
    rewrite Zmult_mod_distr_r. symmetry. apply Z.mod_small.
    pose proof (Z.mod_pos_bound (wrap w msg) (2 ^ (w - s)) Hp). split; [nia|].
    rewrite E. nia. }
  apply (decode_small w msg (2 ^ (w - s)) (2 ^ s) 1 0); try lia.
  apply encode_mod; [lia|lia|]. left. exists (w - s). split; [lia|reflexivity].
Qed.

(** Whole vectors of messages. *)
Lemma glwe_roundtrip w N out out2 messages noise mm scale :
  0 < mm -> length out = N -> length out2 = N ->
  (forall i, (i < N)%nat -> DecodeLWECustom w (wrap w (EncodeLWECustom w (nthZ messages i) mm scale + nthZ noise i)) mm scale
                            = Some (nthZ messages i mod mm)) ->
  let pt := map2 (fun a b => wrap w (a + b)) (EncodeGLWECustomTo w N out messages mm scale) noise in
  length noise = N ->
  exists o, DecodeGLWECustomTo w N out2 pt mm scale = Some o /\ length o = N /\
    forall i, (i < N)%nat -> nthZ o i = nthZ messages i mod mm.
Proof.
  intros Hmm Ho Ho2 H pt Hn. destruct (EncodeGLWE_spec w N out messages mm scale Ho) as [L1 L2].
  destruct (DecodeGLWE_spec w N out2 pt mm scale (fun i => nthZ messages i mod mm) Hmm) as (o & E & L & V & _).
  - rewrite Ho2, Nat.min_id. intros i Hi. unfold pt. rewrite nthZ_map2 by lia. rewrite L2 by exact Hi.
    destruct (Nat.ltb_spec i (length messages)) as [Hm|Hm].
    + now apply H.
    + specialize (H i Hi). rewrite (nthZ_out messages i) in * by exact Hm.
      assert (EncodeLWECustom w 0 mm scale = 0) as E0.
      { unfold EncodeLWECustom. destruct (Z.eqb_spec mm 0); [lia|]. unfold wrap. rewrite ?Zmod_0_l, ?Z.mul_0_l, ?Zmod_0_l. reflexivity. }
      rewrite E0 in H. exact H.
  - exists o. split; [exact E|]. split; [lia|]. intros i Hi. apply V. lia.
Qed.
