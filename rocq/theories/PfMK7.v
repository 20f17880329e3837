(** Multi-key bootstrapping: table look-up, messages, gates. *)
From Verif Require Import Base NegaRing SpecNum ModelNum PfNum ModelVec SpecVec PfVec ModelPoly SpecPoly PfPoly PfPerm PfSplit ModelGadget SpecGadget PfGadget ModelParams PfParams ModelEncoder PfEncoder ModelLWE SpecLWE PfLWE PfLWE2 PfKS PfKS2 ModelGLWE SpecGLWE PfGLWE PfGLWE2 PfGLWE3 PfGLWE4 ModelBoot SpecBoot PfBoot PfBoot2 PfBoot3 PfBoot4 PfBoot5 ModelPub SpecPub PfPub PfPub2 ModelBinary SpecBinary PfBinary ModelMK ModelMKBin SpecMK PfMK PfMK2 PfMK3 PfMK4 PfMK5 PfMK6.

(** Modulus switching maps 0 to 0. *)
Lemma ms_err_zero w L mu ms : 0 < w -> 0 < L -> ms_err w L mu ms -> mu < 2 * 2 ^ w -> ms 0 = 0.
Proof.
  intros Hw HL H Hm. pose proof (pow2_pos w ltac:(lia)). destruct (H 0 ltac:(unfold uword; lia)) as (R & -> & HR).
  rewrite Z.mul_0_l, Z.sub_0_r, Z.abs_mul, (Z.abs_eq (2 ^ w)) in HR by lia. assert (R = 0) as -> by nia. apply Z.mod_0_l. lia.
Qed.

Section W.
Variable w : Z.
Hypothesis Hw : 0 < w.
Notation Q := (2 ^ w).
Variable N : nat.
Hypothesis HN : (0 < N)%nat.
Variables (P n : nat) (pa pr pBR pKS : gadget) (bm : list bool) (keys : list (list Z)) (eks : list evalKey) (bs bc : nat) (Ebr Ek Eks : Z).
Hypothesis HK : mk_keys w N P n pa pr pBR pKS bm keys (map ek_brk eks) (map ek_ksk eks) (map ek_crs eks) (map ek_u0 eks) (map ek_u1 eks) bs bc Ebr Ek Eks.
Variables (mu : Z) (ms : Z -> Z).
Hypothesis Hms : ms_err w (Z.of_nat N) mu ms.
Hypothesis Hmu : mu < 2 * Q.
Notation L := (Z.of_nat N).
Notation small := (ljkey n bm (map (firstn n) keys)).
Notation large := (ljkey N bm keys).
Notation brN := (mkBrNoise w N P n pa pr pBR bm bc Ebr Ek).
Notation ksN := (Z.of_nat (nact bm) * ksNoise w pKS (N - n) Eks).
Notation hw := (zsum (length small) (nthZ small)).

Lemma small_length : length small = (P * n)%nat.
Proof. apply ljkey_length; [apply HK|]. exact (pkeys_small w N HN P n pa pr pBR pKS bm keys eks bs bc Ebr Ek Eks HK). Qed.
Lemma large_length : length large = (P * N)%nat.
Proof. apply ljkey_length; apply HK. Qed.
Lemma small_binary : binary small.
Proof.
  apply (ljkey_binary n P bm (map (firstn n) keys)); [apply HK|]. intros i Hi Ei. rewrite small_nth.
  apply (mk_bin _ _ _ _ _ _ _ _ _ _ _ _ _ _ _ _ _ _ _ _ HK i Ei).
Qed.
Lemma tableOf1 lut x : cf (tableOf N 1 lut) x = cf (pol N (nth 0 lut [])) x.
Proof. unfold tableOf. rewrite weave_cf_eq by lia. change (Z.of_nat 1) with 1. rewrite Z.mod_1_r, Z.div_1_r. reflexivity. Qed.

Variables (b : mkBootBufs) (lut : list (list Z)).
Hypothesis Hb : mk_bufs N P n pa bm (mb_rins b) (mb_accbs b) (mb_faccbs b) (mb_buf b) (mb_rbuf b) /\ gshape N P (mb_rot b) /\ length (mb_ks b) = S (P * n) /\ length (mb_ext b) = S (P * N).
Hypothesis Hlut : lut_ok w N 1 lut.

(** Blind rotation reads the table at a position near the phase. *)
Lemma mk_rotate_pos ct phi : lwe_ct w (P * n) ct -> eqm Q (phase small ct) phi ->
  let r := MKBlindRotateTo w N P ms pa pr pBR bm eks bs bc n (mb_rins b) (mb_acc0s b) (mb_accbs b) (mb_faccbs b) (mb_buf b) (mb_rbuf b) (mb_rot b) ct (nth 0 lut []) in
  glwe_ct w N P r /\ exists pos, 2 * Z.abs (pos * Q - 2 * L * phi) <= mu * (1 + hw) /\ dist_le Q (cf (gphase N P (jkey N bm keys) r) 0) (cf (tableOf N 1 lut) pos) brN.
Proof.
  intros Hct (q & Hq) r. assert (0 < L) as HL by lia. pose proof (ms_err_zero w L mu ms Hw HL Hms Hmu) as H0.
  destruct Hlut as (_ & Hl). specialize (Hl O ltac:(lia)). destruct Hb as (Hb1 & Hb2 & _ & _).
  destruct (MKBlindRotate_spec w Hw N HN P n pa pr pBR pKS bm keys eks bs bc Ebr Ek Eks HK ms H0 (mb_rins b) (mb_acc0s b) (mb_accbs b) (mb_faccbs b) (mb_buf b) (mb_rbuf b) (mb_rot b) Hb1 Hb2 ct (nth 0 lut []) (proj1 Hct) Hl) as (A & _ & B).
  fold r in A, B. split; [exact A|]. clearbody r. rewrite <- small_length in Hct.
  destruct (rotSum_err w L mu ms small ct Hw HL Hms small_binary Hct) as (t & err & Et & Be).
  exists (rotSum ms small ct - 2 * L * (t + q)). split.
  - replace ((rotSum ms small ct - 2 * L * (t + q)) * Q - 2 * L * phi) with err; [exact Be|].
    replace ((rotSum ms small ct - 2 * L * (t + q)) * Q - 2 * L * phi) with (rotSum ms small ct * Q - 2 * L * (t + q) * Q - 2 * L * phi) by ring.
    rewrite Et. replace (phase small ct) with (phi + q * Q) by lia. ring.
  - destruct (pdist_cf Q _ _ _ 0 B) as (x & X1 & X2). exists x. split; [|exact X2]. cbn [cf pshift] in X1. rewrite tableOf1.
    assert (cf (pol N (nth 0 lut [])) (rotSum ms small ct - 2 * L * (t + q)) = cf (pol N (nth 0 lut [])) (0 - - rotSum ms small ct)) as ->.
    { apply cf_eqm2N. exists (- (t + q)). lia. }
    destruct X1 as (u & Hu). exists u. lia.
Qed.

Lemma mk_keyswitch out ct : length out = S (P * n) -> lwe_ct w (P * N) ct -> let o := MKDefaultKeySwitchTo w P n N pKS bm (map ek_ksk eks) out ct in
  lwe_ct w (P * n) o /\ lsupp bm n P o /\ dist_le Q (phase small o) (phase large ct) ksN.
Proof.
  pose proof HK as [_ (Lbm & Hk & Hn) (_ & _ & _ & HokK) _ _ Hbin _ (e & He) _].
  apply (MKKeySwitch_spec w Hw n N P pKS HokK bm (map (firstn n) keys) keys (map ek_ksk eks) e Eks); try assumption; try lia.
  - exact (pkeys_small w N HN P n pa pr pBR pKS bm keys eks bs bc Ebr Ek Eks HK).
  - intros i Hi. rewrite small_nth. split; [reflexivity|]. split; [apply Hbin; exact Hi|]. apply He. exact Hi.
Qed.

Lemma mk_extract out r : length out = S (P * N) -> glwe_ct w N P r -> lwe_ct w (P * N) (AsLWECiphertextTo w N 0 out r) /\ eqm Q (phase large (AsLWECiphertextTo w N 0 out r)) (cf (gphase N P (jkey N bm keys) r) 0).
Proof.
  intros Lo A. pose proof HK as [_ (Lbm & Hk & Hn) _ _ _ _ _ _ _].
  apply (extract_spec w Hw N HN P (jkey N bm keys) large 0 out r); try assumption.
  - unfold jkey. rewrite tab_length. exact Lbm.
  - now apply flat_jkey with (P := P).
Qed.

Lemma mk_boot_position (order : bool) phi ct out : let key := if order then large else small in
  length out = S (length key) -> lwe_ct w (length key) ct -> eqm Q (phase key ct) phi ->
  let r := mkBoot w N P order ms pa pr pBR pKS bm eks bs bc n b lut out ct in
  lwe_ct w (length key) r /\ exists pos, 2 * Z.abs (pos * Q - 2 * L * phi) <= mu * (1 + hw) + (if order then 4 * L * ksN else 0) /\
   dist_le Q (phase key r) (cf (tableOf N 1 lut) pos) (brN + if order then 0 else ksN).
Proof.
  destruct order; cbv zeta; [rewrite large_length|rewrite small_length]; intros Lo Hct Hph; unfold mkBoot, MKBootstrapLUTTo.
  - destruct Hb as (_ & _ & Lks & _). destruct (mk_keyswitch (mb_ks b) ct Lks Hct) as (Y1 & _ & Y2).
    set (c := MKDefaultKeySwitchTo w P n N pKS bm (map ek_ksk eks) (mb_ks b) ct) in *. clearbody c.
    destruct Y2 as (x & (t & X1) & X2). destruct Hph as (t' & Hph).
    destruct (mk_rotate_pos c (phi + x) Y1) as (A & pos & P1 & B); [exists (t + t'); lia|].
    set (r := MKBlindRotateTo _ _ _ _ _ _ _ _ _ _ _ _ _ _ _ _ _ _ _ _ _) in *. clearbody r.
    destruct (mk_extract out r Lo A) as (Z1 & Z2). split; [exact Z1|]. exists pos. split. all: cbv iota.
    + replace (pos * Q - 2 * L * phi) with ((pos * Q - 2 * L * (phi + x)) + 2 * L * x) by ring.
      pose proof (Z.abs_triangle (pos * Q - 2 * L * (phi + x)) (2 * L * x)) as Ht. rewrite (Z.abs_mul (2 * L) x), (Z.abs_eq (2 * L)) in Ht by lia.
      set (K := ksN) in *. clearbody K. assert (2 * L * Z.abs x <= 2 * L * K) by (apply Z.mul_le_mono_nonneg_l; lia). set (h := hw) in *. clearbody h. lia.
    + rewrite Z.add_0_r. destruct B as (y & (t1 & B1) & B2). destruct Z2 as (t3 & Z2). exists y. split; [exists (t1 + t3); lia|exact B2].
  - destruct Hb as (_ & _ & _ & Lex). destruct (mk_rotate_pos ct phi Hct Hph) as (A & pos & P1 & B).
    set (r := MKBlindRotateTo _ _ _ _ _ _ _ _ _ _ _ _ _ _ _ _ _ _ _ _ _) in *. clearbody r.
    destruct (mk_extract (mb_ext b) r Lex A) as (X1 & X2). set (x := AsLWECiphertextTo w N 0 (mb_ext b) r) in *. clearbody x.
    destruct (mk_keyswitch out x Lo X1) as (Y1 & _ & Y2). split; [exact Y1|]. exists pos. split; [rewrite Z.add_0_r; rewrite small_length in P1; exact P1|].
    destruct B as (y & (t1 & B1) & B2). destruct Y2 as (c & (t2 & C1) & C2). destruct X2 as (t3 & X2). exists (y + c). split; [exists (t1 + t2 + t3); lia|]. lia.
Qed.

(** Message m with noise ee becomes f m. *)
Lemma mk_boot_phase (order : bool) mm scale f m ee ct out : let key := if order then large else small in 0 < mm -> lut_holds N 1 Q mm lut f -> 0 <= m < mm ->
  length out = S (length key) -> lwe_ct w (length key) ct -> eqm Q (phase key ct) (scale * m + ee) ->
  boot_margin Q L mm scale m (Z.abs ee + if order then ksN else 0) mu hw 0 ->
  let r := mkBoot w N P order ms pa pr pBR pKS bm eks bs bc n b lut out ct in
  lwe_ct w (length key) r /\ dist_le Q (phase key r) (f m) (brN + if order then 0 else ksN).
Proof.
  intros key Hmm Hf Hm Lo Hct Hph Hmar r. destruct (mk_boot_position order (scale * m + ee) ct out Lo Hct Hph) as (A & pos & B & C). fold key r in A, C. split; [exact A|].
  assert (in_box (Z.of_nat (1 * N)) mm m pos) as Hbox.
  { rewrite Nat.mul_1_l. pose proof (pow2_pos w ltac:(lia)) as HQ. assert (0 < L) as HL by lia.
    unfold boot_margin in Hmar. cbv zeta in Hmar. rewrite Z.mul_0_r, Z.mul_0_l, Z.add_0_r in Hmar.
    set (K := if order then ksN else 0) in *. assert ((if order then 4 * L * ksN else 0) = 4 * L * K) as EK by (unfold K; destruct order; lia). rewrite EK in B.
    assert (0 <= K) as HK0.
    { unfold K. destruct order; [|lia]. pose proof (mk_bounds _ _ _ _ _ _ _ _ _ _ _ _ _ _ _ _ _ _ _ _ HK) as (_ & _ & B3). unfold ksNoise. apply Z.mul_nonneg_nonneg; [lia|]. apply Z.mul_nonneg_nonneg; [lia|].
      apply Z.add_nonneg_nonneg; [|apply Z.div_pos; [apply Z.pow_nonneg|]; lia]. apply Z.mul_nonneg_nonneg; [lia|]. apply Z.mul_nonneg_nonneg; [apply Z.pow_nonneg; lia|lia]. }
    apply (pos_in_box Q L mm scale m ee (pos * Q - 2 * L * (scale * m + ee)) 0 (mu * (1 + hw) + 4 * L * K) 0 0 HQ HL Hm); [lia|lia|ring|].
    set (h := hw) in *. clearbody h K. clear - Hmar. replace (mm * (mu * (1 + h) + 4 * L * K) * (1 + 0)) with (mm * mu * (1 + h) + 4 * L * mm * K) by ring.
    destruct Hmar as [Hm|(Hd & Hm)]; [left|right; split; [exact Hd|]]; lia. }
  pose proof (Hf pos m Hm Hbox) as Hv. destruct C as (x & (t1 & C1) & C2). destruct Hv as (t2 & Hv). exists x. split; [exists (t1 + t2); lia|exact C2].
Qed.
End W.

Section Msg.
Variables (w : Z) (N P n : nat) (pa pr pBR pKS : gadget) (bm : list bool) (keys : list (list Z)) (eks : list evalKey) (bs bc : nat) (Ebr Ek Eks : Z).
Hypothesis Hw : 0 < w.
Hypothesis HN : (0 < N)%nat.
Hypothesis HK : mk_keys w N P n pa pr pBR pKS bm keys (map ek_brk eks) (map ek_ksk eks) (map ek_crs eks) (map ek_u0 eks) (map ek_u1 eks) bs bc Ebr Ek Eks.
Notation small := (ljkey n bm (map (firstn n) keys)).
Notation large := (ljkey N bm keys).
Notation brN := (mkBrNoise w N P n pa pr pBR bm bc Ebr Ek).
Notation ksN := (Z.of_nat (nact bm) * ksNoise w pKS (N - n) Eks).
Notation hw := (zsum (length small) (nthZ small)).
Definition mk_bufs_ok (b : mkBootBufs) : Prop :=
  mk_bufs N P n pa bm (mb_rins b) (mb_accbs b) (mb_faccbs b) (mb_buf b) (mb_rbuf b) /\ gshape N P (mb_rot b) /\ length (mb_ks b) = S (P * n) /\ length (mb_ext b) = S (P * N).

Lemma mk_boot_message lutOut raw kk mu f : length raw = N -> length lutOut = 1%nat -> length (nth 0 lutOut []) = N ->
  0 <= kk <= w - 2 -> 2 ^ kk * Z.of_nat N < 2 ^ 52 -> let mm := 2 ^ kk in let scale := scaleOf w mm in let ms := ModSwitch w (Z.of_nat N) in
  ms_err w (Z.of_nat N) mu ms -> mu < 2 * 2 ^ w ->
  exists lut raw', GenLUTCustomTo w N 1 lutOut raw f mm scale = Some (lut, raw') /\ forall (order : bool) b m ee ct out, let key := if order then large else small in
   mk_bufs_ok b -> 0 <= m < mm -> length out = S (length key) -> lwe_ct w (length key) ct -> eqm (2 ^ w) (phase key ct) (scale * m + ee) ->
   boot_margin (2 ^ w) (Z.of_nat N) mm scale m (Z.abs ee + if order then ksN else 0) mu hw 0 ->
   decodes w scale (brN + if order then 0 else ksN) ->
   DecryptLWE w mm scale key (mkBoot w N P order ms pa pr pBR pKS bm eks bs bc n b lut out ct) = Some (f m mod mm).
Proof.
  intros Lr Lo Hl Hk Hsz mm scale ms Hms Hmu. pose proof (pow2_pos kk ltac:(lia)) as Hp. destruct (encode_val w kk 0 Hw Hk) as (_ & EQ). fold mm scale in EQ, Hp, Hsz.
  assert (2 <= scale) as Hs. { unfold scale, mm. rewrite scale_pow2 by lia. change 2 with (2 ^ 1) at 1. apply Z.pow_le_mono_r; lia. }
  destruct (GenLUT_holds w N 1 mm (fun x => EncodeLWECustom w (f x) mm scale) lutOut raw Hw HN ltac:(lia) ltac:(nia) ltac:(nia) ltac:(rewrite Nat.mul_1_l; exact Hsz) ltac:(lia) Lo ltac:(intros i Hi; assert (i = O) as -> by lia; exact Hl)) as (lut & raw' & A & B & C & D).
  exists lut, raw'. split; [exact A|]. intros order b m ee ct out key Hb Hm L1 L2 L3 L4 L5.
  assert (lut_ok w N 1 lut) as Hlut. { apply C. intros x Hx. unfold EncodeLWECustom. apply wrap_range. lia. }
  destruct (mk_boot_phase w Hw N HN P n pa pr pBR pKS bm keys eks bs bc Ebr Ek Eks HK mu ms Hms Hmu b lut Hb Hlut order mm scale _ m ee ct out Hp D Hm L1 L2 L3 L4) as (X & Y).
  apply (decode_dist w kk key _ (f m) _ Hw Hk (proj1 X) Y L5).
Qed.
End Msg.

(** ** Gates *)
Section G.
Variable w : Z.
Hypothesis Hw : 3 <= w.
Notation Q := (2 ^ w).
Variable key : list Z.
Notation n := (length key).
Variables R B B' : Z.
Hypothesis HB : 0 <= B.
Hypothesis HR : 2 ^ (w - 3) + 4 * B <= R.
Notation enc := (bool_enc w key).

Lemma mk_gate_spec boot g (s : store) out a b va vb : sign_boot w key boot R B' -> length (s out) = S n -> enc B (s a) va -> enc B (s b) vb -> let s' := mkRunGate w n boot g s out a b in
  enc B' (s' out) (truth g va vb) /\ forall x, x <> out -> s' x = s x.
Proof.
  intros Hboot L Ha Hb.
  assert (g <> gXOR -> g <> gXNOR -> let s' := runGate w n boot g s out a b in enc B' (s' out) (truth g va vb) /\ forall x, x <> out -> s' x = s x) as Hlin.
  { intros H1 H2. pose (R' := Z.max R (4 * B)).
    (* the four linear gates only need R >= Q/8 + 2B *)
    pose proof (pow_pos3 w Hw) as Hp. pose proof (pow_w3 w Hw) as H3. pose proof (pow_w2 w Hw) as Hw2. destruct (Z_le_gt_dec (4 * B) R) as [HR2|HR2]; [|lia].
    apply (gate_spec w Hw key R B B'); try assumption; lia. }
  destruct g; try (apply Hlin; discriminate); clear Hlin;
  destruct Ha as (Ha & ea & (ta & Ea) & Ba); destruct Hb as (Hb & eb & (tb & Eb) & Bb); pose proof (pow_pos3 w Hw) as Hp; pose proof (pow_w3 w Hw) as H3; pose proof (pow_w2 w Hw) as H2;
  cbn [mkRunGate]; unfold MKXORTo, MKXNORTo; rewrite !shl1 by lia;
  set (pa := if va then 2 ^ (w - 3) else - 2 ^ (w - 3)) in *; set (pb := if vb then 2 ^ (w - 3) else - 2 ^ (w - 3)) in *.
  - destruct (gateLin_spec w Hw key (fun x y => wrap w (2 * wrap w (x + y))) 2 (2 ^ (w - 3)) n (addBody w) (2 ^ (w - 3)) s out a b eq_refl L (f_add2 w Hw) (or_introl (conj eq_refl eq_refl))) as (A1 & A2 & A3).
    set (t := addBody w _ _ _) in *. clearbody t. unfold bootSelf. cbv zeta. rewrite sset_same. split; [|intros x Hx; rewrite sset_other by exact Hx; now apply A3].
    set (q := if (va && vb)%bool then 1 else 0). 
    apply (Hboot (t out) (t out) (2 * (pa + pb + ea + eb) + 2 ^ (w - 3) - q * Q)); [apply A1|exact A1| |].
    + rewrite A2. exists (2 * (ta + tb) + q). replace (phase key (s a)) with (pa + ea + ta * Q) by lia. replace (phase key (s b)) with (pb + eb + tb * Q) by lia. ring.
    + unfold pa, pb, q. destruct va, vb; cbn [truth andb orb negb xorb]; lia.
  - destruct (gateLin_spec w Hw key (fun x y => wrap w (2 * wrap w (wrap w (- x) - y))) (-2) (- 2 ^ (w - 3)) n (subBody w) (2 ^ (w - 3)) s out a b eq_refl L (f_neg2 w Hw)) as (A1 & A2 & A3).
    { right. split; [reflexivity|lia]. }
    set (t := subBody w _ _ _) in *. clearbody t. unfold bootSelf. cbv zeta. rewrite sset_same. split; [|intros x Hx; rewrite sset_other by exact Hx; now apply A3].
    set (q := if (va && vb)%bool then -1 else 0). 
    apply (Hboot (t out) (t out) (-2 * (pa + pb + ea + eb) + - 2 ^ (w - 3) - q * Q)); [apply A1|exact A1| |].
    + rewrite A2. exists (-2 * (ta + tb) + q). replace (phase key (s a)) with (pa + ea + ta * Q) by lia. replace (phase key (s b)) with (pb + eb + tb * Q) by lia. ring.
    + unfold pa, pb, q. destruct va, vb; cbn [truth andb orb negb xorb]; lia.
Qed.

Hypothesis HB' : B' <= B.
Lemma mk_prog_spec p : Forall (fun ib => sign_boot w key (snd ib) R B') p -> forall s v, (forall x, enc B (s x) (v x)) -> forall x, enc B (mkRunC w n p s x) (bprog (map fst p) v x).
Proof.
  induction 1 as [|(i & boot) p Hboot Hp IH]; intros s v H; [exact H|]. cbn [mkRunC bprog fold_left map fst]. apply IH. intros x. unfold mkStepC, istep, bset. cbn [fst snd] in *.
  assert (forall y, length (s y) = S n) as Ls by (intros y; apply (H y)).
  destruct i as [o a|g o a b].
  - destruct (NOTTo_spec w Hw key B s o a (v a) (Ls o) (H a)) as (X & Y). destruct (Nat.eqb_spec x o) as [-> | Hx]; [exact X|]. rewrite Y by exact Hx. apply H.
  - destruct (mk_gate_spec boot g s o a b (v a) (v b) Hboot (Ls o) (H a) (H b)) as (X & Y). destruct (Nat.eqb_spec x o) as [-> | Hx]; [now apply (enc_mono w Hw key B')|]. rewrite Y by exact Hx. apply H.
Qed.
End G.

Section Ev.
Variables (w : Z) (N P n : nat) (pa pr pBR pKS : gadget) (bm : list bool) (keys : list (list Z)) (eks : list evalKey) (bs bc : nat) (Ebr Ek Eks mu : Z) (ms : Z -> Z) (order : bool) (B : Z).
Hypothesis Hw : 3 <= w.
Hypothesis HN : (0 < N)%nat.
Hypothesis HK : mk_keys w N P n pa pr pBR pKS bm keys (map ek_brk eks) (map ek_ksk eks) (map ek_crs eks) (map ek_u0 eks) (map ek_u1 eks) bs bc Ebr Ek Eks.
Hypothesis Hms : ms_err w (Z.of_nat N) mu ms.
Hypothesis Hmu : mu < 2 * 2 ^ w.
Hypothesis HB : 0 <= B.
Notation small := (ljkey n bm (map (firstn n) keys)).
Notation large := (ljkey N bm keys).
Notation ksN := (Z.of_nat (nact bm) * ksNoise w pKS (N - n) Eks).
Notation key := (if order then large else small).
Notation out := (mkBrNoise w N P n pa pr pBR bm bc Ebr Ek + if order then 0 else ksN).
Notation margin R := (mu * (1 + zsum (length small) (nthZ small)) + 4 * Z.of_nat N * (R + if order then ksN else 0) < Z.of_nat N * 2 ^ w).

Lemma mk_sign R b : mk_bufs_ok N P n pa bm b -> margin R -> sign_boot w key (mkBootSign w N P order ms pa pr pBR pKS bm eks bs bc n b) R out.
Proof.
  intros Hb Hm o ct phi v Lo Hct Hph HR.
  destruct (mk_boot_position w ltac:(lia) N HN P n pa pr pBR pKS bm keys eks bs bc Ebr Ek Eks HK mu ms Hms Hmu b (signLUT w N 1) Hb (signLUT_ok w N 1 ltac:(lia)) order phi ct o Lo Hct Hph) as (A & pos & P1 & P2).
  split; [exact A|].
  rewrite (sign_at w N 1 pos phi R (mu * (1 + zsum (length small) (nthZ small)) + (if order then 4 * Z.of_nat N * ksN else 0)) v Hw HN ltac:(lia)) in P2; [exact P2|rewrite Nat.mul_1_l; exact P1|exact HR|].
  rewrite Nat.mul_1_l. destruct order; lia.
Qed.

Hypothesis Hmargin : margin (2 ^ (w - 3) + 4 * B).
Lemma mk_ev_gate b g (st : store) o x y va vb : mk_bufs_ok N P n pa bm b -> length (st o) = S (length key) -> bool_enc w key B (st x) va -> bool_enc w key B (st y) vb ->
  let st' := mkRunGate w (length key) (mkBootSign w N P order ms pa pr pBR pKS bm eks bs bc n b) g st o x y in
  bool_enc w key out (st' o) (truth g va vb) /\ forall z, z <> o -> st' z = st z.
Proof.
  intros Hb Lo Ha Hbb. apply (mk_gate_spec w Hw key (2 ^ (w - 3) + 4 * B) B out); try lia; try assumption. apply mk_sign; assumption.
Qed.
Lemma mk_ev_prog (prog : list (instr * mkBootBufs)) : Forall (fun ib => mk_bufs_ok N P n pa bm (snd ib)) prog -> out <= B -> B < 2 ^ (w - 3) -> forall (st : store) v, (forall x, bool_enc w key B (st x) (v x)) ->
  let st' := mkRunC w (length key) (map (fun ib => (fst ib, mkBootSign w N P order ms pa pr pBR pKS bm eks bs bc n (snd ib))) prog) st in
  forall x, bool_enc w key B (st' x) (bprog (map fst prog) v x) /\ MKDecryptLWEBool w (if order then N else n) bm (if order then keys else map (firstn n) keys) (st' x) = bprog (map fst prog) v x.
Proof.
  intros Hb Ho HB3 st v Hv st' x.
  assert (bool_enc w key B (st' x) (bprog (map fst prog) v x)) as H.
  { unfold st'. replace (map fst prog) with (map fst (map (fun ib => (fst ib, mkBootSign w N P order ms pa pr pBR pKS bm eks bs bc n (snd ib))) prog)) by (rewrite map_map; reflexivity).
    apply (mk_prog_spec w Hw key (2 ^ (w - 3) + 4 * B) B out); try lia; try assumption.
    apply Forall_map. eapply Forall_impl; [|exact Hb]. intros (i & bufs) Hbi. cbn [fst snd] in *. apply mk_sign; assumption. }
  split; [exact H|]. rewrite <- (decryptBool w Hw key _ _ B H HB3). unfold MKDecryptLWEBool, DecryptLWEBool. f_equal.
  destruct H as ((Lc & Hc) & _). pose proof (proj1 (mk_shape _ _ _ _ _ _ _ _ _ _ _ _ _ _ _ _ _ _ _ _ HK)) as Lbm.
  assert (length (st' x) = S (length bm * (if order then N else n))) as Lx.
  { rewrite Lc, Lbm. f_equal. destruct order; [apply (large_length w N P n pa pr pBR pKS bm keys eks bs bc Ebr Ek Eks HK)|apply (small_length w N HN P n pa pr pBR pKS bm keys eks bs bc Ebr Ek Eks HK)]. }
  pose proof (Forall_nth_lt _ _ 0 0%nat Hc ltac:(lia)) as H0.
  rewrite (MKDecryptLWE_spec w ltac:(lia)); [|rewrite Lbm; destruct order; [apply HK|apply (pkeys_small w N HN P n pa pr pBR pKS bm keys eks bs bc Ebr Ek Eks HK)]|exact Lx|exact H0].
  destruct (DecryptLWEPhase_spec w ltac:(lia) key (st' x) Lc) as (A1 & A2). apply eqm_mod_eq in A2. rewrite (Z.mod_small _ _ A1) in A2. rewrite A2. destruct order; reflexivity.
Qed.
End Ev.
