(** Bootstrapping: position arithmetic, key generation, end to end. *)
From Verif Require Import Base NegaRing SpecNum ModelNum PfNum ModelVec SpecVec PfVec ModelPoly SpecPoly PfPoly ModelGadget SpecGadget PfGadget ModelEncoder ModelLWE SpecLWE PfLWE PfLWE2 PfKS ModelParams PfParams PfEncoder ModelGLWE SpecGLWE PfGLWE PfGLWE2 PfGLWE3 PfGLWE4 ModelBoot SpecBoot PfBoot PfBoot2 PfBoot3.

(** ** The initial rotation *)
Lemma misrot_exact N E (T : npoly (E * N)) b : (0 < E)%nat -> (Z.of_nat E | b) -> peq 0 (misrot T b) (pshift b T).
Proof.
  intros HE H x. cbn [cf misrot pshift]. unfold misrot_cf. cbv zeta. apply eqm_eq.
  rewrite (proj2 (Z.mod_divide b (Z.of_nat E) ltac:(lia)) H). pose proof (Z.mod_pos_bound x (Z.of_nat E) ltac:(lia)).
  destruct (Z.ltb_spec (x mod Z.of_nat E) (Z.of_nat E - 0)); [|lia]. f_equal. lia.
Qed.
Lemma misrot_at N E (T : npoly (E * N)) b x : (0 < E)%nat -> exists d, cf (misrot T b) x = cf T (x - b + d) /\ Z.abs d <= extSlack E /\ ((Z.of_nat E | b) -> d = 0).
Proof.
  intros HE. cbn [cf misrot]. unfold misrot_cf, extSlack. cbv zeta. pose proof (Z.mod_pos_bound x (Z.of_nat E) ltac:(lia)). pose proof (Z.mod_pos_bound b (Z.of_nat E) ltac:(lia)) as Hr.
  destruct (Z.ltb_spec (x mod Z.of_nat E) (Z.of_nat E - b mod Z.of_nat E)).
  - exists (2 * (b mod Z.of_nat E)). split; [f_equal; lia|]. split; [lia|]. intros D. apply Z.mod_divide in D; lia.
  - exists (2 * (b mod Z.of_nat E) - 2 * Z.of_nat E). split; [f_equal; lia|]. split; [lia|]. intros D. apply Z.mod_divide in D; lia.
Qed.

(** ** Modulus switching of a ciphertext *)
Lemma binary_at s i : binary s -> (i < length s)%nat -> nthZ s i = 0 \/ nthZ s i = 1.
Proof. intros H Hi. exact (Forall_nth_lt _ s 0 i H Hi). Qed.
Lemma binary_sum s : binary s -> 0 <= zsum (length s) (nthZ s).
Proof. intros H. apply zsum_nonneg. intros i Hi. destruct (binary_at s i H ltac:(lia)); lia. Qed.

Lemma rotSum_err w L mu ms s ct : 0 < w -> 0 < L -> ms_err w L mu ms -> binary s -> lwe_ct w (length s) ct ->
  exists t err, rotSum ms s ct * 2 ^ w = 2 * L * phase s ct + err + 2 * L * 2 ^ w * t /\ 2 * Z.abs err <= mu * (1 + zsum (length s) (nthZ s)).
Proof.
  intros Hw HL Hms Hs (Lc & Hc).
  assert (forall j, (j <= length s)%nat -> exists t err, ms (nthZ ct j) * 2 ^ w = 2 * L * nthZ ct j + err + 2 * L * 2 ^ w * t /\ 2 * Z.abs err <= mu) as H1.
  { intros j Hj. destruct (Hms (nthZ ct j)) as (R & HR & He); [apply (Forall_nth_lt _ ct 0 j Hc); lia|].
    exists (- (R / (2 * L))), (R * 2 ^ w - nthZ ct j * (2 * L)). split; [|exact He]. rewrite HR. rewrite (Z.mod_eq R (2 * L)) by lia. ring. }
  unfold rotSum, phase. destruct (H1 O ltac:(lia)) as (t0 & e0 & E0 & B0).
  assert (forall n, (n <= length s)%nat -> exists t err, zsum n (fun i => ms (nthZ ct (S i)) * nthZ s i) * 2 ^ w = 2 * L * zsum n (fun i => nthZ ct (S i) * nthZ s i) + err + 2 * L * 2 ^ w * t /\ 2 * Z.abs err <= mu * zsum n (nthZ s)) as H2.
  { induction n as [|n IH]; intros Hn; [exists 0, 0; cbn; lia|]. destruct (IH ltac:(lia)) as (t & err & E1 & B1). destruct (H1 (S n) ltac:(lia)) as (t' & err' & E2 & B2).
    exists (t + t' * nthZ s n), (err + err' * nthZ s n). cbn [zsum]. split; [nia|]. destruct (binary_at s n Hs ltac:(lia)) as [-> | ->]; lia. }
  destruct (H2 (length s) ltac:(lia)) as (t & err & E1 & B1). exists (t0 + t), (e0 + err). split; [nia|]. lia.
Qed.

Lemma ms_err_exact w L : 0 < w -> 0 < L -> 2 * L < 2 ^ w -> (2 * L | 2 ^ w) -> w <= 52 -> ms_err w L (2 ^ w) (ModSwitch w L).
Proof.
  intros Hw HL Hl (q & Hq) H52 x Hx. pose proof (pow2_pos w ltac:(lia)) as HQ. assert (2 ^ w <= 2 ^ 52) as H5 by (apply Z.pow_le_mono_r; lia).
  destruct (ModSwitch_exact w L x (2 * L) 1 q ltac:(lia) ltac:(lia) ltac:(unfold uword in Hx; lia) ltac:(lia) ltac:(lia) ltac:(lia) ltac:(unfold uword in Hx; lia)) as (R & HR & E).
  exists R. split; [exact E|]. unfold is_round_half_up in HR. lia.
Qed.
Lemma ms_err_any w L : 0 < w -> 0 < L <= 2 ^ 21 -> 28 <= w -> ms_err w L (2 ^ w + 2 ^ (w - 28)) (ModSwitch w L).
Proof.
  intros Hw HL H28 x Hx. destruct (ModSwitch_error w L x Hw HL Hx) as (R & E & H). exists R. split; [exact E|].
  replace (2 ^ w) with (2 ^ 28 * 2 ^ (w - 28)) in * by (rewrite <- Z.pow_add_r by lia; f_equal; lia). nia.
Qed.

(** ** Positions *)
(** Everything that can move the table position, scaled by 2 mm Q. *)
Lemma pos_in_box Q L mm scale m e err d mu hw D : 0 < Q -> 0 < L -> 0 <= m < mm ->
  2 * Z.abs err <= mu * (1 + hw) -> Z.abs d <= D ->
  forall j, j * Q = 2 * L * (scale * m + e) + err + d * Q ->
  let X := 2 * L * m * Z.abs (Q - 2 * mm * scale) + 4 * L * mm * Z.abs e + mm * mu * (1 + hw) + 2 * mm * D * Q in
  X <= (L - 2 * mm) * Q \/ (2 * mm | L) /\ X < L * Q -> in_box L mm m j.
Proof.
  intros HQ HL Hm Herr Hd j Hj X HX.
  assert (2 * Z.abs (mm * j - m * L) * Q <= X) as HB.
  { assert ((mm * j - m * L) * Q = - (L * m * (Q - 2 * mm * scale)) + 2 * L * mm * e + mm * err + mm * d * Q) as EQ by (rewrite Z.mul_sub_distr_r; replace (mm * j * Q) with (mm * (j * Q)) by ring; rewrite Hj; ring).
    replace (2 * Z.abs (mm * j - m * L) * Q) with (2 * Z.abs ((mm * j - m * L) * Q)) by (rewrite Z.abs_mul, (Z.abs_eq Q) by lia; ring). rewrite EQ.
    assert (Z.abs (L * m * (Q - 2 * mm * scale)) = L * m * Z.abs (Q - 2 * mm * scale)) as A1 by (rewrite !Z.abs_mul, (Z.abs_eq L), (Z.abs_eq m) by lia; ring).
    assert (Z.abs (2 * L * mm * e) = 2 * L * mm * Z.abs e) as A2 by (rewrite !Z.abs_mul, (Z.abs_eq L), (Z.abs_eq mm) by lia; change (Z.abs 2) with 2; ring).
    assert (Z.abs (mm * err) = mm * Z.abs err) as A3 by (rewrite !Z.abs_mul, (Z.abs_eq mm) by lia; ring).
    assert (Z.abs (mm * d * Q) = mm * Z.abs d * Q) as A4 by (rewrite !Z.abs_mul, (Z.abs_eq mm), (Z.abs_eq Q) by lia; ring).
    assert (2 * (mm * Z.abs err) <= mm * mu * (1 + hw)) by nia.
    assert (mm * Z.abs d * Q <= mm * D * Q) by (apply Z.mul_le_mono_nonneg_r; [lia|]; apply Z.mul_le_mono_nonneg_l; lia).
    unfold X. lia. }
  clearbody X. destruct HX as [H|(Hd2 & H)].
  - left. apply (Z.mul_le_mono_pos_r _ _ Q HQ). lia.
  - right. split; [exact Hd2|]. assert (2 * Z.abs (mm * j - m * L) < L) by (apply (Z.mul_lt_mono_pos_r Q _ _ HQ); lia). lia.
Qed.

Section W.
Variable w : Z.
Hypothesis Hw : 0 < w.
Notation Q := (2 ^ w).
Variable N : nat.
Hypothesis HN : (0 < N)%nat.
Variable k : nat.
Variable sk : list (list Z).
Notation gph := (gphase N k sk).
Variable p : gadget.
Hypothesis Hok : gadget_ok w p.
Notation l := (g_level p).

(** ** Key generation *)
Lemma pol_const b : peq 0 (pol N (upd (repeat 0 N) 0 b)) (pconst b).
Proof.
  apply (pol_peq N HN). intros i Hi. apply eqm_eq. rewrite nthZ_upd by (rewrite repeat_length; lia). cbn [cf pconst pscale pone]. unfold one_cf.
  destruct (Z.eqb_spec (Z.of_nat N) 0); [lia|]. rewrite Z.mod_small by lia. unfold nthZ. rewrite nth_repeat_lt by exact Hi.
  destruct (Nat.eqb_spec i 0), (Z.eqb_spec (Z.of_nat i) 0), (Z.eqb_spec (Z.of_nat i) (Z.of_nat N)); lia.
Qed.

Section Key.
Variable logN : Z.
Hypothesis HlN : 0 < splitBitsShort logN.
Variables U G : nat -> Z.
Hypothesis Hsk : skey N k sk.
Notation fsk := (map (fwdFFT w) sk).

Lemma brkMessage_spec b j : (j <= k)%nat -> length (brkMessage w N sk b j) = N /\
  peq Q (pol N (brkMessage w N sk b j)) (match j with O => pconst b | S i => pmul (pconst b) (pol N (nth i sk [])) end).
Proof.
  destruct Hsk as (Ls & Hs). intros Hj. destruct j as [|j]; cbn [brkMessage].
  - split; [rewrite upd_length; apply repeat_length|]. apply peq_0_any. apply pol_const.
  - pose proof (Hs j ltac:(lia)) as L. split; [unfold vscale; now rewrite map_length|]. rewrite (pol_vscale N HN) by exact L. apply pscale_mul.
Qed.

Definition genRow (buf : list (list Z)) (b : Z) (j : nat) (old : list (list (list Z))) st :=
  EncryptFFTGLevPolyTo w logN N k U G fsk p buf old (brkMessage w N sk b j) st.

Lemma genGGSW b g buf st ggsw buf' st' : gshape N k buf -> length g = S k -> (forall i, (i <= k)%nat -> lshape N k p (nth i g [])) ->
  forN 0 (S k) (fun j s => let '(g, (buf, st)) := s in let '(row, (buf, st)) := genRow buf b j (nth j g []) st in (upd g j row, (buf, st))) (g, (buf, st)) = (ggsw, (buf', st')) ->
  ggsw_enc w N k p sk ggsw (pconst b) (fun i j => noisep N G (snd st + (i * l + j) * N)%nat) /\ gshape N k buf' /\
  st' = ((fst st + S k * (l * (k * N)))%nat, (snd st + S k * (l * N))%nat).
Proof.
  intros Hbuf L Ho E.
  set (enc := fun (i : nat) c (t : list (list Z) * rst) => genRow (fst t) b i c (snd t)).
  rewrite (forN_ext 0 (S k) _ (fun i s => let '(o, t) := s in let '(c, t') := enc i (nth i o []) t in (upd o i c, t'))) in E.
  2:{ intros i [o [bu s]] Hi. unfold enc. cbn [fst snd]. match goal with |- (let '(_, _) := ?x in _) = _ => destruct x as [c [s1 s2]] end. reflexivity. }
  pose proof (updLoop [] enc
    (fun m t => gshape N k (fst t) /\ snd t = ((fst st + m * (l * (k * N)))%nat, (snd st + m * (l * N))%nat))
    (fun i c => glev_enc w N k p sk c (match i with O => pconst b | S i => pmul (pconst b) (pol N (nth i sk [])) end) (fun j => noisep N G (snd st + (i * l + j) * N)%nat))
    (lshape N k p) 0 (S k) g (buf, st)) as X. cbv beta in X.
  match type of X with context [forN 0 (S k) ?f ?a] => change (forN 0 (S k) f a = (ggsw, (buf', st'))) in E end. rewrite E in X. destruct X as (A & B & C & D).
  - lia.
  - intros i Hi. apply Ho. lia.
  - cbn [fst snd]. split; [exact Hbuf|]. destruct st; cbn [fst snd]; f_equal; lia.
  - intros m c [bu t] Hm Hc (Hbu & Ht). cbn [fst snd] in Hbu, Ht. subst t. cbn [Nat.add]. unfold enc, genRow. cbn [fst snd].
    destruct (EncryptFFTGLevPolyTo w logN N k U G fsk p bu c (brkMessage w N sk b m) ((fst st + m * (l * (k * N)))%nat, (snd st + m * (l * N))%nat)) as [c' [bu' t']] eqn:Ec.
    destruct (brkMessage_spec b m ltac:(lia)) as (M1 & M2).
    apply (EncryptFFTGLevPolyTo_spec w Hw N HN k sk logN HlN U G p Hok) in Ec; [|assumption..]. destruct Ec as (X & Y & ->). cbn [fst snd] in *.
    split; [|split; [exact Y|f_equal; lia]]. eapply glev_enc_peq; [exact M2|].
    eapply glev_enc_ext; [|exact X]. intros j Hj. cbv beta. replace (snd st + m * (l * N) + j * N)%nat with (snd st + (m * l + j) * N)%nat by lia. reflexivity.
  - cbn [fst snd] in D. destruct D as (D1 & D2). split; [|split; [exact D1|exact D2]].
    split; [lia|]. split; [exact (B O ltac:(lia))|]. intros i Hi. exact (B (S i) ltac:(lia)).
Qed.

Lemma GenBlindRotateKey_spec lwe buf st brk buf' st' : gshape N k buf ->
  GenBlindRotateKey w logN N k U G fsk sk lwe p buf st = (brk, (buf', st')) ->
  brk_enc w N k p sk lwe brk (fun b i j => noisep N G (snd st + (b * (S k * l) + (i * l + j)) * N)%nat) /\ gshape N k buf' /\
  st' = ((fst st + length lwe * (S k * (l * (k * N))))%nat, (snd st + length lwe * (S k * (l * N)))%nat).
Proof.
  intros Hbuf E. unfold GenBlindRotateKey in E. set (n := length lwe) in *.
  set (enc := fun (i : nat) g (t : list (list Z) * rst) =>
    forN 0 (S k) (fun j s => let '(g, (buf, st)) := s in let '(row, (buf, st)) := genRow buf (nthZ lwe i) j (nth j g []) st in (upd g j row, (buf, st))) (g, t)).
  rewrite (forN_ext 0 n _ (fun i s => let '(o, t) := s in let '(c, t') := enc i (nth i o []) t in (upd o i c, t'))) in E.
  2:{ intros i [o [bu s]] Hi. unfold enc, genRow, EncryptFFTGLevPolyTo. match goal with |- (let '(_, _) := ?x in _) = _ => destruct x as [c [s1 s2]] end. reflexivity. }
  match type of E with forN _ _ _ (?o, _) = _ => set (out := o) in *; assert (forall i, (i < n)%nat -> length (nth i out []) = S k /\ forall a, (a <= k)%nat -> lshape N k p (nth a (nth i out []) [])) as Hout end.
  { intros i Hi. unfold out. rewrite nth_repeat_lt by exact Hi. split; [apply repeat_length|]. intros a Ha. rewrite nth_repeat_lt by lia. split; [apply repeat_length|]. intros j Hj. rewrite nth_repeat_lt by exact Hj.
    split; [apply repeat_length|]. intros i' Hi'. rewrite nth_repeat_lt by lia. apply repeat_length. }
  assert (length out = n) as Lout by apply repeat_length.
  pose proof (updLoop [] enc
    (fun m t => gshape N k (fst t) /\ snd t = ((fst st + m * (S k * (l * (k * N))))%nat, (snd st + m * (S k * (l * N)))%nat))
    (fun i c => ggsw_enc w N k p sk c (pconst (nthZ lwe i)) (fun a j => noisep N G (snd st + (i * (S k * l) + (a * l + j)) * N)%nat))
    (fun g => length g = S k /\ forall a, (a <= k)%nat -> lshape N k p (nth a g [])) 0 n out (buf, st)) as X. cbv beta in X.
  match type of X with context [forN 0 n ?f ?a] => change (forN 0 n f a = (brk, (buf', st'))) in E end. rewrite E in X. destruct X as (A & B & C & D).
  - lia.
  - intros i Hi. apply Hout. lia.
  - cbn [fst snd]. split; [exact Hbuf|]. destruct st; cbn [fst snd]; f_equal; lia.
  - intros m c [bu t] Hm (Hc1 & Hc2) (Hbu & Ht). cbn [fst snd] in Hbu, Ht. subst t. cbn [Nat.add]. 
    match goal with |- let '(_, _) := ?x in _ => destruct x as [c' [bu' t']] eqn:Ec end.
    unfold enc in Ec. apply genGGSW in Ec; [|assumption..]. destruct Ec as (X & Y & ->). cbn [fst snd] in *.
    split; [|split; [exact Y|f_equal; lia]]. destruct X as (X1 & X2 & X3). split; [exact X1|]. split.
    + eapply glev_enc_ext; [|exact X2]. intros j Hj. cbv beta. match goal with |- peq _ (noisep N G ?a) (noisep N G ?b) => replace a with b by lia end. reflexivity.
    + intros i Hi. eapply glev_enc_ext; [|exact (X3 i Hi)]. intros j Hj. cbv beta. match goal with |- peq _ (noisep N G ?a) (noisep N G ?b) => replace a with b by lia end. reflexivity.
  - cbn [fst snd] in D. destruct D as (D1 & D2). split; [|split; [exact D1|exact D2]]. split; [lia|]. intros i Hi. apply B. lia.
Qed.
Lemma noisep_bound g B : (forall i, (i < N)%nat -> Z.abs (G (g + i)%nat) <= B) -> 0 <= B -> pbound B (noisep N G g).
Proof.
  intros H HB. apply pbound_coeffs; [exact HN|]. intros i Hi. unfold noisep. rewrite (cf_pol_at N HN) by exact Hi. rewrite nthZ_tab by exact Hi. now apply H.
Qed.
End Key.

(** ** Blind rotation, all three algorithms, coefficient 0 *)
Variable n0 : Z.
Hypothesis Hn0 : 0 <= n0.
Hypothesis HNn : Z.of_nat N = 2 ^ n0.
Variable E : nat.
Hypothesis HE : (0 < E)%nat.
Hypothesis Hskb : forall i, (i < k)%nat -> pbound 1 (pol N (nth i sk [])).
Notation LZ := (Z.of_nat (E * N)).
Section BR.
Variables (ms : Z -> Z) (s : list Z) (brk : list (list (list (list (list Z))))) (e : nat -> nat -> nat -> npoly N) (Ek : Z).
Hypothesis Hbrk : brk_enc w N k p sk s brk e.
Hypothesis HEk : 0 <= Ek.
Hypothesis He : forall j a b, (j < length s)%nat -> (a <= k)%nat -> (b < l)%nat -> pbound Ek (e j a b).
Variables (bs bc : nat).
Hypothesis Hbs : (0 < bs)%nat.
Hypothesis Hbc : (0 < bc)%nat.
Hypothesis Hbc2 : E = 1%nat \/ (2 <= bc)%nat.
Hypothesis Hlen : length s = (bc * bs)%nat.
Hypothesis Hblk : block_binary bs s.
Variables (acc0 ctOut : list (list Z)) (lut : list (list Z)).
Hypothesis HctOut : gshape N k ctOut.
Hypothesis Hacc0 : length acc0 = E /\ forall i, (i < E)%nat -> length (nth i acc0 []) = N.
Hypothesis Hlut : lut_ok w N E lut.

Lemma BlindRotate_at ct : (forall j, 0 <= ms (nthZ ct j) <= 2 * LZ) ->
  let r := BlindRotateTo w N k E ms p brk bs bc (length s) acc0 ctOut ct lut in
  glwe_ct w N k r /\ exists d, Z.abs d <= extSlack E /\ ((Z.of_nat E | ms (nthZ ct 0)) -> d = 0) /\
    dist_le Q (cf (gph r) 0) (cf (tableOf N E lut) (rotSum ms s ct + d)) (brNoise w N k p bc (length s) Ek).
Proof.
  intros Hms r. unfold BlindRotateTo in r.
  assert (forall (a b : npoly N) bb, pdist_le Q a b bb -> dist_le Q (cf a 0) (cf b 0) bb) as Hcf.
  { intros a b bb H. destruct (pdist_cf Q a b bb 0 H) as (x & X1 & X2). exists x. split; [|exact X2]. destruct X1 as (t & Ht). exists t. lia. }
  destruct (Nat.ltb_spec N (E * N)) as [C|C].
  - destruct (blindRotateExtended_spec w Hw N HN n0 Hn0 HNn k E HE sk Hskb p Hok ms s brk e Ek Hbrk HEk He bs bc Hbs ltac:(destruct Hbc2; [nia|assumption]) Hlen Hblk acc0 ct lut ltac:(intros j; specialize (Hms j); lia) Hacc0 Hlut) as (A & B).
    fold r in A, B. split; [exact A|]. apply Hcf in B. cbn [cf comp pshift] in B.
    destruct (misrot_at N E (tableOf N E lut) (2 * (Z.of_nat E * Z.of_nat N) - ms (nthZ ct 0)) (0 * Z.of_nat E + 0 - - maskSum ms s ct (length s)) HE) as (d & D1 & D2 & D3).
    exists d. split; [exact D2|]. split.
    + intros Hd. apply D3. apply Z.divide_sub_r; [|exact Hd]. exists (2 * Z.of_nat N). ring.
    + change (misrot_cf N E (tableOf N E lut) (2 * (Z.of_nat E * Z.of_nat N) - ms (nthZ ct 0)) (0 * Z.of_nat E + 0 - - maskSum ms s ct (length s)))
        with (cf (misrot (tableOf N E lut) (2 * (Z.of_nat E * Z.of_nat N) - ms (nthZ ct 0))) (0 * Z.of_nat E + 0 - - maskSum ms s ct (length s))) in B.
      rewrite D1 in B. rewrite (cf_eqm2N (tableOf N E lut) (rotSum ms s ct + d) (0 * Z.of_nat E + 0 - - maskSum ms s ct (length s) - (2 * (Z.of_nat E * Z.of_nat N) - ms (nthZ ct 0)) + d)); [exact B|].
      exists 1. unfold rotSum. fold (maskSum ms s ct (length s)). lia.
  - assert (E = 1%nat) as -> by nia. destruct Hlut as (_ & Hl). specialize (Hl O ltac:(lia)).
    assert (forall x, cf (tableOf N 1 lut) x = cf (pol N (nth 0 lut [])) x) as HT.
    { intros x. unfold tableOf. rewrite weave_cf_eq by lia. cbn [Z.of_nat]. change (Z.of_nat 1) with 1. rewrite Z.mod_1_r, Z.div_1_r. reflexivity. }
    assert (glwe_ct w N k r /\ pdist_le Q (gph r) (pshift (- rotSum ms s ct) (pol N (nth 0 lut []))) (brNoise w N k p bc (length s) Ek)) as (A & B).
    { destruct (Nat.ltb_spec 1 bs) as [C2|C2].
      - apply (blindRotateBlock_spec w Hw N HN n0 Hn0 HNn k sk Hskb p Hok ms s brk e Ek Hbrk HEk He bs bc); assumption.
      - assert (bs = 1%nat) by lia. subst bs. replace bc with (length s) at 1 by lia.
        apply (blindRotateOriginal_spec w Hw N HN n0 Hn0 HNn k sk Hskb p Hok ms s brk e Ek); try assumption; [apply Hblk|lia]. }
    split; [exact A|]. exists 0. split; [unfold extSlack; lia|]. split; [reflexivity|]. rewrite HT. apply Hcf in B. cbn [cf pshift] in B. rewrite !Z.add_0_r. replace (0 - - rotSum ms s ct) with (rotSum ms s ct) in B by lia. exact B.
Qed.

(** ** End to end *)
Variables (mm scale : Z) (f : Z -> Z) (mu : Z).
Hypothesis Hmm : 0 < mm.
Hypothesis Hf : lut_holds N E Q mm lut f.
Hypothesis Hmu : ms_err w LZ mu ms.

Lemma LZpos : 0 < LZ.
Proof. nia. Qed.
Lemma ms_range ct : Forall (uword w) ct -> forall j, 0 <= ms (nthZ ct j) <= 2 * LZ.
Proof.
  intros Hc j. pose proof LZpos. pose proof (pow2_pos w ltac:(lia)). destruct (Hmu (nthZ ct j)) as (R & -> & _).
  - unfold nthZ. destruct (Nat.lt_ge_cases j (length ct)) as [L|L]; [now apply (Forall_nth_lt _ ct 0 j Hc)|]. rewrite nth_overflow by exact L. unfold uword. lia.
  - pose proof (Z.mod_pos_bound R (2 * LZ) ltac:(lia)). lia.
Qed.

(** The value of the extracted coefficient when every reachable table position is in the box of m. *)
Lemma rotate_value_at m ct : lwe_ct w (length s) ct -> 0 <= m < mm ->
  (forall d, Z.abs d <= extSlack E -> ((Z.of_nat E | ms (nthZ ct 0)) -> d = 0) -> exists t, in_box LZ mm m (rotSum ms s ct + d + 2 * LZ * t)) ->
  let r := BlindRotateTo w N k E ms p brk bs bc (length s) acc0 ctOut ct lut in
  glwe_ct w N k r /\ dist_le Q (cf (gph r) 0) (f m) (brNoise w N k p bc (length s) Ek).
Proof.
  intros (Lc & Hc) Hm Hb r. destruct (BlindRotate_at ct (ms_range ct Hc)) as (A & d & D1 & D2 & D3). fold r in A, D3. split; [exact A|].
  destruct (Hb d D1 D2) as (t & Ht). pose proof (Hf _ m Hm Ht) as Hv.
  rewrite (cf_eqm2N (tableOf N E lut) _ (rotSum ms s ct + d)) in Hv by (exists t; lia).
  destruct D3 as (x & X1 & X2). exists x. split; [|exact X2]. destruct X1 as (t1 & X1). destruct Hv as (t2 & X3). exists (t1 + t2). lia.
Qed.
(** ... and the worst case for phase scale*m + e. *)
Lemma rotate_value m ee ct : lwe_ct w (length s) ct -> 0 <= m < mm -> eqm Q (phase s ct) (scale * m + ee) ->
  (let X := 2 * LZ * m * Z.abs (Q - 2 * mm * scale) + 4 * LZ * mm * Z.abs ee + mm * mu * (1 + zsum (length s) (nthZ s)) + 2 * mm * extSlack E * Q in
   X <= (LZ - 2 * mm) * Q \/ (2 * mm | LZ) /\ X < LZ * Q) ->
  let r := BlindRotateTo w N k E ms p brk bs bc (length s) acc0 ctOut ct lut in
  glwe_ct w N k r /\ dist_le Q (cf (gph r) 0) (f m) (brNoise w N k p bc (length s) Ek).
Proof.
  intros Hct Hm Hph HX. apply rotate_value_at; [exact Hct|exact Hm|]. intros d Hd _.
  destruct (rotSum_err w LZ mu ms s ct Hw LZpos Hmu (proj1 Hblk) Hct) as (t & err & Et & Be).
  destruct Hph as (q & Hq). exists (- (t + q)).
  apply (pos_in_box Q LZ mm scale m ee err d mu (zsum (length s) (nthZ s)) (extSlack E)); try assumption; try (apply pow2_pos; lia); try apply LZpos.
  replace ((rotSum ms s ct + d + 2 * LZ * - (t + q)) * Q) with (rotSum ms s ct * Q + d * Q - 2 * LZ * (t + q) * Q) by ring.
  rewrite Et. replace (phase s ct) with (scale * m + ee + q * Q) by lia. ring.
Qed.

(** Key switching on either side. *)
Variables (large : list Z) (pKS : gadget) (ksk : list (list (list Z))) (eks : nat -> nat -> Z) (Eks : Z).
Hypothesis HokK : gadget_ok w pKS.
Hypothesis Hlsk : length sk = k.
Hypothesis Hflat : flat N sk large.
Hypothesis Hpre : s = firstn (length s) large.
Hypothesis Hle : (length s <= length large)%nat.
Hypothesis Hksk : ksk_enc w pKS s (skipn (length s) large) ksk eks.
Hypothesis Hbl : binary large.
Hypothesis Heks : forall i j, (i < length large - length s)%nat -> (j < g_level pKS)%nat -> Z.abs (eks i j) <= Eks.
Notation n := (length s).
Notation D := (length large).
Notation ksN := (ksNoise w pKS (D - n) Eks).
Notation brN := (brNoise w N k p bc n Ek).

Lemma Dlen : D = (k * N)%nat.
Proof. destruct Hflat as (H & _). now rewrite Hlsk in H. Qed.

Lemma Boot_brFirst ksBuf extBuf out m ee ct : length extBuf = S (k * N) -> length out = S n -> lwe_ct w n ct -> 0 <= m < mm -> eqm Q (phase s ct) (scale * m + ee) ->
  (let X := 2 * LZ * m * Z.abs (Q - 2 * mm * scale) + 4 * LZ * mm * Z.abs ee + mm * mu * (1 + zsum n (nthZ s)) + 2 * mm * extSlack E * Q in
   X <= (LZ - 2 * mm) * Q \/ (2 * mm | LZ) /\ X < LZ * Q) ->
  let r := BootstrapLUTTo w N k E false ms p pKS brk ksk bs bc n acc0 ctOut ksBuf extBuf out ct lut in
  lwe_ct w n r /\ dist_le Q (phase s r) (f m) (brN + ksN).
Proof.
  intros Lx Lo Hct Hm Hph HX. unfold BootstrapLUTTo. cbv zeta.
  destruct (rotate_value m ee ct Hct Hm Hph HX) as (A & B). set (r := BlindRotateTo w N k E ms p brk bs bc n acc0 ctOut ct lut) in *. clearbody r.
  destruct (extract_spec w Hw N HN k sk large 0 extBuf r Hlsk Hflat A HN Lx) as (X1 & X2). change (Z.of_nat 0) with 0 in X2.
  set (x := AsLWECiphertextTo w N 0 extBuf r) in *. clearbody x. rewrite <- Dlen in X1.
  pose proof (DefaultKeySwitch_dcmp w Hw s pKS HokK large out x ksk eks Hpre Hle Lo X1 Hksk) as (Y1 & _).
  pose proof (DefaultKeySwitch_bound w Hw s pKS HokK large out x ksk eks Eks Hpre Hle Lo X1 Hksk Hbl Heks) as Y2. rewrite <- Dlen. split; [exact Y1|].
  destruct B as (b & (t1 & B1) & B2). destruct Y2 as (c & (t2 & C1) & C2). destruct X2 as (t3 & X2). exists (b + c). split; [exists (t1 + t2 + t3); lia|]. unfold ksNoise. lia.
Qed.
Lemma Boot_ksFirst ksBuf extBuf out m ee ct : length ksBuf = S n -> length out = S (k * N) -> lwe_ct w D ct -> 0 <= m < mm -> eqm Q (phase large ct) (scale * m + ee) ->
  (let X := 2 * LZ * m * Z.abs (Q - 2 * mm * scale) + 4 * LZ * mm * (Z.abs ee + ksN) + mm * mu * (1 + zsum n (nthZ s)) + 2 * mm * extSlack E * Q in
   X <= (LZ - 2 * mm) * Q \/ (2 * mm | LZ) /\ X < LZ * Q) ->
  let r := BootstrapLUTTo w N k E true ms p pKS brk ksk bs bc n acc0 ctOut ksBuf extBuf out ct lut in
  lwe_ct w D r /\ dist_le Q (phase large r) (f m) brN.
Proof.
  intros Lk Lo Hct Hm Hph HX. unfold BootstrapLUTTo. cbv zeta. rewrite <- Dlen.
  pose proof (DefaultKeySwitch_dcmp w Hw s pKS HokK large ksBuf ct ksk eks Hpre Hle Lk Hct Hksk) as (Y1 & _).
  pose proof (DefaultKeySwitch_bound w Hw s pKS HokK large ksBuf ct ksk eks Eks Hpre Hle Lk Hct Hksk Hbl Heks) as Y2.
  set (c := DefaultKeySwitchTo w n D pKS ksBuf ct ksk) in *. clearbody c.
  destruct Y2 as (x & (t & X1) & X2). change (Z.abs x <= ksN) in X2. pose proof LZpos as HL.
  destruct (rotate_value m (ee + x) c Y1 Hm) as (A & B).
  - destruct Hph as (t' & Hp). exists (t + t'). lia.
  - assert (4 * LZ * mm * Z.abs (ee + x) <= 4 * LZ * mm * (Z.abs ee + ksN)) as Hm1 by (apply Z.mul_le_mono_nonneg_l; [apply Z.mul_nonneg_nonneg; lia|]; pose proof (Z.abs_triangle ee x); lia).
    cbv zeta in *. destruct HX as [HX|(Hd & HX)]; [left|right; split; [exact Hd|]]; lia.
  - set (r := BlindRotateTo w N k E ms p brk bs bc n acc0 ctOut c lut) in *. clearbody r.
    destruct (extract_spec w Hw N HN k sk large 0 out r Hlsk Hflat A HN Lo) as (Z1 & Z2). change (Z.of_nat 0) with 0 in Z2. rewrite Dlen. split; [exact Z1|].
    destruct B as (b & (t1 & B1) & B2). destruct Z2 as (t3 & Z2). exists b. split; [exists (t1 + t3); lia|exact B2].
Qed.
End BR.
End W.

(** ** Tables *)
Lemma GenLUT_holds w N E mm f lutOut raw : 0 < w -> (0 < N)%nat -> (0 < E)%nat -> 0 < mm < 2 ^ 52 -> 2 * mm < 2 ^ w -> mm * Z.of_nat (E * N) < 2 ^ 52 ->
  length raw = (E * N)%nat -> length lutOut = E -> (forall i, (i < E)%nat -> length (nth i lutOut []) = N) ->
  exists lut raw', GenLUTCustomFullTo w N E lutOut raw f mm = Some (lut, raw') /\ length raw' = (E * N)%nat /\
    ((forall m, 0 <= m < mm -> uword w (f m)) -> lut_ok w N E lut) /\ lut_holds N E (2 ^ w) mm lut f.
Proof.
  intros Hw HN HE Hmm Hmw Hsz Lr Lo Hl. destruct (GenLUT_full w N E mm Hw HN HE Hmm Hmw Hsz f lutOut raw Lr Lo Hl) as (lut & raw' & A & B & _ & _ & C & D).
  exists lut, raw'. split; [exact A|]. split; [exact B|]. split; [exact C|]. intros j m Hm Hb. apply D; [exact Hm|].
  destruct Hb as [Hb|(Hd & Hb)]; [now apply (box_general w N E mm)|now apply (box_exact w N E mm)].
Qed.

(** ** Summary lemmas *)
Lemma flat_bound N k sk large : (0 < N)%nat -> length sk = k -> flat N sk large -> binary large -> forall i, (i < k)%nat -> pbound 1 (pol N (nth i sk [])).
Proof.
  intros HN Lk (Lf & Hf) Hb i Hi. apply pbound_coeffs; [exact HN|]. intros j Hj. rewrite (cf_pol_at N HN) by exact Hj. rewrite <- Hf by lia.
  destruct (binary_at large (i * N + j) Hb) as [-> | ->]; [rewrite Lf; nia|lia|lia].
Qed.

Lemma boot_phase w N k E p pKS sk s large brk ksk bs bc Ek Eks : 0 < w -> (0 < N)%nat ->
  boot_keys w N k E p pKS sk s large brk ksk bs bc Ek Eks ->
  forall acc0 rotBuf ksBuf extBuf lut f mm scale mu ms, boot_bufs N k E (length s) acc0 rotBuf ksBuf extBuf -> lut_ok w N E lut -> 0 < mm ->
  lut_holds N E (2 ^ w) mm lut f -> ms_err w (Z.of_nat (E * N)) mu ms -> forall m ee ct out, 0 <= m < mm ->
  (length out = S (length s) -> lwe_ct w (length s) ct -> eqm (2 ^ w) (phase s ct) (scale * m + ee) ->
   boot_margin (2 ^ w) (Z.of_nat (E * N)) mm scale m (Z.abs ee) mu (zsum (length s) (nthZ s)) (extSlack E) ->
   let r := BootstrapLUTTo w N k E false ms p pKS brk ksk bs bc (length s) acc0 rotBuf ksBuf extBuf out ct lut in
   lwe_ct w (length s) r /\ dist_le (2 ^ w) (phase s r) (f m) (brNoise w N k p bc (length s) Ek + ksNoise w pKS (length large - length s) Eks)) /\
  (length out = S (length large) -> lwe_ct w (length large) ct -> eqm (2 ^ w) (phase large ct) (scale * m + ee) ->
   boot_margin (2 ^ w) (Z.of_nat (E * N)) mm scale m (Z.abs ee + ksNoise w pKS (length large - length s) Eks) mu (zsum (length s) (nthZ s)) (extSlack E) ->
   let r := BootstrapLUTTo w N k E true ms p pKS brk ksk bs bc (length s) acc0 rotBuf ksBuf extBuf out ct lut in
   lwe_ct w (length large) r /\ dist_le (2 ^ w) (phase large r) (f m) (brNoise w N k p bc (length s) Ek)).
Proof.
  intros Hw HN [(n0 & Hn0 & HNn) (HE & HE2) (Hok & HokK) (Lk & Hfl & Hbin) (Hpre & Hle) (Hbs & Hbc & Hlen & Hblk) (HEk & HEks) (e & He1 & He2) (eks & Hk1 & Hk2)].
  intros acc0 rotBuf ksBuf extBuf lut f mm scale mu ms (Hacc & Hrot & Lks & Lex) Hlut Hmm Hf Hmu m ee ct out Hm.
  pose proof (flat_bound N k sk large HN Lk Hfl Hbin) as Hskb.
  assert (length large = (k * N)%nat) as LD by (destruct Hfl as (X & _); now rewrite Lk in X).
  split; intros Lo Hct Hph Hmar.
  - apply (Boot_brFirst w Hw N HN k sk p Hok n0 Hn0 HNn E HE Hskb ms s brk e Ek He1 HEk He2 bs bc Hbs Hbc HE2 Hlen Hblk acc0 rotBuf lut Hrot Hacc Hlut mm scale f mu Hf Hmu large pKS ksk eks Eks HokK Lk Hfl Hpre Hle Hk1 Hbin Hk2 ksBuf extBuf out m ee ct); assumption.
  - apply (Boot_ksFirst w Hw N HN k sk p Hok n0 Hn0 HNn E HE Hskb ms s brk e Ek He1 HEk He2 bs bc Hbs Hbc HE2 Hlen Hblk acc0 rotBuf lut Hrot Hacc Hlut mm scale f mu Hmm Hf Hmu large pKS ksk eks Eks HokK Lk Hfl Hpre Hle Hk1 Hbin Hk2 ksBuf extBuf out m ee ct); try assumption. now rewrite <- LD.
Qed.

Lemma decode_dist w kk sk ct msg B : 0 < w -> 0 <= kk <= w - 2 -> length ct = S (length sk) ->
  let mm := 2 ^ kk in let scale := scaleOf w mm in
  dist_le (2 ^ w) (phase sk ct) (EncodeLWECustom w msg mm scale) B -> decodes w scale B -> DecryptLWE w mm scale sk ct = Some (msg mod mm).
Proof.
  intros Hw Hk L mm scale (e & He & Be) Hd. destruct (DecryptLWEPhase_spec w Hw sk ct L) as (A1 & A2). unfold DecryptLWE.
  replace (DecryptLWEPhase w sk ct) with (wrap w (EncodeLWECustom w msg mm scale + e)).
  - destruct Hd as [(H1 & H2)|(H1 & H2)]; [apply decode_params_small; fold mm scale; lia|apply decode_params_large; fold mm scale; lia].
  - unfold wrap. rewrite <- (Z.mod_small (DecryptLWEPhase w sk ct) (2 ^ w)) by exact A1. destruct He as (t1 & He). destruct A2 as (t2 & A2).
    replace (EncodeLWECustom w msg mm scale + e) with (DecryptLWEPhase w sk ct + (- t1 - t2) * 2 ^ w) by lia. apply Z_mod_plus_full.
Qed.

Lemma encode_val w kk msg : 0 < w -> 0 <= kk <= w - 2 -> let mm := 2 ^ kk in let scale := scaleOf w mm in
  EncodeLWECustom w msg mm scale = scale * (msg mod mm) /\ 2 ^ w = 2 * mm * scale.
Proof.
  intros Hw Hk mm scale. pose proof (pow2_pos kk ltac:(lia)). assert (scale = 2 ^ (w - 1 - kk)) as Es by (apply scale_pow2; lia). pose proof (pow2_pos (w - 1 - kk) ltac:(lia)).
  assert (2 ^ w = 2 * mm * scale) as EQ. { rewrite Es. unfold mm. rewrite <- Z.pow_succ_r, <- Z.pow_add_r by lia. f_equal. lia. }
  split; [|exact EQ]. unfold EncodeLWECustom. destruct (Z.eqb_spec mm 0); [lia|].
  assert (wrap w msg mod mm = msg mod mm) as ->. { unfold wrap. rewrite EQ. replace (2 * mm * scale) with (mm * (2 * scale)) by ring. rewrite Z.rem_mul_r by lia. rewrite Z.mul_comm, Z_mod_plus_full, Z.mod_mod by lia. reflexivity. }
  pose proof (Z.mod_pos_bound msg mm ltac:(lia)). unfold wrap. rewrite Z.mod_small; [ring|]. rewrite EQ. nia.
Qed.

Lemma boot_message w N k E p pKS sk s large brk ksk bs bc Ek Eks : 0 < w -> (0 < N)%nat ->
  boot_keys w N k E p pKS sk s large brk ksk bs bc Ek Eks ->
  forall acc0 rotBuf ksBuf extBuf lutOut raw kk mu f, boot_bufs N k E (length s) acc0 rotBuf ksBuf extBuf ->
  length raw = (E * N)%nat -> length lutOut = E -> (forall i, (i < E)%nat -> length (nth i lutOut []) = N) ->
  0 <= kk <= w - 2 -> 2 ^ kk * Z.of_nat (E * N) < 2 ^ 52 -> let mm := 2 ^ kk in let scale := scaleOf w mm in let ms := ModSwitch w (Z.of_nat (E * N)) in
  ms_err w (Z.of_nat (E * N)) mu ms ->
  exists lut raw', GenLUTCustomTo w N E lutOut raw f mm scale = Some (lut, raw') /\ forall m ee ct out, 0 <= m < mm ->
  (length out = S (length s) -> lwe_ct w (length s) ct -> eqm (2 ^ w) (phase s ct) (scale * m + ee) ->
   boot_margin (2 ^ w) (Z.of_nat (E * N)) mm scale m (Z.abs ee) mu (zsum (length s) (nthZ s)) (extSlack E) ->
   decodes w scale (brNoise w N k p bc (length s) Ek + ksNoise w pKS (length large - length s) Eks) ->
   DecryptLWE w mm scale s (BootstrapLUTTo w N k E false ms p pKS brk ksk bs bc (length s) acc0 rotBuf ksBuf extBuf out ct lut) = Some (f m mod mm)) /\
  (length out = S (length large) -> lwe_ct w (length large) ct -> eqm (2 ^ w) (phase large ct) (scale * m + ee) ->
   boot_margin (2 ^ w) (Z.of_nat (E * N)) mm scale m (Z.abs ee + ksNoise w pKS (length large - length s) Eks) mu (zsum (length s) (nthZ s)) (extSlack E) ->
   decodes w scale (brNoise w N k p bc (length s) Ek) ->
   DecryptLWE w mm scale large (BootstrapLUTTo w N k E true ms p pKS brk ksk bs bc (length s) acc0 rotBuf ksBuf extBuf out ct lut) = Some (f m mod mm)).
Proof.
  intros Hw HN HK acc0 rotBuf ksBuf extBuf lutOut raw kk mu f Hbufs Lr Lo Hl Hk Hsz mm scale ms Hmu.
  pose proof (pow2_pos kk ltac:(lia)) as Hp. destruct (encode_val w kk 0 Hw Hk) as (_ & EQ). fold mm scale in EQ, Hp, Hsz.
  assert (2 <= scale) as Hs. { unfold scale, mm. rewrite scale_pow2 by lia. change 2 with (2 ^ 1) at 1. apply Z.pow_le_mono_r; lia. }
  pose proof (bk_ext _ _ _ _ _ _ _ _ _ _ _ _ _ _ _ HK) as (HE & _).
  destruct (GenLUT_holds w N E mm (fun x => EncodeLWECustom w (f x) mm scale) lutOut raw Hw HN HE ltac:(nia) ltac:(nia) Hsz Lr Lo Hl) as (lut & raw' & A & B & C & D).
  exists lut, raw'. split; [exact A|]. intros m ee ct out Hm.
  assert (lut_ok w N E lut) as Hlut. { apply C. intros x Hx. unfold EncodeLWECustom. apply wrap_range. lia. }
  destruct (boot_phase w N k E p pKS sk s large brk ksk bs bc Ek Eks Hw HN HK acc0 rotBuf ksBuf extBuf lut _ mm scale mu ms Hbufs Hlut Hp D Hmu m ee ct out Hm) as (P1 & P2).
  split; intros L1 L2 L3 L4 L5.
  - destruct (P1 L1 L2 L3 L4) as (X & Y). apply (decode_dist w kk s _ (f m) _ Hw Hk (proj1 X) Y L5).
  - destruct (P2 L1 L2 L3 L4) as (X & Y). apply (decode_dist w kk large _ (f m) _ Hw Hk (proj1 X) Y L5).
Qed.

(** Generated keys. *)
Lemma keygen_boot_keys w N k E p pKS sk s large U G Eg bs bc logN buf st1 st2 brk buf' st1' ksk st2' : 0 < w -> (0 < N)%nat ->
  (exists n0, 0 <= n0 /\ Z.of_nat N = 2 ^ n0) -> (0 < E)%nat /\ (E = 1%nat \/ (2 <= bc)%nat) -> gadget_ok w p -> gadget_ok w pKS -> 0 < splitBitsShort logN ->
  length sk = k -> (forall i, (i < k)%nat -> length (nth i sk []) = N) -> flat N sk large -> binary large -> s = firstn (length s) large -> (length s <= length large)%nat ->
  (0 < bs)%nat /\ (0 < bc)%nat /\ length s = (bc * bs)%nat /\ block_binary bs s -> (forall i, Z.abs (G i) <= Eg) -> gshape N k buf ->
  GenBlindRotateKey w logN N k U G (map (fwdFFT w) sk) sk s p buf st1 = (brk, (buf', st1')) ->
  GenDefaultKeySwitchKey w U G s (skipn (length s) large) pKS st2 = (ksk, st2') ->
  boot_keys w N k E p pKS sk s large brk ksk bs bc Eg Eg.
Proof.
  intros Hw HN Hn HE Hok HokK Hlog Lk Hsk Hfl Hbin Hpre Hle Hblk HG Hbuf E1 E2. pose proof (HG O) as HG0.
  apply (GenBlindRotateKey_spec w Hw N HN k sk p Hok logN Hlog U G (conj Lk Hsk)) in E1; [|exact Hbuf]. destruct E1 as (E1 & _ & _).
  apply (GenDefaultKeySwitchKey_spec w Hw pKS HokK) in E2. destruct E2 as (E2 & _).
  constructor; try assumption; try (now split); try lia.
  - eexists. split; [exact E1|]. intros j a b Hj Ha Hb. cbv beta. apply noisep_bound; [exact HN| |lia]. intros; apply HG.
  - eexists. split; [exact E2|]. intros i j Hi Hj. cbv beta. apply HG.
Qed.

Lemma ext_at w N k E sk p s brk Ek bs bc acc0 ct lut ms : br_setting w N k sk p s brk Ek bs bc -> (2 <= bc)%nat -> (0 < E)%nat ->
  (forall j, 0 <= ms (nthZ ct j) <= 2 * Z.of_nat (E * N)) -> (length acc0 = E /\ forall i, (i < E)%nat -> length (nth i acc0 []) = N) -> lut_ok w N E lut ->
  let r := blindRotateExtendedTo w N k E ms p brk bs bc (length s) acc0 ct lut in
  glwe_ct w N k r /\
  (forall t, exists d, Z.abs d <= extSlack E /\ ((Z.of_nat E | ms (nthZ ct 0)) -> d = 0) /\
    dist_le (2 ^ w) (cf (gphase N k sk r) t) (cf (tableOf N E lut) (Z.of_nat E * t + rotSum ms s ct + d)) (brNoise w N k p bc (length s) Ek)) /\
  ((Z.of_nat E | ms (nthZ ct 0)) -> pdist_le (2 ^ w) (gphase N k sk r) (comp (pshift (- rotSum ms s ct) (tableOf N E lut)) 0) (brNoise w N k p bc (length s) Ek)).
Proof.
  intros (Hw & HN & (n0 & Hn0 & HNn) & Hskb & Hok & (e & Hbrk & He) & HEk & Hbs & _ & Hlen & Hblk) Hbc HE Hms Hacc0 Hlut r.
  destruct (blindRotateExtended_spec w Hw N HN n0 Hn0 HNn k E HE sk Hskb p Hok ms s brk e Ek Hbrk HEk He bs bc Hbs Hbc Hlen Hblk acc0 ct lut ltac:(intros j; specialize (Hms j); lia) Hacc0 Hlut) as (A & B).
  fold r in A, B. split; [exact A|]. set (bb := 2 * (Z.of_nat E * Z.of_nat N) - ms (nthZ ct 0)) in *. set (T := tableOf N E lut) in *.
  assert (forall d, cf T (d - bb) = cf T (d + ms (nthZ ct 0))) as Hper. { intros d. apply cf_eqm2N. exists (-1). unfold bb. lia. }
  split.
  - intros t. destruct (pdist_cf _ _ _ _ t B) as (x & X1 & X2). cbn [cf comp pshift] in X1.
    destruct (misrot_at N E T bb (t * Z.of_nat E + 0 - - maskSum ms s ct (length s)) HE) as (d & D1 & D2 & D3).
    exists d. split; [exact D2|]. split; [intros Hd; apply D3; apply Z.divide_sub_r; [exists (2 * Z.of_nat N); ring|exact Hd]|].
    change (misrot_cf N E T bb (t * Z.of_nat E + 0 - - maskSum ms s ct (length s))) with (cf (misrot T bb) (t * Z.of_nat E + 0 - - maskSum ms s ct (length s))) in X1.
    rewrite D1 in X1. exists x. split; [|exact X2]. destruct X1 as (q & Hq). exists q.
    replace (t * Z.of_nat E + 0 - - maskSum ms s ct (length s) - bb + d) with ((t * Z.of_nat E + maskSum ms s ct (length s) + d) - bb) in Hq by lia. rewrite Hper in Hq.
    replace (Z.of_nat E * t + rotSum ms s ct + d) with (t * Z.of_nat E + maskSum ms s ct (length s) + d + ms (nthZ ct 0)) by (unfold rotSum, maskSum; lia). lia.
  - intros Hd. destruct B as (x & X1 & X2). exists x. split; [|exact X2]. intros t. specialize (X1 t). cbn [cf psub padd popp comp pshift] in X1 |- *.
    assert (Z.of_nat E | bb) as Hdb by (apply Z.divide_sub_r; [exists (2 * Z.of_nat N); ring|exact Hd]).
    pose proof (misrot_exact N E T bb HE Hdb (t * Z.of_nat E + 0 - - maskSum ms s ct (length s))) as Hx. destruct Hx as (z & Hz). cbn [cf pshift] in Hz.
    replace (t * Z.of_nat E + 0 - - maskSum ms s ct (length s) - bb) with ((t * Z.of_nat E + maskSum ms s ct (length s)) - bb) in Hz by lia. rewrite Hper in Hz.
    replace (t * Z.of_nat E + 0 - - rotSum ms s ct) with (t * Z.of_nat E + maskSum ms s ct (length s) + ms (nthZ ct 0)) by (unfold rotSum, maskSum; lia).
    destruct X1 as (q & Hq). exists q. lia.
Qed.

Lemma setting_keygen w N k sk p s U G Eg bs bc logN buf st brk buf' st' : 0 < w -> (0 < N)%nat ->
  (exists n0, 0 <= n0 /\ Z.of_nat N = 2 ^ n0) -> gadget_ok w p -> 0 < splitBitsShort logN -> skey N k sk -> (forall i, (i < k)%nat -> binary (nth i sk [])) ->
  (0 < bs)%nat -> (0 < bc)%nat -> length s = (bc * bs)%nat -> block_binary bs s -> (forall i, Z.abs (G i) <= Eg) -> gshape N k buf ->
  GenBlindRotateKey w logN N k U G (map (fwdFFT w) sk) sk s p buf st = (brk, (buf', st')) -> br_setting w N k sk p s brk Eg bs bc.
Proof.
  intros Hw HN Hn Hok Hlog Hsk Hbin H1 H2 H3 H4 HG Hbuf Ek. pose proof (HG O) as HG0.
  apply (GenBlindRotateKey_spec w Hw N HN k sk p Hok logN Hlog U G Hsk) in Ek; [|exact Hbuf]. destruct Ek as (E1 & _ & _).
  repeat (split; [assumption|]). split; [|split; [exact Hok|split; [|repeat (split; [first [assumption|lia]|]); assumption]]].
  - intros i Hi. apply pbound_coeffs; [exact HN|]. intros t Ht. rewrite (cf_pol_at N HN) by exact Ht. specialize (Hbin i Hi). unfold binary in Hbin.
    pose proof (proj2 Hsk i Hi) as Li. assert (nthZ (nth i sk []) t = 0 \/ nthZ (nth i sk []) t = 1) as [-> | ->]; [|lia|lia].
    unfold nthZ. apply (Forall_nth_lt (fun x => x = 0 \/ x = 1) (nth i sk []) 0 t Hbin). lia.
  - eexists. split; [exact E1|]. intros j a b Hj Ha Hb. cbv beta. apply noisep_bound; [exact HN| |lia]. intros; apply HG.
Qed.

Lemma GenLUT_every w N E mm f lutOut raw : 0 < w -> (0 < N)%nat -> (0 < E)%nat -> 0 < mm < 2 ^ 52 -> 2 * mm < 2 ^ w -> mm * Z.of_nat (E * N) < 2 ^ 52 ->
  length raw = (E * N)%nat -> length lutOut = E -> (forall i, (i < E)%nat -> length (nth i lutOut []) = N) ->
  exists lut raw' o, GenLUTCustomFullTo w N E lutOut raw f mm = Some (lut, raw') /\ is_round_half_up (Z.of_nat (E * N)) (2 * mm) o /\
    forall i, 0 <= i < Z.of_nat (E * N) -> exists m r r', 0 <= m < mm /\ is_round_half_up (m * Z.of_nat (E * N)) mm r /\
      is_round_half_up ((m + 1) * Z.of_nat (E * N)) mm r' /\ r <= i < r' /\ eqm (2 ^ w) (cf (tableOf N E lut) (i - o)) (f m).
Proof.
  intros Hw HN HE Hmm Hmw Hsz Lr Lo Hl.
  destruct (GenLUT_full w N E mm Hw HN HE Hmm Hmw Hsz f lutOut raw Lr Lo Hl) as (lut & raw' & A & _ & _ & _ & _ & D).
  exists lut, raw', (off N E mm). split; [exact A|]. split; [eapply off_spec; eassumption|].
  intros i Hi. destruct (rd_cover (E * N) mm ltac:(nia) Hmm Hsz i Hi) as (m & Hm & Hr). exists m, (rd (E * N) mm m), (rd (E * N) mm (m + 1)).
  split; [exact Hm|]. split; [apply rd_spec; try assumption; nia|]. split; [apply rd_spec; try assumption; nia|]. split; [exact Hr|].
  apply D; [exact Hm|]. replace (i - off N E mm + off N E mm) with i by lia. exact Hr.
Qed.
