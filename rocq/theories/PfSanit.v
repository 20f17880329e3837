From Verif Require Import Base NegaRing SpecNum ModelNum PfNum ModelVec SpecVec PfVec ModelPoly SpecPoly PfPoly PfSplit ModelGadget SpecGadget PfGadget ModelEncoder ModelLWE SpecLWE PfLWE PfLWE2 PfKS PfKS2 ModelGLWE SpecGLWE PfGLWE PfGLWE2 PfGLWE3 PfGLWE4
  ModelBoot SpecBoot PfBoot PfBoot2 PfBoot3 PfBoot4 ModelParams PfParams SpecPub PfPub ModelSanit SpecSanit.

(** ** The table sampler *)
Lemma searchLoop_spec (f : nat -> bool) n : (forall i j, (i <= j < n)%nat -> f i = true -> f j = true) ->
  forall fuel i j, (i <= j <= n)%nat -> (j - i <= fuel)%nat -> (forall a, (a < i)%nat -> f a = false) -> (forall a, (j <= a < n)%nat -> f a = true) ->
  let x := searchLoop f fuel i j in (x <= n)%nat /\ (forall a, (a < x)%nat -> f a = false) /\ (forall a, (x <= a < n)%nat -> f a = true).
Proof.
  intros Hm. induction fuel as [|fuel IH]; intros i j Hij Hf Hlo Hhi; cbn [searchLoop].
  - assert (i = j) by lia. subst j. split; [lia|]. split; assumption.
  - destruct (Nat.ltb_spec i j) as [C|C]; [|assert (i = j) by lia; subst j; split; [lia|]; split; assumption].
    pose proof (Nat.div_mod (i + j) 2 ltac:(lia)) as Dm. pose proof (Nat.mod_upper_bound (i + j) 2 ltac:(lia)) as Bm. set (h := ((i + j) / 2)%nat) in *.
    destruct (f h) eqn:Eh; apply IH; try lia; try assumption.
    + intros a Ha. apply (Hm h a); [lia|exact Eh].
    + intros a Ha. destruct (f a) eqn:Ea; [|reflexivity]. rewrite (Hm a h) in Eh by (try lia; exact Ea). discriminate.
Qed.
Lemma CDTSample_spec w table offset r : 0 < w -> (forall i j, (i <= j < length table)%nat -> nthZ table i <= nthZ table j) -> - 2 ^ 63 <= offset -> offset + Z.of_nat (length table) < 2 ^ 63 ->
  exists x, cdtRange table x r /\ (forall y, cdtRange table y r -> y = x) /\ CDTSample w table offset r = wrap w (offset + Z.of_nat x).
Proof.
  intros Hw Hs Ho1 Ho2. unfold CDTSample, sortSearch. set (f := fun i => r <? nthZ table i). set (n := length table) in *.
  destruct (searchLoop_spec f n) with (fuel := n) (i := 0%nat) (j := n) as (A & B & C); try lia.
  { unfold f. intros i j Hij Hi. pose proof (Hs i j ltac:(lia)). lia. }
  set (x := searchLoop f n 0 n) in *. exists x. split; [|split].
  - split; [exact A|]. split; intros Hx.
    + pose proof (B (x - 1)%nat ltac:(lia)) as X. unfold f in X. lia.
    + pose proof (C x ltac:(lia)) as X. unfold f in X. lia.
  - intros y (Y1 & Y2 & Y3). fold n in Y1, Y3. destruct (Nat.lt_trichotomy y x) as [L|[E|L]]; [|exact E|].
    + pose proof (B y L) as X. unfold f in X. specialize (Y3 ltac:(lia)). lia.
    + pose proof (C (y - 1)%nat ltac:(lia)) as X. unfold f in X. specialize (Y2 ltac:(lia)). lia.
  - rewrite (swrap_small 64) by (try lia; unfold sword; change (64 - 1) with 63; lia). f_equal. lia.
Qed.

(** ** Re-randomisation, GLWE rank 1 *)
Section ReRand.
Variables (w logN : Z) (N : nat).
Hypothesis Hw : 0 < w.
Hypothesis HN : (0 < N)%nat.
Hypothesis HlN : 0 < splitBits logN.
Notation Q := (2 ^ w).
Variables (D R : nat -> Z) (sk : list (list Z)) (gpk : list (list (list Z))) (e : nat -> npoly N).
Hypothesis Hpk : pk_enc w N 1 sk gpk e.
Add Ring nring : (@npoly_ring N Q) (setoid (@peq_equiv N Q) (@npoly_ring_ext N Q)).

Lemma cdtPoly_spec pG d : length pG = N -> wpoly w N (cdtPoly w D pG d) /\ peq Q (pol N (cdtPoly w D pG d)) (noisep N D d).
Proof.
  intros Lp. unfold cdtPoly. rewrite Lp. split; [|exact (pol_wrapped w N HN _)]. split; [apply tab_length|]. apply Forall_tab. intros i _. now apply wrap_word.
Qed.
Lemma addSample_spec f p d : length p = N -> let q := tab (length p) (fun i => wrap w (nthZ p i + wrap w (f (d + i)%nat))) in wpoly w N q /\ peq Q (pol N q) (padd (pol N p) (noisep N f d)).
Proof.
  intros Lp q. unfold q. rewrite Lp. split; [split; [apply tab_length|]; apply Forall_tab; intros i _; now apply wrap_word|].
  rewrite (pol_wrapped w N HN). apply (pol_peq N HN). intros j Hj. cbn [cf padd]. unfold noisep. rewrite !(cf_pol_at N HN) by exact Hj. rewrite !nthZ_tab by exact Hj. rewrite wrap_eqm. apply eqm_refl.
Qed.

Lemma randCore_spec pG c d : length pG = N -> gshape N 1 c -> glwe_ct w N 1 (randCore w logN N D gpk pG c d) /\ peq Q (gphase N 1 sk (randCore w logN N D gpk pG c d)) (reRandErr N sk (e 0%nat) D d).
Proof.
  intros Lp (Lc & Hc). destruct Hpk as (_ & Hpk'). destruct (Hpk' 0%nat ltac:(lia)) as ((Lz & Hz) & Ez). set (z := nth 0 gpk []) in *.
  destruct (cdtPoly_spec pG d Lp) as (G1 & G2). unfold randCore. fold z. rewrite Lp. set (g := cdtPoly w D pG d) in *.
  destruct (MulPolyTo_spec N HN false w logN (nth 0 z []) g Hw HlN (Hz 0%nat ltac:(lia)) G1) as (A1 & A2).
  destruct (MulPolyTo_spec N HN false w logN (nth 1 z []) g Hw HlN (Hz 1%nat ltac:(lia)) G1) as (B1 & B2).
  destruct c as [|c0 [|c1 [|]]]; try discriminate Lc. cbn [upd nth].
  destruct (addSample_spec D (MulPolyTo false w logN N (nth 1 z []) g) (d + N) (proj1 B1)) as (C1 & C2). cbv zeta in C1, C2. unfold cdtPolyAdd. rewrite (proj1 B1) in *.
  split.
  - split; [reflexivity|]. intros i Hi. assert (i = 0 \/ i = 1)%nat as [-> | ->] by lia; [exact A1|exact C1].
  - unfold gphase in *. cbn [psum nth] in *. rewrite A2, C2, B2, G2. unfold reRandErr. rewrite <- Ez. ring.
Qed.

Lemma noisep_le f d B : 0 <= B -> (forall i, Z.abs (f i) <= B) -> pbound B (noisep N f d).
Proof. intros HB Hf. apply noisep_bound; [exact HN|intros; apply Hf|exact HB]. Qed.
Lemma reRandErr_bound E Bd d : 0 <= E -> 0 <= Bd -> pbound E (e 0%nat) -> (forall i, Z.abs (D i) <= Bd) -> pbound 1 (pol N (nth 0 sk [])) -> pbound (reRandBound N E Bd) (reRandErr N sk (e 0%nat) D d).
Proof.
  intros HE HB He HD Hs. unfold reRandErr, reRandBound. apply pbound_add; [apply pbound_mul; [exact He|now apply noisep_le]|].
  pose proof (pbound_mul Bd 1 _ _ (noisep_le D (d + N) Bd HB HD) Hs) as X. rewrite Z.mul_1_r in X. exact X.
Qed.

Lemma ReRandGLWETo_spec pG cR out ct st : length pG = N -> gshape N 1 cR -> gshape N 1 out -> glwe_ct w N 1 ct ->
  let r := fst (ReRandGLWETo w logN N 1 D R gpk pG cR out ct st) in let z := fst (snd (ReRandGLWETo w logN N 1 D R gpk pG cR out ct st)) in
  let err := padd (reRandErr N sk (e 0%nat) D (fst st)) (noisep N R (snd st)) in
  glwe_ct w N 1 z /\ peq Q (gphase N 1 sk z) err /\ glwe_ct w N 1 r /\ (forall i, (i <= 1)%nat -> nth i r [] = vadd w (nth i ct []) (nth i z [])) /\ peq Q (gphase N 1 sk r) (padd (gphase N 1 sk ct) err).
Proof.
  intros Lp Hc (Lo & Ho) (Lt & Ht) r z err. destruct (randCore_spec pG cR (fst st) Lp Hc) as (A & B). unfold ReRandGLWETo, samplePolyAdd in r, z. cbn [fst snd] in r, z.
  set (c := randCore w logN N D gpk pG cR (fst st)) in *. clearbody c. destruct A as (A1 & A2).
  destruct (addSample_spec R (nth 0 c []) (snd st) (proj1 (A2 0%nat ltac:(lia)))) as (C1 & C2). cbv zeta in C1, C2.
  set (b := tab (length (nth 0 c [])) (fun i => wrap w (nthZ (nth 0 c []) i + wrap w (R (snd st + i)%nat)))) in *.
  assert (glwe_ct w N 1 z) as Hz.
  { split; [unfold z; now rewrite upd_length|]. intros i Hi. unfold z. assert (i = 0 \/ i = 1)%nat as [-> | ->] by lia; [rewrite nth_upd_same by lia; exact C1|rewrite nth_upd_other by lia; apply A2; lia]. }
  assert (peq Q (gphase N 1 sk z) err) as Ez.
  { unfold z. rewrite (gphase_upd0 w N HN 1 sk c b A1). rewrite C2, B. unfold err. ring. }
  assert (forall i, (i <= 1)%nat -> nth i r [] = vadd w (nth i ct []) (nth i z [])) as Hr.
  { intros i Hi. unfold r. fold z. cbn [forN]. rewrite Lo. destruct out as [|o0 [|o1 [|]]]; try discriminate Lo. destruct ct as [|c0 [|c1 [|]]]; try discriminate Lt.
    pose proof (Ho 0%nat ltac:(lia)) as O0. pose proof (Ho 1%nat ltac:(lia)) as O1. pose proof (proj1 (Ht 0%nat ltac:(lia))) as T0. pose proof (proj1 (Ht 1%nat ltac:(lia))) as T1. cbn [nth] in O0, O1, T0, T1.
    cbn [tab seq map nth upd Nat.add]. rewrite !(go_copy_full 0) by lia.
    assert (i = 0 \/ i = 1)%nat as [-> | ->] by lia; reflexivity. }
  assert (length r = 2%nat) as Lr. { unfold r. cbn [forN]. rewrite !upd_length, tab_length. exact Lo. }
  split; [exact Hz|]. split; [exact Ez|]. split.
  { split; [exact Lr|]. intros i Hi. rewrite (Hr i Hi). apply (wpoly_vadd w Hw N HN); [apply Ht|apply Hz]; lia. }
  split; [exact Hr|]. rewrite <- Ez. apply (gphase_add w N HN 1 sk ct z r). intros i Hi. rewrite (Hr i Hi). apply (pol_vadd N HN); [apply Ht|apply Hz]; lia.
Qed.

Lemma ReRandLWETo_spec large pG cR lR out ct st : flat N sk large -> length sk = 1%nat -> length pG = N -> gshape N 1 cR -> length lR = S (1 * N) -> length out = S (1 * N) -> lwe_ct w (1 * N) ct ->
  let r := fst (ReRandLWETo w logN N D R gpk pG cR lR out ct st) in let z := fst (snd (snd (ReRandLWETo w logN N D R gpk pG cR lR out ct st))) in
  let err := cf (reRandErr N sk (e 0%nat) D (fst st)) 0 in
  lwe_ct w (1 * N) z /\ eqm Q (phase large z) err /\ lwe_ct w (1 * N) r /\ (forall i, (i < N)%nat -> nthZ r (S i) = wrap w (nthZ ct (S i) + nthZ z (S i))) /\ eqm Q (phase large r) (phase large ct + (err + R (snd st))).
Proof.
  intros Hfl Lk Lp Hc Ll Lo (Lt & Ht) r z err. destruct (randCore_spec pG cR (fst st) Lp Hc) as (A & B). unfold ReRandLWETo in r, z. cbn [fst snd] in r, z.
  set (c := randCore w logN N D gpk pG cR (fst st)) in *. clearbody c.
  assert (r = upd (vadd w ct z) 0 (wrap w (nthZ (vadd w ct z) 0 + wrap w (R (snd st))))) as Er by (unfold r; rewrite (go_copy_full 0) by lia; reflexivity).
  destruct (extract_spec w Hw N HN 1 sk large 0 lR c Lk Hfl A HN Ll) as (X1 & X2). fold z in X1, X2. change (Z.of_nat 0) with 0 in X2.
  assert (length large = (1 * N)%nat) as LD by (destruct Hfl as (X & _); now rewrite Lk in X).
  assert (length (vadd w ct z) = S (1 * N)) as Lv by (rewrite vadd_length; destruct X1; lia).
  split; [exact X1|]. split; [rewrite X2; apply B|]. split.
  { rewrite Er. split; [now rewrite upd_length|]. apply Forall_nthZ. intros i Hi. rewrite upd_length in Hi. rewrite nthZ_upd by lia. destruct (Nat.eqb i 0); [now apply wrap_word|]. exact (Forall_nth_lt _ _ 0 i (vadd_words w _ _ ltac:(lia)) Hi). }
  split. { intros i Hi. rewrite Er. rewrite nthZ_upd by lia. cbn [Nat.eqb]. unfold vadd. rewrite nthZ_map2 by (destruct X1; lia). reflexivity. }
  rewrite Er. rewrite phase_upd0 by lia. rewrite wrap_eqm. rewrite wrap_eqm.
  pose proof (phase_vadd w Hw large ct z ltac:(lia) ltac:(destruct X1; lia)) as (t1 & V). destruct X2 as (t2 & X2). destruct (B 0) as (t3 & B0). exists (t1 + t2 + t3). unfold err. lia.
Qed.
End ReRand.
