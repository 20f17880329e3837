From Verif Require Import Base NegaRing SpecNum ModelNum PfNum ModelVec SpecVec PfVec ModelPoly SpecPoly PfPoly PfPerm PfSplit ModelGadget SpecGadget PfGadget ModelParams ModelEncoder PfEncoder ModelLWE SpecLWE PfLWE PfLWE2 PfKS PfKS2 ModelGLWE SpecGLWE PfGLWE PfGLWE2 PfGLWE3 PfGLWE4 ModelBoot SpecBoot PfBoot PfBoot2 PfBoot4 ModelPub SpecPub PfPub PfPub2 ModelMK SpecMK PfMK PfMK2 PfMK3 PfMK4.

Lemma two_rows N (c : list (list Z)) : gshape N 1 c -> exists x y, c = [x; y] /\ length x = N /\ length y = N.
Proof. intros (L & H). destruct c as [|x [|y [|? ?]]]; try discriminate. exists x, y. split; [reflexivity|]. split; [apply (H O); lia|apply (H 1%nat); lia]. Qed.
Lemma shape2 N x y : length x = N -> length y = N -> gshape N 1 [x; y].
Proof. intros H1 H2. split; [reflexivity|]. intros [|[|i]] Hi; [exact H1|exact H2|lia]. Qed.
Lemma zero_lshape N k q : lshape N k q (repeat (repeat (repeat 0 N) (S k)) (g_level q)).
Proof.
  split; [apply repeat_length|]. intros j Hj. rewrite nth_repeat_lt by exact Hj. split; [apply repeat_length|]. intros i Hi. rewrite nth_repeat_lt by lia. apply repeat_length.
Qed.

Section W.
Variable w : Z.
Hypothesis Hw : 0 < w.
Notation Q := (2 ^ w).
Variable N : nat.
Hypothesis HN : (0 < N)%nat.
Add Ring nring : (@npoly_ring N Q) (setoid (@peq_equiv N Q) (@npoly_ring_ext N Q)).
Variables (logN : Z) (Hl : 0 < splitBitsShort logN).
Variables U G : nat -> Z.
Variables (s : list Z) (Hs : length s = N).
Variables (p : gadget) (Hok : gadget_ok w p).
Notation l := (g_level p).
Variable crs : list (list Z).
Hypothesis Hcrs : forall i, (i < l)%nat -> wpoly w N (nth i crs []).
Notation a := (fun j => pol N (nth j crs [])).

Lemma GenCRSPublicKey_spec sub st pk sub' st' : gshape N 1 sub -> GenCRSPublicKey w logN N G (fwdFFT w s) p crs sub st = (pk, (sub', st')) ->
  crs_enc w N p a s pk (fun j => noisep N G (snd st + j * N)) /\ length pk = l /\ gshape N 1 sub' /\ st' = (fst st, (snd st + l * N)%nat).
Proof.
  intros Hsub E. unfold GenCRSPublicKey in E.
  set (enc := fun (i : nat) (c : list (list Z)) (t : list (list Z) * rst) => let '(sub, st) := t in
    let sub := upd sub 1 (go_copy (nth 1 sub []) (nth i crs [])) in
    let '(e, st) := samplePolyG w G (nth 0 sub []) st in
    let sub := upd sub 0 e in
    let sub := upd sub 0 (ShortFFTPolyMulSubPolyTo false w logN N (nth 0 sub []) (nth 1 sub []) (fwdFFT w s)) in
    (FwdFFTGLWECiphertextTo w c sub, (sub, st))).
  rewrite (forN_ext 0 l _ (fun i s => let '(o, t) := s in let '(c, t') := enc i (nth i o []) t in (upd o i c, t'))) in E.
  2:{ intros i [o [bu t]] Hi. unfold enc. match goal with |- (let '(_, _) := ?x in _) = _ => destruct x as [b s'] end. reflexivity. }
  pose proof (updLoop [] enc
    (fun m t => gshape N 1 (fst t) /\ snd t = (fst st, (snd st + m * N)%nat))
    (fun j c => gshape N 1 c /\ peq Q (pol N (nth 1 c [])) (pol N (nth j crs [])) /\ peq Q (gphase N 1 [s] c) (noisep N G (snd st + j * N)%nat))
    (gshape N 1) O l (repeat (repeat (repeat 0 N) 2) l) (sub, st)) as X. rewrite E in X. destruct X as (A & B & _ & D).
  - rewrite repeat_length. lia.
  - intros i Hi. apply (zero_lshape N 1 p). lia.
  - cbn [fst snd]. split; [exact Hsub|]. destruct st; cbn [fst snd]; f_equal; lia.
  - intros m c [bu t] Hm Hc (Hbu & Ht). cbn [fst snd] in Hbu, Ht. subst t. cbn [Nat.add]. unfold enc.
    destruct (two_rows N bu Hbu) as (x & y & -> & Lx & Ly). pose proof (Hcrs m Hm) as Hcm. cbn [nth upd samplePolyG]. rewrite (go_copy_full 0 y) by (rewrite (proj1 Hcm); exact Ly).
    unfold samplePolyG. cbn [nth upd fst snd]. rewrite Lx. set (ns := tab N (fun i => wrap w (G (snd st + m * N + i)%nat))).
    destruct (ShortMulSub_spec N HN false w logN ns (nth m crs []) (fwdFFT w s) Hw Hl (tab_length _ _) (wpoly_tpoly w N _ Hcm)) as (T1 & T2).
    set (b := ShortFFTPolyMulSubPolyTo false w logN N ns (nth m crs []) (fwdFFT w s)) in *.
    assert (gshape N 1 [b; nth m crs []]) as Sh by (apply shape2; [apply T1|apply Hcm]).
    rewrite (FwdFFT_eq w N HN 1 U G) by (apply Hc || reflexivity). split; [|split; [exact Sh|f_equal; lia]]. split; [now apply gshape_fwd|]. split.
    + cbn [map nth]. apply (pol_fwdFFT N HN). apply Hcm.
    + rewrite (gphase_fwd w N HN 1 [s] _ Sh). unfold gphase. cbn [psum nth]. rewrite T2. rewrite (pol_fwdFFT N HN w s Hs).
      assert (peq Q (pol N ns) (noisep N G (snd st + m * N))) as ->. { apply (pol_peq N HN). intros i Hi. unfold ns, noisep. rewrite !(cf_pol_at N HN) by (rewrite ?tab_length; lia). rewrite !nthZ_tab by exact Hi. apply wrap_eqm. }
      ring.
  - cbn [fst snd] in D. destruct D as (D1 & D2). rewrite repeat_length in A. split; [|split; [exact A|split; [exact D1|exact D2]]]. intros j Hj. apply (B j). lia.
Qed.

(** First half of a uni-encryption. *)
Lemma uniBody_spec aux pt i c st c' st' : length aux = N -> length pt = N -> (i < l)%nat -> gshape N 1 c -> uniBody w logN N G p crs (fwdFFT w aux) pt i c st = (c', st') ->
  glwe_ct w N 1 c' /\ nth 1 c' [] = nth i crs [] /\ st' = (fst st, (snd st + N)%nat) /\
  peq Q (pol N (nth 0 c' [])) (padd (padd (pscale (2 ^ (w - (Z.of_nat i + 1) * g_logBase p)) (pol N pt)) (pmul (pol N (nth i crs [])) (pol N aux))) (noisep N G (snd st))).
Proof.
  intros La Lp Hi Hc E. destruct (two_rows N c Hc) as (x & y & -> & Lx & Ly). pose proof (Hcrs i Hi) as Hcm. unfold uniBody in E. cbn [nth upd] in E. rewrite (go_copy_full 0 y) in E by (rewrite (proj1 Hcm); exact Ly).
  pose proof (wpoly_vscale w Hw N HN (BaseQ w p i) pt Lp) as Wv.
  destruct (ShortMulAdd_spec N HN false w logN (vscale w (BaseQ w p i) pt) (nth i crs []) (fwdFFT w aux) Hw Hl (proj1 Wv) (wpoly_tpoly w N _ Hcm)) as (T1 & T2).
  set (b := ShortFFTPolyMulAddPolyTo false w logN N (vscale w (BaseQ w p i) pt) (nth i crs []) (fwdFFT w aux)) in *. unfold samplePolyAdd in E. rewrite (proj1 T1) in E. cbn [fst snd nth upd] in E. injection E as <- <-.
  set (nb := tab N _). assert (wpoly w N nb) as Wnb. { split; [apply tab_length|]. apply Forall_tab. intros j Hj. apply wrap_word. lia. }
  split; [split; [reflexivity|]|split; [reflexivity|split; [reflexivity|]]]. { intros [|[|j]] Hj; [exact Wnb|exact Hcm|lia]. }
  cbn [nth]. transitivity (padd (pol N b) (noisep N G (snd st))).
  - apply (pol_peq N HN). intros j Hj. cbn [cf padd]. unfold nb, noisep. rewrite !(cf_pol_at N HN) by (rewrite ?tab_length; lia || (rewrite (proj1 T1); lia)). rewrite !nthZ_tab by exact Hj. rewrite !wrap_eqm. reflexivity.
  - rewrite T2, (pol_vscale N HN w _ _ Lp), (pol_fwdFFT N HN w aux La), (BaseQ_spec w p Hok i Hi). reflexivity.
Qed.

Lemma FFTUniEncrypt_spec aux sub out0 out1 pt st u0 u1 sub' st' : length aux = N -> length pt = N -> gshape N 1 sub -> lshape N 1 p out0 -> lshape N 1 p out1 ->
  FFTUniEncryptPolyTo w logN N U G (fwdFFT w s) p crs aux sub out0 out1 pt st = ((u0, u1), (sub', st')) ->
  uni_enc w N p a s (pol N aux) u0 u1 (pol N pt) (fun j => noisep N G (snd st + j * N)) (fun j => noisep N G (snd st + (l + j) * N)) /\
  gshape N 1 sub' /\ st' = ((fst st + l * N)%nat, (snd st + 2 * l * N)%nat).
Proof.
  intros La Lp Hsub (L0 & H0) H1 E. unfold FFTUniEncryptPolyTo in E. destruct st as (su, sg). cbn [fst snd].
  match type of E with (let '(_, _) := ?x in _) = _ => destruct x as (o0, (sub1, st1)) eqn:E0 end.
  set (enc := fun (i : nat) (c : list (list Z)) (t : list (list Z) * rst) => let '(sub, st) := t in
    let '(sub, st) := uniBody w logN N G p crs (fwdFFT w aux) pt i sub st in (FwdFFTGLWECiphertextTo w c sub, (sub, st))).
  rewrite (forN_ext 0 l _ (fun i s => let '(o, t) := s in let '(c, t') := enc i (nth i o []) t in (upd o i c, t'))) in E0.
  2:{ intros i [o [bu t]] Hi. unfold enc. match goal with |- (let '(_, _) := ?x in _) = _ => destruct x as [b s'] end. reflexivity. }
  pose proof (updLoop [] enc
    (fun m t => gshape N 1 (fst t) /\ snd t = (su, (sg + m * N)%nat))
    (fun j c => gshape N 1 c /\ peq Q (pol N (nth 1 c [])) (pol N (nth j crs [])) /\
      peq Q (pol N (nth 0 c [])) (padd (padd (pscale (2 ^ (w - (Z.of_nat j + 1) * g_logBase p)) (pol N pt)) (pmul (pol N (nth j crs [])) (pol N aux))) (noisep N G (sg + j * N))))
    (gshape N 1) O l out0 (sub, (su, sg))) as X. match type of X with context [forN 0 l ?f ?x] => change (forN 0 l f x = (o0, (sub1, st1))) in E0 end. rewrite E0 in X. destruct X as (A & B & _ & D).
  - lia.
  - intros i Hi. apply H0. lia.
  - cbn [fst snd]. split; [exact Hsub|]. f_equal. lia.
  - intros m c [bu t] Hm Hc (Hbu & Ht). cbn [fst snd] in Hbu, Ht. subst t. cbn [Nat.add]. unfold enc.
    destruct (uniBody w logN N G p crs (fwdFFT w aux) pt m bu (su, (sg + m * N)%nat)) as (c', t') eqn:Ec. apply uniBody_spec in Ec; [|assumption..]. destruct Ec as (X1 & X2 & -> & X4). cbn [fst snd] in *.
    pose proof (glwe_shape w N 1 _ X1) as Sh. rewrite (FwdFFT_eq w N HN 1 U G) by (apply Hc || apply Sh). split; [|split; [exact Sh|f_equal; lia]]. split; [now apply gshape_fwd|].
    destruct (two_rows N c' Sh) as (x & y & -> & Lx & Ly). cbn [map nth] in *. rewrite !(pol_fwdFFT N HN) by assumption. rewrite X2. split; [reflexivity|exact X4].
  - cbn [fst snd] in D. destruct D as (D1 & D2). subst st1.
    match type of E with (let '(_, _) := ?x in _) = _ => destruct x as (o1, (sub2, st2)) eqn:E1 end. injection E as <- <- <- <-.
    change (EncryptFFTGLevPolyTo w logN N 1 U G (map (fwdFFT w) [s]) p sub1 out1 aux (su, (sg + l * N)%nat) = (o1, (sub2, st2))) in E1.
    apply (EncryptFFTGLevPolyTo_spec w Hw N HN 1 [s] logN Hl U G p Hok) in E1; [|split; [reflexivity|intros [|i] Hi; [exact Hs|lia]]|assumption..].
    destruct E1 as (F1 & F2 & ->). cbn [fst snd] in *. split; [|split; [exact F2|f_equal; lia]]. split; [lia|]. split; [intros j Hj; apply (B j); lia|].
    eapply glev_enc_ext; [|exact F1]. intros j Hj. cbv beta. match goal with |- peq _ (noisep N G ?x) (noisep N G ?y) => replace x with y by lia end. reflexivity.
Qed.

Lemma UniEncrypt_spec aux out0 out1 pt st u0 u1 st' : length aux = N -> length pt = N -> lshape N 1 p out0 -> lshape N 1 p out1 ->
  UniEncryptPolyTo w logN N U G (fwdFFT w s) p crs aux out0 out1 pt st = ((u0, u1), st') ->
  uni_enc w N p a s (pol N aux) u0 u1 (pol N pt) (fun j => noisep N G (snd st + j * N)) (fun j => noisep N G (snd st + (l + j) * N)) /\
  (forall j, (j < l)%nat -> glwe_ct w N 1 (nth j u0 []) /\ glwe_ct w N 1 (nth j u1 [])) /\ st' = ((fst st + l * N)%nat, (snd st + 2 * l * N)%nat).
Proof.
  intros La Lp (L0 & H0) H1 E. unfold UniEncryptPolyTo in E. destruct st as (su, sg). cbn [fst snd].
  match type of E with (let '(_, _) := ?x in _) = _ => destruct x as (o0, st1) eqn:E0 end.
  pose proof (updLoop [] (fun i c t => uniBody w logN N G p crs (fwdFFT w aux) pt i c t)
    (fun m t => t = (su, (sg + m * N)%nat))
    (fun j c => glwe_ct w N 1 c /\ peq Q (pol N (nth 1 c [])) (pol N (nth j crs [])) /\
      peq Q (pol N (nth 0 c [])) (padd (padd (pscale (2 ^ (w - (Z.of_nat j + 1) * g_logBase p)) (pol N pt)) (pmul (pol N (nth j crs [])) (pol N aux))) (noisep N G (sg + j * N))))
    (gshape N 1) O l out0 (su, sg)) as X. cbv beta in X. match type of X with context [forN 0 l ?f ?x] => change (forN 0 l f x = (o0, st1)) in E0 end. rewrite E0 in X. destruct X as (A & B & _ & D).
  - lia.
  - intros i Hi. apply H0. lia.
  - f_equal. lia.
  - intros m c t Hm Hc ->. cbn [Nat.add].
    destruct (uniBody w logN N G p crs (fwdFFT w aux) pt m c (su, (sg + m * N)%nat)) as (c', t') eqn:Ec. apply uniBody_spec in Ec; [|assumption..]. destruct Ec as (X1 & X2 & -> & X4). cbn [fst snd] in *.
    split; [|f_equal; lia]. split; [exact X1|]. rewrite X2. split; [reflexivity|exact X4].
  - subst st1.
    match type of E with (let '(_, _) := ?x in _) = _ => destruct x as (o1, st2) eqn:E1 end. injection E as <- <- <-.
    change (EncryptGLevPolyTo w logN N 1 U G (map (fwdFFT w) [s]) p out1 aux (su, (sg + l * N)%nat) = (o1, st2)) in E1.
    apply (EncryptGLevPolyTo_spec w Hw N HN 1 [s] logN Hl U G p Hok) in E1; [|split; [reflexivity|intros [|i] Hi; [exact Hs|lia]]|assumption..].
    destruct E1 as (F1 & F2 & F3). cbn [fst snd] in *. split; [|split; [|rewrite F3; f_equal; lia]].
    + split; [lia|]. split; [intros j Hj; destruct (B j ltac:(lia)) as (B1 & B2); split; [now apply (glwe_shape w)|exact B2]|].
      eapply glev_enc_ext; [|exact F1]. intros j Hj. cbv beta. match goal with |- peq _ (noisep N G ?x) (noisep N G ?y) => replace x with y by lia end. reflexivity.
    + intros j Hj. split; [apply (B j); lia|]. now apply F2.
Qed.

(** ** Decryption of a uni-encryption *)
Lemma UniDecrypt_spec auxOld pOut r u0 u1 m e e' : length auxOld = N -> length pOut = N -> uni_enc w N p a s r u0 u1 m e e' ->
  glwe_ct w N 1 (nth 0 u0 []) -> glwe_ct w N 1 (nth 0 u1 []) -> (forall i, (i < N)%nat -> 0 <= cf r (Z.of_nat i) <= 1) ->
  (forall i, (i < N)%nat -> - 2 ^ (w - g_logBase p) <= 2 * cf (e O) (Z.of_nat i) < 2 ^ (w - g_logBase p)) ->
  (forall i, (i < N)%nat -> - 2 ^ (w - g_logBase p) <= 2 * cf (e' O) (Z.of_nat i) < 2 ^ (w - g_logBase p)) ->
  let o := UniDecryptPolyTo w logN N (fwdFFT w s) p auxOld pOut u0 u1 in
  length o = N /\ forall i, (i < N)%nat -> nthZ o i mod g_base p = cf m (Z.of_nat i) mod g_base p.
Proof.
  intros La Lo (Lu & Hu & Hu1) W0 W1 Hr He He'. cbv zeta. pose proof Hok as (K1 & K2 & K3 & K4 & K5 & K6). pose proof (lpos w p Hok) as Hlp.
  assert (skey N 1 [s]) as Hsk by (split; [reflexivity|intros [|i] Hi; [exact Hs|lia]]).
  destruct (DecryptGLevPolyTo_spec w Hw N HN 1 [s] logN Hl U G p Hok auxOld u1 r e' Hsk La Hu1 W1 He') as (D1 & D2).
  unfold UniDecryptPolyTo. change [fwdFFT w s] with (map (fwdFFT w) [s]). set (x := DecryptGLevPolyTo w logN N 1 (map (fwdFFT w) [s]) p auxOld u1) in *.
  assert (peq Q (pol N x) r) as Ex.
  { apply (pol_peq N HN). intros i Hi. rewrite D2 by exact Hi. apply eqm_eq. apply Z.mod_small. pose proof (Hr i Hi). assert (2 <= g_base p) by (rewrite K2; change (2 ^ 1 <= 2 ^ g_logBase p); apply Z.pow_le_mono_r; lia). lia. }
  destruct (Hu O Hlp) as (Sh & Ha & Hb).
  rewrite (go_copy_full 0 pOut) by (rewrite (proj1 (proj2 W0 O ltac:(lia))); exact Lo).
  destruct (ShortMulSub_spec N HN false w logN (nth 0 (nth 0 u0 []) []) (nth 1 (nth 0 u0 []) []) (fwdFFT w x) Hw Hl (proj1 (proj2 W0 O ltac:(lia))) (wpoly_tpoly w N _ (proj2 W0 1%nat ltac:(lia)))) as (T1 & T2).
  set (ph := ShortFFTPolyMulSubPolyTo false w logN N (nth 0 (nth 0 u0 []) []) (nth 1 (nth 0 u0 []) []) (fwdFFT w x)) in *.
  rewrite (pol_fwdFFT N HN w x D1), Hb, Ha, Ex in T2.
  split; [rewrite (forN_upd_length 0 N (fun i => i) (fun i o => DivRoundBits w (nthZ o i) (LogFirstBaseQ p))); apply T1|].
  intros i Hi. unfold nthZ at 1.
  pose proof (forN_upd_range 0 0 N (fun _ v => DivRoundBits w v (LogFirstBaseQ p)) ph i ltac:(destruct T1; lia)) as R.
  unfold nthZ. cbv beta in R. rewrite R. clear R. replace ((0 <=? i)%nat && (i <? 0 + N)%nat)%bool with true by (symmetry; lia).
  assert (LogFirstBaseQ p = w - g_logBase p) as EL by (unfold LogFirstBaseQ; lia).
  apply (round_first w Hw p Hok _ (cf m (Z.of_nat i)) (cf (e O) (Z.of_nat i))); [|rewrite EL|rewrite EL; now apply He].
  - exact (nth_word N HN w ph i T1 Hi).
  - assert (peq Q (pol N ph) (padd (pscale (2 ^ (w - (Z.of_nat 0 + 1) * g_logBase p)) m) (e O))) as Y by (rewrite T2; ring).
    pose proof (peq_pol N HN _ _ _ Y i Hi) as Hz. unfold nthZ in Hz. rewrite Hz. cbn [cf padd pscale]. apply eqm_eq. f_equal. rewrite Z.mul_comm. do 2 f_equal. lia.
Qed.

(** Integer messages, when the message modulus divides the base. *)
Lemma UniRoundtrip mm aux out0 out1 buf ms st u0 u1 st' auxOld pOut mo : 0 < mm < 2 ^ 63 -> mm <= Q -> (mm | g_base p) -> length buf = N -> length aux = N -> binary aux -> lshape N 1 p out0 -> lshape N 1 p out1 ->
  UniEncryptTo w logN N U G mm (fwdFFT w s) p crs aux buf out0 out1 ms st = ((u0, u1), st') ->
  (forall i, (snd st <= i < snd st + 2 * l * N)%nat -> - 2 ^ (w - g_logBase p) <= 2 * G i < 2 ^ (w - g_logBase p)) ->
  length auxOld = N -> length pOut = N -> length mo = N ->
  let o := UniDecryptTo w logN N mm (fwdFFT w s) p auxOld pOut mo u0 u1 in
  length o = N /\ forall i, (i < N)%nat -> nthZ o i = if (i <? length ms)%nat then wrap w (nthZ ms i) mod mm else 0.
Proof.
  intros Hm Hq Hd Lb La Hbin H0 H1 E HG L1 L2 L3. cbv zeta. pose proof (lpos w p Hok) as Hlp. destruct (messagePoly_spec w N HN U G mm buf ms ltac:(lia) Lb) as (M1 & M2).
  unfold UniEncryptTo in E. apply UniEncrypt_spec in E; [|assumption..]. destruct E as (E1 & E2 & _).
  destruct (UniDecrypt_spec auxOld pOut (pol N aux) u0 u1 (pol N (messagePoly w N mm buf ms)) _ _ L1 L2 E1) as (D1 & D2).
  - apply E2. exact Hlp.
  - apply E2. exact Hlp.
  - intros i Hi. rewrite (cf_pol_at N HN) by lia. destruct (binary_at aux i Hbin ltac:(lia)) as [-> | ->]; lia.
  - intros i Hi. unfold noisep. rewrite (cf_pol_at N HN) by (rewrite ?tab_length; lia). rewrite nthZ_tab by exact Hi. apply HG. nia.
  - intros i Hi. unfold noisep. rewrite (cf_pol_at N HN) by (rewrite ?tab_length; lia). rewrite nthZ_tab by exact Hi. apply HG. nia.
  - unfold UniDecryptTo. set (o := UniDecryptPolyTo w logN N (fwdFFT w s) p auxOld pOut u0 u1) in *. rewrite L3, Nat.min_id.
    split; [rewrite (forN_upd_length 0 N (fun i => i) (fun i _ => swrap 64 (nthZ o i mod mm))); exact L3|]. intros i Hi. unfold nthZ at 1.
    pose proof (forN_upd_range 0 0 N (fun i _ => swrap 64 (nthZ o i mod mm)) mo i ltac:(lia)) as R. cbv beta in R. rewrite R. clear R.
    replace ((0 <=? i)%nat && (i <? 0 + N)%nat)%bool with true by (symmetry; lia).
    assert (nthZ o i mod mm = nthZ (messagePoly w N mm buf ms) i) as ->.
    { destruct Hd as (q & Hd). pose proof Hok as (K1 & K2 & K3 & K4 & K5 & K6). assert (0 < g_base p) by (rewrite K2; apply pow2_pos; lia).
      assert (0 < q) by nia.
      assert (forall z, z mod mm = (z mod g_base p) mod mm) as Hmm. { intros z. rewrite Hd. rewrite Z.mul_comm. rewrite Z.rem_mul_r by lia. rewrite Z.mul_comm, Z_mod_plus_full. now rewrite Z.mod_mod by lia. }
      rewrite Hmm, D2 by exact Hi. rewrite <- Hmm. rewrite (cf_pol_at N HN) by lia. rewrite M2 by exact Hi. destruct (i <? length ms)%nat; [apply Z.mod_mod; lia|apply Z.mod_0_l; lia]. }
    rewrite M2 by exact Hi. destruct (i <? length ms)%nat; [|reflexivity]. pose proof (Z.mod_pos_bound (wrap w (nthZ ms i)) mm ltac:(lia)). apply swrap_small; [lia|split; cbn; lia].
Qed.
End W.
