(** Multi-key blind rotation and bootstrapping. *)
From Verif Require Import Base NegaRing SpecNum ModelNum PfNum ModelVec SpecVec PfVec ModelPoly SpecPoly PfPoly PfPerm PfSplit ModelGadget SpecGadget PfGadget ModelParams ModelEncoder PfEncoder ModelLWE SpecLWE PfLWE PfLWE2 PfKS PfKS2 ModelGLWE SpecGLWE PfGLWE PfGLWE2 PfGLWE3 PfGLWE4 ModelBoot SpecBoot PfBoot PfBoot2 PfBoot4 PfBoot5 ModelPub SpecPub PfPub PfPub2 ModelMK SpecMK PfMK PfMK2 PfMK3 PfMK4 PfMK5.

Lemma fin_choice {A} (d : A) (l : nat) (R : nat -> A -> Prop) : (forall j, (j < l)%nat -> exists x, R j x) -> exists f, forall j, (j < l)%nat -> R j (f j).
Proof.
  induction l as [|l IH]; intros H; [exists (fun _ => d); intros j Hj; lia|].
  destruct IH as (f & Hf); [intros j Hj; apply H; lia|]. destruct (H l ltac:(lia)) as (x & Hx).
  exists (fun j => if Nat.eqb j l then x else f j). intros j Hj. destruct (Nat.eqb_spec j l) as [->|Hne]; [exact Hx|apply Hf; lia].
Qed.

Lemma grows_mono N d : grows 1 (@pmono N d).
Proof. intros x b Hx. rewrite Z.mul_1_l. intros t. pose proof (@pshift_mono N 0 d x t) as H. rewrite eqm_0_eq in H || idtac. destruct H as (q & H). replace (cf (pmul (pmono d) x) t) with (cf (pshift d x) t) by lia. now apply pbound_shift. Qed.

Lemma partyMask_nth n i ct t : (t < n)%nat -> nthZ (partyMask n i ct) t = nthZ ct (S (i * n + t)).
Proof. intros Ht. unfold partyMask. rewrite nthZ_firstn by exact Ht. rewrite nthZ_skipn. f_equal. Qed.
Lemma partyMask_length n i P ct : (i < P)%nat -> length ct = S (P * n) -> length (partyMask n i ct) = n.
Proof. intros Hi L. unfold partyMask. rewrite firstn_length, skipn_length, L. nia. Qed.

Lemma rotateIn_spec n i P rin ct : (i < P)%nat -> length ct = S (P * n) -> length rin = S n -> rotateIn n i rin ct = 0 :: partyMask n i ct.
Proof.
  intros Hi Lc Lr. unfold rotateIn. destruct rin as [|b rest]; [discriminate|]. cbn [length] in Lr. cbn [upd]. f_equal. apply (go_copy_full 0).
  rewrite (partyMask_length n i P ct Hi Lc). lia.
Qed.

Section W.
Variable w : Z.
Hypothesis Hw : 0 < w.
Notation Q := (2 ^ w).
Variable N : nat.
Hypothesis HN : (0 < N)%nat.
Add Ring nring : (@npoly_ring N Q) (setoid (@peq_equiv N Q) (@npoly_ring_ext N Q)).
Variables (P n : nat) (pa pr pBR pKS : gadget) (bm : list bool) (keys : list (list Z)) (eks : list evalKey) (bs bc : nat) (Ebr Ek Eks : Z).
Hypothesis HK : mk_keys w N P n pa pr pBR pKS bm keys (map ek_brk eks) (map ek_ksk eks) (map ek_crs eks) (map ek_u0 eks) (map ek_u1 eks) bs bc Ebr Ek Eks.
Variable ms : Z -> Z.
Hypothesis Hms0 : ms 0 = 0.
Notation smalls := (map (firstn n) keys).
Notation gph := (gphase N P (jkey N bm keys)).
Notation brN := (brNoise w N 1 pBR bc n Ebr).
Notation extN := (mkExtNoise w N P pa pr 1 brN Ek).

Lemma active_lt i : nth i bm false = true -> (i < P)%nat.
Proof. intros H. pose proof (proj1 (mk_shape _ _ _ _ _ _ _ _ _ _ _ _ _ _ _ _ _ _ _ _ HK)) as L. destruct (Nat.lt_ge_cases i P); [assumption|]. rewrite nth_overflow in H by lia. discriminate. Qed.

Lemma small_nth i : nth i smalls [] = firstn n (nth i keys []).
Proof. transitivity (nth i smalls (firstn n [])); [now rewrite firstn_nil|apply map_nth]. Qed.

Lemma small_len i : (i < P)%nat -> length (firstn n (nth i keys [])) = n.
Proof. intros Hi. destruct (mk_shape _ _ _ _ _ _ _ _ _ _ _ _ _ _ _ _ _ _ _ _ HK) as (_ & (_ & Hk) & Hn). rewrite firstn_length, Hk by exact Hi. lia. Qed.

Lemma pkeys_small : pkeys n P smalls.
Proof.
  destruct (mk_shape _ _ _ _ _ _ _ _ _ _ _ _ _ _ _ _ _ _ _ _ HK) as (_ & (Lk & _) & _). split; [now rewrite map_length|].
  intros i Hi. rewrite small_nth. now apply small_len.
Qed.

Lemma key_bound i : nth i bm false = true -> pbound 1 (pol N (nth i keys [])).
Proof.
  intros Hi. destruct (mk_bin _ _ _ _ _ _ _ _ _ _ _ _ _ _ _ _ _ _ _ _ HK i Hi) as (Hb & _). pose proof (active_lt i Hi) as HiP.
  destruct (mk_shape _ _ _ _ _ _ _ _ _ _ _ _ _ _ _ _ _ _ _ _ HK) as (_ & (_ & Hk) & _).
  apply pbound_coeffs; [exact HN|]. intros t Ht. rewrite (cf_pol_at N HN) by exact Ht. destruct (binary_at (nth i keys []) t Hb) as [-> | ->]; [rewrite Hk by exact HiP; exact Ht|lia|lia].
Qed.

Lemma ek_nth {A} (f : evalKey -> list A) i : f noKey = [] -> nth i (map f eks) [] = f (nth i eks noKey).
Proof. intros H. rewrite <- H. apply map_nth. Qed.

(** The exponent contributed by party i. *)
Definition partyRot (ct : list Z) (i : nat) : Z := zsum n (fun t => ms (nthZ ct (S (i * n + t))) * nthZ (firstn n (nth i keys [])) t).

Lemma partyAccs_spec i rin acc0 accb faccb ct : nth i bm false = true -> length ct = S (P * n) -> length rin = S n -> gshape N 1 accb ->
  length faccb = g_level pa -> (forall j, (j < g_level pa)%nat -> gshape N 1 (nth j faccb [])) ->
  exists e, glev_enc w N 1 pa [nth i keys []] (partyAccs w N ms pa pBR (ek_brk (nth i eks noKey)) bs bc n i rin acc0 accb faccb ct) (pmono (- partyRot ct i)) e /\
    forall j, (j < g_level pa)%nat -> pbound brN (e j).
Proof.
  intros Hi Lc Lr Hacc Lf Hf. pose proof (active_lt i Hi) as HiP. unfold partyAccs. rewrite (rotateIn_spec n i P rin ct HiP Lc Lr).
  destruct HK as [(n0 & Hn0 & HNn) (Lbm & (Lk & Hk) & Hn) (Hoka & Hokr & HokB & HokK) (Hbs & Hbc & Hlen) (B1 & B2 & B3) Hbin Hbrk _ _].
  destruct (Hbin i Hi) as (_ & Hblk). destruct (Hbrk i Hi) as (e0 & He1 & He2). rewrite (ek_nth ek_brk i eq_refl) in He1.
  set (s := firstn n (nth i keys [])) in *. assert (length s = n) as Ls by (apply small_len; exact HiP).
  set (c := 0 :: partyMask n i ct) in *.
  assert (rotSum ms s c = partyRot ct i) as Er.
  { unfold rotSum, partyRot. unfold c. change (nthZ (0 :: partyMask n i ct) 0) with 0. rewrite Hms0, Z.add_0_l, Ls. apply zsum_ext. intros t Ht.
    change (nthZ (0 :: partyMask n i ct) (S t)) with (nthZ (partyMask n i ct) t). now rewrite partyMask_nth by exact Ht. }
  assert (forall j, (j < g_level pa)%nat -> let r := BlindRotateTo w N 1 1 ms pBR (ek_brk (nth i eks noKey)) bs bc n acc0 accb c (gadgetLUT w N pa j) in
    glwe_ct w N 1 r /\ exists e, peq Q (gphase N 1 [nth i keys []] r) (padd (pscale (2 ^ (w - (Z.of_nat j + 1) * g_logBase pa)) (pmono (- partyRot ct i))) e) /\ pbound brN e) as HBR.
  { intros j Hj r. pose proof (BaseQ_spec w pa Hoka j Hj) as EB.
    assert (wpoly w N (nth 0 (gadgetLUT w N pa j) [])) as Wl.
    { cbn [gadgetLUT nth]. split; [now rewrite upd_length, repeat_length|]. apply Forall_nthZ. rewrite upd_length, repeat_length. intros t Ht. rewrite nthZ_upd by (rewrite repeat_length; lia).
      destruct (Nat.eqb_spec t 0); [|rewrite nthZ_repeat0; split; [lia|apply pow2_pos; lia]]. rewrite EB. destruct Hoka as (O1 & _ & O3 & _ & _ & O6). split; [apply Z.pow_nonneg; lia|]. apply Z.pow_lt_mono_r; nia. }
    assert (glwe_ct w N 1 r /\ pdist_le Q (gphase N 1 [nth i keys []] r) (pshift (- rotSum ms s c) (pol N (nth 0 (gadgetLUT w N pa j) []))) (brNoise w N 1 pBR bc (length s) Ebr)) as (A & B).
    { unfold r, BlindRotateTo. rewrite Nat.mul_1_l, Nat.ltb_irrefl.
      assert (forall q, (q < 1)%nat -> pbound 1 (pol N (nth q [nth i keys []] []))) as Hskb by (intros q Hq; assert (q = O) as -> by lia; apply key_bound; exact Hi).
      rewrite <- Ls in He2.
      destruct (Nat.ltb_spec 1 bs) as [C2|C2].
      - apply (blindRotateBlock_spec w Hw N HN n0 Hn0 HNn 1 [nth i keys []] Hskb pBR HokB ms s _ e0 Ebr He1 B1 He2 bs bc); try assumption. now rewrite Ls.
      - assert (bs = 1%nat) as Eb by lia. assert (bc = length s) as Ec by (rewrite Ls, Hlen, Eb; lia).
        pose proof (blindRotateOriginal_spec w Hw N HN n0 Hn0 HNn 1 [nth i keys []] Hskb pBR HokB ms s (ek_brk (nth i eks noKey)) e0 Ebr accb c (nth 0 (gadgetLUT w N pa j) []) He1 B1 He2 (proj1 Hblk) ltac:(lia) Hacc Wl) as X.
        cbv zeta in X. rewrite Ls in X. rewrite Ec, Ls. exact X. }
    split; [exact A|]. destruct B as (e & E1 & E2). exists e. split; [|rewrite Ls in E2; exact E2].
    rewrite <- E1, Er. cbn [gadgetLUT nth]. rewrite EB.
    assert (peq Q (pshift (- partyRot ct i) (pol N (upd (repeat 0 N) 0 (2 ^ (w - (Z.of_nat j + 1) * g_logBase pa))))) (pscale (2 ^ (w - (Z.of_nat j + 1) * g_logBase pa)) (pmono (- partyRot ct i)))) as <-; [|ring].
    rewrite pshift_mono, (peq_0_any Q _ _ (pol_const N HN _)). rewrite <- pshift_mono. intros t. apply eqm_eq. reflexivity. }
  destruct (fin_choice (@pzero N) (g_level pa) (fun j e => peq Q (gphase N 1 [nth i keys []] (BlindRotateTo w N 1 1 ms pBR (ek_brk (nth i eks noKey)) bs bc n acc0 accb c (gadgetLUT w N pa j)))
      (padd (pscale (2 ^ (w - (Z.of_nat j + 1) * g_logBase pa)) (pmono (- partyRot ct i))) e) /\ pbound brN e)) as (e & He); [intros j Hj; apply (HBR j Hj)|].
  exists e. split; [|intros j Hj; apply (He j Hj)].
  pose (J := fun (m : nat) (f : list (list (list Z))) => length f = g_level pa /\ (forall j, (j < g_level pa)%nat -> gshape N 1 (nth j f [])) /\
    forall j, (j < m)%nat -> peq Q (gphase N 1 [nth i keys []] (nth j f [])) (padd (pscale (2 ^ (w - (Z.of_nat j + 1) * g_logBase pa)) (pmono (- partyRot ct i))) (e j))).
  match goal with |- glev_enc _ _ _ _ _ ?f _ _ => assert (J (g_level pa) f) as (J1 & J2 & J3) end.
  { apply (forN_ind J).
    - split; [exact Lf|]. split; [exact Hf|]. intros j Hj; lia.
    - intros m f Hm (X1 & X2 & X3). cbn [Nat.add]. destruct (HBR m Hm) as ((A1 & A2) & _). destruct (He m Hm) as (A3 & _). cbv zeta in *.
      set (r := BlindRotateTo w N 1 1 ms pBR (ek_brk (nth i eks noKey)) bs bc n acc0 accb c (gadgetLUT w N pa m)) in *. clearbody r.
      assert (gshape N 1 r) as Gr by (split; [exact A1|]; intros q Hq; apply (A2 q Hq)).
      rewrite (FwdFFT_eq w N HN 1 (fun _ => 0) (fun _ => 0) (nth m f []) r) by (exact A1 || apply (X2 m Hm)).
      split; [now rewrite upd_length|]. split.
      + intros j Hj. destruct (Nat.eq_dec j m) as [->|Hne]; [rewrite nth_upd_same by lia; apply gshape_fwd; exact Gr|rewrite nth_upd_other by lia; now apply X2].
      + intros j Hj. destruct (Nat.eq_dec j m) as [->|Hne]; [rewrite nth_upd_same by lia|rewrite nth_upd_other by lia; apply X3; lia].
        rewrite (gphase_fwd w N HN 1 [nth i keys []] r Gr). exact A3. }
  split; [exact J1|]. intros j Hj. split; [now apply J2|now apply J3].
Qed.

(** Components of a ciphertext whose masks vanish: the phase is the body. *)
Lemma gph_trivial c : (forall j, (j < P)%nat -> nth (S j) c [] = repeat 0 N) -> peq Q (gph c) (pol N (nth 0 c [])).
Proof.
  intros H. unfold gphase. rewrite (psum_proper Q P _ (fun _ => pzero)).
  - assert (peq Q (psum P (fun _ : nat => @pzero N)) pzero) as ->; [|ring]. clear. induction P as [|m IH]; cbn [psum]; [reflexivity|rewrite IH; ring].
  - intros i Hi. rewrite (H i Hi), (peq_0_any Q _ _ (pol_zero N HN)). ring.
Qed.

Notation cnt m := (length (filter (fun b : bool => b) (firstn m bm))).
Lemma cnt_S m : (m < P)%nat -> cnt (S m) = (cnt m + if nth m bm false then 1 else 0)%nat.
Proof.
  intros Hm. pose proof (proj1 (mk_shape _ _ _ _ _ _ _ _ _ _ _ _ _ _ _ _ _ _ _ _ HK)) as L.
  rewrite (firstn_S_nth m bm false) by lia. rewrite filter_app, app_length. cbn [filter]. destruct (nth m bm false); reflexivity.
Qed.

Variables (rins : list (list Z)) (acc0s accbs : list (list (list Z))) (faccbs : list (list (list (list Z)))) (buf rbuf ctOut : list (list Z)).
Hypothesis Hbufs : mk_bufs N P n pa bm rins accbs faccbs buf rbuf.
Hypothesis HctOut : gshape N P ctOut.

Lemma MKBlindRotate_parties ct lut0 : length ct = S (P * n) -> wpoly w N lut0 ->
  let r := MKBlindRotateTo w N P ms pa pr pBR bm eks bs bc n rins acc0s accbs faccbs buf rbuf ctOut ct lut0 in
  glwe_ct w N P r /\ gsupp bm N P r /\
  pdist_le Q (gph r) (pshift (- (ms (nthZ ct 0) + zsum P (fun i => if nth i bm false then partyRot ct i else 0))) (pol N lut0)) (mkBrNoise w N P n pa pr pBR bm bc Ebr Ek).
Proof.
  intros Lc Wl. cbv zeta. unfold MKBlindRotateTo. destruct HctOut as (Lo & Ho).
  pose proof (mk_rank _ _ _ _ _ _ _ _ _ _ _ _ _ _ _ _ _ _ _ _ HK) as (n0 & Hn0 & HNn).
  pose proof (proj1 (mk_shape _ _ _ _ _ _ _ _ _ _ _ _ _ _ _ _ _ _ _ _ HK)) as Lbm.
  pose proof (mk_gadgets _ _ _ _ _ _ _ _ _ _ _ _ _ _ _ _ _ _ _ _ HK) as (Hoka & Hokr & HokB & HokK).
  pose proof (mk_bounds _ _ _ _ _ _ _ _ _ _ _ _ _ _ _ _ _ _ _ _ HK) as (B1 & B2 & B3).
  pose proof (mk_relin _ _ _ _ _ _ _ _ _ _ _ _ _ _ _ _ _ _ _ _ HK) as (a & ep & Hcrs & Huni).
  destruct Hbufs as (Hb & Lbuf & Hrbuf).
  assert (length (gclear ctOut) = S P) as Lg by (unfold gclear; now rewrite map_length).
  assert (forall i, (i <= P)%nat -> nth i (gclear ctOut) [] = repeat 0 N) as Hg.
  { intros i Hi'. unfold gclear. rewrite (nth_indep _ [] (repeat 0 (length (@nil Z)))) by (rewrite map_length; lia). rewrite (map_nth (fun p => repeat 0 (length p))). f_equal. apply Ho. lia. }
  rewrite (Hg O ltac:(lia)).
  destruct (MonomialMulPolyTo_spec N HN w n0 (repeat 0 N) lut0 (- ms (nthZ ct 0)) Hn0 ltac:(lia) HNn (repeat_length _ _) Wl) as (A & B).
  set (body := MonomialMulPolyTo w N (repeat 0 N) lut0 (- ms (nthZ ct 0))) in *. clearbody body.
  pose (J := fun (m : nat) (o : list (list Z)) => (m <= P)%nat -> glwe_ct w N P o /\ gsupp bm N P o /\
    pdist_le Q (gph o) (pshift (- (ms (nthZ ct 0) + zsum m (fun i => if nth i bm false then partyRot ct i else 0))) (pol N lut0)) (Z.of_nat (cnt m) * extN)).
  match goal with |- glwe_ct _ _ _ ?o /\ _ => assert (J P o) as HJ end.
  { apply (forN_ind J).
    - intros _. assert (forall j, (j < P)%nat -> nth (S j) (upd (gclear ctOut) 0 body) [] = repeat 0 N) as Hz by (intros j Hj; rewrite nth_upd_other by lia; apply Hg; lia).
      split; [split; [now rewrite upd_length|]|split; [|]].
      + intros i Hi. destruct i as [|i]; [rewrite nth_upd_same by lia; exact A|]. rewrite Hz by lia. exact (wpoly_zero w Hw N HN P bm Lbm).
      + intros i Hi _. now apply Hz.
      + cbn [zsum firstn filter length]. rewrite Z.add_0_r, Z.mul_0_l. exists pzero. split; [|apply pbound_zero].
        rewrite (gph_trivial _ Hz), nth_upd_same by lia. rewrite B, <- pshift_mono. ring.
    - intros m o Hm HJ Hm'. cbn [Nat.add]. destruct (HJ ltac:(lia)) as (X1 & X2 & X3). rewrite (cnt_S m Hm). cbn [zsum]. change (active bm m) with (nth m bm false).
      destruct (nth m bm false) eqn:Em; [|rewrite Z.add_0_r, Nat.add_0_r; now split].
      destruct (Hb m Em) as (Y1 & Y2 & Y3 & Y4).
      destruct (partyAccs_spec m (nth m rins []) (nth m acc0s []) (nth m accbs []) (nth m faccbs []) ct Em Lc Y1 Y2 Y3 Y4) as (ea & Z1 & Z2).
      set (f := partyAccs w N ms pa pBR _ _ _ _ _ _ _ _ _ _) in *. clearbody f.
      destruct (Huni m Em) as (r & e & e' & U1 & U2 & U3). rewrite (ek_nth ek_u0 m eq_refl), (ek_nth ek_u1 m eq_refl) in U1.
      assert (0 <= brN) as HbrN. { pose proof (Z2 O ltac:(destruct Hoka as (_ & _ & O3 & _); lia)) as Hz. specialize (Hz 0). lia. }
      destruct (ext_spec w Hw N HN P pr Hokr bm Lbm (map ek_crs eks) m Em _ _ keys a r _ e e' ep U1 ltac:(intros i Hi; now apply Hcrs) 1 Ek (key_bound m Em) U2 B2 key_bound U3 ltac:(intros i j Hi Hj; now apply Hcrs)
        pa Hoka f _ ea 1 brN Z1 ltac:(reflexivity) eq_refl HbrN Z2 (grows_mono N _) buf rbuf o Lbuf Hrbuf) as (E1 & _).
      { intros i Hi _. apply X1. lia. }
      destruct (E1 o) as (F1 & F2 & F3). { split; [apply X1|]. intros i Hi. apply X1. exact Hi. }
      split; [exact F1|]. split; [exact F2|]. replace (Z.of_nat (cnt m + 1) * extN) with (extN + Z.of_nat (cnt m) * extN) by lia.
      eapply pdist_trans; [exact F3|]. apply (pdist_shift Q (- partyRot ct m)) in X3.
      destruct X3 as (x & G1 & G2). exists x. split; [|exact G2]. rewrite <- G1. rewrite <- pshift_mono, pshift_add.
      replace (- partyRot ct m + - (ms (nthZ ct 0) + zsum m (fun i => if nth i bm false then partyRot ct i else 0)))
        with (- (ms (nthZ ct 0) + (zsum m (fun i => if nth i bm false then partyRot ct i else 0) + partyRot ct m))) by lia. reflexivity. }
  destruct (HJ (le_n P)) as (X1 & X2 & X3). split; [exact X1|]. split; [exact X2|]. unfold mkBrNoise, nact. rewrite (firstn_all2 bm) in X3 by lia. exact X3.
Qed.

(** The total rotation is the switched phase under the joint key. *)
Lemma rotSum_joint ct : rotSum ms (ljkey n bm smalls) ct = ms (nthZ ct 0) + zsum P (fun i => if nth i bm false then partyRot ct i else 0).
Proof.
  pose proof (proj1 (mk_shape _ _ _ _ _ _ _ _ _ _ _ _ _ _ _ _ _ _ _ _ HK)) as Lbm.
  pose proof (mk_shape _ _ _ _ _ _ _ _ _ _ _ _ _ _ _ _ _ _ _ _ HK) as (_ & _ & Hn).
  unfold rotSum. f_equal. rewrite (ljkey_length n P bm smalls Lbm pkeys_small). rewrite zsum_concat.
  apply zsum_ext. intros i Hi. destruct (nth i bm false) eqn:Ei.
  - unfold partyRot. apply zsum_ext. intros t Ht. rewrite (ljkey_nth n P bm smalls Lbm pkeys_small) by assumption. rewrite Ei, small_nth. reflexivity.
  - rewrite <- (zsum_zero n). apply zsum_ext. intros t Ht. rewrite (ljkey_nth n P bm smalls Lbm pkeys_small) by assumption. rewrite Ei. lia.
Qed.

Lemma MKBlindRotate_spec ct lut0 : length ct = S (P * n) -> wpoly w N lut0 ->
  let r := MKBlindRotateTo w N P ms pa pr pBR bm eks bs bc n rins acc0s accbs faccbs buf rbuf ctOut ct lut0 in
  glwe_ct w N P r /\ gsupp bm N P r /\
  pdist_le Q (gph r) (pshift (- rotSum ms (ljkey n bm smalls) ct) (pol N lut0)) (mkBrNoise w N P n pa pr pBR bm bc Ebr Ek).
Proof. rewrite rotSum_joint. apply MKBlindRotate_parties. Qed.
End W.
