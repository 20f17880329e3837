From Verif Require Import Base NegaRing SpecNum ModelNum PfNum ModelVec SpecVec PfVec ModelPoly SpecPoly PfPoly PfPerm PfSplit ModelGadget SpecGadget PfGadget ModelParams ModelEncoder PfEncoder ModelLWE SpecLWE PfLWE PfLWE2 PfKS PfKS2 ModelGLWE SpecGLWE PfGLWE PfGLWE2 PfGLWE3 PfGLWE4 ModelBoot SpecBoot PfBoot PfBoot2 PfBoot4 ModelPub SpecPub PfPub PfPub2 ModelMK SpecMK PfMK PfMK2 PfMK3.

Section W.
Variable w : Z.
Hypothesis Hw : 0 < w.
Notation Q := (2 ^ w).
Variable N : nat.
Hypothesis HN : (0 < N)%nat.
Add Ring nring : (@npoly_ring N Q) (setoid (@peq_equiv N Q) (@npoly_ring_ext N Q)).
Variables (P : nat) (bm : list bool) (keys : list (list Z)).
Hypothesis Lbm : length bm = P.
Hypothesis Hk : pkeys N P keys.
Notation gph := (gphase N P (jkey N bm keys)).

Lemma pkeys_skey : skey N P keys.
Proof. exact Hk. Qed.
Lemma jkey_skey : skey N P (jkey N bm keys).
Proof.
  split; [unfold jkey; rewrite tab_length; exact Lbm|]. intros i Hi. apply (jkey_rows N P bm keys Lbm Hk). unfold jkey. rewrite tab_length. lia.
Qed.
Lemma wpoly_zero : wpoly w N (repeat 0 N).
Proof. split; [apply repeat_length|]. apply Forall_forall. intros x Hx. apply repeat_spec in Hx. subst x. split; [lia|apply pow2_pos; lia]. Qed.

(** Joint phase of a ciphertext with at most one mask. *)
Lemma gph_one c idx s0 s1 : nth idx bm false = true -> peq Q (pol N (nth 0 c [])) s0 -> peq Q (pol N (nth (S idx) c [])) s1 ->
  (forall j, (j < P)%nat -> j <> idx -> nth (S j) c [] = repeat 0 N) -> peq Q (gph c) (padd s0 (pmul s1 (pol N (nth idx keys [])))).
Proof.
  intros Hi H0 H1 Hz. assert (idx < P)%nat as HiP. { destruct (Nat.lt_ge_cases idx P); [assumption|]. rewrite nth_overflow in Hi by lia. discriminate. }
  unfold gphase. rewrite H0. apply padd_proper; [reflexivity|]. rewrite <- (jkey_on N HN P bm Lbm keys idx Hi). rewrite <- H1.
  transitivity (psum P (fun i => if Nat.eqb i idx then pmul (pol N (nth (S idx) c [])) (pol N (nth idx (jkey N bm keys) [])) else pzero)).
  - apply psum_proper. intros i Hi'. destruct (Nat.eqb_spec i idx) as [->|Hne]; [reflexivity|]. rewrite (Hz i Hi' Hne), (peq_0_any Q _ _ (pol_zero N HN)). ring.
  - clear - HiP HN. induction P as [|m IH]; [lia|]. cbn [psum]. destruct (Nat.eqb_spec m idx) as [->|Hne].
    + rewrite (psum_proper Q idx _ (fun _ => pzero)). { clear. assert (peq Q (psum idx (fun _ : nat => @pzero N)) pzero) as ->. { induction idx as [|i IH]; cbn [psum]; [reflexivity|rewrite IH; ring]. } ring. }
      intros i Hi. destruct (Nat.eqb_spec i idx); [lia|reflexivity].
    + rewrite IH by lia. ring.
Qed.

Lemma GLWECopy_spec ct sub idx : nth idx bm false = true -> gshape N P ct -> glwe_ct w N 1 sub ->
  exists c, GLWECopyFromSubKey ct sub idx = Some c /\ glwe_ct w N P c /\ peq Q (gph c) (gphase N 1 [nth idx keys []] sub) /\
    (forall j, (j < P)%nat -> j <> idx -> nth (S j) c [] = repeat 0 N) /\ nth (S idx) c [] = nth 1 sub [] /\ nth 0 c [] = nth 0 sub [].
Proof.
  intros Hi (Lc & Hc) (Ls & Hs). assert (idx < P)%nat as HiP. { destruct (Nat.lt_ge_cases idx P); [assumption|]. rewrite nth_overflow in Hi by lia. discriminate. }
  unfold GLWECopyFromSubKey. rewrite Ls. cbn [Nat.eqb negb]. rewrite (proj2 (Nat.leb_gt _ _)) by lia. eexists. split; [reflexivity|].
  assert (length (gclear ct) = S P) as Lg by (unfold gclear; now rewrite map_length).
  assert (forall i, (i <= P)%nat -> nth i (gclear ct) [] = repeat 0 N) as Hg.
  { intros i Hi'. unfold gclear. rewrite (nth_indep _ [] (repeat 0 (length (@nil Z)))) by (rewrite map_length; lia). rewrite (map_nth (fun p => repeat 0 (length p))). f_equal. apply Hc. lia. }
  assert (forall i v, (i <= P)%nat -> wpoly w N v -> go_copy (nth i (gclear ct) []) v = v) as Hgc. { intros i v Hi' (Lv & _). rewrite Hg by exact Hi'. apply (go_copy_full 0). rewrite repeat_length. lia. }
  rewrite Hgc by (lia || apply Hs; lia). cbn [Nat.add]. rewrite nth_upd_other by lia. rewrite Hgc by (lia || apply Hs; lia).
  match goal with |- context [upd (upd ?g 0 ?x) (S idx) ?y] => set (c := upd (upd g 0 x) (S idx) y) end.
  assert (nth 0 c [] = nth 0 sub []) as E0. { unfold c. rewrite nth_upd_other by lia. apply nth_upd_same. lia. }
  assert (nth (S idx) c [] = nth 1 sub []) as E1. { unfold c. apply nth_upd_same. rewrite upd_length. lia. }
  assert (forall j, (j < P)%nat -> j <> idx -> nth (S j) c [] = repeat 0 N) as Ez. { intros j Hj Hne. unfold c. rewrite !nth_upd_other by lia. apply Hg. lia. }
  split; [split; [unfold c; now rewrite !upd_length|]|].
  { intros i Hi'. destruct i as [|i]; [rewrite E0; apply Hs; lia|]. destruct (Nat.eq_dec i idx) as [->|Hne]; [rewrite E1; apply Hs; lia|rewrite Ez by lia; apply wpoly_zero]. }
  split; [|split; [exact Ez|split; assumption]].
  rewrite (gph_one c idx (pol N (nth 0 sub [])) (pol N (nth 1 sub [])) Hi); [|now rewrite E0|now rewrite E1|exact Ez]. unfold gphase. cbn [psum nth]. ring.
Qed.

Section L.
Variables (logN : Z) (Hl : 0 < splitBitsShort logN).
(** ** GLWE decryption *)
Lemma MKDecryptGLWE_spec sub out ct : gshape N 1 sub -> length out = N -> (forall i, (i <= P)%nat -> wpoly w N (nth i ct [])) ->
  let r := MKDecryptGLWEPhaseTo w logN N bm (map (fwdFFT w) keys) sub out ct in gshape N 1 (snd r) /\ wpoly w N (fst r) /\ peq Q (pol N (fst r)) (gph ct).
Proof.
  intros (Ls & Hs) Lo Hc. cbv zeta. unfold MKDecryptGLWEPhaseTo. rewrite (go_copy_full 0 (nth 0 sub [])) by (rewrite (proj1 (Hc O ltac:(lia))), (Hs O) by lia; reflexivity).
  rewrite Lbm. pose (J := fun (m : nat) (s : list (list Z)) => (m <= P)%nat -> gshape N 1 s /\ wpoly w N (nth 0 s []) /\
    peq Q (pol N (nth 0 s [])) (padd (pol N (nth 0 ct [])) (psum m (fun i => pmul (pol N (nth (S i) ct [])) (pol N (nth i (jkey N bm keys) [])))))).
  match goal with |- context [forN 0 P ?f ?x] => assert (J P (forN 0 P f x)) as HJ end.
  { apply (forN_ind J); unfold J.
    - intros _. rewrite nth_upd_same by lia. split; [split; [now rewrite upd_length|]|].
      + intros i Hi. rewrite nth_upd_if by lia. destruct (Nat.eqb i 0); [apply Hc; lia|now apply Hs].
      + split; [apply Hc; lia|]. cbn [psum]. ring.
    - intros m s Hm HJ Hm'. destruct (HJ ltac:(lia)) as ((L & H) & W0 & E0). clear HJ. cbn [Nat.add]. change (active bm m) with (nth m bm false). destruct (nth m bm false) eqn:Em.
      + rewrite (go_copy_full 0 (nth 1 s [])) by (rewrite (proj1 (Hc (S m) ltac:(lia))), (H 1%nat) by lia; reflexivity). set (s' := upd s 1 (nth (S m) ct [])).
        assert (glwe_ct w N 1 s') as Hs'. { split; [unfold s'; rewrite upd_length; lia|]. intros i Hi. unfold s'. rewrite nth_upd_if by lia. destruct (Nat.eqb_spec i 1); [apply Hc; lia|]. replace i with O by lia. exact W0. }
        assert (skey N 1 [nth m keys []]) as Hsk. { split; [reflexivity|]. intros i Hi. replace i with O by lia. cbn. apply Hk. lia. }
        pose proof (DecryptGLWEPhaseTo_spec w Hw N HN 1 [nth m keys []] logN Hl (fun _ => 0) (fun _ => 0) (nth 0 s' []) s' Hsk (proj1 (proj2 Hs' O ltac:(lia))) Hs') as HD.
        assert (nth m (map (fwdFFT w) keys) [] = fwdFFT w (nth m keys [])) as ->. { rewrite (nth_indep _ [] (fwdFFT w [])) by (rewrite map_length; destruct Hk; lia). apply map_nth. }
        replace (nth 0 s []) with (nth 0 s' []) by (unfold s'; apply nth_upd_other; lia). change (map (fwdFFT w) [nth m keys []]) with [fwdFFT w (nth m keys [])] in HD.
        set (o := DecryptGLWEPhaseTo w logN N 1 [fwdFFT w (nth m keys [])] (nth 0 s' []) s') in *. destruct HD as (HD1 & HD2). rewrite nth_upd_same by (rewrite (proj1 Hs'); lia).
        split; [|split; [exact HD1|]].
        * split; [rewrite upd_length; apply Hs'|]. intros i Hi. rewrite nth_upd_if by (rewrite (proj1 Hs'); lia). destruct (Nat.eqb i 0); [apply HD1|]. apply Hs'. exact Hi.
        * rewrite HD2. unfold gphase. cbn [psum]. change (nth 0 [nth m keys []] []) with (nth m keys []). replace (nth 0 s' []) with (nth 0 s []) by (unfold s'; symmetry; apply nth_upd_other; lia). rewrite E0. replace (nth 1 s' []) with (nth (S m) ct []) by (unfold s'; symmetry; apply nth_upd_same; lia).
          rewrite (jkey_on N HN P bm Lbm keys m Em). ring.
      + split; [split; assumption|]. split; [exact W0|]. rewrite E0. cbn [psum]. rewrite (jkey_off w N HN P bm Lbm keys m Em). ring. }
  destruct (HJ (le_n P)) as (A & B & C). cbn [fst snd]. split; [exact A|]. rewrite (go_copy_full 0 out) by (rewrite (proj1 B); exact Lo). split; [exact B|]. rewrite C. reflexivity.
Qed.

(** ** Encryption *)
Variables U G : nat -> Z.
Lemma MKEncryptGLWE_spec idx sub out pt st r sub' st' : nth idx bm false = true -> gshape N 1 sub -> gshape N P out -> length pt = N ->
  MKEncryptGLWEPlaintextTo w logN N U G (fwdFFT w (nth idx keys [])) sub idx out pt st = (r, (sub', st')) ->
  exists c, r = Some c /\ glwe_ct w N P c /\ gshape N 1 sub' /\ st' = ((fst st + N)%nat, (snd st + N)%nat) /\ peq Q (gph c) (padd (pol N pt) (noisep N G (snd st))) /\
    (forall j, (j < P)%nat -> j <> idx -> nth (S j) c [] = repeat 0 N).
Proof.
  intros Hi (Ls & Hs) (Lo & Ho) Lp. assert (idx < P)%nat as HiP. { destruct (Nat.lt_ge_cases idx P); [assumption|]. rewrite nth_overflow in Hi by lia. discriminate. }
  unfold MKEncryptGLWEPlaintextTo, MKEncryptGLWEBody. rewrite nth_upd_same by lia. rewrite (go_copy_full 0 (nth 0 out [])) by (rewrite (Ho O) by lia; lia). rewrite (go_copy_full 0 (nth 0 sub [])) by (rewrite (Hs O) by lia; lia).
  destruct (EncryptGLWEBody w logN N 1 U G [fwdFFT w (nth idx keys [])] (upd sub 0 pt) st) as (s1, st1) eqn:EE.
  assert (skey N 1 [nth idx keys []]) as Hsk. { split; [reflexivity|]. intros i Hi'. replace i with O by lia. cbn. apply Hk. lia. }
  apply (EncryptGLWEBody_spec w Hw N HN 1 [nth idx keys []] logN Hl U G) in EE; [|exact Hsk|].
  2:{ split; [now rewrite upd_length|]. intros i Hi'. rewrite nth_upd_if by lia. destruct (Nat.eqb i 0); [exact Lp|now apply Hs]. }
  destruct EE as (A & B & C & _). rewrite nth_upd_same in B by lia.
  assert (gshape N P (gclear (upd out 0 pt))) as Hgc.
  { split; [unfold gclear; now rewrite map_length, upd_length|]. intros i Hi'. unfold gclear. rewrite (nth_indep _ [] (repeat 0 (length (@nil Z)))) by (rewrite map_length, upd_length; lia). rewrite (map_nth (fun p => repeat 0 (length p))).
    rewrite repeat_length, nth_upd_if by lia. destruct (Nat.eqb i 0); [exact Lp|now apply Ho]. }
  destruct (GLWECopy_spec (gclear (upd out 0 pt)) s1 idx Hi Hgc A) as (c & Ec & C1 & C2 & C3 & _). rewrite Ec. intros E. injection E as <- <- <-.
  exists c. split; [reflexivity|]. split; [exact C1|]. split; [split; [apply A|intros i Hi'; apply A; exact Hi']|]. split; [rewrite C; f_equal; lia|]. split; [rewrite C2; exact B|exact C3].
Qed.
End L.

(** ** Round trips *)
Section LW.
Variables U G : nat -> Z.
Lemma MKEncryptLWE_spec idx sub out pt st r sub' st' : nth idx bm false = true -> length sub = S N -> length out = S (P * N) ->
  MKEncryptLWEPlaintextTo w U G (nth idx keys []) sub idx out pt st = (r, (sub', st')) ->
  exists c, r = Some c /\ lwe_ct w (P * N) c /\ length sub' = S N /\ st' = ((fst st + N)%nat, S (snd st)) /\ eqm Q (phase (ljkey N bm keys) c) (pt + G (snd st)) /\
    (forall j t, (j < P)%nat -> j <> idx -> (t < N)%nat -> nthZ c (S (j * N + t)) = 0).
Proof.
  intros Hi Ls Lo. assert (idx < P)%nat as HiP. { destruct (Nat.lt_ge_cases idx P); [assumption|]. rewrite nth_overflow in Hi by lia. discriminate. }
  unfold MKEncryptLWEPlaintextTo, MKEncryptLWEBody. rewrite nthZ_upd by lia. cbn [Nat.eqb]. rewrite upd_length, Lo.
  destruct (EncryptLWEBody w U G (nth idx keys []) (upd sub 0 pt) st) as (s1, st1) eqn:EE. pose proof (proj2 Hk idx HiP) as Lk.
  apply (EncryptLWEBody_spec w Hw U G) in EE; [|rewrite upd_length, Lk; exact Ls]. destruct EE as (A & B & C & _). rewrite nthZ_upd in B by lia. cbn [Nat.eqb] in B. rewrite Lk in A, C.
  destruct (LWECopy_spec w Hw N P bm keys (repeat 0 (S (P * N))) s1 idx HN Lbm Hk Hi (repeat_length _ _) A) as (c & Ec & C1 & C2 & C3 & _). rewrite Ec. intros E. injection E as <- <- <-.
  exists c. split; [reflexivity|]. split; [exact C1|]. split; [apply A|]. split; [exact C|]. split; [rewrite C2; exact B|exact C3].
Qed.
End LW.
End W.
