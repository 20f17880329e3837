(** Multi-key round trips, public encryption through the sub ciphertext buffer, decryptor construction. *)
From Verif Require Import Base NegaRing SpecNum ModelNum PfNum ModelVec SpecVec PfVec ModelPoly SpecPoly PfPoly ModelGadget SpecGadget ModelParams ModelEncoder PfEncoder ModelLWE SpecLWE PfLWE PfLWE2 ModelGLWE SpecGLWE PfGLWE ModelBoot SpecBoot PfBoot PfBoot2 PfBoot4 ModelPub SpecPub PfPub PfPub2 ModelMK SpecMK PfMK PfMK2 PfMK3 PfMK4.

(** LWE messages. *)
Lemma MKRoundtripLWE w N P bm keys U G idx sub out m kk st r sub' st' : 0 < w -> (0 < N)%nat -> length bm = P -> pkeys N P keys -> nth idx bm false = true -> length sub = S N -> length out = S (P * N) ->
  0 <= kk <= w - 2 -> let mm := 2 ^ kk in let scale := scaleOf w mm in decodes w scale (Z.abs (G (snd st))) ->
  MKEncryptLWEPlaintextTo w U G (nth idx keys []) sub idx out (EncodeLWECustom w m mm scale) st = (r, (sub', st')) ->
  exists c, r = Some c /\ lwe_ct w (P * N) c /\ MKDecryptLWE w mm scale N bm keys c = Some (m mod mm).
Proof.
  intros Hw HN Lbm Hk Hi Ls Lo Hkk mm scale Hd E. subst mm scale.
  apply (MKEncryptLWE_spec w Hw N HN P bm keys Lbm Hk) in E; [|assumption..]. destruct E as (c & -> & Hc & _ & _ & Hph & _). exists c. split; [reflexivity|]. split; [exact Hc|].
  pose proof (ljkey_length N P bm keys Lbm Hk) as Ll. assert (length c = S (length (ljkey N bm keys))) as Lc by (rewrite Ll; apply Hc).
  rewrite <- (decode_dist w kk (ljkey N bm keys) c m (Z.abs (G (snd st))) Hw Hkk Lc); [|exists (G (snd st)); split; [destruct Hph as (q & Hq); exists q; lia|lia]|exact Hd].
  unfold MKDecryptLWE, DecryptLWE. f_equal. rewrite <- Lbm in Hk, Hc. rewrite (MKDecryptLWE_spec w Hw N bm keys c Hk (proj1 Hc)).
  2:{ apply (Forall_nth_lt _ c 0 0%nat (proj2 Hc)). destruct Hc as (X & _). lia. }
  destruct (DecryptLWEPhase_spec w Hw (ljkey N bm keys) c Lc) as (A1 & A2). apply eqm_mod_eq in A2. rewrite (Z.mod_small _ _ A1) in A2. exact (eq_sym A2).
Qed.

(** Decryptors. *)
Definition decFold (l : list (nat * list Z)) (o : option decryptor) : option decryptor :=
  fold_left (fun d e =>
    match d with
    | None => None
    | Some d =>
      if Nat.ltb (fst e) (length (d_keys d)) && Nat.ltb (fst e) (length (d_bm d))
      then Some (mkDec (upd (d_keys d) (fst e) (Some (snd e))) (upd (d_bm d) (fst e) true)) else None
    end) l o.
Lemma decFold_none l : decFold l None = None.
Proof. induction l as [|x l IH]; [reflexivity|exact IH]. Qed.
Lemma decFold_spec l : forall d, NoDup (map fst l) ->
  (forall i, In i (map fst l) -> (i < length (d_keys d))%nat /\ (i < length (d_bm d))%nat) ->
  exists d', decFold l (Some d) = Some d' /\ length (d_keys d') = length (d_keys d) /\ length (d_bm d') = length (d_bm d) /\
   (forall i s, In (i, s) l -> nth i (d_keys d') None = Some s /\ nth i (d_bm d') false = true) /\
   (forall i, ~ In i (map fst l) -> nth i (d_keys d') None = nth i (d_keys d) None /\ nth i (d_bm d') false = nth i (d_bm d) false).
Proof.
  induction l as [|(i & s) l IH]; intros d Hnd Hlt.
  - exists d. repeat split; contradiction.
  - cbn [map fst] in Hnd, Hlt. apply NoDup_cons_iff in Hnd. destruct Hnd as (Hni & Hnd). destruct (Hlt i ltac:(now left)) as (H1 & H2).
    unfold decFold. cbn [fold_left fst snd]. rewrite (proj2 (Nat.ltb_lt _ _) H1), (proj2 (Nat.ltb_lt _ _) H2). cbn [andb]. fold (decFold l (Some (mkDec (upd (d_keys d) i (Some s)) (upd (d_bm d) i true)))).
    destruct (IH (mkDec (upd (d_keys d) i (Some s)) (upd (d_bm d) i true)) Hnd) as (d' & E & L1 & L2 & A & B).
    { intros j Hj. cbn. rewrite !upd_length. apply Hlt. now right. }
    cbn in L1, L2. rewrite upd_length in L1; rewrite upd_length in L2. exists d'. split; [exact E|]. split; [exact L1|]. split; [exact L2|]. split.
    + intros j t [Hj|Hj]; [|now apply A]. injection Hj as <- <-. destruct (B i Hni) as (B1 & B2). cbn in B1, B2. rewrite nth_upd_same in B1 by exact H1. rewrite nth_upd_same in B2 by exact H2. now split.
    + intros j Hj. cbn [map fst] in Hj. destruct (B j) as (B1 & B2). { intros X. apply Hj. now right. } cbn in B1, B2. assert (j <> i) by (intros ->; apply Hj; now left).
      rewrite nth_upd_other in B1 by congruence. rewrite nth_upd_other in B2 by congruence. now split.
Qed.
Lemma decFold_panics l : forall d, (exists i, In i (map fst l) /\ ~ ((i < length (d_keys d))%nat /\ (i < length (d_bm d))%nat)) -> decFold l (Some d) = None.
Proof.
  induction l as [|(i & s) l IH]; intros d (j & Hj & Hn); [destruct Hj|]. unfold decFold. cbn [fold_left fst snd].
  destruct (Nat.ltb_spec i (length (d_keys d))) as [H1|H1]; [destruct (Nat.ltb_spec i (length (d_bm d))) as [H2|H2]|]; cbn [andb]; try apply decFold_none.
  cbn [map fst] in Hj. destruct Hj as [<-|Hj]; [exfalso; now apply Hn|]. apply IH. exists j. split; [exact Hj|]. cbn. rewrite !upd_length. exact Hn.
Qed.
Lemma NewDecryptor_spec P sk : NoDup (map fst sk) -> (forall i, In i (map fst sk) -> (i < length sk)%nat /\ (i < P)%nat) ->
  exists d, NewDecryptor P sk = Some d /\ length (d_keys d) = length sk /\ length (d_bm d) = P /\
   (forall i s, In (i, s) sk -> nth i (d_keys d) None = Some s /\ nth i (d_bm d) false = true) /\
   (forall i, ~ In i (map fst sk) -> nth i (d_keys d) None = None /\ nth i (d_bm d) false = false).
Proof.
  intros Hnd Hlt. destruct (decFold_spec sk (mkDec (repeat None (length sk)) (repeat false P)) Hnd) as (d & E & L1 & L2 & A & B).
  { intros i Hi. cbn. rewrite !repeat_length. now apply Hlt. }
  cbn in L1, L2. rewrite repeat_length in L1; rewrite repeat_length in L2. exists d. split; [exact E|]. split; [exact L1|]. split; [exact L2|]. split; [exact A|].
  intros i Hi. destruct (B i Hi) as (B1 & B2). cbn in B1, B2. split; [rewrite B1|rewrite B2].
  - destruct (Nat.lt_ge_cases i (length sk)); [now rewrite nth_repeat_lt|apply nth_overflow; rewrite repeat_length; lia].
  - destruct (Nat.lt_ge_cases i P); [now rewrite nth_repeat_lt|apply nth_overflow; rewrite repeat_length; lia].
Qed.
Lemma NewDecryptor_panics P sk : (exists i, In i (map fst sk) /\ ~ ((i < length sk)%nat /\ (i < P)%nat)) -> NewDecryptor P sk = None.
Proof.
  intros (i & H1 & H2). apply decFold_panics. exists i. split; [exact H1|]. cbn. rewrite !repeat_length. exact H2.
Qed.
Lemma AddSecretKey_panics P sk d idx s : NoDup (map fst sk) -> NewDecryptor P sk = Some d -> (AddSecretKey d idx s = None <-> ~ ((idx < length sk)%nat /\ (idx < P)%nat)).
Proof.
  intros Hnd E. assert (length (d_keys d) = length sk /\ length (d_bm d) = P) as (L1 & L2).
  { destruct (NewDecryptor_spec P sk Hnd) as (d' & E' & A & B & _).
    - intros i Hi. destruct (lt_dec i (length sk)) as [H1|H1]; [destruct (lt_dec i P) as [H2|H2]; [now split|]|]; exfalso; rewrite NewDecryptor_panics in E; [discriminate|exists i; split; [exact Hi|lia]|discriminate|exists i; split; [exact Hi|lia]].
    - rewrite E in E'. injection E' as <-. now split. }
  unfold AddSecretKey. rewrite L1, L2. destruct (Nat.ltb_spec idx (length sk)) as [H1|H1]; destruct (Nat.ltb_spec idx P) as [H2|H2]; cbn [andb]; split; intros X; try reflexivity; try discriminate; lia.
Qed.

(** Public encryption through the encryptor's sub ciphertext: what its mask held before is added. *)
Section Pub.
Variable w : Z. Hypothesis Hw : 0 < w. Local Notation Q := (2 ^ w).
Variable N : nat. Hypothesis HN : (0 < N)%nat.
Variable P : nat. Variable bm : list bool. Variable keys : list (list Z). Hypothesis Lbm : length bm = P. Hypothesis Hk : pkeys N P keys.
Variable logN : Z. Hypothesis Hl : 0 < splitBitsShort logN.
Variables B G : nat -> Z.
Lemma act_lt idx : nth idx bm false = true -> (idx < P)%nat.
Proof. intros Hi. rewrite <- Lbm. destruct (Nat.lt_ge_cases idx (length bm)) as [H|H]; [exact H|]. rewrite nth_overflow in Hi by exact H. discriminate. Qed.
Lemma solo_skey idx : nth idx bm false = true -> skey N 1 [nth idx keys []].
Proof. intros Hi. split; [reflexivity|]. intros j Hj. replace j with O by lia. cbn. apply Hk. now apply act_lt. Qed.

Lemma MKPubLWE_spec idx pk E aux sub ct st r sub' aux' st' : nth idx bm false = true -> pk_enc w N 1 (revkey [nth idx keys []]) pk E -> ashape N 1 aux -> length sub = S N -> length ct = S (P * N) ->
  MKPubEncryptLWEBody w logN N B G pk aux sub idx ct st = (r, (sub', (aux', st'))) ->
  exists c, r = Some c /\ lwe_ct w (P * N) c /\ length sub' = S N /\ ashape N 1 aux' /\ st' = ((fst st + N)%nat, (snd st + 1 + N)%nat) /\
   eqm Q (phase (ljkey N bm keys) c) (nthZ ct 0 + zsum N (fun i => nthZ sub (S i) * nthZ (nth idx keys []) i) + pubNoiseLWE N 1 [nth idx keys []] E B G (fst st) (snd st)) /\
   forall i, (i < N)%nat -> nthZ sub' (S i) = nthZ c (S (idx * N + i)).
Proof.
  intros Hi Hpk Ha Ls Lc Eq. unfold MKPubEncryptLWEBody in Eq.
  destruct (PubEncryptLWEBody w logN N 1 B G pk aux (upd sub 0 (nthZ ct 0)) st) as (sb & ax & s1) eqn:X.
  pose proof (act_lt idx Hi) as Hidx. assert (length (nth idx keys []) = N) as Lk by (now apply Hk).
  pose proof (solo_skey idx Hi) as Hsk.
  assert (flat N [nth idx keys []] (nth idx keys [])) as Hfl. { split; [cbn [length]; rewrite Lk; lia|]. intros a j Ha' Hj. cbn [length] in Ha'. replace a with O by lia. reflexivity. }
  assert (length sub = S (1 * N)) as Ls1 by lia.
  destruct (PubEncryptLWEPlaintextTo_spec w Hw N HN 1 logN Hl B G [nth idx keys []] Hsk (nth idx keys []) Hfl pk E Hpk aux sub (nthZ ct 0) st sb ax s1 ltac:(lia) Ha Ls1 X) as (A1 & A2 & A3 & A4).
  rewrite Nat.mul_1_l in A1, A3, A4.
  destruct (LWECopy_spec w Hw N P bm keys (repeat 0 (length ct)) sb idx HN Lbm Hk Hi (eq_trans (repeat_length _ _) Lc) A1) as (c & E1 & E2 & E3 & _ & E5 & _).
  rewrite E1 in Eq. injection Eq as <- <- <- <-. exists c. split; [reflexivity|]. split; [exact E2|]. split; [apply A1|]. split; [exact A2|]. split; [exact A3|]. split; [rewrite E3; exact A4|].
  intros i Hin. symmetry. now apply E5.
Qed.
Lemma MKPubGLWE_spec idx pk E aux sub ct st r sub' aux' st' : nth idx bm false = true -> pk_enc w N 1 [nth idx keys []] pk E -> ashape N 1 aux -> gshape N 1 sub -> gshape N P ct ->
  MKPubEncryptGLWEBody w logN N B G pk aux sub idx ct st = (r, (sub', (aux', st'))) ->
  exists c, r = Some c /\ glwe_ct w N P c /\ glwe_ct w N 1 sub' /\ ashape N 1 aux' /\ st' = ((fst st + N)%nat, (snd st + 2 * N)%nat) /\
   peq Q (gphase N P (jkey N bm keys) c) (padd (padd (pol N (nth 0 ct [])) (pmul (pol N (nth 1 sub [])) (pol N (nth idx keys [])))) (pubNoise N 1 [nth idx keys []] E B G (fst st) (snd st))) /\
   nth 1 sub' [] = nth (S idx) c [].
Proof.
  intros Hi Hpk Ha Hs Hc Eq. unfold MKPubEncryptGLWEBody in Eq.
  destruct (PubEncryptGLWEBody w logN N 1 B G pk aux (upd sub 0 (go_copy (nth 0 sub []) (nth 0 ct []))) st) as (sb & ax & s1) eqn:X.
  pose proof (act_lt idx Hi) as Hidx. pose proof (solo_skey idx Hi) as Hsk.
  assert (length (nth 0 ct []) = N) as L0 by (apply Hc; lia).
  destruct (PubEncryptGLWEPlaintextTo_spec w Hw N HN 1 logN Hl B G [nth idx keys []] pk E Hpk aux sub (nth 0 ct []) st sb ax s1 ltac:(lia) Ha Hs L0 X) as (A1 & A2 & A3 & A4).
  rewrite Nat.mul_1_l in A3.
  assert (gshape N P (gclear ct)) as Hgc.
  { destruct Hc as (Lc & Hc). split; [unfold gclear; now rewrite map_length|]. intros i Hi'. unfold gclear. rewrite (nth_indep _ [] (repeat 0 (length (@nil Z)))) by (rewrite map_length; lia). rewrite (map_nth (fun p => repeat 0 (length p))).
    rewrite repeat_length. now apply Hc. }
  destruct (GLWECopy_spec w Hw N HN P bm keys Lbm (gclear ct) sb idx Hi Hgc A1) as (c & E1 & E2 & E3 & _ & E5 & _).
  rewrite E1 in Eq. injection Eq as <- <- <- <-. exists c. split; [reflexivity|]. split; [exact E2|]. split; [exact A1|]. split; [exact A2|]. split; [exact A3|]. split; [|symmetry; exact E5].
  rewrite E3, A4. assert (peq Q (psum 1 (fun j => pmul (pol N (nth (S j) sub [])) (pol N (nth j [nth idx keys []] [])))) (pmul (pol N (nth 1 sub [])) (pol N (nth idx keys [])))) as ->; [|reflexivity].
  intros t. rewrite cf_psum. cbn [zsum nth]. rewrite Z.add_0_l. reflexivity.
Qed.
End Pub.
