From Verif Require Import Base NegaRing SpecNum ModelNum PfNum ModelVec SpecVec PfVec ModelPoly SpecPoly PfPoly PfPerm PfSplit ModelGadget SpecGadget PfGadget ModelParams ModelEncoder PfEncoder ModelLWE SpecLWE PfLWE PfLWE2 PfKS PfKS2 ModelGLWE SpecGLWE PfGLWE PfGLWE2 PfGLWE3 PfGLWE4 ModelBoot SpecBoot PfBoot PfBoot2 PfBoot4 ModelPub SpecPub PfPub PfPub2 ModelMK SpecMK PfMK PfMK2.

Lemma nth_concat_rows n : forall (L : list (list Z)) i t, (forall j, (j < length L)%nat -> length (nth j L []) = n) -> (t < n)%nat -> (i < length L)%nat ->
  nthZ (concat L) (i * n + t) = nthZ (nth i L []) t.
Proof.
  induction L as [|x L IH]; intros i t H Ht Hi; [cbn in Hi; lia|]. pose proof (H O ltac:(cbn; lia)) as Hx. cbn in Hx. cbn [concat]. destruct i as [|i].
  - cbn [Nat.mul Nat.add nth]. apply nthZ_app_l. lia.
  - rewrite nthZ_app_r by lia. cbn [nth]. rewrite Hx. replace (S i * n + t - n)%nat with (i * n + t)%nat by lia. apply IH; [|exact Ht|cbn in Hi; lia].
    intros j Hj. apply (H (S j)). cbn. lia.
Qed.
Lemma concat_rows_length n : forall (L : list (list Z)), (forall j, (j < length L)%nat -> length (nth j L []) = n) -> length (concat L) = (length L * n)%nat.
Proof.
  induction L as [|x L IH]; intros H; [reflexivity|]. cbn [concat length]. rewrite app_length, IH. 2:{ intros j Hj. apply (H (S j)). cbn. lia. }
  pose proof (H O ltac:(cbn; lia)) as Hx. cbn in Hx. lia.
Qed.

Lemma zsum_all0 n f : (forall i, (i < n)%nat -> f i = 0) -> zsum n f = 0.
Proof. intros H. rewrite (zsum_ext n f (fun _ => 0)) by exact H. apply zsum_zero. Qed.
Lemma coord_split n P i : (i < S (P * n))%nat -> i = O \/ exists j t, (j < P)%nat /\ (t < n)%nat /\ i = S (j * n + t).
Proof.
  intros H. destruct i as [|i]; [now left|right]. assert (n <> 0)%nat by (intros ->; lia). exists (i / n)%nat, (i mod n)%nat.
  split; [apply Nat.div_lt_upper_bound; [lia|nia]|]. split; [now apply Nat.mod_upper_bound|]. f_equal. rewrite Nat.mul_comm. now apply Nat.div_mod.
Qed.

Lemma firstn_S_nth {A} m : forall (l : list A) d, (m < length l)%nat -> firstn (S m) l = firstn m l ++ [nth m l d].
Proof. induction m as [|m IH]; intros [|x l] d H; cbn in H; try lia; [reflexivity|]. cbn [firstn nth app]. f_equal. apply IH. lia. Qed.

Section J.
Variables (n P : nat) (bm : list bool) (keys : list (list Z)).
Hypothesis Lbm : length bm = P.
Hypothesis Hk : pkeys n P keys.
Lemma jkey_rows j : (j < length (jkey n bm keys))%nat -> length (nth j (jkey n bm keys) []) = n.
Proof.
  unfold jkey. rewrite tab_length. intros Hj. rewrite nth_tab by lia. destruct (nth j bm false); [apply Hk; lia|apply repeat_length].
Qed.
Lemma ljkey_length : length (ljkey n bm keys) = (P * n)%nat.
Proof. unfold ljkey. rewrite (concat_rows_length n) by exact jkey_rows. unfold jkey. rewrite tab_length, Lbm. reflexivity. Qed.
Lemma ljkey_nth i t : (i < P)%nat -> (t < n)%nat -> nthZ (ljkey n bm keys) (i * n + t) = if nth i bm false then nthZ (nth i keys []) t else 0.
Proof.
  intros Hi Ht. unfold ljkey. rewrite (nth_concat_rows n) by (try exact jkey_rows; try exact Ht; unfold jkey; rewrite tab_length; lia).
  unfold jkey. rewrite nth_tab by lia. destruct (nth i bm false); [reflexivity|apply nthZ_repeat0].
Qed.
Lemma flat_jkey : flat n (jkey n bm keys) (ljkey n bm keys).
Proof.
  split; [rewrite ljkey_length; unfold jkey; rewrite tab_length; lia|]. intros i j Hi Hj. unfold ljkey. apply nth_concat_rows; [exact jkey_rows|exact Hj|exact Hi].
Qed.
Definition pterm (s ct : list Z) (i : nat) : Z := zsum n (fun t => nthZ ct (S (i * n + t)) * nthZ s t).
Lemma joint_phase ct : phase (ljkey n bm keys) ct = nthZ ct 0 + zsum P (fun i => if nth i bm false then pterm (nth i keys []) ct i else 0).
Proof.
  unfold phase. rewrite ljkey_length, zsum_concat. f_equal. apply zsum_ext. intros i Hi. unfold pterm.
  rewrite (zsum_ext n _ (fun t => nthZ ct (S (i * n + t)) * (if nth i bm false then nthZ (nth i keys []) t else 0))).
  2:{ intros t Ht. rewrite ljkey_nth by assumption. reflexivity. }
  destruct (nth i bm false); [reflexivity|]. apply zsum_all0. intros; lia.
Qed.
Lemma ljkey_binary : (forall i, (i < P)%nat -> nth i bm false = true -> binary (nth i keys [])) -> binary (ljkey n bm keys).
Proof.
  intros H. unfold ljkey, binary. apply Forall_concat. apply Forall_forall. intros x Hx. apply (In_nth _ _ []) in Hx. destruct Hx as (i & Hi & <-).
  unfold jkey in *. rewrite tab_length in Hi. rewrite nth_tab by exact Hi. destruct (nth i bm false) eqn:E; [apply H; [lia|exact E]|]. apply Forall_forall. intros y Hy. apply repeat_spec in Hy. now left.
Qed.
End J.

Section W.
Variable w : Z.
Hypothesis Hw : 0 < w.
Notation Q := (2 ^ w).

(** ** Decryption *)
Lemma MKDecryptLWE_spec n bm keys ct : let P := length bm in pkeys n P keys -> length ct = S (P * n) -> uword w (nthZ ct 0) ->
  MKDecryptLWEPlaintext w n bm keys ct = phase (ljkey n bm keys) ct mod Q.
Proof.
  intros P Hk Lc Hb. rewrite (joint_phase n P bm keys eq_refl Hk). unfold MKDecryptLWEPlaintext. fold P.
  pose (J := fun (m : nat) pt => uword w pt /\ ((m <= P)%nat -> eqm Q pt (nthZ ct 0 + zsum m (fun i => if nth i bm false then pterm n (nth i keys []) ct i else 0)))).
  match goal with |- forN 0 P ?f ?x = _ => assert (J P (forN 0 P f x)) as (A & B) end.
  { apply (forN_ind J); unfold J.
    - split; [exact Hb|]. intros _. cbn [zsum]. apply eqm_eq. ring.
    - intros m pt Hm (A & B). cbn [Nat.add]. change (active bm m) with (nth m bm false). destruct (nth m bm false) eqn:E.
      + split; [apply wrap_word; lia|]. intros Hm'. rewrite wrap_eqm. rewrite B by lia. cbn [zsum]. rewrite E. rewrite (dot_eqm w Hw).
        * unfold pterm, partyMask. rewrite (proj2 Hk m) by lia. rewrite (zsum_ext n _ (fun t => nthZ ct (S (m * n + t)) * nthZ (nth m keys []) t)); [apply eqm_eq; ring|].
          intros t Ht. rewrite nthZ_firstn, nthZ_skipn by exact Ht. reflexivity.
        * unfold partyMask. rewrite firstn_length, skipn_length, Lc, (proj2 Hk m) by lia. nia.
      + split; [exact A|]. intros Hm'. rewrite B by lia. cbn [zsum]. rewrite E. apply eqm_eq. ring. }
  rewrite <- (proj1 (eqm_mod_eq Q _ _) (B (le_n P))). symmetry. apply Z.mod_small. exact A.
Qed.

(** ** Embedding of one party's ciphertext *)
Lemma LWECopy_spec n P bm keys ct sub idx : (0 < n)%nat -> length bm = P -> pkeys n P keys -> nth idx bm false = true -> length ct = S (P * n) -> lwe_ct w n sub ->
  exists c, LWECopyFromSubKey ct sub idx = Some c /\ lwe_ct w (P * n) c /\ phase (ljkey n bm keys) c = phase (nth idx keys []) sub /\
    (forall j t, (j < P)%nat -> j <> idx -> (t < n)%nat -> nthZ c (S (j * n + t)) = 0) /\ (forall t, (t < n)%nat -> nthZ c (S (idx * n + t)) = nthZ sub (S t)) /\ nthZ c 0 = nthZ sub 0.
Proof.
  intros Hn Lbm Hk Hi Lc (Ls & Ws). assert (idx < P)%nat as HiP. { destruct (Nat.lt_ge_cases idx P); [assumption|]. rewrite nth_overflow in Hi by lia. discriminate. }
  unfold LWECopyFromSubKey. replace (length sub - 1)%nat with n by lia. replace (length ct - 1)%nat with (P * n)%nat by lia.
  rewrite (proj2 (Nat.eqb_neq n 0)) by lia. rewrite Nat.mod_mul by lia. cbn [Nat.eqb negb]. rewrite (proj2 (Nat.ltb_ge _ _)) by nia.
  eexists. split; [reflexivity|]. set (z := repeat 0 (length ct)). set (c := firstn (1 + idx * n) z ++ tl sub ++ skipn (1 + (idx + 1) * n) z).
  assert (length z = S (P * n)) as Lz by (unfold z; now rewrite repeat_length).
  assert (length (tl sub) = n) as Lt by (destruct sub; cbn in *; lia).
  assert (length c = S (P * n)) as Lcc. { unfold c. rewrite !app_length, firstn_length, skipn_length, Lz, Lt. nia. }
  assert (c = setSeg n z idx (tl sub)) as Ec. { unfold c, setSeg. do 3 f_equal. lia. }
  assert (forall i, nthZ (upd c 0 (nthZ sub 0)) i = if Nat.eqb i 0 then nthZ sub 0 else nthZ c i) as Hu. { intros i. apply nthZ_upd. lia. }
  assert (forall j t, (j < P)%nat -> (t < n)%nat -> nthZ c (S (j * n + t)) = if Nat.eqb j idx then nthZ sub (S t) else 0) as Hc.
  { intros j t Hj Ht. rewrite Ec. rewrite (setSeg_nth w Hw n Hn P (fun _ => 0) (fun _ => 0)) by assumption. destruct (Nat.eqb_spec j idx) as [->|Hne].
    - rewrite (proj2 (Nat.leb_le _ _)), (proj2 (Nat.ltb_lt _ _)) by lia. cbn [andb]. rewrite nthZ_tl. f_equal. lia.
    - replace ((1 + idx * n <=? S (j * n + t))%nat && (S (j * n + t) <? 1 + idx * n + n)%nat)%bool with false. { unfold z. apply nthZ_repeat0. }
      symmetry. apply andb_false_iff. destruct (Nat.lt_ge_cases j idx); [left; apply Nat.leb_gt|right; apply Nat.ltb_ge]; nia. }
  split; [|split].
  - split; [rewrite upd_length; exact Lcc|]. assert (forall i, (i <= n)%nat -> uword w (nthZ sub i)) as Hs. { intros i Hi'. apply (Forall_nth_lt (uword w) sub 0 i Ws). lia. }
    apply Forall_nthZ. rewrite upd_length, Lcc. intros i Hi'. rewrite Hu. destruct (coord_split n P i Hi') as [->|(j & t & Hj & Ht & ->)]; cbn [Nat.eqb]; [apply Hs; lia|].
    rewrite (Hc j t Hj Ht). destruct (Nat.eqb j idx); [apply Hs; lia|]. split; [lia|apply pow2_pos; lia].
  - rewrite (joint_phase n P bm keys Lbm Hk). rewrite Hu. cbn [Nat.eqb]. unfold phase. f_equal.
    rewrite (zsum_ext P _ (fun i => if Nat.eqb i idx then zsum n (fun t => nthZ sub (S t) * nthZ (nth idx keys []) t) else 0)).
    { rewrite (zsum_single P _ idx HiP). { rewrite Nat.eqb_refl. now rewrite (proj2 Hk idx HiP). } intros i Hi' Hne. now rewrite (proj2 (Nat.eqb_neq _ _) Hne). }
    intros i Hi'. unfold pterm. rewrite (zsum_ext n _ (fun t => (if Nat.eqb i idx then nthZ sub (S t) else 0) * nthZ (nth i keys []) t)).
    2:{ intros t Ht. rewrite Hu. cbn [Nat.eqb]. rewrite (Hc i t Hi' Ht). reflexivity. }
    destruct (Nat.eqb_spec i idx) as [->|Hne]; [rewrite Hi; reflexivity|]. destruct (nth i bm false); [apply zsum_all0; intros; lia|reflexivity].
  - split; [intros j t Hj Hne Ht|split; [intros t Ht|]]; rewrite Hu; cbn [Nat.eqb]; try (rewrite Hc by assumption; now rewrite ?Nat.eqb_refl, ?(proj2 (Nat.eqb_neq _ _) Hne)). reflexivity.
Qed.

(** ** Key switching *)
Lemma mulRow_cons n (lev : list (list Z)) d lo k : (forall j, (lo <= j < lo + k)%nat -> length (nth j lev []) = S n) -> forall b m, length m = n ->
  let r := mulAddRow w lo k lev d (b :: m) in let q := forN lo k (fun k s => let c := nth k lev [] in (wrap w (fst s + wrap w (nthZ d k * nthZ c 0)), vscaleAdd w (nthZ d k) (snd s) (tl c))) (b, m) in
  r = fst q :: snd q /\ length (snd q) = n.
Proof.
  revert lo. induction k as [|k IH]; intros lo H b m Lm; [split; [reflexivity|exact Lm]|]. unfold mulAddRow. cbn [forN fst snd].
  pose proof (H lo ltac:(lia)) as Hl. destruct (nth lo lev []) as [|c0 c]; [cbn in Hl; lia|]. cbn [nthZ nth tl] in *. change (nthZ (c0 :: c) 0) with c0.
  change (vscaleAdd w (nthZ d lo) (b :: m) (c0 :: c)) with (wrap w (b + wrap w (nthZ d lo * c0)) :: vscaleAdd w (nthZ d lo) m c).
  apply (IH (S lo)). { intros j Hj. apply H. lia. }
  unfold vscaleAdd. rewrite map2_length. cbn in Hl. lia.
Qed.
Lemma ksParty_cons n D p (ksk : list (list (list Z))) mask b m : length m = n -> (forall i j, (i < D - n)%nat -> (j < g_level p)%nat -> length (nth j (nth i ksk []) []) = S n) ->
  let r := forN 0 (D - n) (fun ii o => mulAddRow w 0 (g_level p) (nth ii ksk []) (DecomposeScalar w p (nthZ mask (n + ii))) o) (b :: m) in
  let q := ksParty w n D p ksk mask (b, m) in r = fst q :: snd q /\ length (snd q) = n.
Proof.
  intros Lm H. unfold ksParty. cbv zeta.
  pose (J := fun (i : nat) (x : list Z * (Z * list Z)) => fst x = fst (snd x) :: snd (snd x) /\ length (snd (snd x)) = n).
  enough (forall k, (k <= D - n)%nat -> J k (forN 0 k (fun ii o => mulAddRow w 0 (g_level p) (nth ii ksk []) (DecomposeScalar w p (nthZ mask (n + ii))) o) (b :: m),
     forN 0 k (fun jj s => let d := DecomposeScalar w p (nthZ mask (n + jj)) in forN 0 (g_level p) (fun k s => let c := nth k (nth jj ksk []) [] in (wrap w (fst s + wrap w (nthZ d k * nthZ c 0)), vscaleAdd w (nthZ d k) (snd s) (tl c))) s) (b, m))) as HJ by (apply (HJ (D - n)%nat); lia).
  induction k as [|k IH]; intros Hk; [split; [reflexivity|exact Lm]|]. specialize (IH ltac:(lia)). rewrite !forN_S_r. cbn [Nat.add].
  destruct IH as (A & B). cbn [fst snd] in A, B. destruct (forN 0 k _ (b, m)) as (b', m'). cbn [fst snd] in A, B. rewrite A. unfold J. cbn [fst snd].
  apply (mulRow_cons n (nth k ksk []) (DecomposeScalar w p (nthZ mask (n + k))) 0 (g_level p)); [|exact B]. intros j Hj. apply H; lia.
Qed.

Section KS.
Variables (n D P : nat) (p : gadget) (Hok : gadget_ok w p) (bm : list bool) (keys larges : list (list Z)) (ksks : list (list (list (list Z)))) (e : nat -> nat -> nat -> Z) (Eks : Z).
Hypothesis Hn : (0 < n)%nat.
Hypothesis HnD : (n <= D)%nat.
Hypothesis Lbm : length bm = P.
Hypothesis HE : 0 <= Eks.
Hypothesis Hkeys : pkeys n P keys.
Hypothesis Hlarge : pkeys D P larges.
Hypothesis Hpre : forall i, nth i bm false = true -> nth i keys [] = firstn n (nth i larges []) /\ binary (nth i larges []) /\
  ksk_enc w p (nth i keys []) (skipn n (nth i larges [])) (nth i ksks []) (e i) /\ forall a j, (a < D - n)%nat -> (j < g_level p)%nat -> Z.abs (e i a j) <= Eks.

Lemma partyMask_seg i c : partyMask n i c = seg n c i.
Proof. reflexivity. Qed.

Lemma MKKeySwitch_spec out ct : length out = S (P * n) -> lwe_ct w (P * D) ct ->
  let o := MKDefaultKeySwitchTo w P n D p bm ksks out ct in lwe_ct w (P * n) o /\ lsupp bm n P o /\
  dist_le Q (phase (ljkey n bm keys) o) (phase (ljkey D bm larges) ct) (Z.of_nat (nact bm) * ksNoise w p (D - n) Eks).
Proof.
  intros Lo (Lc & Wc). cbv zeta. rewrite (joint_phase n P bm keys Lbm Hkeys), (joint_phase D P bm larges Lbm Hlarge).
  assert (forall i, (i < S (P * D))%nat -> uword w (nthZ ct i)) as Wct by (intros i Hi; apply (Forall_nth_lt (uword w) ct 0 i Wc); lia).
  set (T := fun i o => if nth i bm false then pterm n (nth i keys []) o i else 0). set (T' := fun i => if nth i bm false then pterm D (nth i larges []) ct i else 0).
  pose (cnt := fun m => Z.of_nat (length (filter (fun b : bool => b) (firstn m bm)))).
  pose (J := fun (m : nat) o => (m <= P)%nat -> length o = S (P * n) /\ uword w (nthZ o 0) /\ (forall j t, (j < m)%nat -> (t < n)%nat -> uword w (nthZ o (S (j * n + t)))) /\
    (forall j t, (j < m)%nat -> nth j bm false = false -> (t < n)%nat -> nthZ o (S (j * n + t)) = 0) /\
    dist_le Q (nthZ o 0 + zsum m (fun i => T i o)) (nthZ ct 0 + zsum m T') (cnt m * ksNoise w p (D - n) Eks)).
  unfold MKDefaultKeySwitchTo. match goal with |- context [forN 0 P ?f ?x] => assert (J P (forN 0 P f x)) as HJ end.
  { apply (forN_ind J); unfold J.
    - intros _. rewrite upd_length. split; [exact Lo|]. rewrite nthZ_upd by lia. cbn [Nat.eqb]. split; [apply Wct; lia|]. split; [intros; lia|]. split; [intros; lia|].
      exists 0. cbn [zsum firstn filter length]. split; [apply eqm_eq; ring|]. replace (cnt O) with 0 by reflexivity. lia.
    - intros m o Hm HJ Hm'. destruct (HJ ltac:(lia)) as (L & W0 & W1 & Z1 & (r & Er & Br)). clear HJ. cbn [Nat.add].
      assert (length (partyMask n m o) = n) as Lm. { unfold partyMask. rewrite firstn_length, skipn_length. nia. }
      assert (length (partyMask D m ct) = D) as LmD. { unfold partyMask. rewrite firstn_length, skipn_length. nia. }
      change (active bm m) with (nth m bm false).
      assert (exists bb mk, (if nth m bm false then ksParty w n D p (nth m ksks []) (partyMask D m ct) (nthZ o 0, go_copy (partyMask n m o) (partyMask D m ct)) else (nthZ o 0, repeat 0 (length (partyMask n m o)))) = (bb, mk) /\
        length mk = n /\ uword w bb /\ Forall (uword w) mk /\ (nth m bm false = false -> forall t, nthZ mk t = 0) /\
        dist_le Q (bb + (if nth m bm false then zsum n (fun t => nthZ mk t * nthZ (nth m keys []) t) else 0)) (nthZ o 0 + T' m) (if nth m bm false then ksNoise w p (D - n) Eks else 0)) as (bb & mk & -> & Lmk & Wb & Wm & Zm & (r2 & Er2 & Br2)).
      { destruct (nth m bm false) eqn:Em.
        - destruct (Hpre m Em) as (Ek & Hb & Hksk & He). set (mask := partyMask D m ct) in *.
          assert (go_copy (partyMask n m o) mask = firstn n mask) as ->.
          { apply nthZ_ext; [rewrite go_copy_length, firstn_length; lia|]. rewrite go_copy_length, Lm. intros i Hi. unfold nthZ. rewrite nth_go_copy. rewrite Lm. rewrite (proj2 (Nat.ltb_lt i _)) by lia.
            symmetry. apply (nthZ_firstn mask n i Hi). }
          assert (lwe_ct w D (nthZ o 0 :: mask)) as Hm0. { split; [cbn; lia|]. constructor; [exact W0|]. apply Forall_nthZ. rewrite LmD. intros i Hi. unfold mask, partyMask. rewrite nthZ_firstn, nthZ_skipn by exact Hi. apply Wct. nia. }
          pose proof (proj2 Hlarge m ltac:(lia)) as LL. pose proof (proj2 Hkeys m ltac:(lia)) as Lk.
          pose proof (DefaultKeySwitch_dcmp w Hw (nth m keys []) p Hok (nth m larges []) (repeat 0 (S n)) (nthZ o 0 :: mask) (nth m ksks []) (e m)) as HX.
          pose proof (DefaultKeySwitch_bound w Hw (nth m keys []) p Hok (nth m larges []) (repeat 0 (S n)) (nthZ o 0 :: mask) (nth m ksks []) (e m) Eks) as HY.
          rewrite LL, Lk in HX, HY. rewrite repeat_length in HX, HY. specialize (HX Ek HnD eq_refl Hm0 Hksk). specialize (HY Ek HnD eq_refl Hm0 Hksk Hb He). destruct HX as (HX & _).
          assert (DefaultKeySwitchTo w n D p (repeat 0 (S n)) (nthZ o 0 :: mask) (nth m ksks []) = forN 0 (D - n) (fun ii o => mulAddRow w 0 (g_level p) (nth ii (nth m ksks []) []) (DecomposeScalar w p (nthZ mask (n + ii))) o) (nthZ o 0 :: firstn n mask)) as EQ.
          { unfold DefaultKeySwitchTo. cbv zeta. rewrite (go_copy_full 0) by (rewrite repeat_length, firstn_length; cbn [length]; lia). reflexivity. }
          destruct (ksParty_cons n D p (nth m ksks []) mask (nthZ o 0) (firstn n mask)) as (E1 & E2).
          { rewrite firstn_length. lia. } { intros i j Hi Hj. destruct Hksk as (Lks & Hks). specialize (Hks i). rewrite skipn_length, LL in Hks. destruct (Hks Hi) as (_ & Hlv). destruct (Hlv j Hj) as ((HL & _) & _). rewrite HL, Lk. reflexivity. }
          rewrite <- EQ in E1. destruct (ksParty w n D p (nth m ksks []) mask (nthZ o 0, firstn n mask)) as (bb & mk). cbn [fst snd] in E1, E2. exists bb, mk. rewrite E1 in HX, HY. destruct HX as (_ & HXw). pose proof (Forall_inv HXw) as Hw1. pose proof (Forall_inv_tail HXw) as Hw2.
          split; [reflexivity|]. split; [exact E2|]. split; [exact Hw1|]. split; [exact Hw2|]. split; [discriminate|].
          destruct HY as (r2 & Er2 & Br2). exists r2. split; [|exact Br2]. rewrite <- Er2. apply eqm_eq. unfold phase, T'. rewrite Em, LL, Lk. unfold pterm. change (nthZ (bb :: mk) 0) with bb. change (nthZ (nthZ o 0 :: mask) 0) with (nthZ o 0).
          f_equal. f_equal. apply zsum_ext. intros t Ht. f_equal. change (nthZ (nthZ o 0 :: mask) (S t)) with (nthZ mask t). unfold mask, partyMask. rewrite nthZ_firstn, nthZ_skipn by exact Ht. reflexivity.
        - exists (nthZ o 0), (repeat 0 (length (partyMask n m o))). rewrite Lm. split; [reflexivity|]. split; [apply repeat_length|]. split; [exact W0|]. split; [apply Forall_forall; intros x Hx; apply repeat_spec in Hx; subst x; split; [lia|apply pow2_pos; lia]|].
          split; [intros _ t; apply nthZ_repeat0|]. exists 0. split; [unfold T'; rewrite Em; apply eqm_eq; ring|lia]. }
      replace (firstn (S (m * n)) o ++ mk ++ skipn (S ((m + 1) * n)) o) with (setSeg n o m mk).
      2:{ unfold setSeg. cbn [Nat.add]. do 3 f_equal. lia. }
      pose proof (setSeg_length n Hn P (fun _ => 0) (fun _ => 0) o m mk L ltac:(lia) Lmk) as LS.
      rewrite upd_length. split; [exact LS|].
      assert (forall i, nthZ (upd (setSeg n o m mk) 0 bb) i = if Nat.eqb i 0 then bb else nthZ (setSeg n o m mk) i) as Hu. { intros i. apply nthZ_upd. lia. }
      assert (forall j t, (j < P)%nat -> (t < n)%nat -> nthZ (upd (setSeg n o m mk) 0 bb) (S (j * n + t)) = if Nat.eqb j m then nthZ mk t else nthZ o (S (j * n + t))) as Hs.
      { intros j t Hj Ht. rewrite Hu. cbn [Nat.eqb]. rewrite <- (seg_nth n (setSeg n o m mk) j t Ht). rewrite (seg_setSeg w Hw n Hn P (fun _ => 0) (fun _ => 0)) by (assumption || lia).
        destruct (Nat.eqb j m); [reflexivity|]. apply seg_nth. exact Ht. }
      split; [rewrite Hu; exact Wb|]. split; [|split].
      + intros j t Hj Ht. rewrite Hs by (lia || exact Ht). destruct (Nat.eqb_spec j m) as [->|]; [apply (Forall_nth_lt (uword w) mk 0 t Wm); lia|apply W1; lia].
      + intros j t Hj Ej Ht. rewrite Hs by (lia || exact Ht). destruct (Nat.eqb_spec j m) as [->|]; [now apply Zm|apply Z1; assumption || lia].
      + exists (r + r2). assert (cnt (S m) = cnt m + if nth m bm false then 1 else 0) as Ec.
        { unfold cnt. rewrite <- Lbm in Hm'. rewrite (firstn_S_nth m bm false ltac:(lia)), filter_app, app_length. cbn [filter]. destruct (nth m bm false); cbn [length]; lia. }
        split.
        * rewrite <- Er, <- Er2. apply eqm_eq. rewrite Hu. cbn [Nat.eqb zsum].
          rewrite (zsum_ext m (fun i => T i (upd (setSeg n o m mk) 0 bb)) (fun i => T i o)).
          2:{ intros i Hi. unfold T, pterm. destruct (nth i bm false); [|reflexivity]. apply zsum_ext. intros t Ht. rewrite Hs by (lia || exact Ht). destruct (Nat.eqb_spec i m); [lia|reflexivity]. }
          replace (T m (upd (setSeg n o m mk) 0 bb)) with (if nth m bm false then zsum n (fun t => nthZ mk t * nthZ (nth m keys []) t) else 0).
          { ring. } unfold T, pterm. destruct (nth m bm false); [|reflexivity]. apply zsum_ext. intros t Ht. rewrite Hs by (lia || exact Ht). now rewrite Nat.eqb_refl.
        * rewrite Ec. destruct (nth m bm false); lia. }
  destruct (HJ (le_n P)) as (A & B & C & E & F). split; [split; [exact A|]|split].
  - apply Forall_nthZ. rewrite A. intros i Hi. destruct (coord_split n P i Hi) as [->|(j & t & Hj & Ht & ->)]; [exact B|now apply C].
  - intros i t Hi Ei Ht. now apply E.
  - unfold nact. unfold cnt in F. rewrite (firstn_all2 bm) in F by lia. exact F.
Qed.
End KS.
End W.
