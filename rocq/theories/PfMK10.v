(** Lemmas behind PropMK.v: operations at the joint key, external products, and the concrete findings. *)
From Verif Require Import Base NegaRing SpecNum ModelNum PfNum ModelVec SpecVec PfVec ModelPoly SpecPoly PfPoly ModelGadget SpecGadget ModelParams ModelEncoder ModelLWE SpecLWE ModelGLWE SpecGLWE PfGLWE ModelBoot SpecBoot ModelBinary SpecBinary
  ModelPub SpecPub ModelMK ModelMKBin SpecMK PfLWE PfBoot4 PfMK2 PfMK3 PfMK4 PfMK5 PfMK6 PfMK7 PfMK8 PfMK9 PropLWE PropGLWE PropBoot PropPub ExMK.

Lemma MKLWEOps_spec w n P bm keys (st : store) out a b : 0 < w -> length bm = P -> pkeys n P keys -> lwe_ct w (P * n) (st out) -> lwe_ct w (P * n) (st a) -> lwe_ct w (P * n) (st b) ->
  forall c, let ph s := phase (ljkey n bm keys) s in
  let r st' v := lwe_ct w (P * n) (st' out) /\ eqm (2 ^ w) (ph (st' out)) v /\ (forall y, y <> out -> st' y = st y) in
  r (AddLWETo w st out a b) (ph (st a) + ph (st b)) /\ r (SubLWETo w st out a b) (ph (st a) - ph (st b)) /\ r (NegLWETo w st out a) (- ph (st a)) /\
  r (ScalarMulLWETo w st out a c) (c * ph (st a)) /\ r (ScalarMulAddLWETo w st out a c) (ph (st out) + c * ph (st a)) /\ r (ScalarMulSubLWETo w st out a c) (ph (st out) - c * ph (st a)) /\
  r (AddPlainLWETo w st out a c) (ph (st a) + c) /\ r (SubPlainLWETo w st out a c) (ph (st a) - c).
Proof.
  intros Hw Lbm Hk Ho Ha Hb c. pose proof (ljkey_length n P bm keys Lbm Hk) as Ll. set (k := ljkey n bm keys) in *. cbv zeta. rewrite <- Ll in *.
  pose proof (proj1 Ho) as Lo. pose proof (proj1 Ha) as La. pose proof (proj1 Hb) as Lb.
  split; [now apply C22_AddLWE|]. split; [now apply C22_SubLWE|]. split; [now apply C22_NegLWE|]. split; [now apply C22_ScalarMulLWE|].
  split; [now apply C22_ScalarMulAddLWE|]. split; [now apply C22_ScalarMulSubLWE|]. split; [now apply C22_AddPlainLWE|now apply C22_SubPlainLWE].
Qed.
Lemma MKGLWEOps_spec w N P bm keys logN n (s : nat -> list (list Z)) out a b : 0 < w -> (0 < N)%nat -> 0 < splitBits logN -> 0 <= n -> Z.of_nat N = 2 ^ n -> out <> a -> length bm = P ->
  glwe_ct w N P (s out) -> glwe_ct w N P (s a) -> glwe_ct w N P (s b) ->
  forall c d p fp, wpoly w N p -> let ph x := gphase N P (jkey N bm keys) x in let r := gopok w N P (jkey N bm keys) s out in
  r (AddGLWETo w P s out a b) (padd (ph (s a)) (ph (s b))) /\ r (SubGLWETo w P s out a b) (psub (ph (s a)) (ph (s b))) /\ r (NegGLWETo w P s out a) (popp (ph (s a))) /\
  r (ScalarMulGLWETo w P s out a c) (pscale c (ph (s a))) /\ r (ScalarMulAddGLWETo w P s out a c) (padd (ph (s out)) (pscale c (ph (s a)))) /\
  r (ScalarMulSubGLWETo w P s out a c) (psub (ph (s out)) (pscale c (ph (s a)))) /\ r (PolyMulGLWETo w logN N P s out a p) (pmul (pol N p) (ph (s a))) /\
  r (PolyMulAddGLWETo w logN N P s out a p) (padd (ph (s out)) (pmul (pol N p) (ph (s a)))) /\ r (PolyMulSubGLWETo w logN N P s out a p) (psub (ph (s out)) (pmul (pol N p) (ph (s a)))) /\
  r (FFTPolyMulGLWETo w N P s out a fp) (pmul (pol N fp) (ph (s a))) /\ r (MonomialMulGLWETo w N P s out a d) (pmul (pmono d) (ph (s a))) /\
  r (MonomialMulAddGLWETo w N P s out a d) (padd (ph (s out)) (pmul (pmono d) (ph (s a)))) /\ r (MonomialMulSubGLWETo w N P s out a d) (psub (ph (s out)) (pmul (pmono d) (ph (s a)))) /\
  r (AddPlainGLWETo w P s out a p) (padd (ph (s a)) (pol N p)) /\ r (SubPlainGLWETo w P s out a p) (psub (ph (s a)) (pol N p)).
Proof.
  intros Hw HN Hl Hn HNn Hne Lbm Ho Ha Hb c d p fp Hp. cbv zeta. pose proof (proj1 Hp) as Lp.
  split; [now apply C22_AddGLWE|]. split; [now apply C22_SubGLWE|]. split; [now apply C22_NegGLWE|]. split; [now apply C22_ScalarMulGLWE|]. split; [now apply C22_ScalarMulAddGLWE|].
  split; [now apply C22_ScalarMulSubGLWE|]. split; [now apply C22_PolyMulGLWE|]. split; [now apply C22_PolyMulAddGLWE|]. split; [now apply C22_PolyMulSubGLWE|]. split; [now apply C22_FFTPolyMulGLWE|].
  split; [now apply (C22_MonomialMulGLWE w N P _ s out a n)|]. split; [now apply (C22_MonomialMulAddGLWE w N P _ s out a n)|]. split; [now apply (C22_MonomialMulSubGLWE w N P _ s out a n)|].
  split; [now apply C22_AddPlainGLWE|now apply C22_SubPlainGLWE].
Qed.

Lemma index_ok P idx : (idx < P)%nat -> indexAccepted (Z.of_nat P) (Z.of_nat idx) = true.
Proof. intros H. unfold indexAccepted. destruct (Z.ltb_spec (Z.of_nat P) (Z.of_nat idx)); [lia|reflexivity]. Qed.
Lemma index_refuted : exists P idx : nat, indexAccepted (Z.of_nat P) (Z.of_nat idx) = true /\
  forall n sub ct, (0 < n)%nat -> length sub = S n -> length ct = S (P * n) -> LWECopyFromSubKey ct sub idx = None.
Proof.
  exists 2%nat, 2%nat. split; [reflexivity|]. intros n sub ct Hn Ls Lc. unfold LWECopyFromSubKey. rewrite Ls, Lc. replace (S n - 1)%nat with n by lia.
  destruct (Nat.eqb n 0); [reflexivity|]. destruct (negb _); [reflexivity|]. destruct (Nat.ltb_spec (S (2 * n)) (1 + (2 + 1) * n)); [reflexivity|lia].
Qed.

Lemma ext_products : forall w N P p pa bm crspk idx u0 u1 keys a r e e' ep Ek lev mu ea A Ea, 0 < w -> (0 < N)%nat -> gadget_ok w p -> gadget_ok w pa -> length bm = P -> nth idx bm false = true ->
  uni_enc w N p a (nth idx keys []) r u0 u1 (pol N (nth idx keys [])) e e' -> (forall i, nth i bm false = true -> crs_enc w N p a (nth i keys []) (nth i crspk []) (ep i)) ->
  pbound 1 r -> 0 <= Ek -> (forall i, nth i bm false = true -> pbound 1 (pol N (nth i keys []))) ->
  (forall j, (j < g_level p)%nat -> pbound Ek (e j) /\ pbound Ek (e' j)) -> (forall i j, nth i bm false = true -> (j < g_level p)%nat -> pbound Ek (ep i j)) ->
  glev_enc w N 1 pa [nth idx keys []] lev mu ea -> 0 <= Ea -> (forall j, (j < g_level pa)%nat -> pbound Ea (ea j)) -> grows A mu ->
  forall buf rbuf ct, length buf = S P -> gshape N P rbuf -> (forall i, (i <= P)%nat -> used bm i -> wpoly w N (nth i ct [])) ->
  (forall out, gshape N P out -> let o := MKExternalProdGLWETo w N P pa p bm crspk idx u0 u1 buf rbuf lev ct out in
    glwe_ct w N P o /\ gsupp bm N P o /\ pdist_le (2 ^ w) (gphase N P (jkey N bm keys) o) (pmul mu (gphase N P (jkey N bm keys) ct)) (mkExtNoise w N P pa p A Ea Ek)) /\
  (forall out, glwe_ct w N P out -> let o := MKExternalProdAddGLWETo w N P pa p bm crspk idx u0 u1 buf rbuf lev ct out in
    glwe_ct w N P o /\ (forall i, (i < P)%nat -> nth i bm false = false -> nth (S i) o [] = nth (S i) out []) /\
    pdist_le (2 ^ w) (gphase N P (jkey N bm keys) o) (padd (gphase N P (jkey N bm keys) out) (pmul mu (gphase N P (jkey N bm keys) ct))) (mkExtNoise w N P pa p A Ea Ek)).
Proof.
  intros w N P p pa bm crspk idx u0 u1 keys a r e e' ep Ek lev mu ea A Ea Hw HN Hok Hoka Lbm Hidx Hu Hc Hr HEk Hkeys He Hep Hlev HEa Hea Hmu.
  exact (ext_spec w Hw N HN P p Hok bm Lbm crspk idx Hidx u0 u1 keys a r (pol N (nth idx keys [])) e e' ep Hu Hc 1 Ek (Hkeys idx Hidx) Hr HEk Hkeys He Hep pa Hoka lev mu ea A Ea Hlev ltac:(reflexivity) eq_refl HEa Hea Hmu).
Qed.

(** A noiseless GLev encryption of the constant c. *)
Definition xlev (c : Z) : list (list (list Z)) := tab 4 (fun j => [upd (repeat 0 8) 0 (c * BaseQ 64 xpa j); repeat 0 8]).
Lemma xlev_enc s : glev_enc 64 8 1 xpa [s] (xlev 1) pone (fun _ => pzero).
Proof.
  split; [reflexivity|]. intros j Hj. change (g_level xpa) with 4%nat in Hj. unfold xlev. rewrite nth_tab by exact Hj. split; [split; [reflexivity|intros [|[|i]] Hi; [reflexivity..|lia]]|].
  assert (1 * BaseQ 64 xpa j = 2 ^ (64 - (Z.of_nat j + 1) * g_logBase xpa)) as ->. { destruct j as [|[|[|[|j]]]]; [reflexivity..|lia]. }
  unfold gphase. cbn [nth psum]. intros t. cbn [cf padd]. pose proof (pol_const 8 ltac:(lia) (2 ^ (64 - (Z.of_nat j + 1) * g_logBase xpa)) t) as H1. pose proof (pol_zero 8 ltac:(lia)) as H0.
  assert (peq 0 (pmul (pol 8 (repeat 0 8)) (pol 8 s)) pzero) as H2. { rewrite H0. intros u. exists 0. unfold pmul, pzero. cbn [cf]. rewrite zsum_all0; [lia|]. intros; lia. }
  specialize (H2 t). destruct H1 as (q1 & H1), H2 as (q2 & H2). exists 0. cbn [cf pconst pscale pzero] in *. lia.
Qed.
Lemma grows_one N : grows 1 (@pone N).
Proof. intros x b Hx k. pose proof (@pmul_1_l N 0 x k) as H. destruct H as (q & H). specialize (Hx k). lia. Qed.

Lemma ext_hyps : exists a ep r e e', uni_enc 64 8 xpr a (nth 2 xkeys []) r (ek_u0 xek2) (ek_u1 xek2) (pol 8 (nth 2 xkeys [])) e e' /\
  (forall i, nth i xbm false = true -> crs_enc 64 8 xpr a (nth i xkeys []) (nth i (map ek_crs xeks) []) (ep i)) /\ pbound 1 r /\
  (forall j, (j < g_level xpr)%nat -> pbound 3 (e j) /\ pbound 3 (e' j)) /\ (forall i j, nth i xbm false = true -> (j < g_level xpr)%nat -> pbound 3 (ep i j)) /\
  glev_enc 64 8 1 xpa [nth 2 xkeys []] (xlev 1) pone (fun _ => pzero) /\ grows 1 (@pone 8) /\ mkExtNoise 64 8 3 xpa xpr 1 0 3 < 2 ^ 42.
Proof.
  destruct (mk_relin _ _ _ _ _ _ _ _ _ _ _ _ _ _ _ _ _ _ _ _ xkeys_ok) as (a & ep & H1 & H2). destruct (H2 2%nat eq_refl) as (r & e & e' & H3 & H4 & H5).
  exists a, ep, r, e, e'. split; [exact H3|]. split; [intros i Hi; apply (H1 i Hi)|]. split; [exact H4|]. split; [exact H5|]. split; [intros i j Hi; apply (H1 i Hi)|].
  split; [apply xlev_enc|]. split; [apply grows_one|vm_compute; reflexivity].
Qed.
Definition xct : list (list Z) := [upd (repeat 0 8) 0 (2 ^ 62); repeat 0 8; repeat 0 8; repeat 0 8].
Lemma xsub_run : MKExternalProdSubGLWETo 64 8 3 xpa xpr xbm (map ek_crs xeks) 2 (ek_u0 xek2) (ek_u1 xek2) (repeat [] 4) (repeat (repeat 0 8) 4) (xlev 1) xct (repeat (repeat 0 8) 4) = xct.
Proof. vm_compute. reflexivity. Qed.
Lemma xkey_bound i : nth i xbm false = true -> pbound 1 (pol 8 (nth i xkeys [])).
Proof. intros Hi. exact (key_bound 64 8 ltac:(lia) 3 4 xpa xpr xpB xpK xbm xkeys xeks 2 2 3 3 3 xkeys_ok i Hi). Qed.

Lemma ext_sub_refuted : ~ forall w N P p pa bm crspk idx u0 u1 keys a r e e' ep Ek lev mu ea A Ea, 0 < w -> (0 < N)%nat -> gadget_ok w p -> gadget_ok w pa -> length bm = P -> nth idx bm false = true ->
  uni_enc w N p a (nth idx keys []) r u0 u1 (pol N (nth idx keys [])) e e' -> (forall i, nth i bm false = true -> crs_enc w N p a (nth i keys []) (nth i crspk []) (ep i)) ->
  pbound 1 r -> 0 <= Ek -> (forall i, nth i bm false = true -> pbound 1 (pol N (nth i keys []))) ->
  (forall j, (j < g_level p)%nat -> pbound Ek (e j) /\ pbound Ek (e' j)) -> (forall i j, nth i bm false = true -> (j < g_level p)%nat -> pbound Ek (ep i j)) ->
  glev_enc w N 1 pa [nth idx keys []] lev mu ea -> 0 <= Ea -> (forall j, (j < g_level pa)%nat -> pbound Ea (ea j)) -> grows A mu ->
  forall buf rbuf ct, length buf = S P -> gshape N P rbuf -> (forall i, (i <= P)%nat -> used bm i -> wpoly w N (nth i ct [])) ->
  forall out, glwe_ct w N P out -> let o := MKExternalProdSubGLWETo w N P pa p bm crspk idx u0 u1 buf rbuf lev ct out in
    pdist_le (2 ^ w) (gphase N P (jkey N bm keys) o) (psub (gphase N P (jkey N bm keys) out) (pmul mu (gphase N P (jkey N bm keys) ct))) (mkExtNoise w N P pa p A Ea Ek).
Proof.
  intros H. destruct ext_hyps as (a & ep & r & e & e' & H1 & H2 & H3 & H4 & H5 & H6 & H7 & H8). destruct xgad_ok as (Ga & Gr & _ & _).
  specialize (H 64 8%nat 3%nat xpr xpa xbm (map ek_crs xeks) 2%nat (ek_u0 xek2) (ek_u1 xek2) xkeys a r e e' ep 3 (xlev 1) pone (fun _ => pzero) 1 0
    ltac:(lia) ltac:(lia) Gr Ga eq_refl eq_refl H1 H2 H3 ltac:(lia) xkey_bound H4 H5 H6 ltac:(lia) ltac:(intros j _ k; cbn; lia) H7 (repeat [] 4) (repeat (repeat 0 8) 4) xct eq_refl).
  assert (wpoly 64 8 (repeat 0 8)) as W0 by (split; [reflexivity|]; repeat (apply Forall_cons; [vm_compute; split; congruence|]); apply Forall_nil).
  assert (forall i, (i <= 3)%nat -> wpoly 64 8 (nth i xct [])) as Wx.
  { intros [|[|[|[|i]]]] Hi; try lia; try exact W0. split; [reflexivity|]. repeat (apply Forall_cons; [vm_compute; split; congruence|]). apply Forall_nil. }
  specialize (H ltac:(split; [reflexivity|intros [|[|[|[|i]]]] Hi; [reflexivity..|lia]]) ltac:(intros i Hi _; now apply Wx) (repeat (repeat 0 8) 4)).
  cbv zeta in H. rewrite xsub_run in H. destruct H as (d & Hd & Bd). { split; [reflexivity|]. intros [|[|[|[|i]]]] Hi; try lia; exact W0. }
  specialize (Hd 0). specialize (Bd 0). pose proof (gph_trivial 64 8 ltac:(lia) 3 xbm xkeys xct) as T1. 
  specialize (T1 ltac:(intros [|[|[|j]]] Hj; [reflexivity..|lia])).
  pose proof (gph_trivial 64 8 ltac:(lia) 3 xbm xkeys (repeat (repeat 0 8) 4)) as T2. specialize (T2 ltac:(intros [|[|[|j]]] Hj; [reflexivity..|lia])).
  pose proof (@pmul_1_l 8 (2 ^ 64) (gphase 8 3 (jkey 8 xbm xkeys) xct)) as T3.
  pose proof (T1 0) as U1. pose proof (T2 0) as U2. pose proof (T3 0) as U3. cbn [cf psub] in Hd.
  assert (cf (pol 8 (nth 0 xct [])) 0 = 2 ^ 62) as V1 by reflexivity. assert (cf (pol 8 (nth 0 (repeat (repeat 0 8) 4) [])) 0 = 0) as V2 by reflexivity. rewrite V1 in U1. rewrite V2 in U2.
  destruct Hd as (q & Hd), U1 as (q1 & U1), U2 as (q2 & U2), U3 as (q3 & U3).
  set (g1 := cf (gphase 8 3 (jkey 8 xbm xkeys) xct) 0) in *. set (g2 := cf (gphase 8 3 (jkey 8 xbm xkeys) (repeat (repeat 0 8) 4)) 0) in *. set (g3 := cf (pmul pone (gphase 8 3 (jkey 8 xbm xkeys) xct)) 0) in *.
  clearbody g1 g2 g3. clear -Hd U1 U2 U3 Bd H8. change (2 ^ 62) with 4611686018427387904 in *. change (2 ^ 64) with 18446744073709551616 in *. change (2 ^ 42) with 4398046511104 in *.
  set (M := mkExtNoise 64 8 3 xpa xpr 1 0 3) in *. clearbody M. lia.
Qed.

Lemma xor_refuted : exists w key boot B (st : store), sign_boot w key boot (2 ^ (w - 2) - 1) 0 /\ bool_enc w key B (st 0%nat) true /\ bool_enc w key B (st 1%nat) false /\
  2 ^ (w - 3) + 2 * B <= 2 ^ (w - 2) - 1 /\
  DecryptLWEBool w key (runGate w (length key) boot gXOR st 2 0 1 2%nat) = true /\ DecryptLWEBool w key (mkRunGate w (length key) boot gXOR st 2 0 1 2%nat) = false.
Proof.
  exists 8, [], (fun _ c => [if nthZ c 0 <? 128 then 32 else 224]), 10, (fun i => match i with O => [22] | 1%nat => [214] | _ => [0] end).
  split; [|split; [|split; [|split; [vm_compute; congruence|split; vm_compute; reflexivity]]]].
  - intros out ct phi b _ (L & Hc) Hphi HR. unfold phase in Hphi. cbn [length zsum] in Hphi. assert (uword 8 (nthZ ct 0)) as Hu by (apply (Forall_nth_lt _ ct 0 0%nat Hc); cbn in L; lia).
    unfold uword in Hu. destruct Hphi as (q & Hq). change (2 ^ 8) with 256 in *. change (2 ^ (8 - 2)) with 64 in *.
    assert (nthZ ct 0 < 128 <-> b = true) as Hb. { destruct b; split; intros; try reflexivity; try discriminate; lia. }
    split; [split; [reflexivity|apply Forall_cons; [destruct (nthZ ct 0 <? 128); vm_compute; split; congruence|apply Forall_nil]]|].
    destruct (Z.ltb_spec (nthZ ct 0) 128) as [H|H].
    + rewrite (proj1 Hb H). exists 0. split; [exists 0; reflexivity|lia].
    + destruct b; [pose proof (proj2 Hb eq_refl); lia|]. exists 0. split; [exists 1; reflexivity|lia].
  - split; [split; [reflexivity|repeat constructor; vm_compute; congruence]|]. exists (-10). split; [exists 0; reflexivity|lia].
  - split; [split; [reflexivity|repeat constructor; vm_compute; congruence]|]. exists (-10). split; [exists 1; reflexivity|lia].
Qed.

Lemma decryptor_refuted : exists P sk idx, NoDup (map fst sk) /\ (forall i, In i (map fst sk) -> (i < P)%nat) /\ sk <> [] /\ NewDecryptor P sk = None /\
  exists d, NewDecryptor P [(0%nat, [1])] = Some d /\ (idx < P)%nat /\ AddSecretKey d idx [1] = None.
Proof.
  exists 2%nat, [(1%nat, [1])], 1%nat. split; [repeat constructor; intros []|]. split; [intros i [<-|[]]; cbn; lia|]. split; [discriminate|]. split; [reflexivity|].
  eexists. split; [reflexivity|]. split; [lia|reflexivity].
Qed.

Definition xuni (mm : Z) (ms : list Z) := fst (UniEncryptTo 64 3 8 (xU 0) (xG 0) mm (fwdFFT 64 (nth 0 xkeys [])) xpr xcrs (xaux 0) (repeat 4 8) (repeat (repeat (repeat 0 8) 2) 3) (repeat (repeat (repeat 0 8) 2) 3) ms (2, 4)%nat).
Lemma uni_poly_refuted : exists u0 u1 i, (forall j, 0 <= nthZ (repeat 0 8) j < g_base xpr) /\ (u0, u1) = xuni 16 (repeat 0 8) /\
  nthZ (UniDecryptPolyTo 64 3 8 (fwdFFT 64 (nth 0 xkeys [])) xpr (repeat 5 8) (repeat 6 8) u0 u1) i = g_base xpr.
Proof.
  exists (fst (xuni 16 (repeat 0 8))), (snd (xuni 16 (repeat 0 8))), 2%nat. split; [intros j; rewrite nthZ_repeat0; vm_compute; split; congruence|]. split; [now destruct (xuni 16 (repeat 0 8))|]. vm_compute. reflexivity.
Qed.
