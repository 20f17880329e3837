From Verif Require Import Base NegaRing SpecNum ModelNum PfNum ModelVec SpecVec PfVec ModelPoly SpecPoly PfPoly PfPerm PfSplit ModelGadget SpecGadget PfGadget ModelParams ModelEncoder PfEncoder ModelLWE SpecLWE PfLWE PfKS PfKS2 ModelGLWE SpecGLWE PfGLWE PfGLWE2 PfGLWE3 PfGLWE4 ModelPub SpecPub PfPub.

Section W.
Variable w : Z.
Hypothesis Hw : 0 < w.
Notation Q := (2 ^ w).
Variable N : nat.
Hypothesis HN : (0 < N)%nat.
Variable k : nat.
Add Ring nring : (@npoly_ring N Q) (setoid (@peq_equiv N Q) (@npoly_ring_ext N Q)).
Variable logN : Z.
Hypothesis HlN : 0 < splitBitsShort logN.
Variables B G : nat -> Z.
Notation NZ := (Z.of_nat N).

(** ** Segments of an LWE ciphertext *)
Notation sg := (seg N).
Notation st_ := (setSeg N).
Lemma seg_length c j : length c = S (k * N) -> (j < k)%nat -> length (sg c j) = N.
Proof. intros L Hj. unfold seg. rewrite firstn_length, skipn_length, L. nia. Qed.
Lemma seg_nth c j t : (t < N)%nat -> nthZ (sg c j) t = nthZ c (S (j * N + t)).
Proof. intros Ht. unfold seg. rewrite Base.nthZ_firstn, Base.nthZ_skipn by exact Ht. f_equal. Qed.
Lemma setSeg_length c j v : length c = S (k * N) -> (j < k)%nat -> length v = N -> length (st_ c j v) = S (k * N).
Proof. intros L Hj Lv. unfold setSeg. rewrite !app_length, firstn_length, skipn_length, L, Lv. nia. Qed.
Lemma setSeg_nth c j v i : length c = S (k * N) -> (j < k)%nat -> length v = N ->
  nthZ (st_ c j v) i = if ((1 + j * N <=? i) && (i <? 1 + j * N + N))%bool%nat then nthZ v (i - (1 + j * N)) else nthZ c i.
Proof.
  intros L Hj Lv. unfold setSeg. assert (length (firstn (1 + j * N) c) = 1 + j * N)%nat as Lf by (rewrite firstn_length, L; nia).
  destruct (Nat.leb_spec (1 + j * N) i); cbn [andb].
  - rewrite (nthZ_app_r i) by lia. rewrite Lf. destruct (Nat.ltb_spec i (1 + j * N + N)).
    + rewrite nthZ_app_l by lia. reflexivity.
    + rewrite nthZ_app_r by lia. rewrite Base.nthZ_skipn, Lv. f_equal. lia.
  - rewrite (nthZ_app_l i) by lia. now rewrite Base.nthZ_firstn by lia.
Qed.
Lemma seg_setSeg c j v j' : length c = S (k * N) -> (j < k)%nat -> length v = N -> (j' < k)%nat -> sg (st_ c j v) j' = if Nat.eqb j' j then v else sg c j'.
Proof.
  intros L Hj Lv Hj'. apply nthZ_ext.
  - rewrite seg_length; [|now apply setSeg_length|exact Hj']. destruct (Nat.eqb j' j); [now rewrite Lv|now rewrite seg_length].
  - rewrite seg_length; [|now apply setSeg_length|exact Hj']. intros t Ht. rewrite seg_nth, setSeg_nth by assumption.
    destruct (Nat.eqb_spec j' j) as [->|Hne].
    + destruct (Nat.leb_spec (1 + j * N) (S (j * N + t))), (Nat.ltb_spec (S (j * N + t)) (1 + j * N + N)); cbn [andb]; try lia. f_equal. lia.
    + rewrite seg_nth by assumption. destruct (Nat.leb_spec (1 + j * N) (S (j' * N + t))), (Nat.ltb_spec (S (j' * N + t)) (1 + j * N + N)); cbn [andb]; try reflexivity. exfalso.
      assert (j' < j \/ j < j')%nat as [?|?] by lia; nia.
Qed.
Lemma body_setSeg c j v : length c = S (k * N) -> (j < k)%nat -> length v = N -> nthZ (st_ c j v) 0 = nthZ c 0.
Proof. intros L Hj Lv. rewrite setSeg_nth by assumption. reflexivity. Qed.
Lemma seg_upd0 c x j : (0 < length c)%nat -> sg (upd c 0 x) j = sg c j.
Proof. destruct c; cbn; [lia|]. reflexivity. Qed.

Lemma dot_cf x y : length y = N -> zsum N (fun t => nthZ x t * nthZ y t) = cf (pmul (pol N x) (pol N (rev y))) (NZ - 1).
Proof.
  intros Ly. cbn [cf pmul]. apply zsum_ext. intros t Ht. rewrite cf_pol_at by assumption.
  replace (NZ - 1 - Z.of_nat t) with (Z.of_nat (N - 1 - t)) by lia. rewrite cf_pol_at by lia. f_equal.
  unfold nthZ. rewrite rev_nth by lia. rewrite Ly. f_equal. lia.
Qed.

Section L.
Variable sk : list (list Z).
Hypothesis Hsk : skey N k sk.
Variable s : list Z.
Hypothesis Hs : flat N sk s.
Notation R_ j := (pol N (nth j (revkey sk) [])).
Lemma revkey_nth j : nth j (revkey sk) [] = rev (nth j sk []).
Proof. unfold revkey. change (@nil Z) with (@rev Z []) at 1. apply map_nth. Qed.
Lemma phase_segs c : length c = S (k * N) -> phase s c = nthZ c 0 + cf (psum k (fun j => pmul (pol N (sg c j)) (R_ j))) (NZ - 1).
Proof.
  intros L. unfold phase. f_equal. destruct Hs as (Ls & Hn). destruct Hsk as (Lk & Hl). rewrite Ls, Lk, zsum_concat, cf_psum. apply zsum_ext. intros j Hj.
  rewrite revkey_nth, <- dot_cf by (apply Hl, Hj). apply zsum_ext. intros t Ht. rewrite seg_nth by exact Ht. rewrite (Hn j t) by lia. reflexivity.
Qed.
Lemma lwe_ct_segs c : length c = S (k * N) -> uword w (nthZ c 0) -> (forall j, (j < k)%nat -> wpoly w N (sg c j)) -> lwe_ct w (k * N) c.
Proof.
  intros L H0 H. split; [exact L|]. apply Forall_forall. intros x Hx. destruct (In_nth c x 0 Hx) as (i & Hi & <-). fold (nthZ c i). destruct i as [|i]; [exact H0|].
  assert (i = (i / N) * N + i mod N)%nat as E by (rewrite (Nat.div_mod i N) at 1; lia).
  assert (i / N < k)%nat as Hd by (apply Nat.div_lt_upper_bound; lia). pose proof (Nat.mod_upper_bound i N ltac:(lia)) as Hm.
  rewrite E, <- seg_nth by exact Hm. destruct (H _ Hd) as (Lw & F). rewrite Forall_forall in F. apply F. unfold nthZ. apply nth_In. lia.
Qed.

Variables (pk : list (list (list Z))) (E : nat -> npoly N).
Hypothesis Hpk : pk_enc w N k (revkey sk) pk E.
Notation P_ i j := (pol N (nth j (nth i pk []) [])).

Lemma lbody_spec aux c st : ashape N k aux -> length c = S (k * N) ->
  let '(c', (a, t)) := forN 0 k (fun i s =>
      let '(c, (a, st)) := s in
      let '(v, st) := samplePolyB w B (nth i a []) st in
      (upd c 0 (wrap w (nthZ c 0 + dot w v (nth 0 (nth i pk []) []))), (upd a i v, st))) (c, (aux, st)) in
  length c' = S (k * N) /\ (forall j, sg c' j = sg c j) /\ ashape N k a /\ t = ((fst st + k * N)%nat, snd st) /\
  (forall i, (i < k)%nat -> nth i a [] = tab N (fun j => wrap w (B (fst st + i * N + j)%nat))) /\
  eqm Q (nthZ c' 0) (nthZ c 0 + zsum k (fun i => cf (pmul (P_ i 0%nat) (revp N B (fst st + i * N))) (NZ - 1))).
Proof.
  intros (La & Ha) L. destruct st as [b g]. cbn [fst snd].
  set (Pr := fun (m : nat) (z : list Z * (list (list Z) * rst)) => (m <= k)%nat -> let '(c', (a, t)) := z in
    length c' = S (k * N) /\ (forall j, sg c' j = sg c j) /\ ashape N k a /\ t = ((b + m * N)%nat, g) /\
    (forall i, (i < m)%nat -> nth i a [] = tab N (fun j => wrap w (B (b + i * N + j)%nat))) /\
    eqm Q (nthZ c' 0) (nthZ c 0 + zsum m (fun i => cf (pmul (P_ i 0%nat) (revp N B (b + i * N))) (NZ - 1)))).
  match goal with |- let '(_, _) := ?x in _ => assert (Pr k x) as HP; [|unfold Pr in HP; specialize (HP ltac:(lia)); revert HP; generalize x; intros [c' [a t]]; exact (fun H => H)] end.
  apply (forN_ind Pr); unfold Pr.
  - intros _. split; [exact L|]. split; [reflexivity|]. split; [split; assumption|]. split; [f_equal; lia|]. split; [intros; lia|]. cbn [zsum]. rewrite Z.add_0_r. reflexivity.
  - intros m [c' [a t]] Hm IH _. destruct (IH ltac:(lia)) as (A1 & A2 & (A3 & A4) & -> & A5 & A6). cbn [Nat.add]. unfold samplePolyB. cbn [fst snd]. rewrite (A4 m Hm).
    set (v := tab N (fun i => wrap w (B (b + m * N + i)%nat))). assert (length v = N) as Lv by apply tab_length.
    split; [now rewrite upd_length|]. split; [intros j; rewrite seg_upd0 by lia; apply A2|].
    split; [split; [now rewrite upd_length|]; intros i Hi; rewrite nth_upd_if by lia; destruct (Nat.eqb i m); [exact Lv|now apply A4]|].
    split; [f_equal; lia|]. split.
    + intros i Hi. rewrite nth_upd_if by lia. destruct (Nat.eqb_spec i m) as [->|]; [reflexivity|apply A5; lia].
    + rewrite nthZ_upd by lia. cbn [Nat.eqb zsum]. rewrite wrap_eqm, A6. rewrite Z.add_assoc. apply eqm_add; [reflexivity|].
      destruct (proj2 Hpk m Hm) as ((_ & HW) & _). pose proof (proj1 (HW O ltac:(lia))) as Lp. rewrite dot_eqm by lia. rewrite Lp.
      unfold revp. rewrite <- dot_cf by apply tab_length. apply zsum_eqm. intros i Hi. unfold v. rewrite !nthZ_tab, wrap_eqm by exact Hi. now rewrite Z.mul_comm.
Qed.

Lemma lrow_spec i f c r : (i < k)%nat -> length c = S (k * N) -> f = fwdFFT w r -> length r = N ->
  forall n, (n <= k)%nat -> let c' := forN 0 n (fun j c => st_ c j (ShortFFTPolyMulAddPolyTo false w logN N (sg c j) (nth (j + 1) (nth i pk []) []) f)) c in
  length c' = S (k * N) /\ nthZ c' 0 = nthZ c 0 /\ (forall j, (j < n)%nat -> wpoly w N (sg c' j) /\ peq Q (pol N (sg c' j)) (padd (pol N (sg c j)) (pmul (P_ i (S j)) (pol N r)))) /\ (forall j, (n <= j < k)%nat -> sg c' j = sg c j).
Proof.
  intros Hi L -> Lr n Hn. cbn zeta.
  set (Pr := fun (m : nat) c' => (m <= n)%nat -> length c' = S (k * N) /\ nthZ c' 0 = nthZ c 0 /\ (forall j, (j < m)%nat -> wpoly w N (sg c' j) /\ peq Q (pol N (sg c' j)) (padd (pol N (sg c j)) (pmul (P_ i (S j)) (pol N r)))) /\ (forall j, (m <= j < k)%nat -> sg c' j = sg c j)).
  match goal with |- context [forN 0 n ?f c] => enough (Pr n (forN 0 n f c)) as HP by exact (HP (le_n n)) end.
  apply (forN_ind Pr); unfold Pr.
  - intros _. split; [exact L|]. split; [reflexivity|]. split; [intros; lia|reflexivity].
  - intros m c' Hm IH _. destruct (IH ltac:(lia)) as (A & A0 & B1 & C). cbn [Nat.add]. replace (m + 1)%nat with (S m) by lia.
    destruct (proj2 Hpk i Hi) as ((_ & HW) & _).
    destruct (ShortMulAdd_spec N HN false w logN (sg c' m) (nth (S m) (nth i pk []) []) (fwdFFT w r) Hw HlN ltac:(apply seg_length; [exact A|lia]) (HW (S m) ltac:(lia))) as (X & Y).
    pose proof (proj1 X) as Lx. cbn beta in Lx.
    split; [apply setSeg_length; [exact A|lia|exact Lx]|]. split; [rewrite body_setSeg by (assumption || lia); exact A0|].
    split; intros j Hj; rewrite seg_setSeg by (assumption || lia); destruct (Nat.eqb_spec j m) as [->|Hne]; try lia.
    + split; [exact X|]. rewrite Y, C by lia. rewrite pol_fwdFFT by assumption. reflexivity.
    + apply B1. lia.
    + apply C. lia.
Qed.
Lemma lrows_spec (faux : list (list Z)) (r : nat -> list Z) c : (0 < k)%nat -> length c = S (k * N) -> (forall i, (i < k)%nat -> nth i faux [] = fwdFFT w (r i) /\ length (r i) = N) ->
  let c' := forN 0 k (fun i c => forN 0 k (fun j c => st_ c j (ShortFFTPolyMulAddPolyTo false w logN N (sg c j) (nth (j + 1) (nth i pk []) []) (nth i faux []))) c) c in
  length c' = S (k * N) /\ nthZ c' 0 = nthZ c 0 /\ (forall j, (j < k)%nat -> wpoly w N (sg c' j)) /\ forall j, (j < k)%nat -> peq Q (pol N (sg c' j)) (padd (pol N (sg c j)) (psum k (fun i => pmul (P_ i (S j)) (pol N (r i))))).
Proof.
  intros Hk0 L Hr. cbn zeta.
  set (Pr := fun (m : nat) c' => (m <= k)%nat -> (length c' = S (k * N) /\ nthZ c' 0 = nthZ c 0 /\ ((0 < m)%nat -> forall j, (j < k)%nat -> wpoly w N (sg c' j))) /\ forall j, (j < k)%nat -> peq Q (pol N (sg c' j)) (padd (pol N (sg c j)) (psum m (fun i => pmul (P_ i (S j)) (pol N (r i)))))).
  match goal with |- context [forN 0 k ?f c] => enough (Pr k (forN 0 k f c)) as HP by (destruct (HP ltac:(lia)) as ((X1 & X2 & X3) & Y); split; [exact X1|]; split; [exact X2|]; split; [apply X3, Hk0|exact Y]) end.
  apply (forN_ind Pr); unfold Pr.
  - intros _. split; [split; [exact L|split; [reflexivity|lia]]|]. intros j Hj. cbn [psum]. ring.
  - intros m c' Hm IH _. destruct (IH ltac:(lia)) as ((A & A0 & _) & C). cbn [Nat.add]. destruct (Hr m Hm) as (Ef & Lr).
    destruct (lrow_spec m _ c' (r m) Hm A Ef Lr k ltac:(lia)) as (X1 & X0 & X2 & _).
    split; [split; [exact X1|split; [now rewrite X0|intros _ j Hj; now apply X2]]|]. intros j Hj. rewrite (proj2 (X2 j ltac:(lia))), C by lia. cbn [psum]. ring.
Qed.
Lemma lgauss_spec c st : length c = S (k * N) ->
  let '(c', t) := forN 0 k (fun j s => let '(c, st) := s in let '(v, st) := samplePolyAdd w G (sg c j) st in (st_ c j v, st)) (c, st) in
  length c' = S (k * N) /\ nthZ c' 0 = nthZ c 0 /\ (forall j, (j < k)%nat -> wpoly w N (sg c' j)) /\ t = (fst st, (snd st + k * N)%nat) /\
  forall j, (j < k)%nat -> peq Q (pol N (sg c' j)) (padd (pol N (sg c j)) (noisep N G (snd st + j * N))).
Proof.
  intros L. destruct st as [b g]. cbn [fst snd].
  set (Pr := fun (m : nat) (s : list Z * rst) => (m <= k)%nat -> let '(c', t) := s in length c' = S (k * N) /\ nthZ c' 0 = nthZ c 0 /\ (forall j, (j < m)%nat -> wpoly w N (sg c' j)) /\ t = (b, (g + m * N)%nat) /\
    (forall j, (j < m)%nat -> peq Q (pol N (sg c' j)) (padd (pol N (sg c j)) (noisep N G (g + j * N)))) /\ (forall j, (m <= j < k)%nat -> sg c' j = sg c j)).
  match goal with |- let '(_, _) := ?x in _ => assert (Pr k x) as HP; [|unfold Pr in HP; specialize (HP ltac:(lia)); revert HP; generalize x; intros [c' t] (A & A0 & B0 & B1 & C & _)] end.
  2:{ split; [exact A|]. split; [exact A0|]. split; [exact B0|]. split; [exact B1|]. intros j Hj. apply C. lia. }
  apply (forN_ind Pr); unfold Pr.
  - intros _. split; [exact L|]. split; [reflexivity|]. split; [intros; lia|]. split; [f_equal; lia|]. split; [intros; lia|reflexivity].
  - intros m [c' t] Hm IH _. destruct (IH ltac:(lia)) as (A1 & A0 & A2 & T & C & D). cbn [Nat.add]. subst t. unfold samplePolyAdd. cbn [fst snd]. rewrite (seg_length c' m A1 Hm).
    match goal with |- context [st_ c' m ?v] => set (nb := v) end. assert (wpoly w N nb) as Wn by (apply wpoly_tab; exact Hw). pose proof (proj1 Wn) as Ln.
    split; [now apply setSeg_length|]. split; [now rewrite body_setSeg by assumption|]. split; [|split; [f_equal; lia|split]].
    + intros j Hj. rewrite seg_setSeg by (assumption || lia). destruct (Nat.eqb_spec j m); [exact Wn|apply A2; lia].
    + intros j Hj. rewrite seg_setSeg by (assumption || lia). destruct (Nat.eqb_spec j m) as [->|]; [|apply C; lia]. apply pol_peq; [exact HN|]. intros i Hi. cbn [cf padd]. unfold noisep. rewrite !cf_pol_at by assumption.
      unfold nb. rewrite !nthZ_tab by exact Hi. rewrite !wrap_eqm, D by lia. reflexivity.
    + intros j Hj. rewrite seg_setSeg by (assumption || lia). destruct (Nat.eqb_spec j m); [lia|apply D; lia].
Qed.

Lemma rev_aux a : ashape N k a -> ashape N k (forN 0 k (fun i a => upd a i (ReverseInPlace 0 (nth i a []))) a) /\
  forall i, (i < k)%nat -> nth i (forN 0 k (fun i a => upd a i (ReverseInPlace 0 (nth i a []))) a) [] = rev (nth i a []).
Proof.
  intros (L & H).
  assert (forall i, (i < k)%nat -> nth i (forN 0 k (fun i a => upd a i (ReverseInPlace 0 (nth i a []))) a) [] = rev (nth i a [])) as X.
  { intros i Hi. rewrite (forN_upd_range (@nil Z) 0 k (fun _ v => ReverseInPlace 0 v) a i) by lia. destruct (Nat.leb_spec 0 i), (Nat.ltb_spec i (0 + k)); cbn [andb]; try lia. apply ReverseInPlace_spec. }
  split; [split|exact X].
  - apply (forN_ind (fun _ l => length l = k)); [exact L|]. intros m l _ Hl. now rewrite upd_length.
  - intros i Hi. rewrite X, rev_length by exact Hi. now apply H.
Qed.
Lemma revp_tab b : peq Q (pol N (rev (tab N (fun j => wrap w (B (b + j)%nat))))) (revp N B b).
Proof. unfold revp. rewrite !(rev_nth_tab N HN B G). apply (pol_wrapped w N HN). Qed.

Lemma PubEncryptLWEBody_spec aux ct st ct' aux' st' : (0 < k)%nat -> ashape N k aux -> length ct = S (k * N) ->
  PubEncryptLWEBody w logN N k B G pk aux ct st = (ct', (aux', st')) ->
  lwe_ct w (k * N) ct' /\ ashape N k aux' /\ st' = ((fst st + k * N)%nat, (snd st + 1 + k * N)%nat) /\
  eqm Q (phase s ct') (phase s ct + pubNoiseLWE N k sk E B G (fst st) (snd st)).
Proof.
  intros Hk0 Ha L. unfold PubEncryptLWEBody. pose proof (lbody_spec aux ct st Ha L) as X.
  match type of X with let '(_, _) := ?x in _ => destruct x as [c1 [a t]] end. destruct X as (X1 & X2 & X3 & -> & X5 & X6).
  unfold sampleG. cbn [fst snd]. destruct (rev_aux a X3) as (Y1 & Y2). set (a' := forN 0 k (fun i a => upd a i (ReverseInPlace 0 (nth i a []))) a) in *.
  set (c2 := upd c1 0 (wrap w (nthZ c1 0 + wrap w (G (snd st))))). assert (length c2 = S (k * N)) as L2 by (unfold c2; now rewrite upd_length).
  destruct (lrows_spec (map (fwdFFT w) a') (fun i => nth i a' []) c2 Hk0 L2) as (W1 & W2 & W3 & W4).
  { intros i Hi. split; [apply (nth_map_fwd w a' i)|apply Y1, Hi]. }
  cbv zeta. match type of W1 with length ?x = _ => set (c3 := x) in * end.
  pose proof (lgauss_spec c3 ((fst st + k * N)%nat, S (snd st)) W1) as V. cbn [fst snd] in V.
  match type of V with let '(_, _) := ?x in _ => destruct x as [c4 t] end. destruct V as (V1 & V2 & V3 & -> & V5). intros Heq. injection Heq as <- <- <-.
  assert (nthZ c2 0 = wrap w (nthZ c1 0 + wrap w (G (snd st)))) as E2 by (unfold c2; rewrite nthZ_upd by lia; reflexivity).
  split; [apply lwe_ct_segs; [exact V1|rewrite V2, W2, E2; now apply wrap_word|exact V3]|]. split; [exact Y1|]. split; [f_equal; lia|].
  assert (forall j, (j < k)%nat -> peq Q (pol N (sg c4 j)) (padd (padd (pol N (sg ct j)) (psum k (fun i => pmul (P_ i (S j)) (revp N B (fst st + i * N))))) (noisep N G (S (snd st) + j * N)))) as Hj.
  { intros j Hj. rewrite (V5 j Hj), (W4 j Hj). unfold c2. rewrite seg_upd0, X2 by lia. rewrite (psum_proper Q k _ (fun i => pmul (P_ i (S j)) (revp N B (fst st + i * N)))); [reflexivity|]. intros i Hi. rewrite (Y2 i Hi), (X5 i Hi). now rewrite revp_tab. }
  rewrite !phase_segs by assumption. rewrite V2, W2, E2, !wrap_eqm, X6. unfold pubNoiseLWE.
  assert (peq Q (psum k (fun j => pmul (pol N (sg c4 j)) (R_ j))) (padd (psub (psum k (fun i => pmul (E i) (revp N B (fst st + i * N)))) (psum k (fun i => pmul (P_ i 0%nat) (revp N B (fst st + i * N))))) (padd (psum k (fun j => pmul (pol N (sg ct j)) (R_ j))) (psum k (fun j => pmul (noisep N G (S (snd st) + j * N)) (R_ j)))))) as HP.
  { rewrite (psum_proper Q k (fun j => pmul (pol N (sg c4 j)) (R_ j)) (fun j => padd (padd (pmul (pol N (sg ct j)) (R_ j)) (psum k (fun i => pmul (pmul (P_ i (S j)) (R_ j)) (revp N B (fst st + i * N))))) (pmul (noisep N G (S (snd st) + j * N)) (R_ j)))).
    2:{ intros j Hjk. rewrite (Hj j ltac:(lia)). rewrite !pmul_add_l, pmul_psum_l. rewrite (psum_proper Q k (fun i => pmul (pmul (P_ i (S j)) (revp N B (fst st + i * N))) (R_ j)) (fun i => pmul (pmul (P_ i (S j)) (R_ j)) (revp N B (fst st + i * N)))); [reflexivity|]. intros i Hi. ring. }
    rewrite !psum_add, psum_swap.
    rewrite (psum_proper Q k (fun i => psum k (fun j => pmul (pmul (P_ i (S j)) (R_ j)) (revp N B (fst st + i * N)))) (fun i => psub (pmul (E i) (revp N B (fst st + i * N))) (pmul (P_ i 0%nat) (revp N B (fst st + i * N))))).
    2:{ intros i Hi. rewrite <- (pmul_psum_l Q). destruct (proj2 Hpk i Hi) as (_ & HE). unfold gphase in HE. rewrite <- HE. ring. }
    rewrite psum_sub. ring. }
  rewrite (HP (NZ - 1)). cbn [cf padd psub]. rewrite (cf_psum k (fun i => pmul (P_ i 0%nat) _)).
  match goal with |- eqm _ ?x ?y => replace y with x by (cbn [cf padd]; lia) end. reflexivity.
Qed.
Lemma PubEncryptLWEPlaintextTo_spec aux out pt st ct' aux' st' : (0 < k)%nat -> ashape N k aux -> length out = S (k * N) ->
  PubEncryptLWEPlaintextTo w logN N k B G pk aux out pt st = (ct', (aux', st')) ->
  lwe_ct w (k * N) ct' /\ ashape N k aux' /\ st' = ((fst st + k * N)%nat, (snd st + 1 + k * N)%nat) /\
  eqm Q (phase s ct') (pt + zsum (k * N) (fun i => nthZ out (S i) * nthZ s i) + pubNoiseLWE N k sk E B G (fst st) (snd st)).
Proof.
  intros Hk0 Ha Lo Eq. unfold PubEncryptLWEPlaintextTo in Eq.
  destruct (PubEncryptLWEBody_spec _ _ _ _ _ _ Hk0 Ha (eq_trans (upd_length _ _ _) Lo) Eq) as (A & B1 & C & D).
  split; [exact A|]. split; [exact B1|]. split; [exact C|]. rewrite D. unfold phase. rewrite nthZ_upd by lia. cbn [Nat.eqb]. destruct Hs as (Ls & _). rewrite Ls, (proj1 Hsk).
  rewrite (zsum_ext (k * N) (fun i => nthZ (upd out 0 pt) (S i) * nthZ s i) (fun i => nthZ out (S i) * nthZ s i)); [reflexivity|]. intros i Hi. rewrite nthZ_upd by lia. reflexivity.
Qed.
End L.
End W.
