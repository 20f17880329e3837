From Verif Require Import Base NegaRing SpecNum ModelNum PfNum ModelVec SpecVec PfVec ModelPoly SpecPoly PfPoly PfPerm PfSplit ModelGadget SpecGadget PfGadget ModelParams ModelEncoder PfEncoder ModelLWE SpecLWE PfLWE PfKS PfKS2 ModelGLWE SpecGLWE PfGLWE PfGLWE2 PfGLWE3 PfGLWE4 PfBoot4 ModelPub SpecPub PfPub PfPub2.

Section W.
Variable w : Z.
Hypothesis Hw : 0 < w.
Notation Q := (2 ^ w).
Variable N : nat.
Hypothesis HN : (0 < N)%nat.
Variable k : nat.
Add Ring nring : (@npoly_ring N Q) (setoid (@peq_equiv N Q) (@npoly_ring_ext N Q)).
Variable logN : Z.
Hypothesis HlN : 0 < splitBitsShort logN.
Notation NZ := (Z.of_nat N).

Lemma repeat_nth {A} (x d : A) n i : (i < n)%nat -> nth i (repeat x n) d = x.
Proof. revert i; induction n; intros [|i] H; cbn; try lia; auto. apply IHn. lia. Qed.
Lemma zeroPK_shape i : (i < k)%nat -> nth i (zeroPK N k) [] = repeat (repeat 0 N) (S k).
Proof. intros Hi. unfold zeroPK. now apply repeat_nth. Qed.
Lemma zero_gshape : gshape N k (repeat (repeat 0 N) (S k)).
Proof. split; [apply repeat_length|]. intros i Hi. rewrite repeat_nth by lia. apply repeat_length. Qed.
Lemma pol_zeros : peq Q (pol N (repeat 0 N)) pzero.
Proof. apply pol_peq; [exact HN|]. intros i Hi. unfold nthZ. rewrite repeat_nth by exact Hi. reflexivity. Qed.

(** ** Key generation *)
Section Gen.
Variables U G : nat -> Z.
Variable sk : list (list Z).
Hypothesis Hsk : skey N k sk.

Lemma pk_loop (gen : list (list Z) -> rst -> list (list Z) * rst) key st pk st' :
  (forall st c s', gen (repeat (repeat 0 N) (S k)) st = (c, s') -> glwe_ct w N k c /\ peq Q (gphase N k key c) (noisep N G (snd st)) /\ s' = ((fst st + k * N)%nat, (snd st + N)%nat)) ->
  forN 0 k (fun i s => let '(pk, st) := s in let '(ct, st) := gen (nth i pk []) st in (upd pk i ct, st)) (zeroPK N k, st) = (pk, st') ->
  pk_enc w N k key pk (fun i => noisep N G (snd st + i * N)) /\ st' = ((fst st + k * (k * N))%nat, (snd st + k * N)%nat).
Proof.
  intros Hg E.
  set (Pr := fun (m : nat) (s : list (list (list Z)) * rst) => (m <= k)%nat -> let '(pk, t) := s in length pk = k /\ t = ((fst st + m * (k * N))%nat, (snd st + m * N)%nat) /\
    (forall i, (i < m)%nat -> glwe_ct w N k (nth i pk []) /\ peq Q (gphase N k key (nth i pk [])) (noisep N G (snd st + i * N))) /\ (forall i, (m <= i < k)%nat -> nth i pk [] = repeat (repeat 0 N) (S k))).
  match type of E with ?x = _ => assert (Pr k x) as HP end.
  { apply (forN_ind Pr); unfold Pr.
    - intros _. split; [unfold zeroPK; apply repeat_length|]. split; [destruct st; cbn [fst snd]; f_equal; lia|]. split; [intros; lia|]. intros i Hi. apply zeroPK_shape. lia.
    - intros m [p t] Hm IH _. destruct (IH ltac:(lia)) as (A1 & -> & A3 & A4). cbn [Nat.add]. rewrite (A4 m ltac:(lia)).
      match goal with |- context [gen ?x ?y] => destruct (gen x y) as [c s'] eqn:Eg end. destruct (Hg _ _ _ Eg) as (B1 & B2 & ->). cbn [fst snd] in *.
      split; [now rewrite upd_length|]. split; [f_equal; lia|]. split; intros i Hi; rewrite nth_upd_if by lia; destruct (Nat.eqb_spec i m) as [->|]; try lia.
      + split; assumption.
      + apply A3. lia.
      + apply A4. lia. }
  rewrite E in HP. destruct (HP (le_n k)) as (A1 & A2 & A3 & _). split; [split; assumption|exact A2].
Qed.
Lemma GenGLWEPublicKey_spec st pk st' : GenGLWEPublicKey w logN N k U G (map (fwdFFT w) sk) st = (pk, st') ->
  pk_enc w N k sk pk (fun i => noisep N G (snd st + i * N)) /\ st' = ((fst st + k * (k * N))%nat, (snd st + k * N)%nat).
Proof.
  unfold GenGLWEPublicKey. apply (pk_loop (fun c st => EncryptGLWEBody w logN N k U G (map (fwdFFT w) sk) c st)).
  intros s c s' E. destruct (EncryptGLWEBody_spec w Hw N HN k sk logN HlN U G _ _ _ _ Hsk zero_gshape E) as (A & A1 & A2 & _).
  split; [exact A|]. split; [|exact A2]. rewrite A1. rewrite repeat_nth by lia. rewrite pol_zeros. ring.
Qed.

Lemma reversedKey_eq : reversedKey N k sk = revkey sk.
Proof.
  destruct Hsk as (L & Hl). unfold reversedKey.
  set (Pr := fun (m : nat) r => (m <= k)%nat -> length r = k /\ (forall i, (i < m)%nat -> nth i r [] = rev (nth i sk [])) /\ (forall i, (m <= i < k)%nat -> nth i r [] = repeat 0 N)).
  match goal with |- ?x = _ => assert (Pr k x) as HP end.
  { apply (forN_ind Pr); unfold Pr.
    - intros _. split; [apply repeat_length|]. split; [intros; lia|]. intros i Hi. now apply repeat_nth.
    - intros m r Hm IH _. destruct (IH ltac:(lia)) as (A1 & A2 & A3). cbn [Nat.add]. rewrite (A3 m ltac:(lia)). rewrite ReverseTo_spec by (rewrite repeat_length; now apply Hl).
      split; [now rewrite upd_length|]. split; intros i Hi; rewrite nth_upd_if by lia; destruct (Nat.eqb_spec i m) as [->|]; try lia; [reflexivity|apply A2; lia|apply A3; lia]. }
  destruct (HP (le_n k)) as (A1 & A2 & _). apply (list_ext []); [unfold revkey; rewrite map_length; lia|]. intros i Hi. rewrite A2 by lia. now rewrite revkey_nth.
Qed.
Lemma revkey_skey : skey N k (revkey sk).
Proof. destruct Hsk as (L & H). split; [unfold revkey; now rewrite map_length|]. intros i Hi. rewrite revkey_nth, rev_length. now apply H. Qed.

Lemma lrowgen_spec st c s' :
  (let '(b, st) := samplePolyG w G (nth 0 (repeat (repeat 0 N) (S k)) []) st in
   forN 1 k (fun j s =>
        let '(c, st) := s in
        let '(m, st) := sampleVec w U (length (nth j c [])) st in
        let c := upd c j m in
        (upd c 0 (ShortFFTPolyMulSubPolyTo false w logN N (nth 0 c []) (nth j c []) (nth (j - 1) (map (fwdFFT w) (revkey sk)) [])), st)) (upd (repeat (repeat 0 N) (S k)) 0 b, st)) = (c, s') ->
  glwe_ct w N k c /\ peq Q (gphase N k (revkey sk) c) (noisep N G (snd st)) /\ s' = ((fst st + k * N)%nat, (snd st + N)%nat).
Proof.
  destruct st as [u g]. rewrite repeat_nth by lia. unfold samplePolyG. rewrite repeat_length. cbn [fst snd]. intros E.
  destruct revkey_skey as (Lk & Hk).
  set (b0 := tab N (fun i => wrap w (G (g + i)%nat))) in *. assert (wpoly w N b0) as Wb by (apply wpoly_tab; exact Hw).
  set (c0 := upd (repeat (repeat 0 N) (S k)) 0 b0) in *. assert (length c0 = S k) as L0 by (unfold c0; rewrite upd_length; apply repeat_length).
  set (Pr := fun (m : nat) (s : list (list Z) * rst) => (m <= k)%nat -> let '(c, t) := s in t = ((u + m * N)%nat, (g + N)%nat) /\ gshape N k c /\
     wpoly w N (nth 0 c []) /\ (forall i, (i < m)%nat -> wpoly w N (nth (S i) c [])) /\
     peq Q (padd (pol N (nth 0 c [])) (psum m (fun i => pmul (pol N (nth (S i) c [])) (pol N (nth i (revkey sk) []))))) (noisep N G g)).
  match type of E with ?x = _ => assert (Pr k x) as HP end.
  { apply (forN_ind Pr); unfold Pr.
    - intros _. split; [f_equal; lia|]. split; [split; [exact L0|]|].
      + intros i Hi. unfold c0. rewrite nth_upd_if by (rewrite repeat_length; lia). destruct (Nat.eqb i 0); [apply Wb|]. rewrite repeat_nth by lia. apply repeat_length.
      + unfold c0. rewrite nth_upd_if by (rewrite repeat_length; lia). cbn [Nat.eqb psum]. split; [exact Wb|]. split; [intros; lia|]. unfold b0, noisep. rewrite (pol_wrapped w N HN). ring.
    - intros m [c1 t] Hm IH _. destruct (IH ltac:(lia)) as (-> & (L1 & L2) & W0 & M & E1). clear IH. change (1 + m)%nat with (S m). replace (S m - 1)%nat with m by lia.
      unfold sampleVec. rewrite (L2 (S m) ltac:(lia)). cbn [fst snd].
      set (mk := tab N (fun i => wrap w (U (u + m * N + i)%nat))).
      assert (tpoly false w N mk) as Hmk by (apply wpoly_tab; exact Hw).
      rewrite (nth_upd_if c1 [] (S m) mk 0), (nth_upd_if c1 [] (S m) mk (S m)) by lia. rewrite Nat.eqb_refl. cbn [Nat.eqb].
      destruct (ShortMulSub_spec N HN false w logN (nth 0 c1 []) mk (nth m (map (fwdFFT w) (revkey sk)) []) Hw HlN (L2 O ltac:(lia)) Hmk) as (X12 & X3).
      set (nb := ShortFFTPolyMulSubPolyTo false w logN N (nth 0 c1 []) mk (nth m (map (fwdFFT w) (revkey sk)) [])) in *.
      assert (forall i, nth (S i) (upd (upd c1 (S m) mk) 0 nb) [] = if Nat.eqb i m then mk else nth (S i) c1 []) as Hn.
      { intros i. rewrite nth_upd_if by (rewrite upd_length; lia). cbn [Nat.eqb]. rewrite nth_upd_if by lia. reflexivity. }
      assert (nth 0 (upd (upd c1 (S m) mk) 0 nb) [] = nb) as Hn0 by (rewrite nth_upd_if by (rewrite upd_length; lia); reflexivity).
      split; [f_equal; lia|]. split; [split|split; [|split]].
      + now rewrite !upd_length.
      + intros [|i] Hi; [rewrite Hn0; apply X12|]. rewrite Hn. destruct (Nat.eqb i m); [apply Hmk|apply L2; lia].
      + rewrite Hn0. exact X12.
      + intros i Hi. rewrite Hn. destruct (Nat.eqb_spec i m); [exact Hmk|apply M; lia].
      + rewrite Hn0, X3. cbn [psum]. rewrite Hn, Nat.eqb_refl. rewrite (nth_map_fwd w (revkey sk) m), pol_fwdFFT by (try assumption; apply Hk; lia).
        rewrite (psum_proper Q m (fun i => pmul (pol N (nth (S i) (upd (upd c1 (S m) mk) 0 nb) [])) (pol N (nth i (revkey sk) []))) (fun i => pmul (pol N (nth (S i) c1 [])) (pol N (nth i (revkey sk) [])))).
        2:{ intros i Hi. rewrite Hn. destruct (Nat.eqb_spec i m); [lia|reflexivity]. }
        rewrite <- E1. ring. }
  rewrite E in HP. destruct (HP (le_n k)) as (A1 & (A2 & _) & A3 & A4 & A5). split; [split; [exact A2|]|split; [exact A5|exact A1]].
  intros [|i] Hi; [exact A3|apply A4; lia].
Qed.
Lemma GenLWEPublicKey_spec st pk st' : GenLWEPublicKey w logN N k U G sk st = (pk, st') ->
  pk_enc w N k (revkey sk) pk (fun i => noisep N G (snd st + i * N)) /\ st' = ((fst st + k * (k * N))%nat, (snd st + k * N)%nat).
Proof.
  unfold GenLWEPublicKey. rewrite reversedKey_eq. intros E.
  apply (pk_loop (fun c st => let '(b, st) := samplePolyG w G (nth 0 c []) st in
      forN 1 k (fun j s =>
        let '(c, st) := s in
        let '(m, st) := sampleVec w U (length (nth j c [])) st in
        let c := upd c j m in
        (upd c 0 (ShortFFTPolyMulSubPolyTo false w logN N (nth 0 c []) (nth j c []) (nth (j - 1) (map (fwdFFT w) (revkey sk)) [])), st)) (upd c 0 b, st))).
  - intros s c s' E1. apply (lrowgen_spec s c s' E1).
  - rewrite <- E. apply forN_ext. intros i [p t] Hi. cbn zeta. destruct (samplePolyG w G (nth 0 (nth i p []) []) t) as [b t']. reflexivity.
Qed.
Lemma GenPublicKey_spec st lpk gpk st' : GenPublicKey w logN N k U G sk st = ((lpk, gpk), st') ->
  pk_enc w N k sk gpk (fun i => noisep N G (snd st + i * N)) /\ pk_enc w N k (revkey sk) lpk (fun i => noisep N G (snd st + (k + i) * N)) /\
  st' = ((fst st + 2 * k * (k * N))%nat, (snd st + 2 * k * N)%nat).
Proof.
  unfold GenPublicKey. destruct (GenGLWEPublicKey w logN N k U G (map (fwdFFT w) sk) st) as [g t] eqn:E1. destruct (GenLWEPublicKey w logN N k U G sk t) as [l t'] eqn:E2.
  intros Heq. injection Heq as -> -> ->. destruct (GenGLWEPublicKey_spec _ _ _ E1) as (A & ->). destruct (GenLWEPublicKey_spec _ _ _ E2) as (B1 & ->). cbn [fst snd] in *.
  split; [exact A|]. split; [|f_equal; lia]. destruct B1 as (L & B1). split; [exact L|]. intros i Hi. destruct (B1 i Hi) as (C & D). split; [exact C|]. rewrite D. replace (snd st + (k + i) * N)%nat with (snd st + k * N + i * N)%nat by lia. reflexivity.
Qed.
End Gen.

(** ** Noise *)
Section Noise.
Variables B G : nat -> Z.
Variables (sk : list (list Z)) (E : nat -> npoly N) (e : Z).
Hypothesis He : 0 <= e.
Hypothesis HB : forall i, 0 <= B i <= 1.
Hypothesis HG : forall i, Z.abs (G i) <= e.
Hypothesis HE : forall i, (i < k)%nat -> pbound e (E i).
Hypothesis Hb : forall i, (i < k)%nat -> binary (nth i sk []).
Lemma nth_bin l i : binary l -> Z.abs (nthZ l i) <= 1.
Proof. intros H. unfold nthZ. destruct (le_lt_dec (length l) i) as [?|Hi]; [rewrite nth_overflow by lia; lia|]. unfold binary in H. rewrite Forall_forall in H. destruct (H (nth i l 0) (nth_In l 0 Hi)) as [->| ->]; lia. Qed.
Lemma pol_bin l : binary l -> pbound 1 (pol N l).
Proof. intros H. apply pbound_coeffs; [exact HN|]. intros i Hi. rewrite cf_pol_at by assumption. now apply nth_bin. Qed.
Lemma pubNoise_bound b g : pbound (pubBound N k e) (pubNoise N k sk E B G b g).
Proof.
  unfold pubNoise. apply (pbound_le (Z.of_nat k * (NZ * (e * 1)) + (e + Z.of_nat k * (NZ * (e * 1))))); [unfold pubBound; lia|].
  repeat apply pbound_add.
  - apply pbound_psum. intros i Hi. apply pbound_mul; [now apply HE|]. apply (noisep_bound N HN B); [|lia]. intros; specialize (HB (b + i * N + i0)%nat); lia.
  - apply (noisep_bound N HN G); [intros; apply HG|exact He].
  - apply pbound_psum. intros i Hi. apply pbound_mul; [|apply pol_bin, Hb, Hi]. apply (noisep_bound N HN G); [intros; apply HG|exact He].
Qed.
Lemma pubNoiseLWE_bound b g : Z.abs (pubNoiseLWE N k sk E B G b g) <= pubBound N k e.
Proof.
  unfold pubNoiseLWE. match goal with |- Z.abs (_ + cf ?p _) <= _ => assert (pbound (Z.of_nat k * (NZ * (e * 1)) + Z.of_nat k * (NZ * (e * 1))) p) as H end.
  - apply pbound_add; apply pbound_psum; intros i Hi; apply pbound_mul; [now apply HE| | |].
    + unfold revp. apply pbound_coeffs; [exact HN|]. intros j Hj. rewrite cf_pol_at by assumption. unfold nthZ. rewrite rev_nth by (rewrite tab_length; exact Hj). rewrite tab_length.
      match goal with |- context [nth ?x (tab N ?f) 0] => change (nth x (tab N f) 0) with (nthZ (tab N f) x) end. rewrite nthZ_tab by lia. specialize (HB (b + i * N + (N - S j))%nat). lia.
    + apply (noisep_bound N HN G); [intros; apply HG|exact He].
    + rewrite revkey_nth. apply pol_bin. unfold binary. apply Forall_rev. apply Hb, Hi.
  - specialize (H (NZ - 1)). specialize (HG g). unfold pubBound. lia.
Qed.
End Noise.

(** ** Histories *)
Definition pinv (e : pub) : Prop := length (pu_pt e) = N /\ gshape N k (pu_ct e) /\ ashape N k (pu_aux e).
Lemma newPub_inv : pinv (newPub N k).
Proof.
  split; [apply repeat_length|]. split; [apply zero_gshape|]. split; [apply repeat_length|]. intros i Hi. cbn [newPub pu_aux]. rewrite repeat_nth by exact Hi. apply repeat_length.
Qed.
Section Hist.
Variables B G : nat -> Z.
Variables (mm scale : Z) (sk : list (list Z)) (s : list Z) (lpk gpk : list (list (list Z))) (EL EG : nat -> npoly N).
Hypothesis Hmm : 0 < mm.
Hypothesis Hk0 : (0 < k)%nat.
Hypothesis Hsk : skey N k sk.
Hypothesis Hs : flat N sk s.
Hypothesis HL : pk_enc w N k (revkey sk) lpk EL.
Hypothesis HGk : pk_enc w N k sk gpk EG.
Notation step := (pstep w logN N k B G mm scale lpk gpk).
Notation run := (prun w logN N k B G mm scale lpk gpk).
Notation enc m := (EncodeLWECustom w m mm scale).
Lemma step_inv c e r e' : pinv e -> pshaped N k c -> step c e = (r, e') -> pinv e'.
Proof.
  intros (P1 & P2 & P3) Hc. destruct c as [out m|out ms|out ms]; unfold pstep, pshaped in *.
  - destruct (PubEncryptLWEPlaintextTo w logN N k B G lpk (pu_aux e) out (enc m) (pu_st e)) as [ct [aux st]] eqn:E1. intros Heq. injection Heq as <- <-.
    destruct (PubEncryptLWEPlaintextTo_spec w Hw N HN k logN HlN B G sk Hsk s Hs lpk EL HL _ _ _ _ _ _ _ Hk0 P3 Hc E1) as (_ & A & _). split; [exact P1|]. split; [exact P2|exact A].
  - destruct (EncodeGLWE_spec w N (pu_pt e) ms mm scale P1) as (L1 & _).
    destruct (PubEncryptGLWEPlaintextTo w logN N k B G gpk (pu_aux e) out (EncodeGLWECustomTo w N (pu_pt e) ms mm scale) (pu_st e)) as [ct [aux st]] eqn:E1. intros Heq. injection Heq as <- <-.
    destruct (PubEncryptGLWEPlaintextTo_spec w Hw N HN k logN HlN B G sk gpk EG HGk _ _ _ _ _ _ _ Hk0 P3 Hc L1 E1) as (_ & A & _). split; [exact L1|]. split; [exact P2|exact A].
  - destruct (EncodeGLWE_spec w N (repeat 0 N) ms mm scale (repeat_length _ _)) as (L1 & _).
    destruct (PubEncryptGLWEPlaintextTo w logN N k B G gpk (pu_aux e) (pu_ct e) (EncodeGLWECustomTo w N (repeat 0 N) ms mm scale) (pu_st e)) as [ct [aux st]] eqn:E1. intros Heq. injection Heq as <- <-.
    destruct (PubEncryptGLWEPlaintextTo_spec w Hw N HN k logN HlN B G sk gpk EG HGk _ _ _ _ _ _ _ Hk0 P3 P2 L1 E1) as (A0 & A & _). split; [exact P1|]. split; [apply (glwe_shape w N k), A0|exact A].
Qed.
Lemma run_inv cs : forall e rs e', pinv e -> Forall (pshaped N k) cs -> run cs e = (rs, e') -> pinv e'.
Proof.
  induction cs as [|c cs IH]; intros e rs e' Hi Hc; cbn [prun]; [intros Heq; injection Heq as <- <-; exact Hi|].
  destruct (step c e) as [r e1] eqn:E1. destruct (run cs e1) as [rs1 e2] eqn:E2. intros Heq. injection Heq as <- <-. inversion Hc; subst. eapply IH; [|eassumption|exact E2]. eapply step_inv; eassumption.
Qed.
(** The FFT buffer is untouched without PFFT calls. *)
Lemma run_ct cs : forall e rs e', Forall noPFFT cs -> run cs e = (rs, e') -> pu_ct e' = pu_ct e.
Proof.
  induction cs as [|c cs IH]; intros e rs e' Hc; cbn [prun]; [intros Heq; injection Heq as <- <-; reflexivity|].
  destruct (step c e) as [r e1] eqn:E1. destruct (run cs e1) as [rs1 e2] eqn:E2. intros Heq. injection Heq as <- <-. inversion Hc as [|? ? H0 H1]; subst. rewrite (IH _ _ _ H1 E2).
  destruct c as [out m|out ms|out ms]; unfold pstep in E1; [| |destruct H0].
  - destruct (PubEncryptLWEPlaintextTo w logN N k B G lpk (pu_aux e) out (enc m) (pu_st e)) as [ct [aux st]]. injection E1 as <- <-. reflexivity.
  - destruct (PubEncryptGLWEPlaintextTo w logN N k B G gpk (pu_aux e) out (EncodeGLWECustomTo w N (pu_pt e) ms mm scale) (pu_st e)) as [ct [aux st]]. injection E1 as <- <-. reflexivity.
Qed.

Variable bnd : Z.
Hypothesis HbL : forall b g, Z.abs (pubNoiseLWE N k sk EL B G b g) <= bnd.
Hypothesis HbG : forall b g, pbound bnd (pubNoise N k sk EG B G b g).
Hypothesis Hdec : forall m x, Z.abs x <= bnd -> DecodeLWECustom w (wrap w (enc m + x)) mm scale = Some (m mod mm).

Lemma step_LWE e out m r e' : pinv e -> length out = S (k * N) -> (forall i, (i < k * N)%nat -> nthZ out (S i) = 0) -> step (PLWE out m) e = (r, e') ->
  exists ct, r = RLWE ct /\ lwe_ct w (k * N) ct /\ DecryptLWE w mm scale s ct = Some (m mod mm).
Proof.
  intros (P1 & P2 & P3) Lo H0. unfold pstep.
  destruct (PubEncryptLWEPlaintextTo w logN N k B G lpk (pu_aux e) out (enc m) (pu_st e)) as [ct [aux st]] eqn:E1. intros Heq. injection Heq as <- <-.
  destruct (PubEncryptLWEPlaintextTo_spec w Hw N HN k logN HlN B G sk Hsk s Hs lpk EL HL _ _ _ _ _ _ _ Hk0 P3 Lo E1) as (A & _ & _ & D).
  exists ct. split; [reflexivity|]. split; [exact A|]. unfold DecryptLWE.
  assert (length ct = S (length s)) as Lc by (rewrite (proj1 A), (proj1 Hs), (proj1 Hsk); reflexivity).
  destruct (DecryptLWEPhase_spec w ltac:(lia) s ct Lc) as (X1 & X2). rewrite D in X2.
  rewrite (zsum_ext (k * N) _ (fun _ => 0)) in X2 by (intros i Hi; rewrite H0 by exact Hi; reflexivity). rewrite zsum_zero, Z.add_0_r in X2.
  assert (DecryptLWEPhase w s ct = wrap w (enc m + pubNoiseLWE N k sk EL B G (fst (pu_st e)) (snd (pu_st e)))) as -> ; [|apply Hdec, HbL].
  apply (eqm_small Q); [rewrite wrap_eqm; exact X2|exact X1|now apply wrap_word].
Qed.
Lemma enc_zero m : m = 0 -> enc m = 0.
Proof. intros ->. unfold EncodeLWECustom, wrap. rewrite Zmod_0_l. destruct (mm =? 0); rewrite ?Zmod_0_l, ?Z.mul_0_l, ?Zmod_0_l; reflexivity. Qed.
Lemma decode_all buf ms ph mo x : length buf = N -> length mo = N -> length ph = N -> Forall (uword w) ph -> pbound bnd x ->
  peq Q (pol N ph) (padd (pol N (EncodeGLWECustomTo w N buf ms mm scale)) x) ->
  exists o, DecodeGLWECustomTo w N mo ph mm scale = Some o /\ length o = N /\ forall i, (i < N)%nat -> nthZ o i = nthZ ms i mod mm.
Proof.
  intros Lb Lm Lp Wp Hx Hp. destruct (EncodeGLWE_spec w N buf ms mm scale Lb) as (L1 & L2).
  destruct (DecodeGLWE_spec w N mo ph mm scale (fun i => nthZ ms i mod mm) Hmm) as (o & E2 & L & V & _).
  - intros i Hi. rewrite Lm in Hi. assert (nthZ ph i = wrap w (enc (nthZ ms i) + cf x (Z.of_nat i))) as ->; [|apply Hdec, Hx].
    apply (eqm_small Q); [|rewrite Forall_forall in Wp; apply Wp; unfold nthZ; apply nth_In; lia|now apply wrap_word]. rewrite wrap_eqm.
    rewrite (peq_pol N HN _ _ _ Hp i ltac:(lia)). cbn [cf padd]. rewrite cf_pol_at by (assumption || lia). rewrite L2 by lia.
    destruct (Nat.ltb_spec i (length ms)); [reflexivity|]. rewrite (enc_zero (nthZ ms i)); [reflexivity|]. unfold nthZ. now apply nth_overflow.
  - exists o. rewrite Lm in *. split; [exact E2|]. split; [exact L|]. intros i Hi. apply V. lia.
Qed.
Lemma mask0 out : (forall j, (j < k)%nat -> nth (S j) out [] = repeat 0 N) -> peq Q (psum k (fun j => pmul (pol N (nth (S j) out [])) (pol N (nth j sk [])))) pzero.
Proof.
  intros H. intros t. rewrite cf_psum. rewrite (zsum_eqm Q k _ (fun _ => 0)); [rewrite zsum_zero; reflexivity|]. intros j Hj. rewrite (H j Hj).
  pose proof pol_zeros as Hz. assert (peq Q (pmul (pol N (repeat 0 N)) (pol N (nth j sk []))) pzero) as X by (rewrite Hz; ring). apply (X t).
Qed.
Lemma step_GLWE e out ms r e' buf mo : pinv e -> gshape N k out -> (forall j, (j < k)%nat -> nth (S j) out [] = repeat 0 N) -> length buf = N -> length mo = N -> step (PGLWE out ms) e = (r, e') ->
  exists ct o, r = RGLWE ct /\ glwe_ct w N k ct /\ DecryptGLWETo w logN N k mm scale (map (fwdFFT w) sk) buf mo ct = Some o /\ length o = N /\ forall i, (i < N)%nat -> nthZ o i = nthZ ms i mod mm.
Proof.
  intros (P1 & P2 & P3) Ho H0 Lb Lm. unfold pstep.
  destruct (EncodeGLWE_spec w N (pu_pt e) ms mm scale P1) as (L1 & _).
  destruct (PubEncryptGLWEPlaintextTo w logN N k B G gpk (pu_aux e) out (EncodeGLWECustomTo w N (pu_pt e) ms mm scale) (pu_st e)) as [ct [aux st]] eqn:E1. intros Heq. injection Heq as <- <-.
  destruct (PubEncryptGLWEPlaintextTo_spec w Hw N HN k logN HlN B G sk gpk EG HGk _ _ _ _ _ _ _ Hk0 P3 Ho L1 E1) as (A & _ & _ & D).
  rewrite mask0 in D by exact H0.
  destruct (DecryptGLWEPhaseTo_spec w Hw N HN k sk logN HlN (fun _ => 0) (fun _ => 0) buf ct Hsk Lb A) as ((Y1 & Y2) & Y3).
  assert (peq Q (pol N (DecryptGLWEPhaseTo w logN N k (map (fwdFFT w) sk) buf ct)) (padd (pol N (EncodeGLWECustomTo w N (pu_pt e) ms mm scale)) (pubNoise N k sk EG B G (fst (pu_st e)) (snd (pu_st e))))) as Hp by (rewrite Y3, D; ring).
  destruct (decode_all (pu_pt e) ms _ mo _ P1 Lm Y1 Y2 (HbG _ _) Hp) as (o & O1 & O2 & O3).
  exists ct, o. split; [reflexivity|]. split; [exact A|]. split; [exact O1|]. split; assumption.
Qed.
Lemma step_FFT e out ms r e' buf ptb mo : pinv e -> length out = S k -> (forall j, (j < k)%nat -> nth (S j) (pu_ct e) [] = repeat 0 N) -> length buf = S k -> length ptb = N -> length mo = N -> step (PFFT out ms) e = (r, e') ->
  exists f o, r = RFFT f /\ gshape N k f /\ DecodeGLWECustomTo w N mo (DecryptFFTGLWEPhaseTo w logN N k (map (fwdFFT w) sk) buf ptb f) mm scale = Some o /\ length o = N /\ forall i, (i < N)%nat -> nthZ o i = nthZ ms i mod mm.
Proof.
  intros (P1 & P2 & P3) Lo H0 Lb Lpt Lm. unfold pstep.
  pose proof (repeat_length 0 N) as Lz. destruct (EncodeGLWE_spec w N (repeat 0 N) ms mm scale Lz) as (L1 & _).
  destruct (PubEncryptGLWEPlaintextTo w logN N k B G gpk (pu_aux e) (pu_ct e) (EncodeGLWECustomTo w N (repeat 0 N) ms mm scale) (pu_st e)) as [ct [aux st]] eqn:E1. intros Heq. injection Heq as <- <-.
  destruct (PubEncryptGLWEPlaintextTo_spec w Hw N HN k logN HlN B G sk gpk EG HGk _ _ _ _ _ _ _ Hk0 P3 P2 L1 E1) as (A & _ & _ & D).
  rewrite mask0 in D by exact H0.
  pose proof (glwe_shape w N k ct A) as Sh. rewrite (FwdFFT_eq w N HN k (fun _ => 0) (fun _ => 0) out ct Lo (proj1 A)).
  pose proof (gshape_fwd w N k ct Sh) as Shf.
  destruct (DecryptFFTGLWEPhaseTo_spec w Hw N HN k sk logN HlN (fun _ => 0) (fun _ => 0) buf ptb (map (fwdFFT w) ct) Hsk Lb Lpt Shf) as ((Y1 & Y2) & Y3).
  match type of Y1 with length ?p = _ => assert (peq Q (pol N p) (padd (pol N (EncodeGLWECustomTo w N (repeat 0 N) ms mm scale)) (pubNoise N k sk EG B G (fst (pu_st e)) (snd (pu_st e))))) as Hp by (rewrite Y3, gphase_fwd, D by assumption; ring) end.
  destruct (decode_all (repeat 0 N) ms _ mo _ Lz Lm Y1 Y2 (HbG _ _) Hp) as (o & O1 & O2 & O3).
  exists (map (fwdFFT w) ct), o. split; [reflexivity|]. split; [exact Shf|]. split; [exact O1|]. split; assumption.
Qed.
End Hist.
End W.

Lemma margin_dec w n b m x : margin w n b -> Z.abs x <= b -> DecodeLWECustom w (wrap w (EncodeLWECustom w m (2 ^ n) (scaleOf w (2 ^ n)) + x)) (2 ^ n) (scaleOf w (2 ^ n)) = Some (m mod 2 ^ n).
Proof. intros (H1 & H2 & [(H3 & H4)|(H3 & H4)]) Hx; [apply decode_params_small|apply decode_params_large]; lia. Qed.

Section Hist2.
Variables (w n logN : Z) (N k : nat) (U Gk B G : nat -> Z) (sk : list (list Z)) (s : list Z) (e : Z) (lpk gpk : list (list (list Z))).
Hypothesis H : pubset w n logN N k U Gk B G sk s e lpk gpk.
Notation mm := (2 ^ n).
Notation scale := (scaleOf w (2 ^ n)).
Notation step := (pstep w logN N k B G mm scale lpk gpk).
Notation run := (prun w logN N k B G mm scale lpk gpk).
Lemma pubset_keys : exists EL EG, pk_enc w N k (revkey sk) lpk EL /\ pk_enc w N k sk gpk EG /\ (forall b g, Z.abs (pubNoiseLWE N k sk EL B G b g) <= pubBound N k e) /\ (forall b g, pbound (pubBound N k e) (pubNoise N k sk EG B G b g)).
Proof.
  destruct H as (HN & Hk & HlN & Hsk & Hs & Hb & HGk & HB & HG & (Hw & Hm) & st & st' & E).
  destruct (GenPublicKey_spec w Hw N HN k logN HlN U Gk sk Hsk _ _ _ _ E) as (A & B1 & _).
  assert (0 <= e) as He by (specialize (HG O); lia).
  eexists _, _. split; [exact B1|]. split; [exact A|]. split; intros b g; [apply pubNoiseLWE_bound|apply pubNoise_bound]; try assumption; intros i Hi; apply noisep_bound; auto.
Qed.
Lemma pubset_run_inv cs rs en : Forall (pshaped N k) cs -> run cs (newPub N k) = (rs, en) -> pinv N k en.
Proof.
  destruct pubset_keys as (EL & EG & A1 & A2 & _). destruct H as (HN & Hk & HlN & Hsk & Hs & _ & _ & _ & _ & (Hw & Hm) & _).
  intros Hc Hr. eapply (run_inv w Hw N HN k logN HlN B G mm scale sk s lpk gpk EL EG Hk Hsk Hs A1 A2); [exact (newPub_inv N HN k)|exact Hc|exact Hr].
Qed.
Lemma hist_LWE cs rs en out m r en' : Forall (pshaped N k) cs -> run cs (newPub N k) = (rs, en) ->
  length out = S (k * N) -> (forall i, (i < k * N)%nat -> nthZ out (S i) = 0) -> step (PLWE out m) en = (r, en') ->
  exists ct, r = RLWE ct /\ lwe_ct w (k * N) ct /\ DecryptLWE w mm scale s ct = Some (m mod mm).
Proof.
  intros Hc Hr Lo H0 E. pose proof (pubset_run_inv _ _ _ Hc Hr) as Hi. destruct pubset_keys as (EL & EG & A1 & A2 & A3 & A4).
  destruct H as (HN & Hk & HlN & Hsk & Hs & _ & _ & _ & _ & Hmg & _). pose proof (proj1 Hmg) as Hw.
  eapply (step_LWE w Hw N HN k logN HlN B G mm scale sk s lpk gpk EL EG Hk Hsk Hs A1 (pubBound N k e) A3 A4); try eassumption. intros; now apply (margin_dec w n (pubBound N k e)).
Qed.
Lemma hist_GLWE cs rs en out ms r en' buf mo : Forall (pshaped N k) cs -> run cs (newPub N k) = (rs, en) ->
  gshape N k out -> (forall j, (j < k)%nat -> nth (S j) out [] = repeat 0 N) -> length buf = N -> length mo = N -> step (PGLWE out ms) en = (r, en') ->
  exists ct o, r = RGLWE ct /\ glwe_ct w N k ct /\ DecryptGLWETo w logN N k mm scale (map (fwdFFT w) sk) buf mo ct = Some o /\ length o = N /\ forall i, (i < N)%nat -> nthZ o i = nthZ ms i mod mm.
Proof.
  intros Hc Hr Lo H0 Lb Lm E. pose proof (pubset_run_inv _ _ _ Hc Hr) as Hi. destruct pubset_keys as (EL & EG & A1 & A2 & A3 & A4).
  destruct H as (HN & Hk & HlN & Hsk & Hs & _ & _ & _ & _ & Hmg & _). pose proof (proj1 Hmg) as Hw. assert (0 < mm) as Hmm by (apply Z.pow_pos_nonneg; destruct Hmg as (_ & ? & _); lia).
  eapply (step_GLWE w Hw N HN k logN HlN B G mm scale sk lpk gpk EL EG Hmm Hk Hsk A2 (pubBound N k e) A3 A4); try eassumption. intros; now apply (margin_dec w n (pubBound N k e)).
Qed.
Lemma hist_FFT cs rs en out ms r en' buf ptb mo : Forall (pshaped N k) cs -> Forall noPFFT cs -> run cs (newPub N k) = (rs, en) ->
  length out = S k -> length buf = S k -> length ptb = N -> length mo = N -> step (PFFT out ms) en = (r, en') ->
  exists f o, r = RFFT f /\ gshape N k f /\ DecodeGLWECustomTo w N mo (DecryptFFTGLWEPhaseTo w logN N k (map (fwdFFT w) sk) buf ptb f) mm scale = Some o /\ length o = N /\ forall i, (i < N)%nat -> nthZ o i = nthZ ms i mod mm.
Proof.
  intros Hc Hn Hr Lo Lb Lp Lm E. pose proof (pubset_run_inv _ _ _ Hc Hr) as Hi. destruct pubset_keys as (EL & EG & A1 & A2 & A3 & A4).
  pose proof (run_ct w N k logN B G mm scale lpk gpk cs _ _ _ Hn Hr) as Hct.
  destruct H as (HN & Hk & HlN & Hsk & Hs & _ & _ & _ & _ & Hmg & _). pose proof (proj1 Hmg) as Hw. assert (0 < mm) as Hmm by (apply Z.pow_pos_nonneg; destruct Hmg as (_ & ? & _); lia).
  eapply (step_FFT w Hw N HN k logN HlN B G mm scale sk lpk gpk EL EG Hmm Hk Hsk A2 (pubBound N k e) A3 A4); [intros; now apply (margin_dec w n (pubBound N k e))|exact Hi|exact Lo| |exact Lb|exact Lp|exact Lm|exact E].
  intros j Hj. rewrite Hct. cbn [newPub pu_ct]. apply (repeat_nth N HN). lia.
Qed.
End Hist2.
