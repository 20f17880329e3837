From Verif Require Import Base NegaRing SpecNum ModelNum PfNum ModelVec SpecVec PfVec ModelPoly SpecPoly PfPoly PfPerm PfSplit ModelGadget SpecGadget PfGadget ModelEncoder ModelLWE SpecLWE PfLWE PfLWE2 PfKS PfKS2 ModelGLWE SpecGLWE PfGLWE PfGLWE2 PfGLWE3 PfGLWE4
  ModelBoot SpecBoot PfBoot PfBoot2 PfBoot4 ModelBFV SpecBFV PfBFV PfBFV2 PfBFV4 ModelFHEW SpecFHEW PfFHEW.

Lemma choice_fun {A} (a : A) (P : nat -> A -> Prop) m : (forall i, (i < m)%nat -> exists x, P i x) -> exists f, forall i, (i < m)%nat -> P i (f i).
Proof.
  induction m as [|m IH]; intros Hx; [exists (fun _ => a); intros; lia|]. destruct IH as (f & Hf); [intros i Hi; apply Hx; lia|]. destruct (Hx m ltac:(lia)) as (x & Px).
  exists (fun i => if Nat.eqb i m then x else f i). intros i Hi. destruct (Nat.eqb_spec i m) as [->|]; [exact Px|]. apply Hf. lia.
Qed.

Section Keys.
Variables (w : Z) (N k : nat) (n : Z).
Hypothesis Hw : 0 < w.
Hypothesis Hn : 1 <= n <= 30.
Hypothesis HNn : Z.of_nat N = 2 ^ n.
Notation Q := (2 ^ w).
Notation NZ := (Z.of_nat N).
Notation M := (2 * NZ).
Variables (sk : list (list Z)) (p : gadget).
Hypothesis Hok : gadget_ok w p.
Hypothesis Hsk : skey N k sk.
Hypothesis Hwk : forall i, (i < k)%nat -> wpoly w N (nth i sk []).
Variables (logN : Z) (U G : nat -> Z) (E : Z).
Hypothesis HlN : 0 < splitBitsShort logN.
Hypothesis HE : 0 <= E.
Hypothesis HG : forall i, Z.abs (G i) <= E.
Notation fsk := (map (fwdFFT w) sk).
Notation S_ i := (pol N (nth i sk [])).
Add Ring nring : (@npoly_ring N Q) (setoid (@peq_equiv N Q) (@npoly_ring_ext N Q)).

Local Lemma Npos : (0 < N)%nat.
Proof. assert (0 < 2 ^ n) by (apply Z.pow_pos_nonneg; lia). lia. Qed.

Definition rowMsg (b : Z) (j : nat) : npoly N := match j with O => pmono b | S i => pmul (pmono b) (S_ i) end.
Definition row_ok (b : Z) (j : nat) (row : list (list (list Z))) (e : nat -> npoly N) : Prop :=
  glev_enc w N k p sk row (rowMsg b j) e /\ forall a, (a < g_level p)%nat -> pbound E (e a).

Lemma fhewMessage_spec b j : (j <= k)%nat -> exists pt, fhewMessage w N sk b j = Some pt /\ length pt = N /\ peq Q (pol N pt) (rowMsg b j).
Proof.
  intros Hj. destruct j as [|j]; cbn [fhewMessage rowMsg].
  - set (one := upd (repeat 0 N) 0 1). assert (wpoly w N one) as H1.
    { split; [unfold one; rewrite upd_length; apply repeat_length|]. apply Forall_forall. intros x Hx. apply (In_nth _ _ 0) in Hx. destruct Hx as (i & Hi & <-). unfold one in *. rewrite upd_length, repeat_length in Hi.
      change (nth i (upd (repeat 0 N) 0 1) 0) with (nthZ (upd (repeat 0 N) 0 1) i). rewrite nthZ_upd by (rewrite repeat_length; lia). pose proof (Z.pow_gt_1 2 w ltac:(lia)) as X. unfold uword.
      destruct (Nat.eqb i 0); [lia|]. unfold nthZ. rewrite nth_repeat_lt by lia. lia. }
    assert (peq Q (pol N one) pone) as H2.
    { unfold one. rewrite (peq_0_any Q _ _ (pol_const N Npos 1)). intros x; apply eqm_eq; cbn [cf pconst pscale]; ring. }
    rewrite (MonomialMulPolyInPlace_eq N Npos w n one one b ltac:(lia) ltac:(lia) HNn (proj1 H1) H1).
    destruct (MonomialMulPolyTo_spec N Npos w n one one b ltac:(lia) ltac:(lia) HNn (proj1 H1) H1) as (A & B). eexists. split; [reflexivity|]. split; [apply A|]. rewrite B, H2. ring.
  - destruct (MonomialMulPolyTo_spec N Npos w n (repeat 0 N) (nth j sk []) b ltac:(lia) ltac:(lia) HNn (repeat_length _ _) (Hwk j ltac:(lia))) as (A & B).
    eexists. split; [reflexivity|]. split; [apply A|exact B].
Qed.

Lemma fhewRow_spec b j row buf st : (j <= k)%nat -> gshape N k buf -> lshape N k p row ->
  exists row' buf' st' e, fhewRow w N k logN U G fsk sk p b j row buf st = Some (row', (buf', st')) /\ gshape N k buf' /\ row_ok b j row' e.
Proof.
  intros Hj Hb Hr. unfold fhewRow. destruct (fhewMessage_spec b j Hj) as (pt & -> & Lp & Pp).
  destruct (EncryptFFTGLevPolyTo w logN N k U G fsk p buf row pt st) as (row' & buf' & st') eqn:Er.
  destruct (EncryptFFTGLevPolyTo_spec w Hw N Npos k sk logN HlN U G p Hok buf row pt st row' buf' st' Hsk Hb Hr Lp Er) as (A & B & _).
  eexists row', buf', st', _. split; [unfold EncryptFFTGLevPolyTo in Er; now rewrite Er|]. split; [exact B|]. split; [eapply glev_enc_peq; [exact Pp|exact A]|].
  intros a Ha. cbv beta. apply noisep_bound; [exact Npos|intros; apply HG|exact HE].
Qed.

Lemma FHEWGenBlindRotateKey_spec lwe buf st : gshape N k buf ->
  exists brk r, FHEWGenBlindRotateKey w N k logN U G fsk sk lwe p buf st = Some (brk, r) /\ mono_keys w N k p sk lwe brk E.
Proof.
  intros Hb. unfold FHEWGenBlindRotateKey. set (bk0 := repeat _ (length lwe)).
  pose (gsh := fun g => length g = S k /\ forall a, (a <= k)%nat -> lshape N k p (nth a g [])).
  assert (forall i, (i < length lwe)%nat -> gsh (nth i bk0 [])) as Hbk.
  { intros i Hi. unfold bk0. rewrite nth_repeat_lt by exact Hi. split; [apply repeat_length|]. intros a Ha. rewrite nth_repeat_lt by lia. split; [apply repeat_length|]. intros j Hj. rewrite nth_repeat_lt by exact Hj.
    split; [apply repeat_length|]. intros i' Hi'. rewrite nth_repeat_lt by lia. apply repeat_length. }
  pose (J := fun q s => (q <= length lwe)%nat -> exists brk buf (st : rst), s = Some (brk, (buf, st)) /\ gshape N k buf /\ length brk = length lwe /\
    (forall i, (q <= i < length lwe)%nat -> gsh (nth i brk [])) /\
    (forall i, (i < q)%nat -> exists e, ggsw_enc w N k p sk (nth i brk []) (pmono (swrap w (nthZ lwe i))) e /\ forall a b, (a <= k)%nat -> (b < g_level p)%nat -> pbound E (e a b))).
  match goal with |- exists brk r, ?g = _ /\ _ => enough (J (length lwe) g) as X end.
  { destruct (X (le_n _)) as (brk & buf' & st' & -> & _ & L & _ & A). eexists _, _. split; [reflexivity|]. split; [exact L|exact A]. }
  apply (forN_ind J); unfold J.
  - intros _. exists bk0, buf, st. split; [reflexivity|]. split; [exact Hb|]. split; [apply repeat_length|]. split; [intros; apply Hbk; lia|intros; lia].
  - intros q s Hq IH _. destruct (IH ltac:(lia)) as (brk & buf1 & st1 & -> & Hb1 & L1 & S1 & A1). rewrite Nat.add_0_l. set (b := swrap w (nthZ lwe q)).
    pose (K := fun q' s => (q' <= S k)%nat -> exists g buf (st : rst), s = Some (g, (buf, st)) /\ gshape N k buf /\ length g = S k /\
      (forall a, (q' <= a <= k)%nat -> lshape N k p (nth a g [])) /\ (forall a, (a < q')%nat -> exists e, row_ok b a (nth a g []) e)).
    match goal with |- context [match ?g with Some _ => _ | None => None end] => assert (K (S k) g) as X end.
    { destruct (S1 q ltac:(lia)) as (G1 & G2). apply (forN_ind K); unfold K.
      - intros _. eexists _, _, _. split; [reflexivity|]. split; [exact Hb1|]. split; [exact G1|]. split; [intros; apply G2; lia|intros; lia].
      - intros j s Hj IHj _. destruct (IHj ltac:(lia)) as (g & buf2 & st2 & -> & Hb2 & L2 & S2 & A2). rewrite Nat.add_0_l.
        destruct (fhewRow_spec b j (nth j g []) buf2 st2 ltac:(lia) Hb2 (S2 j ltac:(lia))) as (row' & buf3 & st3 & e & -> & Hb3 & R3).
        eexists _, _, _. split; [reflexivity|]. split; [exact Hb3|]. split; [now rewrite upd_length|]. split.
        + intros a Ha. rewrite nth_upd_other by lia. apply S2. lia.
        + intros a Ha. destruct (Nat.eq_dec a j) as [->|Hne]; [exists e; rewrite nth_upd_same by lia; exact R3|]. rewrite nth_upd_other by lia. apply A2. lia. }
    destruct (X (le_n _)) as (g & buf2 & st2 & -> & Hb2 & L2 & _ & A2). eexists _, _, _. split; [reflexivity|]. split; [exact Hb2|]. split; [now rewrite upd_length|]. split.
    + intros i Hi. rewrite nth_upd_other by lia. apply S1. lia.
    + intros i Hi. destruct (Nat.eq_dec i q) as [->|Hne]; [|rewrite nth_upd_other by lia; apply A1; lia]. rewrite nth_upd_same by lia.
      destruct (choice_fun (fun _ => pzero) (fun a e => row_ok b a (nth a g []) e) (S k) A2) as (e & He). exists e. split.
      * split; [exact L2|]. split; [exact (proj1 (He O ltac:(lia)))|]. intros a Ha. exact (proj1 (He (S a) ltac:(lia))).
      * intros a c Ha Hc. exact (proj2 (He a ltac:(lia)) c Hc).
Qed.

Lemma galois_one skp buf st d : Z.odd d = true -> length skp = k -> (forall i, (i < k)%nat -> length (nth i skp []) = N) -> gshape N k buf ->
  exists o, permuteKey w N k sk skp d = Some o /\ length o = k /\ (forall i, (i < k)%nat -> length (nth i o []) = N) /\
  exists ksk buf' st', GenGLWEKeySwitchKey w logN N k U G fsk o p buf st = (ksk, (buf', st')) /\ gshape N k buf' /\ galois_key w N k p sk d ksk E.
Proof.
  intros Hd Lp Hp Hb. destruct (permuteKey_spec w N k n Hw ltac:(lia) HNn sk U G skp d Hd (proj1 Hsk) Hwk Lp Hp) as (o & E1 & L1 & H1 & P1). exists o. split; [exact E1|]. split; [exact L1|]. split; [exact H1|].
  destruct (GenGLWEKeySwitchKey w logN N k U G fsk o p buf st) as (ksk & buf' & st') eqn:E2. exists ksk, buf', st'. split; [reflexivity|].
  destruct (ksk_full w N k n Hw ltac:(lia) HNn sk logN HlN U G p Hok o buf st ksk buf' st' Hsk Hb ltac:(intros i Hi; apply H1; lia) E2) as (A & B). split; [exact B|].
  eexists o, _. split; [exact L1|]. split; [exact P1|]. split; [exact A|]. intros i j Hi Hj. cbv beta. apply noisep_bound; [exact Npos|intros; apply HG|exact HE].
Qed.

Lemma FHEWGenGaloisKey_spec W skp buf st : Z.of_nat W < 2 ^ 62 -> length skp = k -> (forall i, (i < k)%nat -> length (nth i skp []) = N) -> gshape N k buf ->
  exists glk r, FHEWGenGaloisKey w N k logN U G sk fsk p W skp buf st = Some (glk, r) /\ window_keys w N k p sk W glk E.
Proof.
  intros HW Lp Hp Hb. unfold FHEWGenGaloisKey. destruct (galois_one skp buf st (-5) eq_refl Lp Hp Hb) as (o & -> & Lo & Ho & ksk & buf1 & st1 & -> & Hb1 & K1).
  pose (J := fun q s => (q <= W)%nat -> exists (glk : list (list (list (list (list Z))))) (skp : list (list Z)) (buf : list (list Z)) (st : rst), s = Some (glk, (skp, (buf, st))) /\ length skp = k /\ (forall i, (i < k)%nat -> length (nth i skp []) = N) /\ gshape N k buf /\ length glk = S W /\
    nth_error glk 0 = Some ksk /\ forall i, (1 <= i <= q)%nat -> exists ksk, nth_error glk i = Some ksk /\ galois_key w N k p sk (5 ^ Z.of_nat i) ksk E).
  match goal with |- exists glk r, ?g = _ /\ _ => enough (J W g) as X end.
  { destruct (X (le_n _)) as (glk & skp' & buf' & st' & -> & _ & _ & _ & _ & A & B). eexists _, _. split; [reflexivity|]. split; [exists ksk; now split|exact B]. }
  apply (forN_ind J); unfold J.
  - intros _. eexists _, _, _, _. split; [reflexivity|]. split; [exact Lo|]. split; [exact Ho|]. split; [exact Hb1|]. split; [rewrite upd_length; apply repeat_length|]. split; [reflexivity|]. intros; lia.
  - intros q s Hq IH _. destruct (IH ltac:(lia)) as (glk & skp1 & buf2 & st2 & -> & L1 & H1 & Hb2 & L2 & A2 & B2).
    destruct (tN2 N n ltac:(lia) HNn) as (h & Eh & _ & Hh & _).
    assert (NZ <= 2 ^ 30) as HN30 by (rewrite HNn; apply Z.pow_le_mono_r; lia). change (2 ^ 30) with 1073741824 in HN30. change (2 ^ 62) with 4611686018427387904 in HW.
    destruct (ModExp_nonneg true 64 5 (Z.of_nat (1 + q)) M) as (dl & Ed & Hdl & Qd); try lia; try (cbn [tword]; unfold sword; change (2 ^ (64 - 1)) with 9223372036854775808; try lia; nia).
    rewrite Ed. assert (Z.odd dl = true) as Hod.
    { destruct Qd as (c & Ec). replace dl with (5 ^ Z.of_nat (1 + q) + 2 * (c * NZ)) by lia. rewrite Z.odd_add_mul_2. apply five_odd. lia. }
    destruct (galois_one skp1 buf2 st2 dl Hod L1 H1 Hb2) as (o2 & -> & Lo2 & Ho2 & ksk2 & buf3 & st3 & -> & Hb3 & K3).
    eexists _, _, _, _. split; [reflexivity|]. split; [exact Lo2|]. split; [exact Ho2|]. split; [exact Hb3|]. split; [now rewrite upd_length|].
    assert (forall i, nth_error (upd glk (1 + q) ksk2) i = if Nat.eqb i (1 + q) then Some ksk2 else nth_error glk i) as EN.
    { intros i. destruct (Nat.eqb_spec i (1 + q)) as [->|Hne].
      - rewrite (nth_error_nth' _ []) by (rewrite upd_length; lia). now rewrite nth_upd_same by lia.
      - destruct (Nat.lt_ge_cases i (length glk)) as [Hl|Hl]; [|rewrite !(proj2 (nth_error_None _ _)) by (rewrite ?upd_length; lia); reflexivity].
        rewrite !(nth_error_nth' _ []) by (rewrite ?upd_length; lia). now rewrite nth_upd_other by lia. }
    split; [rewrite EN; exact A2|]. intros i Hi. rewrite EN. destruct (Nat.eqb_spec i (1 + q)) as [->|Hne]; [|apply B2; lia].
    exists ksk2. split; [reflexivity|]. destruct K3 as (sk' & e & X1 & X2 & X3). exists sk', e. split; [exact X1|]. split; [|exact X3]. intros i' Hi'. rewrite (X2 i' Hi'). now apply psubst_eqm.
Qed.
End Keys.

(** The Gaussian key: words of samples bounded by b. *)
Lemma FHEWGenSecretKey_spec w N k G n g b large s sk : 0 < w -> (0 < N)%nat -> (forall i, Z.abs (G i) <= b) -> b < 2 ^ (w - 1) -> (n <= k * N)%nat -> FHEWGenSecretKey w N k G n g = (large, s, sk) ->
  skey N k sk /\ (forall i, (i < k)%nat -> wpoly w N (nth i sk [])) /\ flat N sk large /\ length s = n /\ s = firstn (length s) large /\ (length s <= length large)%nat /\ key_small w N k sk b.
Proof.
  intros Hw HN HG Hb Hn E. injection E as <- <- <-. set (large := tab (k * N) (fun i => wrap w (G (g + i)%nat))).
  assert (length large = (k * N)%nat) as Ll by apply tab_length.
  assert (forall i j, (i < k)%nat -> (j < N)%nat -> nthZ (nth i (tab k (fun i => firstn N (skipn (i * N) large))) []) j = wrap w (G (g + (i * N + j))%nat)) as EV.
  { intros i j Hi Hj. rewrite nth_tab by exact Hi. rewrite nthZ_firstn by exact Hj. rewrite nthZ_skipn. unfold large. rewrite nthZ_tab; [reflexivity|]. nia. }
  assert (forall i, (i < k)%nat -> length (nth i (tab k (fun i => firstn N (skipn (i * N) large))) []) = N) as EL.
  { intros i Hi. rewrite nth_tab by exact Hi. rewrite firstn_length, skipn_length, Ll. nia. }
  assert (length (firstn n large) = n) as Ln by (rewrite firstn_length; lia).
  split; [split; [apply tab_length|exact EL]|]. split.
  { intros i Hi. split; [now apply EL|]. apply Forall_forall. intros x Hx. apply (In_nth _ _ 0) in Hx. destruct Hx as (j & Hj & <-). rewrite EL in Hj by exact Hi. change (uword w (nthZ (nth i (tab k (fun i => firstn N (skipn (i * N) large))) []) j)). rewrite EV by assumption. now apply wrap_word. }
  split. { split; [rewrite tab_length; exact Ll|]. rewrite tab_length. intros i j Hi Hj. rewrite EV by assumption. unfold large. rewrite nthZ_tab; [reflexivity|nia]. }
  split; [exact Ln|]. split; [now rewrite Ln|]. split; [lia|].
  intros i Hi. apply pbound_coeffs; [exact HN|]. intros j Hj. rewrite (cf_pol_at N HN) by exact Hj. unfold nthZ. rewrite (nth_indep _ 0 (swrap w 0)) by (rewrite map_length, EL by exact Hi; exact Hj). rewrite map_nth.
  change (nth j (nth i (tab k (fun i => firstn N (skipn (i * N) large))) []) 0) with (nthZ (nth i (tab k (fun i => firstn N (skipn (i * N) large))) []) j). rewrite EV by assumption.
  set (x := G (g + (i * N + j))%nat). assert (Z.abs x <= b) as Hx by apply HG. assert (swrap w (wrap w x) = x) as ->; [|exact Hx].
  replace (swrap w (wrap w x)) with (swrap w x); [apply swrap_small; [exact Hw|]; unfold sword; lia|].
  unfold swrap, wrap. rewrite Z.add_mod_idemp_l by (apply Z.pow_nonzero; lia). reflexivity.
Qed.

(** The three generated keys. *)
Lemma fhew_keygen w N k n p pKS Gs U G b E ns g large s sk logN W buf skp st0 st1 st2 ksk st2' : 0 < w -> 1 <= n <= 30 -> Z.of_nat N = 2 ^ n -> (1 <= k)%nat -> (1 <= W)%nat -> Z.of_nat W < 2 ^ 62 ->
  gadget_ok w p -> gadget_ok w pKS -> 0 < splitBitsShort logN -> (forall i, Z.abs (Gs i) <= b) -> b < 2 ^ (w - 1) -> (forall i, Z.abs (G i) <= E) -> (ns <= k * N)%nat ->
  gshape N k buf -> length skp = k -> (forall i, (i < k)%nat -> length (nth i skp []) = N) ->
  FHEWGenSecretKey w N k Gs ns g = (large, s, sk) ->
  GenDefaultKeySwitchKey w U G s (skipn (length s) large) pKS st2 = (ksk, st2') ->
  length s = ns /\ exists brk r glk r', FHEWGenBlindRotateKey w N k logN U G (map (fwdFFT w) sk) sk s p buf st0 = Some (brk, r) /\
    FHEWGenGaloisKey w N k logN U G sk (map (fwdFFT w) sk) p W skp buf st1 = Some (glk, r') /\
    fhew_keys w N k p pKS sk s large brk glk ksk W b E E E.
Proof.
  intros Hw Hn HNn Hk HW HW' Hok HokK HlN HGs Hb HG Hns Hbuf Lp Hp Ek E2. pose proof (HG O) as HG0. pose proof (HGs O) as HGs0.
  assert (0 < N)%nat as HN by (assert (0 < 2 ^ n) by (apply Z.pow_pos_nonneg; lia); lia).
  destruct (FHEWGenSecretKey_spec w N k Gs ns g b large s sk Hw HN HGs Hb Hns Ek) as (Hsk & Hwk & Hfl & Ls & Hpre & Hle & Hsm). split; [exact Ls|].
  destruct (FHEWGenBlindRotateKey_spec w N k n Hw Hn HNn sk p Hok Hsk Hwk logN U G E HlN ltac:(lia) HG s buf st0 Hbuf) as (brk & r & EB & KB).
  destruct (FHEWGenGaloisKey_spec w N k n Hw Hn HNn sk p Hok Hsk Hwk logN U G E HlN ltac:(lia) HG W skp buf st1 HW' Lp Hp Hbuf) as (glk & r' & EG & KG).
  exists brk, r, glk, r'. split; [exact EB|]. split; [exact EG|]. apply (GenDefaultKeySwitchKey_spec w Hw pKS HokK) in E2. destruct E2 as (E2 & _).
  constructor; try assumption; try (now split).
  - now exists n.
  - split; [exact Hk|]. split; [apply Hsk|]. split; [exact Hfl|apply Hsk].
  - split; [lia|]. repeat split; try lia. exact Hsm.
  - eexists. split; [exact E2|]. intros i j Hi Hj. cbv beta. apply HG.
Qed.
