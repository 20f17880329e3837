(** Proofs about transformed ciphertexts (property C75): encryption commutes with the transforms; uni-encryptions; round trips. *)
From Verif Require Import Base NegaRing ModelNum ModelVec ModelPoly SpecNum SpecPoly ModelGadget SpecGadget ModelEncoder ModelLWE SpecLWE ModelGLWE SpecGLWE ModelMK SpecMK ModelFFTLev SpecFFTLev
  PfNum PfPoly PfVec PfLWE PfKS2 PfGLWE PfGLWE3 PfMK5 PfBFV PfBoot4 PfFFTLev ExMK.

(** Two loops filling lists in step. *)
Lemma updLoop2 {A B S T} (d : A) (d' : B) (e1 : nat -> A -> S -> A * S) (e2 : nat -> B -> T -> B * T) (R : S -> T -> Prop) (E : A -> B -> Prop) (s1 : A -> Prop) (s2 : B -> Prop) lo n o1 o2 x1 x2 :
  (lo + n <= length o1)%nat -> (lo + n <= length o2)%nat -> (forall i, (lo <= i < lo + n)%nat -> s1 (nth i o1 d) /\ s2 (nth i o2 d')) -> R x1 x2 ->
  (forall i a b s t, (lo <= i < lo + n)%nat -> s1 a -> s2 b -> R s t -> E (fst (e1 i a s)) (fst (e2 i b t)) /\ R (snd (e1 i a s)) (snd (e2 i b t))) ->
  let r1 := forN lo n (fun i s => let '(o, t) := s in let '(c, t') := e1 i (nth i o d) t in (upd o i c, t')) (o1, x1) in
  let r2 := forN lo n (fun i s => let '(o, t) := s in let '(c, t') := e2 i (nth i o d') t in (upd o i c, t')) (o2, x2) in
  length (fst r1) = length o1 /\ length (fst r2) = length o2 /\ R (snd r1) (snd r2) /\
  (forall i, (lo <= i < lo + n)%nat -> E (nth i (fst r1) d) (nth i (fst r2) d')) /\
  (forall i, (i < lo \/ lo + n <= i)%nat -> nth i (fst r1) d = nth i o1 d /\ nth i (fst r2) d' = nth i o2 d').
Proof.
  intros L1 L2 Hs HR Hstep. cbv zeta. induction n as [|n IH].
  - cbn [forN fst snd]. do 3 (split; [auto|]). split; [lia|auto].
  - rewrite !forN_S_r. destruct IH as (A1 & A2 & A3 & A4 & A5); [lia|lia|intros i Hi; exact (Hs i ltac:(lia))|intros i a b s t Hi; exact (Hstep i a b s t ltac:(lia))|].
    match type of A3 with R (snd ?x) (snd ?y) => destruct x as [p1 t1]; destruct y as [p2 t2] end. cbn [fst snd] in *.
    destruct (A5 (lo + n)%nat ltac:(lia)) as (B1 & B2). rewrite B1, B2.
    destruct (Hstep (lo + n)%nat (nth (lo + n) o1 d) (nth (lo + n) o2 d') t1 t2 ltac:(lia) (proj1 (Hs (lo + n)%nat ltac:(lia))) (proj2 (Hs (lo + n)%nat ltac:(lia))) A3) as (C1 & C2).
    destruct (e1 (lo + n)%nat (nth (lo + n) o1 d) t1) as [c1 u1]. destruct (e2 (lo + n)%nat (nth (lo + n) o2 d') t2) as [c2 u2]. cbn [fst snd] in *.
    split; [now rewrite upd_length|]. split; [now rewrite upd_length|]. split; [exact C2|]. split.
    + intros i Hi. rewrite !nth_upd_if by lia. destruct (Nat.eqb_spec i (lo + n)); [exact C1|]. apply A4. lia.
    + intros i Hi. rewrite !nth_upd_if by lia. destruct (Nat.eqb_spec i (lo + n)); [lia|]. apply A5. lia.
Qed.

Section W.
Variable w : Z.
Hypothesis Hw : 0 < w.
Notation Q := (2 ^ w).
Variable N : nat.
Hypothesis HN : (0 < N)%nat.
Notation Fwd := (map (fwdFFT w)).
Notation Inv := (map (invFFT w)).
Notation zz := (fun _ : nat => 0).
Variables (logN : Z) (Hl : 0 < splitBitsShort logN) (U G : nat -> Z).
Variables (p : gadget) (Hok : gadget_ok w p).
Notation l := (g_level p).

Section K.
Variables (k : nat) (sk : list (list Z)) (Hsk : skey N k sk).
Notation fsk := (map (fwdFFT w) sk).

Lemma body_over c1 c2 v st : gshape N k c1 -> gshape N k c2 -> length v = N ->
  EncryptGLWEBody w logN N k U G fsk (upd c1 0 v) st = EncryptGLWEBody w logN N k U G fsk (upd c2 0 v) st.
Proof.
  intros (L1 & H1) (L2 & H2) Lv. pose proof (EncryptGLWEPlaintextTo_over w Hw N HN k sk logN Hl U G c1 c2 v st Hsk (Logic.conj L1 H1) (Logic.conj L2 H2) Lv) as X.
  unfold EncryptGLWEPlaintextTo in X. rewrite !(go_copy_full 0) in X by (rewrite ?H1, ?H2; lia). exact X.
Qed.

(** Encrypting to transformed form is encrypting and then transforming. *)
Lemma commute_lev buf o1 o2 pt st : gshape N k buf -> lshape N k p o1 -> lshape N k p o2 -> length pt = N ->
  let r := EncryptGLevPolyTo w logN N k U G fsk p o1 pt st in
  let f := EncryptFFTGLevPolyTo w logN N k U G fsk p buf o2 pt st in
  fst f = map Fwd (fst r) /\ snd (snd f) = snd r /\ gshape N k (fst (snd f)) /\ lev_words w N k p (fst r).
Proof.
  intros Hb (L1 & H1) (L2 & H2) Lp. cbv zeta. unfold EncryptGLevPolyTo, EncryptFFTGLevPolyTo.
  set (e1 := fun i c s => EncryptGLWEBody w logN N k U G fsk (upd c 0 (vscale w (BaseQ w p i) pt)) s).
  set (e2 := fun (i : nat) (c : list (list Z)) (t : list (list Z) * rst) => let '(b, s') := EncryptGLWEBody w logN N k U G fsk (upd (fst t) 0 (vscale w (BaseQ w p i) pt)) (snd t) in (FwdFFTGLWECiphertextTo w c b, (b, s'))).
  pose proof (updLoop2 [] [] e1 e2 (fun s t => snd t = s /\ gshape N k (fst t)) (fun a b => b = Fwd a /\ glwe_ct w N k a) (gshape N k) (gshape N k) 0 l o1 o2 st (buf, st)) as X.
  rewrite (forN_ext 0 l (fun i s => let '(o, (bu, t)) := s in let '(b, t0) := EncryptGLWEBody w logN N k U G fsk (upd bu 0 (vscale w (BaseQ w p i) pt)) t in (upd o i (FwdFFTGLWECiphertextTo w (nth i o []) b), (b, t0)))
    (fun i s => let '(o, t) := s in let '(c, t') := e2 i (nth i o []) t in (upd o i c, t'))).
  2:{ intros i [o [bu s]] Hi. unfold e2. cbn [fst snd]. match goal with |- (let '(_, _) := ?x in _) = _ => destruct x as [b s'] end. reflexivity. }
  destruct X as (A1 & A2 & A3 & A4 & _); [lia|lia|intros i Hi; split; [apply H1|apply H2]; lia|cbn [fst snd]; now split| |].
  - intros i a b s [bu t] Hi Ha Hb' (HR & Hbu). cbn [fst snd] in HR, Hbu. subst t. unfold e1, e2. cbn [fst snd].
    rewrite (body_over bu a) by (try assumption; unfold vscale; now rewrite map_length).
    destruct (EncryptGLWEBody w logN N k U G fsk (upd a 0 (vscale w (BaseQ w p i) pt)) s) as [c' s'] eqn:Ec. cbn [fst snd].
    apply (bodyScaled_spec w Hw N HN k sk logN Hl U G a pt _ s c' s' Hsk Ha Lp) in Ec. destruct Ec as (X & _ & _).
    split; [split; [|exact X]|split; [reflexivity|now apply (glwe_shape w)]]. apply (FwdFFT_eq w N HN k zz zz); [apply Hb'|apply X].
  - match goal with |- fst ?a = map _ (fst ?b) /\ _ => change a with (forN 0 l (fun i s => let '(o, t) := s in let '(c, t') := e2 i (nth i o []) t in (upd o i c, t')) (o2, (buf, st)));
      change b with (forN 0 l (fun i s => let '(o, t) := s in let '(c, t') := e1 i (nth i o []) t in (upd o i c, t')) (o1, st)) end.
    set (r1 := forN 0 l _ (o1, st)) in *. set (r2 := forN 0 l _ (o2, (buf, st))) in *. destruct A3 as (A3 & A3').
    split; [|split; [exact A3|split; [exact A3'|split; [lia|intros j Hj; apply A4; lia]]]].
    apply (list_ext []); [rewrite map_length; lia|]. intros i Hi. rewrite nth_mapF. apply A4. lia.
Qed.
Lemma commute_gsw buf o1 o2 pt st : gshape N k buf -> gsw_shape N k p o1 -> gsw_shape N k p o2 -> wpoly w N pt ->
  let r := EncryptGGSWPolyTo w logN N k U G fsk p o1 pt st in
  let f := EncryptFFTGGSWPolyTo w logN N k U G fsk p buf o2 pt st in
  fst f = map (map Fwd) (fst r) /\ snd (snd f) = snd r /\ gsw_words w N k p (fst r).
Proof.
  intros Hb (L1 & H1) (L2 & H2) Wp. cbv zeta. unfold EncryptGGSWPolyTo, EncryptFFTGGSWPolyTo.
  destruct (commute_lev buf (nth 0 o1 []) (nth 0 o2 []) pt st Hb (H1 O ltac:(lia)) (H2 O ltac:(lia)) (proj1 Wp)) as (B1 & B2 & B3 & B4).
  destruct (EncryptGLevPolyTo w logN N k U G fsk p (nth 0 o1 []) pt st) as [r0 st1]. destruct (EncryptFFTGLevPolyTo w logN N k U G fsk p buf (nth 0 o2 []) pt st) as [f0 [bu1 st1']].
  cbn [fst snd] in *. subst st1' f0.
  set (e1 := fun i c s => EncryptGLevPolyTo w logN N k U G fsk p c (ShortFFTPolyMulPolyTo false w logN N pt (nth (pred i) fsk [])) s).
  set (e2 := fun i c (t : list (list Z) * rst) => EncryptFFTGLevPolyTo w logN N k U G fsk p (fst t) c (ShortFFTPolyMulPolyTo false w logN N pt (nth (pred i) fsk [])) (snd t)).
  pose proof (updLoop2 [] [] e1 e2 (fun s t => snd t = s /\ gshape N k (fst t)) (fun a b => b = map Fwd a /\ lev_words w N k p a) (lshape N k p) (lshape N k p) 1 k (upd o1 0 r0) (upd o2 0 (map Fwd r0)) st1 (bu1, st1)) as X.
  rewrite !forN_shift in X.
  match goal with |- fst ?a = map _ (fst ?b) /\ _ => set (r2 := a); set (r1 := b) end.
  assert (r1 = forN 0 k (fun i s => let '(o, t) := s in let '(c, t') := e1 (S i) (nth (S i) o []) t in (upd o (S i) c, t')) (upd o1 0 r0, st1)) as E1.
  { unfold r1. apply forN_ext. intros i [o s] Hi. reflexivity. }
  assert (r2 = forN 0 k (fun i s => let '(o, t) := s in let '(c, t') := e2 (S i) (nth (S i) o []) t in (upd o (S i) c, t')) (upd o2 0 (map Fwd r0), (bu1, st1))) as E2.
  { unfold r2. apply forN_ext. intros i [o [bu s]] Hi. unfold e2, EncryptFFTGLevPolyTo. cbn [fst snd pred]. match goal with |- (let '(_, _) := ?x in _) = _ => destruct x as [b [s1 s2]] end. reflexivity. }
  cbv zeta in X. rewrite <- E1, <- E2 in X. clear E1 E2.
  destruct X as (A1 & A2 & A3 & A4 & A5); [rewrite upd_length; lia|rewrite upd_length; lia| |cbn [fst snd]; now split| |].
  - intros i Hi. rewrite !nth_upd_if by lia. destruct (Nat.eqb_spec i 0); [lia|]. split; [apply H1|apply H2]; lia.
  - intros i a b s [bu t] Hi Ha Hb' (HR & Hbu). cbn [fst snd] in HR, Hbu. subst t. unfold e1, e2. cbn [fst snd].
    destruct (ggswPt w Hw N HN k sk logN Hl pt (pred i) Hsk Wp ltac:(lia)) as ((W1 & _) & _).
    destruct (commute_lev bu a b _ s Hbu Ha Hb' W1) as (C1 & C2 & C3 & C4). split; [split; [exact C1|exact C4]|split; [exact C2|exact C3]].
  - rewrite upd_length in A1, A2. destruct A3 as (A3 & _). destruct (A5 O ltac:(lia)) as (Z1 & Z2). rewrite nth_upd_if in Z1, Z2 by lia. cbn [Nat.eqb] in Z1, Z2.
    split; [|split; [exact A3|split; [lia|]]].
    + apply (list_ext []); [rewrite map_length; lia|]. intros i Hi. rewrite nth_mapFF. destruct i as [|i]; [now rewrite Z1, Z2|]. apply A4. lia.
    + intros [|i] Hi; [rewrite Z1; exact B4|]. apply A4. lia.
Qed.

Lemma commute_lev' buf o1 o2 o3 pt st : gshape N k buf -> lshape N k p o1 -> lshape N k p o2 -> lshape N k p o3 -> length pt = N ->
  let r := EncryptGLevPolyTo w logN N k U G fsk p o1 pt st in
  let f := EncryptFFTGLevPolyTo w logN N k U G fsk p buf o2 pt st in
  fst f = FwdFFTGLevCiphertextTo w p o3 (fst r) /\ snd (snd f) = snd r.
Proof.
  intros Hb H1 H2 H3 Lp. cbv zeta. destruct (commute_lev buf o1 o2 pt st Hb H1 H2 Lp) as (A & B & _ & C). split; [|exact B].
  rewrite A. symmetry. apply (FwdLev_eq w N HN k p); [exact H3|eapply lwords_shape; exact C].
Qed.
Lemma commute_gsw' buf o1 o2 o3 pt st : gshape N k buf -> gsw_shape N k p o1 -> gsw_shape N k p o2 -> gsw_shape N k p o3 -> wpoly w N pt ->
  let r := EncryptGGSWPolyTo w logN N k U G fsk p o1 pt st in
  let f := EncryptFFTGGSWPolyTo w logN N k U G fsk p buf o2 pt st in
  fst f = FwdFFTGGSWCiphertextTo w p o3 (fst r) /\ snd (snd f) = snd r.
Proof.
  intros Hb H1 H2 H3 Lp. cbv zeta. destruct (commute_gsw buf o1 o2 pt st Hb H1 H2 Lp) as (A & B & C). split; [|exact B].
  rewrite A. symmetry. apply (FwdGSW_eq w N HN k p); [exact H3|eapply gsw_words_shape; exact C].
Qed.

(** ** Round trips of integer messages *)
Lemma small_noisep g : (forall i, (g <= i < g + N)%nat -> - 2 ^ (w - g_logBase p) <= 2 * G i < 2 ^ (w - g_logBase p)) -> small_noise w N p (noisep N G g).
Proof. intros H i Hi. unfold noisep. rewrite (cf_pol_at N HN) by (rewrite ?tab_length; lia). rewrite nthZ_tab by exact Hi. apply H. lia. Qed.
Lemma lev_messages mm buf mb mo f ms e : 0 < mm <= g_base p -> mm <= Q -> mm <= 2 ^ 63 -> length buf = S k -> length mb = N -> length (messagePoly w N mm mo ms) = N -> length mo = N ->
  glev_enc w N k p sk f (pol N (messagePoly w N mm mo ms)) e -> small_noise w N p (e O) ->
  forall out i, (i < N)%nat -> (i < length out)%nat -> nthZ (DecryptFFTGLevTo w logN N k mm fsk p buf mb out f) i = if (i <? length ms)%nat then wrap w (nthZ ms i) mod mm else 0.
Proof.
  intros Hm Hq H63 Lb Lm L1 L2 He Hn out i Hi Ho.
  rewrite (DecryptFFTGLevTo_spec w Hw N HN k p sk logN Hl Hok mm buf mb out f _ e ltac:(lia) (or_intror H63) Hsk Lb Lm He Hn i Hi Ho).
  rewrite (cf_pol_at N HN) by lia. destruct (messagePoly_spec w N HN zz zz mm mo ms ltac:(lia) L2) as (_ & M). rewrite M by exact Hi.
  destruct (i <? length ms)%nat; [|rewrite !Z.mod_0_l; lia]. pose proof (Z.mod_pos_bound (wrap w (nthZ ms i)) mm ltac:(lia)). rewrite (Z.mod_small _ (g_base p)) by lia. now rewrite Z.mod_mod by lia.
Qed.
Lemma lev_roundtrip_msgs mm buf o mb ms st f buf' st' buf2 mb2 : 0 < mm <= g_base p -> mm <= Q -> mm <= 2 ^ 63 -> gshape N k buf -> lshape N k p o -> length mb = N -> length buf2 = S k -> length mb2 = N ->
  EncryptFFTGLevTo w logN N k U G mm fsk p buf o mb ms st = (f, (buf', st')) ->
  (forall i, (snd st <= i < snd st + N)%nat -> - 2 ^ (w - g_logBase p) <= 2 * G i < 2 ^ (w - g_logBase p)) ->
  forall out i, (i < N)%nat -> (i < length out)%nat -> nthZ (DecryptFFTGLevTo w logN N k mm fsk p buf2 mb2 out f) i = if (i <? length ms)%nat then wrap w (nthZ ms i) mod mm else 0.
Proof.
  intros Hm Hq H63 Hb Ho Lm Lb2 Lm2 E HG. destruct (messagePoly_spec w N HN zz zz mm mb ms ltac:(lia) Lm) as (M1 & _).
  unfold EncryptFFTGLevTo in E. apply (EncryptFFTGLevPolyTo_spec w Hw N HN k sk logN Hl U G p Hok) in E; [|assumption..]. destruct E as (E & _).
  eapply lev_messages; try eassumption. cbv beta. rewrite Nat.mul_0_l, Nat.add_0_r. now apply small_noisep.
Qed.
Lemma gsw_roundtrip_msgs mm buf o mb ms st f buf' st' buf2 mb2 : 0 < mm <= g_base p -> mm <= Q -> mm <= 2 ^ 63 -> gshape N k buf -> gsw_shape N k p o -> length mb = N -> length buf2 = S k -> length mb2 = N ->
  EncryptFFTGGSWTo w logN N k U G mm fsk p buf o mb ms st = (f, (buf', st')) ->
  (forall i, (snd st <= i < snd st + N)%nat -> - 2 ^ (w - g_logBase p) <= 2 * G i < 2 ^ (w - g_logBase p)) ->
  forall out i, (i < N)%nat -> (i < length out)%nat -> nthZ (DecryptFFTGGSWTo w logN N k mm fsk p buf2 mb2 out f) i = if (i <? length ms)%nat then wrap w (nthZ ms i) mod mm else 0.
Proof.
  intros Hm Hq H63 Hb (Lo & Ho) Lm Lb2 Lm2 E HG. destruct (messagePoly_spec w N HN zz zz mm mb ms ltac:(lia) Lm) as (M1 & _).
  assert (wpoly w N (messagePoly w N mm mb ms)) as MW by (apply messagePoly_word; try assumption; try exact zz; lia).
  unfold EncryptFFTGGSWTo in E. apply (EncryptFFTGGSWPolyTo_spec w Hw N HN k sk logN Hl U G p Hok) in E; [|assumption..]. destruct E as ((_ & E & _) & _).
  unfold DecryptFFTGGSWTo. eapply lev_messages; try eassumption. cbv beta. cbn [Nat.mul Nat.add]. rewrite Nat.add_0_r. now apply small_noisep.
Qed.
End K.

(** ** Uni-encryptions *)
Definition partBody (f : list Z -> list Z) (c : list (list (list Z))) (i : nat) (x : list (list Z)) : list (list Z) :=
  upd (upd x 0 (f (nth 0 (nth i c []) []))) 1 (f (nth 1 (nth i c []) [])).
Lemma setPart2 f j o c : setPart f 1 j (setPart f 0 j o c) c = upd o j (partBody f c j (nth j o [])).
Proof. unfold setPart. rewrite upd_twice. destruct (Nat.lt_ge_cases j (length o)) as [Hj|Hj]; [now rewrite (nth_upd_same o) by exact Hj|]. assert (forall v, upd o j v = o) as E; [|now rewrite !E]. intros v. clear - Hj. revert j Hj. induction o as [|b t IH]; intros [|i] H; cbn in *; try reflexivity; [lia|]. now rewrite IH by lia. Qed.
Lemma convUni_eq f out ct : lshape N 1 p (fst out) -> lshape N 1 p (snd out) -> lshape N 1 p (fst ct) -> lshape N 1 p (snd ct) ->
  convUniTo f p out ct = (map (map f) (fst ct), map (map f) (snd ct)).
Proof.
  intros H1 H2 H3 H4. unfold convUniTo.
  assert (forall o c, lshape N 1 p o -> lshape N 1 p c -> forN 0 l (fun i o => upd o i (partBody f c i (nth i o []))) o = map (map f) c) as Hone.
  { intros o c (Lo & Ho) (Lc & Hc). apply (loopMap [] [] (partBody f c) (map f)); [assumption..|]. intros i Hi.
    destruct (two_rows N _ (Ho i Hi)) as (x & y & Ex & _). destruct (two_rows N _ (Hc i Hi)) as (x' & y' & Ec & _). unfold partBody. rewrite Ex, Ec. reflexivity. }
  rewrite <- (Hone (fst out) (fst ct) H1 H3), <- (Hone (snd out) (snd ct) H2 H4).
  apply (forN_ind (fun j s => s = (forN 0 j (fun i o => upd o i (partBody f (fst ct) i (nth i o []))) (fst out), forN 0 j (fun i o => upd o i (partBody f (snd ct) i (nth i o []))) (snd out)))).
  - destruct out; reflexivity.
  - intros j s Hj ->. cbn [fst snd]. rewrite !setPart2. now rewrite !forN_S_r.
Qed.
Lemma uni_roundtrip o1 o2 ct : lshape N 1 p (fst o1) -> lshape N 1 p (snd o1) -> lshape N 1 p (fst o2) -> lshape N 1 p (snd o2) ->
  lev_words w N 1 p (fst ct) -> lev_words w N 1 p (snd ct) -> InvFFTUniEncryptionTo w p o2 (FwdFFTUniEncryptionTo w p o1 ct) = ct.
Proof.
  intros H1 H2 H3 H4 W1 W2. unfold InvFFTUniEncryptionTo, FwdFFTUniEncryptionTo.
  pose proof (lwords_shape w N 1 p _ W1) as S1. pose proof (lwords_shape w N 1 p _ W2) as S2.
  rewrite (convUni_eq (fwdFFT w) o1 ct) by assumption. rewrite convUni_eq by (try assumption; cbn [fst snd]; now apply lshape_F). cbn [fst snd].
  rewrite (inv_fwd_lev w Hw N HN 1 p _ W1), (inv_fwd_lev w Hw N HN 1 p _ W2). now destruct ct.
Qed.

Variables (s : list Z) (Hs : length s = N).
Lemma uni_shapes a r u0 u1 m e e' : uni_enc w N p a s r u0 u1 m e e' -> lshape N 1 p u0 /\ lshape N 1 p u1.
Proof. intros (L & H & H1). split; [split; [exact L|intros j Hj; apply H; exact Hj]|eapply glev_shape; exact H1]. Qed.
Lemma uni_map f a r u0 u1 m e e' : (forall x, length (f x) = length x) -> (forall x, length x = N -> peq Q (pol N (f x)) (pol N x)) ->
  uni_enc w N p a s r u0 u1 m e e' -> glev_enc w N 1 p [s] (map (map f) u1) r e' -> uni_enc w N p a s r (map (map f) u0) (map (map f) u1) m e e'.
Proof.
  intros Lf Pf (L & H & _) H1. split; [now rewrite map_length|]. split; [|exact H1]. intros j Hj. destruct (H j Hj) as (A & B & C).
  assert (nth j (map (map f) u0) [] = map f (nth j u0 [])) as -> by (change [] with (map f []) at 1; apply map_nth).
  destruct (two_rows N _ A) as (x & y & E & Lx & Ly). rewrite E in B, C |- *. cbn [map nth] in *.
  split; [apply shape2; rewrite Lf; assumption|]. split; rewrite Pf by assumption; assumption.
Qed.
Lemma uni_forward o a r u0 u1 m e e' : lshape N 1 p (fst o) -> lshape N 1 p (snd o) -> uni_enc w N p a s r u0 u1 m e e' ->
  let x := FwdFFTUniEncryptionTo w p o (u0, u1) in uni_enc w N p a s r (fst x) (snd x) m e e'.
Proof.
  intros H1 H2 He. cbv zeta. destruct (uni_shapes _ _ _ _ _ _ _ He) as (S0 & S1). unfold FwdFFTUniEncryptionTo. rewrite convUni_eq by assumption. cbn [fst snd].
  apply uni_map; [intros; apply fwdFFT_length|intros; now apply pol_fwdFFT|exact He|]. rewrite <- (FwdLev_eq w N HN 1 p u1 u1 S1 S1). apply glev_forward; [exact HN|exact S1|apply He].
Qed.
Lemma uni_inverse o a r u0 u1 m e e' : lshape N 1 p (fst o) -> lshape N 1 p (snd o) -> uni_enc w N p a s r u0 u1 m e e' ->
  let x := InvFFTUniEncryptionTo w p o (u0, u1) in uni_enc w N p a s r (fst x) (snd x) m e e' /\ lev_words w N 1 p (fst x) /\ lev_words w N 1 p (snd x).
Proof.
  intros H1 H2 He. cbv zeta. destruct (uni_shapes _ _ _ _ _ _ _ He) as (S0 & S1). unfold InvFFTUniEncryptionTo. rewrite convUni_eq by assumption. cbn [fst snd].
  destruct (glev_inverse w Hw N HN 1 p [s] u1 u1 r e' S1 (proj2 (proj2 He))) as (A & B). rewrite (InvLev_eq w N HN 1 p u1 u1 S1 S1) in A, B.
  split; [|split; [|exact B]].
  - apply uni_map; [intros; apply invFFT_length|intros; now apply pol_invFFT|exact He|exact A].
  - split; [rewrite map_length; apply S0|]. intros j Hj. rewrite nth_mapI. apply glwe_inv; [exact Hw|exact HN|]. now apply S0.
Qed.

Variables (crs : list (list Z)) (Hcrs : forall i, (i < l)%nat -> wpoly w N (nth i crs [])).
Notation a := (fun j => pol N (nth j crs [])).
Lemma UniDec_eq buf sub aux pOut c0 c1 : length buf = 2%nat -> length sub = 2%nat -> gshape N 1 (nth 0 c0 []) -> gshape N 1 (nth 0 c1 []) ->
  FFTUniDecryptPolyTo w logN N (fwdFFT w s) p buf sub aux pOut c0 c1 = UniDecryptPolyTo w logN N (fwdFFT w s) p aux pOut (map Inv c0) (map Inv c1).
Proof.
  intros Lb Ls H0 H1. unfold FFTUniDecryptPolyTo, UniDecryptPolyTo. change [fwdFFT w s] with (map (fwdFFT w) [s]).
  rewrite (DecFFT_eq w N HN 1 p [s] logN buf aux c1 Lb H1). rewrite (InvFFT_eq w N HN 1 zz zz sub (nth 0 c0 []) Ls (proj1 H0)). now rewrite !nth_mapI.
Qed.
Lemma FFTUniDecrypt_spec buf sub auxOld pOut r u0 u1 m e e' : length buf = 2%nat -> length sub = 2%nat -> length auxOld = N -> length pOut = N -> uni_enc w N p a s r u0 u1 m e e' ->
  (forall i, (i < N)%nat -> 0 <= cf r (Z.of_nat i) <= 1) -> small_noise w N p (e O) -> small_noise w N p (e' O) ->
  let o := FFTUniDecryptPolyTo w logN N (fwdFFT w s) p buf sub auxOld pOut u0 u1 in
  length o = N /\ forall i, (i < N)%nat -> nthZ o i mod g_base p = cf m (Z.of_nat i) mod g_base p.
Proof.
  intros Lb Ls La Lo He Hr Hn Hn'. cbv zeta. destruct (uni_shapes _ _ _ _ _ _ _ He) as (S0 & S1). pose proof (lpos w p Hok) as Hlp.
  rewrite UniDec_eq by (try assumption; apply S0 || apply S1; lia).
  destruct (uni_inverse (u0, u1) _ _ _ _ _ _ _ S0 S1 He) as (A & B & C). unfold InvFFTUniEncryptionTo in A, B, C. rewrite convUni_eq in A, B, C by assumption. cbn [fst snd] in *.
  apply (UniDecrypt_spec w Hw N HN logN Hl zz zz s Hs p Hok crs Hcrs auxOld pOut r (map Inv u0) (map Inv u1) m e e' La Lo A); [apply B; lia|apply C; lia|exact Hr|exact Hn|exact Hn'].
Qed.
Lemma FFTUniRoundtrip mm aux out0 out1 mb ms st sub u0 u1 sub' st' buf sub2 auxOld pOut mo : 0 < mm < 2 ^ 63 -> mm <= Q -> (mm | g_base p) -> length mb = N -> length aux = N -> binary aux -> gshape N 1 sub -> lshape N 1 p out0 -> lshape N 1 p out1 ->
  FFTUniEncryptTo w logN N U G mm (fwdFFT w s) p crs aux sub out0 out1 mb ms st = ((u0, u1), (sub', st')) ->
  (forall i, (snd st <= i < snd st + 2 * l * N)%nat -> - 2 ^ (w - g_logBase p) <= 2 * G i < 2 ^ (w - g_logBase p)) ->
  length buf = 2%nat -> length sub2 = 2%nat -> length auxOld = N -> length pOut = N -> length mo = N ->
  let o := FFTUniDecryptTo w logN N mm (fwdFFT w s) p buf sub2 auxOld pOut mo u0 u1 in
  length o = N /\ forall i, (i < N)%nat -> nthZ o i = if (i <? length ms)%nat then wrap w (nthZ ms i) mod mm else 0.
Proof.
  intros Hm Hq Hd Lb La Hbin Hsub H0 H1 E HG K1 K2 L1 L2 L3. cbv zeta. pose proof (lpos w p Hok) as Hlp. destruct (messagePoly_spec w N HN U G mm mb ms ltac:(lia) Lb) as (M1 & M2).
  unfold FFTUniEncryptTo in E. apply (FFTUniEncrypt_spec w Hw N HN logN Hl U G s Hs p Hok crs Hcrs) in E; [|assumption..]. destruct E as (E1 & _).
  destruct (FFTUniDecrypt_spec buf sub2 auxOld pOut (pol N aux) u0 u1 (pol N (messagePoly w N mm mb ms)) _ _ K1 K2 L1 L2 E1) as (D1 & D2).
  - intros i Hi. rewrite (cf_pol_at N HN) by lia. destruct (binary_at aux i Hbin ltac:(lia)) as [-> | ->]; lia.
  - intros i Hi. unfold noisep. rewrite (cf_pol_at N HN) by (rewrite ?tab_length; lia). rewrite nthZ_tab by exact Hi. apply HG. nia.
  - intros i Hi. unfold noisep. rewrite (cf_pol_at N HN) by (rewrite ?tab_length; lia). rewrite nthZ_tab by exact Hi. apply HG. nia.
  - unfold FFTUniDecryptTo. cbv zeta. set (o := FFTUniDecryptPolyTo w logN N (fwdFFT w s) p buf sub2 auxOld pOut u0 u1) in *. rewrite L3, Nat.min_id.
    split; [rewrite (forN_upd_length 0 N (fun i => i) (fun i _ => swrap 64 (nthZ o i mod mm))); exact L3|]. intros i Hi. unfold nthZ at 1.
    pose proof (forN_upd_range 0 0 N (fun i _ => swrap 64 (nthZ o i mod mm)) mo i ltac:(lia)) as R. cbv beta in R. rewrite R. clear R.
    replace ((0 <=? i)%nat && (i <? 0 + N)%nat)%bool with true by (symmetry; lia).
    assert (nthZ o i mod mm = nthZ (messagePoly w N mm mb ms) i) as ->.
    { destruct Hd as (q & Hd). pose proof Hok as (J1 & J2 & J3 & J4 & J5 & J6). assert (0 < g_base p) by (rewrite J2; apply Z.pow_pos_nonneg; lia).
      assert (0 < q) by nia.
      assert (forall z, z mod mm = (z mod g_base p) mod mm) as Hmm. { intros z. rewrite Hd. rewrite Z.mul_comm. rewrite Z.rem_mul_r by lia. rewrite Z.mul_comm, Z_mod_plus_full. now rewrite Z.mod_mod by lia. }
      rewrite Hmm, D2 by exact Hi. rewrite <- Hmm. rewrite (cf_pol_at N HN) by lia. rewrite M2 by exact Hi. destruct (i <? length ms)%nat; [apply Z.mod_mod; lia|apply Z.mod_0_l; lia]. }
    rewrite M2 by exact Hi. destruct (i <? length ms)%nat; [|reflexivity]. pose proof (Z.mod_pos_bound (wrap w (nthZ ms i)) mm ltac:(lia)). apply swrap_small; [lia|split; cbn; lia].
Qed.
End W.

Lemma fft_uni_poly_refuted : exists u0 u1 rest i, FFTUniEncryptTo 64 3 8 (xU 0) (xG 0) 16 (fwdFFT 64 (nth 0 xkeys [])) xpr xcrs (xaux 0) (repeat (repeat 7 8) 2) (repeat (repeat (repeat 3 8) 2) 3) (repeat (repeat (repeat 4 8) 2) 3) (repeat 4 8) [] (2, 4)%nat = ((u0, u1), rest) /\
  nthZ (FFTUniDecryptPolyTo 64 3 8 (fwdFFT 64 (nth 0 xkeys [])) xpr (repeat (repeat 1 8) 2) (repeat (repeat 2 8) 2) (repeat 5 8) (repeat 6 8) u0 u1) i = g_base xpr.
Proof.
  set (r := FFTUniEncryptTo 64 3 8 (xU 0) (xG 0) 16 (fwdFFT 64 (nth 0 xkeys [])) xpr xcrs (xaux 0) (repeat (repeat 7 8) 2) (repeat (repeat (repeat 3 8) 2) 3) (repeat (repeat (repeat 4 8) 2) 3) (repeat 4 8) [] (2, 4)%nat). exists (fst (fst r)), (snd (fst r)), (snd r), 2%nat. split; [now destruct r as [[? ?] ?]|]. vm_compute. reflexivity.
Qed.
