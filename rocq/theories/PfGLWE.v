From Verif Require Import Base NegaRing SpecNum ModelNum PfNum ModelVec SpecVec PfVec ModelPoly SpecPoly PfPoly PfSplit ModelGadget SpecGadget PfGadget ModelLWE SpecLWE PfLWE PfKS PfKS2 ModelGLWE SpecGLWE.

(** A loop that rewrites entry i of a list, threading a state. *)
Lemma updLoop {A S} (d : A) (enc : nat -> A -> S -> A * S) (I : nat -> S -> Prop) (P : nat -> A -> Prop) (shp : A -> Prop) lo n o st :
  (lo + n <= length o)%nat -> (forall i, (lo <= i < lo + n)%nat -> shp (nth i o d)) -> I O st ->
  (forall m c st, (m < n)%nat -> shp c -> I m st -> let '(c', st') := enc (lo + m)%nat c st in P (lo + m)%nat c' /\ I (Datatypes.S m) st') ->
  let '(o', st') := forN lo n (fun i s => let '(o, st) := s in let '(c, st) := enc i (nth i o d) st in (upd o i c, st)) (o, st) in
  length o' = length o /\ (forall i, (lo <= i < lo + n)%nat -> P i (nth i o' d)) /\
  (forall i, (i < lo \/ lo + n <= i)%nat -> nth i o' d = nth i o d) /\ I n st'.
Proof.
  intros Hl Hs H0 He.
  set (Inv := fun (m : nat) (s : list A * S) => (m <= n)%nat -> let '(r, t) := s in
    length r = length o /\ (forall i, (lo + m <= i \/ i < lo)%nat -> nth i r d = nth i o d) /\
    (forall i, (lo <= i < lo + m)%nat -> P i (nth i r d)) /\ I m t).
  match goal with |- let '(_, _) := forN lo n ?b ?s in _ => assert (Inv n (forN lo n b s)) as HI end.
  { apply (forN_ind Inv); unfold Inv.
    - intros _. repeat match goal with |- _ /\ _ => split end; auto; intros i Hi; lia.
    - intros m [r t] Hm IH Hm'. destruct (IH ltac:(lia)) as (A1 & B & C & D).
      assert (shp (nth (lo + m) r d)) as Hp by (rewrite B by lia; apply Hs; lia).
      pose proof (He m (nth (lo + m) r d) t ltac:(lia) Hp D) as E.
      destruct (enc (lo + m)%nat (nth (lo + m) r d) t) as [c' t']. destruct E as (X & Y).
      split; [now rewrite upd_length|]. split; [|split].
      + intros i Hi. rewrite nth_upd_if by lia. destruct (Nat.eqb_spec i (lo + m)); [lia|apply B; lia].
      + intros i Hi. rewrite nth_upd_if by lia. destruct (Nat.eqb_spec i (lo + m)) as [->|Hne]; [exact X|apply C; lia].
      + exact Y. }
  match goal with |- let '(_, _) := ?b in _ => destruct b as [o' st'] end. destruct (HI ltac:(lia)) as (X1 & X2 & X3 & X4).
  split; [exact X1|]. split; [exact X3|]. split; [|exact X4]. intros i Hi. apply X2; lia.
Qed.

Lemma forN_shift {S} lo n (f : nat -> S -> S) a : forN (Datatypes.S lo) n f a = forN lo n (fun i => f (Datatypes.S i)) a.
Proof. revert lo a; induction n as [|n IH]; intros lo a; [reflexivity|]. cbn [forN]. now rewrite IH. Qed.

Section W.
Variable w : Z.
Hypothesis Hw : 0 < w.
Notation Q := (2 ^ w).
Variable N : nat.
Hypothesis HN : (0 < N)%nat.
Variable k : nat.
Add Ring nring : (@npoly_ring N Q) (setoid (@peq_equiv N Q) (@npoly_ring_ext N Q)).

Lemma glwe_shape ct : glwe_ct w N k ct -> gshape N k ct.
Proof. intros (L & H). split; [exact L|]. intros i Hi. apply H; exact Hi. Qed.

Lemma wpoly_tpoly p : wpoly w N p -> tpoly false w N p.
Proof. intros H; exact H. Qed.
Lemma wpoly_tab (f : nat -> Z) : wpoly w N (tab N (fun i => wrap w (f i))).
Proof. split; [apply tab_length|]. apply Forall_tab. intros; now apply wrap_word. Qed.
Lemma wpoly_vadd a b : length a = N -> length b = N -> wpoly w N (vadd w a b).
Proof. intros; split; [rewrite vadd_length; lia|apply vadd_words; lia]. Qed.
Lemma wpoly_vsub a b : length a = N -> length b = N -> wpoly w N (vsub w a b).
Proof. intros; split; [rewrite vsub_length; lia|apply vsub_words; lia]. Qed.
Lemma wpoly_vneg a : length a = N -> wpoly w N (vneg w a).
Proof. intros; split; [unfold vneg; rewrite map_length; lia|apply vneg_words; lia]. Qed.
Lemma wpoly_vscale c a : length a = N -> wpoly w N (vscale w c a).
Proof. intros; split; [unfold vscale; rewrite map_length; lia|apply vscale_words; lia]. Qed.
Lemma wpoly_invFFT a : length a = N -> wpoly w N (invFFT w a).
Proof. intros; split; [rewrite invFFT_length; lia|apply invFFT_words; lia]. Qed.

Variable sk : list (list Z).
Notation gph := (gphase N k sk).
Notation S_ i := (pol N (nth i sk [])).

Lemma fsk_nth i : nth i (map (fwdFFT w) sk) [] = fwdFFT w (nth i sk []).
Proof. change [] with (fwdFFT w []) at 1. apply map_nth. Qed.
Notation skey := (skey N k sk).

(** ** Linearity of the phase *)
Lemma gphase_lin2 x y a b c :
  (forall i, (i <= k)%nat -> peq Q (pol N (nth i c [])) (padd (pmul x (pol N (nth i a []))) (pmul y (pol N (nth i b []))))) ->
  peq Q (gph c) (padd (pmul x (gph a)) (pmul y (gph b))).
Proof.
  intros H. unfold gphase. rewrite (H O ltac:(lia)).
  rewrite (psum_proper Q k _ (fun i => padd (pmul x (pmul (pol N (nth (S i) a [])) (S_ i))) (pmul y (pmul (pol N (nth (S i) b [])) (S_ i))))).
  2:{ intros i Hi. rewrite (H (S i) ltac:(lia)). ring. }
  rewrite psum_add, <- !pmul_psum_r. ring.
Qed.
Lemma gphase_lin1 x a c :
  (forall i, (i <= k)%nat -> peq Q (pol N (nth i c [])) (pmul x (pol N (nth i a [])))) ->
  peq Q (gph c) (pmul x (gph a)).
Proof.
  intros H. rewrite (gphase_lin2 x pzero a a c). 2:{ intros i Hi. rewrite (H i Hi). ring. } ring.
Qed.
Lemma gphase_add a b c :
  (forall i, (i <= k)%nat -> peq Q (pol N (nth i c [])) (padd (pol N (nth i a [])) (pol N (nth i b [])))) ->
  peq Q (gph c) (padd (gph a) (gph b)).
Proof. intros H. rewrite (gphase_lin2 pone pone a b c). 2:{ intros i Hi. rewrite (H i Hi). ring. } ring. Qed.
Lemma gphase_sub a b c :
  (forall i, (i <= k)%nat -> peq Q (pol N (nth i c [])) (psub (pol N (nth i a [])) (pol N (nth i b [])))) ->
  peq Q (gph c) (psub (gph a) (gph b)).
Proof. intros H. rewrite (gphase_lin2 pone (popp pone) a b c). 2:{ intros i Hi. rewrite (H i Hi). ring. } ring. Qed.
Lemma gphase_eq a c :
  (forall i, (i <= k)%nat -> peq Q (pol N (nth i c [])) (pol N (nth i a []))) -> peq Q (gph c) (gph a).
Proof. intros H. rewrite (gphase_lin1 pone a c). 2:{ intros i Hi. rewrite (H i Hi). ring. } ring. Qed.

Lemma gphase_upd0 ct b : length ct = S k -> peq Q (gph (upd ct 0 b)) (padd (psub (gph ct) (pol N (nth 0 ct []))) (pol N b)).
Proof.
  intros L. unfold gphase. rewrite nth_upd_if by lia. cbn [Nat.eqb].
  rewrite (psum_proper Q k (fun i => pmul (pol N (nth (S i) (upd ct 0 b) [])) (S_ i)) (fun i => pmul (pol N (nth (S i) ct [])) (S_ i))).
  2:{ intros i Hi. rewrite nth_upd_if by lia. reflexivity. } ring.
Qed.

(** ** Encryption *)
Variable logN : Z.
Hypothesis HlN : 0 < splitBitsShort logN.
Variables U G : nat -> Z.
Notation fsk := (map (fwdFFT w) sk).

Lemma EncryptGLWEBody_spec ct st ct' st' : skey -> gshape N k ct ->
  EncryptGLWEBody w logN N k U G fsk ct st = (ct', st') ->
  glwe_ct w N k ct' /\ peq Q (gph ct') (padd (pol N (nth 0 ct [])) (noisep N G (snd st))) /\
  st' = ((fst st + k * N)%nat, (snd st + N)%nat) /\
  (forall i j, (i < k)%nat -> (j < N)%nat -> nthZ (nth (S i) ct' []) j = U (fst st + i * N + j)%nat mod Q).
Proof.
  intros (Lsk & Hsk) (L & Hc). unfold EncryptGLWEBody.
  set (P := fun (m : nat) (s : list (list Z) * rst) => (m <= k)%nat -> let '(c, t) := s in
    gshape N k c /\ t = ((fst st + m * N)%nat, snd st) /\
    (forall i, (i < m)%nat -> nth (S i) c [] = tab N (fun j => wrap w (U (fst st + i * N + j)%nat))) /\
    peq Q (pol N (nth 0 c [])) (psub (pol N (nth 0 ct [])) (psum m (fun i => pmul (pol N (nth (S i) c [])) (S_ i))))).
  match goal with |- context [forN 0 k ?f (ct, st)] => assert (P k (forN 0 k f (ct, st))) as HP end.
  { apply (forN_ind P); unfold P.
    - intros _. split; [split; assumption|]. split; [destruct st; cbn [fst snd]; f_equal; lia|]. split; [intros; lia|]. cbn [psum]. ring.
    - intros m [c t] Hm IH _. destruct (IH ltac:(lia)) as ((L1 & L2) & T & M & E). clear IH. cbn [Nat.add].
      unfold sampleVec. rewrite (L2 (S m) ltac:(lia)), T. cbn [fst snd].
      set (mk := tab N (fun i => wrap w (U (fst st + m * N + i)%nat))).
      assert (tpoly false w N mk) as Hmk by apply wpoly_tab.
      rewrite (nth_upd_if c [] (S m) mk 0), (nth_upd_if c [] (S m) mk (S m)) by lia. rewrite Nat.eqb_refl. cbn [Nat.eqb].
      destruct (ShortMulSub_spec N HN false w logN (nth 0 c []) mk (nth m fsk []) Hw HlN (L2 O ltac:(lia)) Hmk) as ((X1 & X2) & X3).
      set (nb := ShortFFTPolyMulSubPolyTo false w logN N (nth 0 c []) mk (nth m fsk [])) in *.
      assert (forall i, nth (S i) (upd (upd c (S m) mk) 0 nb) [] = if Nat.eqb i m then mk else nth (S i) c []) as Hn.
      { intros i. rewrite nth_upd_if by (rewrite upd_length; lia). cbn [Nat.eqb]. rewrite nth_upd_if by lia. reflexivity. }
      assert (nth 0 (upd (upd c (S m) mk) 0 nb) [] = nb) as Hn0 by (rewrite nth_upd_if by (rewrite upd_length; lia); reflexivity).
      split; [split|split; [|split]].
      + now rewrite !upd_length.
      + intros [|i] Hi; [now rewrite Hn0|]. rewrite Hn. destruct (Nat.eqb i m); [apply Hmk|apply L2; lia].
      + f_equal. lia.
      + intros i Hi. rewrite Hn. destruct (Nat.eqb_spec i m) as [->|]; [reflexivity|apply M; lia].
      + rewrite Hn0, X3, E. cbn [psum]. rewrite Hn, Nat.eqb_refl. rewrite fsk_nth, pol_fwdFFT by (try assumption; apply Hsk; lia).
        rewrite (psum_proper Q m (fun i => pmul (pol N (nth (S i) (upd (upd c (S m) mk) 0 nb) [])) (S_ i)) (fun i => pmul (pol N (nth (S i) c [])) (S_ i))).
        2:{ intros i Hi. rewrite Hn. destruct (Nat.eqb_spec i m); [lia|reflexivity]. }
        ring. }
  match goal with |- context [forN 0 k ?f (ct, st)] => destruct (forN 0 k f (ct, st)) as [c t] end.
  destruct (HP ltac:(lia)) as ((L1 & L2) & T & M & E). clear HP P.
  unfold samplePolyAdd. rewrite (L2 O ltac:(lia)), T. cbn [fst snd]. intros Heq. injection Heq as <- <-.
  match goal with |- context [upd c 0 ?b] => set (nb := b) end.
  assert (wpoly w N nb) as Wb by apply wpoly_tab.
  assert (forall i, nth (S i) (upd c 0 nb) [] = nth (S i) c []) as Hn by (intros i; rewrite nth_upd_if by lia; reflexivity).
  split; [split|split; [|split]].
  - now rewrite upd_length.
  - intros [|i] Hi; [rewrite nth_upd_if by lia; exact Wb|]. rewrite Hn, (M i ltac:(lia)). apply wpoly_tab.
  - rewrite gphase_upd0 by exact L1. unfold gphase. rewrite E.
    assert (peq Q (pol N nb) (padd (pol N (nth 0 c [])) (noisep N G (snd st)))) as ->.
    { apply pol_peq; [exact HN|]. intros i Hi. cbn [cf padd]. unfold noisep. rewrite !cf_pol_at by assumption. unfold nb. rewrite !nthZ_tab by exact Hi.
      rewrite !wrap_eqm. reflexivity. }
    rewrite E. ring.
  - reflexivity.
  - intros i j Hi Hj. rewrite Hn, (M i Hi), nthZ_tab by exact Hj. reflexivity.
Qed.

Lemma EncryptGLWEPlaintextTo_spec out pt st ct' st' : skey -> gshape N k out -> length pt = N ->
  EncryptGLWEPlaintextTo w logN N k U G fsk out pt st = (ct', st') ->
  glwe_ct w N k ct' /\ peq Q (gph ct') (padd (pol N pt) (noisep N G (snd st))) /\
  st' = ((fst st + k * N)%nat, (snd st + N)%nat) /\
  (forall i j, (i < k)%nat -> (j < N)%nat -> nthZ (nth (S i) ct' []) j = U (fst st + i * N + j)%nat mod Q).
Proof.
  intros Hsk (L & Hc) Lp E. unfold EncryptGLWEPlaintextTo in E. rewrite (go_copy_full 0) in E by (rewrite Hc; lia).
  apply EncryptGLWEBody_spec in E; [|exact Hsk|].
  - rewrite nth_upd_if in E by lia. exact E.
  - split; [now rewrite upd_length|]. intros i Hi. rewrite nth_upd_if by lia. destruct (Nat.eqb i 0); [exact Lp|now apply Hc].
Qed.

(** Two ciphertexts produced from the same randomness are the same, whatever the output held. *)
Lemma glwe_ct_ext c1 c2 : glwe_ct w N k c1 -> glwe_ct w N k c2 ->
  (forall i, (i < k)%nat -> nth (S i) c1 [] = nth (S i) c2 []) -> peq Q (gph c1) (gph c2) -> c1 = c2.
Proof.
  intros (L1 & W1) (L2 & W2) Hm Hp. apply (list_ext []); [lia|]. intros [|i] Hi; [|apply Hm; lia].
  apply (pol_inj N HN w); [apply W1; lia|apply W2; lia|]. unfold gphase in Hp.
  rewrite (psum_proper Q k _ (fun i => pmul (pol N (nth (S i) c2 [])) (S_ i))) in Hp.
  2:{ intros i Hj. now rewrite Hm by exact Hj. }
  match type of Hp with peq _ (padd ?a ?s) (padd ?b _) => transitivity (psub (padd a s) s); [ring|]; rewrite Hp; ring end.
Qed.

Lemma EncryptGLWEPlaintextTo_over out1 out2 pt st : skey -> gshape N k out1 -> gshape N k out2 -> length pt = N ->
  EncryptGLWEPlaintextTo w logN N k U G fsk out1 pt st = EncryptGLWEPlaintextTo w logN N k U G fsk out2 pt st.
Proof.
  intros Hsk H1 H2 Lp.
  destruct (EncryptGLWEPlaintextTo w logN N k U G fsk out1 pt st) as [c1 s1] eqn:E1.
  destruct (EncryptGLWEPlaintextTo w logN N k U G fsk out2 pt st) as [c2 s2] eqn:E2.
  apply EncryptGLWEPlaintextTo_spec in E1; [|assumption..]. apply EncryptGLWEPlaintextTo_spec in E2; [|assumption..].
  destruct E1 as (A1 & B1 & C1 & D1). destruct E2 as (A2 & B2 & C2 & D2). f_equal; [|congruence].
  apply glwe_ct_ext; [exact A1|exact A2| |rewrite B1, B2; reflexivity].
  intros i Hi. destruct A1 as (_ & W1). destruct A2 as (_ & W2). apply nthZ_ext; [rewrite (proj1 (W1 (S i) ltac:(lia))), (proj1 (W2 (S i) ltac:(lia))); reflexivity|].
  intros j Hj. rewrite (proj1 (W1 (S i) ltac:(lia))) in Hj. now rewrite D1, D2.
Qed.

Lemma DecryptGLWEPhaseTo_spec out ct : skey -> length out = N -> glwe_ct w N k ct ->
  wpoly w N (DecryptGLWEPhaseTo w logN N k fsk out ct) /\ peq Q (pol N (DecryptGLWEPhaseTo w logN N k fsk out ct)) (gph ct).
Proof.
  intros (Lsk & Hsk) Lo (L & Hc). unfold DecryptGLWEPhaseTo. rewrite (go_copy_full 0) by (rewrite (proj1 (Hc O ltac:(lia))); lia).
  set (P := fun (m : nat) (o : list Z) => (m <= k)%nat -> wpoly w N o /\
    peq Q (pol N o) (padd (pol N (nth 0 ct [])) (psum m (fun i => pmul (pol N (nth (S i) ct [])) (S_ i))))).
  match goal with |- context [forN 0 k ?f ?o] => enough (P k (forN 0 k f o)) as HP by (unfold gphase; apply HP; lia) end.
  apply (forN_ind P); unfold P.
  - intros _. split; [apply Hc; lia|]. cbn [psum]. ring.
  - intros m o Hm IH _. destruct (IH ltac:(lia)) as ((A & _) & B). cbn [Nat.add].
    destruct (ShortMulAdd_spec N HN false w logN o (nth (S m) ct []) (nth m fsk []) Hw HlN A (Hc (S m) ltac:(lia))) as (X & Y).
    split; [exact X|]. rewrite Y, B. cbn [psum]. rewrite fsk_nth, pol_fwdFFT by (try assumption; apply Hsk; lia). ring.
Qed.

Lemma EncDec_GLWE out pt st ct' st' ptOut : skey -> gshape N k out -> length pt = N -> length ptOut = N ->
  EncryptGLWEPlaintextTo w logN N k U G fsk out pt st = (ct', st') ->
  forall i, (i < N)%nat -> nthZ (DecryptGLWEPhaseTo w logN N k fsk ptOut ct') i = (nthZ pt i + G (snd st + i)%nat) mod Q.
Proof.
  intros Hsk Ho Lp Lpo E i Hi. destruct (EncryptGLWEPlaintextTo_spec out pt st ct' st' Hsk Ho Lp E) as (A & B & _).
  destruct (DecryptGLWEPhaseTo_spec ptOut ct' Hsk Lpo A) as (X & Y).
  apply (eqm_small Q); [|apply (nth_word N HN w _ i X Hi)|apply Z.mod_pos_bound; apply Z.pow_pos_nonneg; lia].
  rewrite B in Y. pose proof (peq_pol N HN _ _ _ Y i Hi) as Hz. rewrite Hz. cbn [cf padd]. unfold noisep. rewrite !cf_pol_at by assumption.
  rewrite nthZ_tab by exact Hi. symmetry. apply eqm_mod.
Qed.

(** ** GLev and GGSW encryption *)
Lemma bodyScaled_spec c pt b st c' st' : skey -> gshape N k c -> length pt = N ->
  EncryptGLWEBody w logN N k U G fsk (upd c 0 (vscale w b pt)) st = (c', st') ->
  glwe_ct w N k c' /\ peq Q (gph c') (padd (pscale b (pol N pt)) (noisep N G (snd st))) /\ st' = ((fst st + k * N)%nat, (snd st + N)%nat).
Proof.
  intros Hsk (L & Hc) Lp E. apply EncryptGLWEBody_spec in E; [|exact Hsk|].
  - destruct E as (A & B & C & _). split; [exact A|]. split; [|exact C]. rewrite B, nth_upd_if by lia. cbn [Nat.eqb].
    rewrite pol_vscale by assumption. reflexivity.
  - split; [now rewrite upd_length|]. intros i Hi. rewrite nth_upd_if by lia. destruct (Nat.eqb i 0); [|now apply Hc].
    unfold vscale. now rewrite map_length.
Qed.

Variable p : gadget.
Hypothesis Hok : gadget_ok w p.
Notation l := (g_level p).
Notation lshape := (lshape N k p).

Lemma BaseQ_spec j : (j < l)%nat -> BaseQ w p j = 2 ^ (w - (Z.of_nat j + 1) * g_logBase p).
Proof. intros Hj. rewrite (BaseQ_pow w p Hok j Hj). unfold LogBaseQ. destruct Hok as (_ & _ & _ & H & _). now rewrite H. Qed.

Lemma EncryptGLevPolyTo_spec out pt st lev st' : skey -> lshape out -> length pt = N ->
  EncryptGLevPolyTo w logN N k U G fsk p out pt st = (lev, st') ->
  glev_enc w N k p sk lev (pol N pt) (fun j => noisep N G (snd st + j * N)%nat) /\
  (forall j, (j < l)%nat -> glwe_ct w N k (nth j lev [])) /\
  st' = ((fst st + l * (k * N))%nat, (snd st + l * N)%nat).
Proof.
  intros Hsk (L & Ho) Lp E. unfold EncryptGLevPolyTo in E.
  pose proof (updLoop [] (fun i c t => EncryptGLWEBody w logN N k U G fsk (upd c 0 (vscale w (BaseQ w p i) pt)) t)
    (fun m t => t = ((fst st + m * (k * N))%nat, (snd st + m * N)%nat))
    (fun j c => glwe_ct w N k c /\ peq Q (gph c) (padd (pscale (2 ^ (w - (Z.of_nat j + 1) * g_logBase p)) (pol N pt)) (noisep N G (snd st + j * N)%nat)))
    (gshape N k) O l out st) as X. cbv beta in X. rewrite E in X. destruct X as (A & B & _ & D).
  - lia.
  - intros i Hi. apply Ho. lia.
  - destruct st; cbn [fst snd]; f_equal; lia.
  - intros m c t Hm Hc ->. cbn [Nat.add].
    destruct (EncryptGLWEBody w logN N k U G fsk (upd c 0 (vscale w (BaseQ w p m) pt)) ((fst st + m * (k * N))%nat, (snd st + m * N)%nat)) as [c' t'] eqn:Ec.
    apply bodyScaled_spec in Ec; [|assumption..]. destruct Ec as (X & Y & ->). cbn [fst snd] in *.
    split; [split; [exact X|]|f_equal; lia]. rewrite Y, BaseQ_spec by exact Hm. reflexivity.
  - split; [|split; [|exact D]].
    + split; [lia|]. intros j Hj. destruct (B j ltac:(lia)) as (X & Y). split; [now apply glwe_shape|exact Y].
    + intros j Hj. apply B; lia.
Qed.

Lemma glev_enc_peq lev m m' e : peq Q m m' -> glev_enc w N k p sk lev m e -> glev_enc w N k p sk lev m' e.
Proof. intros H (A & B). split; [exact A|]. intros j Hj. destruct (B j Hj) as (X & Y). split; [exact X|]. rewrite Y, H. reflexivity. Qed.
Lemma glev_enc_ext lev m e e' : (forall j, (j < l)%nat -> peq Q (e j) (e' j)) -> glev_enc w N k p sk lev m e -> glev_enc w N k p sk lev m e'.
Proof. intros H (A & B). split; [exact A|]. intros j Hj. destruct (B j Hj) as (X & Y). split; [exact X|]. rewrite Y, (H j Hj). reflexivity. Qed.

Lemma ggswPt pt i : skey -> wpoly w N pt -> (i < k)%nat ->
  wpoly w N (ShortFFTPolyMulPolyTo false w logN N pt (nth i fsk [])) /\
  peq Q (pol N (ShortFFTPolyMulPolyTo false w logN N pt (nth i fsk []))) (pmul (pol N pt) (S_ i)).
Proof.
  intros (Lsk & Hsk) Hp Hi. destruct (ShortMul_spec N HN false w logN pt (nth i fsk []) Hw HlN Hp) as (X & Y). split; [exact X|].
  rewrite Y, fsk_nth, pol_fwdFFT by (try assumption; now apply Hsk). reflexivity.
Qed.

Lemma EncryptGGSWPolyTo_spec out pt st ggsw st' : skey -> length out = S k -> (forall i, (i <= k)%nat -> lshape (nth i out [])) -> wpoly w N pt ->
  EncryptGGSWPolyTo w logN N k U G fsk p out pt st = (ggsw, st') ->
  ggsw_enc w N k p sk ggsw (pol N pt) (fun i j => noisep N G (snd st + (i * l + j) * N)%nat) /\
  (forall i j, (i <= k)%nat -> (j < l)%nat -> glwe_ct w N k (nth j (nth i ggsw []) [])) /\
  st' = ((fst st + S k * (l * (k * N)))%nat, (snd st + S k * (l * N))%nat).
Proof.
  intros Hsk L Ho Wp E. unfold EncryptGGSWPolyTo in E.
  destruct (EncryptGLevPolyTo w logN N k U G fsk p (nth 0 out []) pt st) as [r0 st1] eqn:E0.
  apply EncryptGLevPolyTo_spec in E0; [|assumption|apply Ho; lia|apply Wp]. destruct E0 as (A0 & B0 & ->).
  pose proof (updLoop [] (fun i c t => EncryptGLevPolyTo w logN N k U G fsk p c (ShortFFTPolyMulPolyTo false w logN N pt (nth (pred i) fsk [])) t)
    (fun m t => t = ((fst st + S m * (l * (k * N)))%nat, (snd st + S m * (l * N))%nat))
    (fun i c => glev_enc w N k p sk c (pmul (pol N pt) (S_ (pred i))) (fun j => noisep N G (snd st + (i * l + j) * N)%nat) /\
       forall j, (j < l)%nat -> glwe_ct w N k (nth j c []))
    lshape 1 k (upd out 0 r0) ((fst st + l * (k * N))%nat, (snd st + l * N)%nat)) as X. cbv beta in X. rewrite forN_shift in X.
  unfold EncryptGLevPolyTo in X. cbn [pred] in X. rewrite E in X. destruct X as (A & B & C & D).
  - rewrite upd_length. lia.
  - intros i Hi. rewrite nth_upd_if by lia. destruct (Nat.eqb_spec i 0); [lia|]. apply Ho. lia.
  - f_equal; lia.
  - intros m c t Hm Hc ->. cbn [Nat.add pred].
    fold (EncryptGLevPolyTo w logN N k U G fsk p c (ShortFFTPolyMulPolyTo false w logN N pt (nth m fsk [])) ((fst st + S m * (l * (k * N)))%nat, (snd st + S m * (l * N))%nat)).
    destruct (EncryptGLevPolyTo w logN N k U G fsk p c (ShortFFTPolyMulPolyTo false w logN N pt (nth m fsk [])) ((fst st + S m * (l * (k * N)))%nat, (snd st + S m * (l * N))%nat)) as [c' t'] eqn:Ec.
    destruct (ggswPt pt m Hsk Wp Hm) as (W1 & W2).
    apply EncryptGLevPolyTo_spec in Ec; [|assumption..|apply W1]. destruct Ec as (X & Y & ->). cbn [fst snd] in *.
    split; [split; [|exact Y]|f_equal; lia]. apply (glev_enc_peq _ _ _ _ W2).
    eapply glev_enc_ext; [|exact X]. intros j Hj. cbv beta. replace (snd st + S m * (l * N) + j * N)%nat with (snd st + (S m * l + j) * N)%nat by lia. reflexivity.
  - assert (nth 0 ggsw [] = r0) as Hz. { rewrite C by lia. rewrite nth_upd_if by lia. reflexivity. }
    split; [|split; [|exact D]].
    + split; [rewrite A, upd_length; lia|]. split.
      * rewrite Hz. eapply glev_enc_ext; [|exact A0]. intros j Hj. cbv beta. cbn [Nat.mul Nat.add]. reflexivity.
      * intros i Hi. apply (B (S i)). lia.
    + intros [|i] j Hi Hj; [rewrite Hz; now apply B0|]. apply (B (S i)); [lia|exact Hj].
Qed.

(** ** Decryption of a GLev: the first level holds m * Q/B *)
Lemma DecryptGLevPolyTo_spec pOut lev m e : skey -> length pOut = N -> glev_enc w N k p sk lev m e -> glwe_ct w N k (nth 0 lev []) ->
  (forall i, (i < N)%nat -> - 2 ^ (w - g_logBase p) <= 2 * cf (e O) (Z.of_nat i) < 2 ^ (w - g_logBase p)) ->
  length (DecryptGLevPolyTo w logN N k fsk p pOut lev) = N /\
  forall i, (i < N)%nat -> nthZ (DecryptGLevPolyTo w logN N k fsk p pOut lev) i = cf m (Z.of_nat i) mod g_base p.
Proof.
  intros Hsk Lo (Ll & He) Wc Hb. pose proof Hok as (K1 & K2 & K3 & K4 & K5 & K6).
  destruct (DecryptGLWEPhaseTo_spec pOut (nth 0 lev []) Hsk Lo Wc) as (X & Y).
  destruct (He O ltac:(lia)) as (_ & Z1). rewrite Z1 in Y. unfold DecryptGLevPolyTo.
  set (ph := DecryptGLWEPhaseTo w logN N k fsk pOut (nth 0 lev [])) in *.
  split; [rewrite (forN_upd_length 0 N (fun i => i) (fun i o => DivRoundBits w (nthZ o i) (LogFirstBaseQ p) mod g_base p)); apply X|].
  intros i Hi. unfold nthZ at 1.
  pose proof (forN_upd_range 0 0 N (fun _ v => DivRoundBits w v (LogFirstBaseQ p) mod g_base p) ph i ltac:(destruct X; lia)) as R.
  unfold nthZ. cbv beta in R. rewrite R. clear R. replace ((0 <=? i)%nat && (i <? 0 + N)%nat)%bool with true by (symmetry; lia).
  assert (LogFirstBaseQ p = w - g_logBase p) as EL by (unfold LogFirstBaseQ; lia).
  apply (round_first w Hw p Hok _ (cf m (Z.of_nat i)) (cf (e O) (Z.of_nat i))); [|rewrite EL|rewrite EL; now apply Hb].
  - exact (nth_word N HN w ph i X Hi).
  - pose proof (peq_pol N HN _ _ _ Y i Hi) as Hz. unfold nthZ in Hz. rewrite Hz. cbn [cf padd pscale]. apply eqm_eq. f_equal. rewrite Z.mul_comm. do 2 f_equal. lia.
Qed.

(** ** Integer messages *)
Lemma messagePoly_spec mm buf ms : 0 < mm -> length buf = N ->
  length (messagePoly w N mm buf ms) = N /\
  forall i, (i < N)%nat -> nthZ (messagePoly w N mm buf ms) i = if (i <? length ms)%nat then wrap w (nthZ ms i) mod mm else 0.
Proof.
  intros Hm Lb. unfold messagePoly. set (n := Nat.min N (length ms)).
  set (b := forN 0 n (fun i b => upd b i (wrap w (nthZ ms i) mod mm)) buf).
  assert (length b = N) as Lbb by (unfold b; rewrite (forN_upd_length 0 n (fun i => i) (fun i _ => wrap w (nthZ ms i) mod mm)); exact Lb).
  split; [rewrite app_length, firstn_length, repeat_length; lia|]. intros i Hi.
  destruct (Nat.ltb_spec i (length ms)) as [H|H].
  - rewrite nthZ_app_l by (rewrite firstn_length; lia). rewrite nthZ_firstn by lia. unfold b, nthZ at 1.
    pose proof (forN_upd_range 0 0 n (fun i _ => wrap w (nthZ ms i) mod mm) buf i ltac:(lia)) as R. cbv beta in R. rewrite R.
    replace ((0 <=? i)%nat && (i <? 0 + n)%nat)%bool with true by (symmetry; lia). reflexivity.
  - rewrite nthZ_app_r by (rewrite firstn_length; lia). apply nthZ_repeat0.
Qed.
Lemma messagePoly_word mm buf ms : 0 < mm -> mm <= Q -> length buf = N -> wpoly w N (messagePoly w N mm buf ms).
Proof.
  intros Hm Hq Lb. destruct (messagePoly_spec mm buf ms Hm Lb) as (A & B). split; [exact A|].
  apply (list_of_nth N HN); [exact A|]. intros i Hi. rewrite B by exact Hi. unfold uword. destruct (i <? length ms)%nat; [|lia].
  pose proof (Z.mod_pos_bound (wrap w (nthZ ms i)) mm Hm). lia.
Qed.

Lemma DecryptGLevTo_spec mm buf mo lev m e : 0 < mm -> (g_base p <= 2 ^ 63 \/ mm <= 2 ^ 63) ->
  skey -> length buf = N -> glev_enc w N k p sk lev m e -> glwe_ct w N k (nth 0 lev []) ->
  (forall i, (i < N)%nat -> - 2 ^ (w - g_logBase p) <= 2 * cf (e O) (Z.of_nat i) < 2 ^ (w - g_logBase p)) ->
  forall i, (i < N)%nat -> (i < length mo)%nat ->
  nthZ (DecryptGLevTo w logN N k mm fsk p buf mo lev) i = (cf m (Z.of_nat i) mod g_base p) mod mm.
Proof.
  intros Hmm Hs Hsk Lb He Wc Hb i Hi Hio. destruct (DecryptGLevPolyTo_spec buf lev m e Hsk Lb He Wc Hb) as (A & B).
  unfold DecryptGLevTo. set (pt := DecryptGLevPolyTo w logN N k fsk p buf lev) in *. unfold nthZ at 1.
  pose proof (forN_upd_range 0 0 (Nat.min N (length mo)) (fun i _ => swrap 64 (nthZ pt i mod mm)) mo i ltac:(lia)) as R. cbv beta in R. rewrite R.
  replace ((0 <=? i)%nat && (i <? 0 + Nat.min N (length mo))%nat)%bool with true by (symmetry; lia).
  rewrite (B i Hi). pose proof (base_pos w p Hok) as HB. set (v := cf m (Z.of_nat i)). pose proof (Z.mod_pos_bound v (g_base p) HB) as M1.
  pose proof (Z.mod_pos_bound (v mod g_base p) mm Hmm) as M2.
  pose proof (Z.mod_le (v mod g_base p) mm ltac:(lia) Hmm) as M3.
  apply swrap_small; [lia|]. unfold sword. change (2 ^ (64 - 1)) with (2 ^ 63). lia.
Qed.

(** ** Transformed ciphertexts *)
Lemma FwdFFT_eq out b : length out = S k -> length b = S k -> FwdFFTGLWECiphertextTo w out b = map (fwdFFT w) b.
Proof.
  intros Lo Lb. unfold FwdFFTGLWECiphertextTo. apply (list_ext []).
  - rewrite map_length, (forN_upd_length 0 (length out) (fun i => i) (fun i _ => fwdFFT w (nth i b []))). lia.
  - intros i Hi. rewrite (forN_upd_length 0 (length out) (fun i => i) (fun i _ => fwdFFT w (nth i b []))) in Hi.
    pose proof (forN_upd_range [] 0 (length out) (fun i _ => fwdFFT w (nth i b [])) out i ltac:(lia)) as R. cbv beta in R. rewrite R.
    replace ((0 <=? i)%nat && (i <? 0 + length out)%nat)%bool with true by (symmetry; lia).
    change [] with (fwdFFT w []) at 2. now rewrite map_nth.
Qed.
Lemma InvFFT_eq out b : length out = S k -> length b = S k -> InvFFTGLWECiphertextTo w out b = map (invFFT w) b.
Proof.
  intros Lo Lb. unfold InvFFTGLWECiphertextTo. apply (list_ext []).
  - rewrite map_length, (forN_upd_length 0 (length b) (fun i => i) (fun i _ => invFFT w (nth i b []))). lia.
  - intros i Hi. rewrite (forN_upd_length 0 (length b) (fun i => i) (fun i _ => invFFT w (nth i b []))) in Hi.
    pose proof (forN_upd_range [] 0 (length b) (fun i _ => invFFT w (nth i b [])) out i ltac:(lia)) as R. cbv beta in R. rewrite R.
    replace ((0 <=? i)%nat && (i <? 0 + length b)%nat)%bool with true by (symmetry; lia).
    change [] with (invFFT w []) at 2. now rewrite map_nth.
Qed.
Lemma nth_map_fwd c i : nth i (map (fwdFFT w) c) [] = fwdFFT w (nth i c []).
Proof. change [] with (fwdFFT w []) at 1. apply map_nth. Qed.
Lemma nth_map_inv c i : nth i (map (invFFT w) c) [] = invFFT w (nth i c []).
Proof. change [] with (invFFT w []) at 1. apply map_nth. Qed.
Lemma gshape_fwd c : gshape N k c -> gshape N k (map (fwdFFT w) c).
Proof. intros (L & H). split; [now rewrite map_length|]. intros i Hi. rewrite nth_map_fwd, fwdFFT_length. now apply H. Qed.
Lemma glwe_inv c : gshape N k c -> glwe_ct w N k (map (invFFT w) c).
Proof. intros (L & H). split; [now rewrite map_length|]. intros i Hi. rewrite nth_map_inv. apply wpoly_invFFT. now apply H. Qed.
Lemma gphase_fwd c : gshape N k c -> peq Q (gph (map (fwdFFT w) c)) (gph c).
Proof. intros (L & H). apply gphase_eq. intros i Hi. rewrite nth_map_fwd. apply pol_fwdFFT; [exact HN|now apply H]. Qed.
Lemma gphase_inv c : gshape N k c -> peq Q (gph (map (invFFT w) c)) (gph c).
Proof. intros (L & H). apply gphase_eq. intros i Hi. rewrite nth_map_inv. apply pol_invFFT; [exact HN|now apply H]. Qed.

Lemma inv_fwd_word a : wpoly w N a -> invFFT w (fwdFFT w a) = a.
Proof.
  intros (L & H). apply nthZ_ext; [now rewrite invFFT_length, fwdFFT_length|]. intros i Hi. rewrite invFFT_length, fwdFFT_length in Hi.
  unfold invFFT, fwdFFT. rewrite !nthZ_map by (rewrite ?map_length; exact Hi).
  assert (uword w (nthZ a i)) as Ha by (apply (nth_word N HN w a i); [split; assumption|lia]).
  apply (eqm_small Q); [rewrite wrap_eqm, swrap_eqm by lia; reflexivity|apply wrap_word; lia|exact Ha].
Qed.

Lemma EncryptFFTGLWEPlaintextTo_spec buf out pt st f buf' st' : skey -> gshape N k buf -> length out = S k -> length pt = N ->
  EncryptFFTGLWEPlaintextTo w logN N k U G fsk buf out pt st = (f, (buf', st')) ->
  EncryptGLWEPlaintextTo w logN N k U G fsk buf pt st = (buf', st') /\ f = map (fwdFFT w) buf' /\
  map (invFFT w) f = buf' /\ gshape N k f /\
  peq Q (gph f) (padd (pol N pt) (noisep N G (snd st))).
Proof.
  intros Hsk Hb Lo Lp E. unfold EncryptFFTGLWEPlaintextTo in E.
  destruct (EncryptGLWEPlaintextTo w logN N k U G fsk buf pt st) as [b s] eqn:E1.
  destruct (EncryptGLWEPlaintextTo_spec _ _ _ _ _ Hsk Hb Lp E1) as (A & B & C & _).
  rewrite FwdFFT_eq in E by (try assumption; apply A). injection E as <- <- <-.
  pose proof (glwe_shape _ A) as Sh.
  split; [reflexivity|]. split; [reflexivity|]. split; [|split; [now apply gshape_fwd|rewrite gphase_fwd by exact Sh; exact B]].
  rewrite map_map. rewrite <- (map_id b) at 2. apply map_ext_in. intros a Ha. apply inv_fwd_word.
  destruct (In_nth b a [] Ha) as (i & Hi & <-). apply A. destruct A as (La & _). lia.
Qed.

Lemma DecryptFFTGLWEPhaseTo_spec buf out ct : skey -> length buf = S k -> length out = N -> gshape N k ct ->
  wpoly w N (DecryptFFTGLWEPhaseTo w logN N k fsk buf out ct) /\ peq Q (pol N (DecryptFFTGLWEPhaseTo w logN N k fsk buf out ct)) (gph ct).
Proof.
  intros Hsk Lb Lo Hc. unfold DecryptFFTGLWEPhaseTo. rewrite InvFFT_eq by (try assumption; apply Hc).
  destruct (DecryptGLWEPhaseTo_spec out (map (invFFT w) ct) Hsk Lo (glwe_inv _ Hc)) as (A & B). split; [exact A|].
  rewrite B. now apply gphase_inv.
Qed.

Lemma EncryptFFTGLevPolyTo_spec buf out pt st lev buf' st' : skey -> gshape N k buf -> lshape out -> length pt = N ->
  EncryptFFTGLevPolyTo w logN N k U G fsk p buf out pt st = (lev, (buf', st')) ->
  glev_enc w N k p sk lev (pol N pt) (fun j => noisep N G (snd st + j * N)%nat) /\
  gshape N k buf' /\
  st' = ((fst st + l * (k * N))%nat, (snd st + l * N)%nat).
Proof.
  intros Hsk Hb (L & Ho) Lp E. unfold EncryptFFTGLevPolyTo in E.
  set (enc := fun (i : nat) (c : list (list Z)) (t : list (list Z) * rst) => let '(bu, s) := t in
     let '(b, s') := EncryptGLWEBody w logN N k U G fsk (upd bu 0 (vscale w (BaseQ w p i) pt)) s in (FwdFFTGLWECiphertextTo w c b, (b, s'))).
  rewrite (forN_ext 0 l _ (fun i s => let '(o, t) := s in let '(c, t') := enc i (nth i o []) t in (upd o i c, t'))) in E.
  2:{ intros i [o [bu s]] Hi. unfold enc. match goal with |- (let '(_, _) := ?x in _) = _ => destruct x as [b s'] end. reflexivity. }
  pose proof (updLoop [] enc
    (fun m t => gshape N k (fst t) /\ snd t = ((fst st + m * (k * N))%nat, (snd st + m * N)%nat))
    (fun j c => gshape N k c /\ peq Q (gph c) (padd (pscale (2 ^ (w - (Z.of_nat j + 1) * g_logBase p)) (pol N pt)) (noisep N G (snd st + j * N)%nat)))
    (gshape N k) O l out (buf, st)) as X. rewrite E in X. destruct X as (A & B & _ & D).
  - lia.
  - intros i Hi. apply Ho. lia.
  - cbn [fst snd]. split; [exact Hb|]. destruct st; cbn [fst snd]; f_equal; lia.
  - intros m c [bu t] Hm Hc (Hbu & Ht). cbn [fst snd] in Hbu, Ht. subst t. cbn [Nat.add]. unfold enc.
    destruct (EncryptGLWEBody w logN N k U G fsk (upd bu 0 (vscale w (BaseQ w p m) pt)) ((fst st + m * (k * N))%nat, (snd st + m * N)%nat)) as [c' t'] eqn:Ec.
    apply bodyScaled_spec in Ec; [|assumption..]. destruct Ec as (X & Y & ->). cbn [fst snd] in *.
    rewrite FwdFFT_eq by (apply Hc || apply X). pose proof (glwe_shape _ X) as Sh.
    split; [split; [now apply gshape_fwd|]|split; [exact Sh|f_equal; lia]]. rewrite gphase_fwd, Y, BaseQ_spec by assumption. reflexivity.
  - cbn [fst snd] in D. destruct D as (D1 & D2). split; [|split; [exact D1|exact D2]].
    split; [lia|]. intros j Hj. apply (B j ltac:(lia)).
Qed.

Lemma EncryptFFTGGSWPolyTo_spec buf out pt st ggsw buf' st' : skey -> gshape N k buf -> length out = S k -> (forall i, (i <= k)%nat -> lshape (nth i out [])) -> wpoly w N pt ->
  EncryptFFTGGSWPolyTo w logN N k U G fsk p buf out pt st = (ggsw, (buf', st')) ->
  ggsw_enc w N k p sk ggsw (pol N pt) (fun i j => noisep N G (snd st + (i * l + j) * N)%nat) /\
  gshape N k buf' /\
  st' = ((fst st + S k * (l * (k * N)))%nat, (snd st + S k * (l * N))%nat).
Proof.
  intros Hsk Hbuf L Ho Wp E. unfold EncryptFFTGGSWPolyTo in E.
  destruct (EncryptFFTGLevPolyTo w logN N k U G fsk p buf (nth 0 out []) pt st) as [r0 [bu1 st1]] eqn:E0.
  apply EncryptFFTGLevPolyTo_spec in E0; [|assumption|assumption|apply Ho; lia|apply Wp]. destruct E0 as (A0 & B0 & ->).
  set (enc := fun (i : nat) c (t : list (list Z) * rst) =>
    EncryptFFTGLevPolyTo w logN N k U G fsk p (fst t) c (ShortFFTPolyMulPolyTo false w logN N pt (nth (pred i) fsk [])) (snd t)).
  rewrite (forN_ext 0 k _ (fun i s => let '(o, t) := s in let '(c, t') := enc (S i) (nth (S i) o []) t in (upd o (S i) c, t'))) in E.
  2:{ intros i [o [bu s]] Hi. unfold enc, EncryptFFTGLevPolyTo. cbn [fst snd pred]. match goal with |- (let '(_, _) := ?x in _) = _ => destruct x as [b [s1 s2]] end. reflexivity. }
  pose proof (updLoop [] enc
    (fun m t => gshape N k (fst t) /\ snd t = ((fst st + S m * (l * (k * N)))%nat, (snd st + S m * (l * N))%nat))
    (fun i c => glev_enc w N k p sk c (pmul (pol N pt) (S_ (pred i))) (fun j => noisep N G (snd st + (i * l + j) * N)%nat))
    lshape 1 k (upd out 0 r0) (bu1, ((fst st + l * (k * N))%nat, (snd st + l * N)%nat))) as X. rewrite forN_shift in X. cbv beta in X.
  match type of X with context [forN 0 k ?f ?a] => change (forN 0 k f a = (ggsw, (buf', st'))) in E end. rewrite E in X. destruct X as (A & B & C & D).
  - rewrite upd_length. lia.
  - intros i Hi. rewrite nth_upd_if by lia. destruct (Nat.eqb_spec i 0); [lia|]. apply Ho. lia.
  - cbn [fst snd]. split; [exact B0|]. f_equal; lia.
  - intros m c [bu t] Hm Hc (Hbu & Ht). cbn [fst snd] in Hbu, Ht. subst t. cbn [Nat.add]. unfold enc. cbn [pred fst snd].
    destruct (EncryptFFTGLevPolyTo w logN N k U G fsk p bu c (ShortFFTPolyMulPolyTo false w logN N pt (nth m fsk [])) ((fst st + S m * (l * (k * N)))%nat, (snd st + S m * (l * N))%nat)) as [c' [bu' t']] eqn:Ec.
    destruct (ggswPt pt m Hsk Wp Hm) as (W1 & W2).
    apply EncryptFFTGLevPolyTo_spec in Ec; [|assumption..|apply W1]. destruct Ec as (X & Y & ->). cbn [fst snd] in *.
    split; [|split; [exact Y|f_equal; lia]]. apply (glev_enc_peq _ _ _ _ W2).
    eapply glev_enc_ext; [|exact X]. intros j Hj. cbv beta. replace (snd st + S m * (l * N) + j * N)%nat with (snd st + (S m * l + j) * N)%nat by lia. reflexivity.
  - assert (nth 0 ggsw [] = r0) as Hz. { rewrite C by lia. rewrite nth_upd_if by lia. reflexivity. }
    cbn [fst snd] in D. destruct D as (D1 & D2). split; [|split; [exact D1|exact D2]].
    split; [rewrite A, upd_length; lia|]. split.
    * rewrite Hz. eapply glev_enc_ext; [|exact A0]. intros j Hj. cbv beta. cbn [Nat.mul Nat.add]. reflexivity.
    * intros i Hi. apply (B (S i)). lia.
Qed.

Lemma GenGLWEKeySwitchKey_spec skIn buf st ksk buf' st' : skey -> gshape N k buf -> (forall i, (i < length skIn)%nat -> length (nth i skIn []) = N) ->
  GenGLWEKeySwitchKey w logN N k U G fsk skIn p buf st = (ksk, (buf', st')) ->
  gksk_enc w N k p sk skIn ksk (fun i j => noisep N G (snd st + (i * l + j) * N)%nat).
Proof.
  intros Hsk Hbuf Hin E. unfold GenGLWEKeySwitchKey in E. set (n := length skIn) in *.
  set (enc := fun (i : nat) c (t : list (list Z) * rst) =>
    EncryptFFTGLevPolyTo w logN N k U G fsk p (fst t) c (nth i skIn []) (snd t)).
  rewrite (forN_ext 0 n _ (fun i s => let '(o, t) := s in let '(c, t') := enc i (nth i o []) t in (upd o i c, t'))) in E.
  2:{ intros i [o [bu s]] Hi. unfold enc. cbn [fst snd]. match goal with |- (let '(_, _) := ?x in _) = _ => destruct x as [b [s1 s2]] end. reflexivity. }
  match type of E with forN _ _ _ (?o, _) = _ => set (out := o) in *; assert (forall i, (i < n)%nat -> lshape (nth i out [])) as Hout end.
  { intros i Hi. unfold out. rewrite nth_repeat_lt by exact Hi. split; [apply repeat_length|]. intros j Hj. rewrite nth_repeat_lt by exact Hj.
    split; [apply repeat_length|]. intros i' Hi'. rewrite nth_repeat_lt by lia. apply repeat_length. }
  assert (length out = n) as Lout by apply repeat_length.
  pose proof (updLoop [] enc
    (fun m t => gshape N k (fst t) /\ snd t = ((fst st + m * (l * (k * N)))%nat, (snd st + m * (l * N))%nat))
    (fun i c => glev_enc w N k p sk c (pol N (nth i skIn [])) (fun j => noisep N G (snd st + (i * l + j) * N)%nat))
    lshape 0 n out (buf, st)) as X. cbv beta in X.
  match type of X with context [forN 0 n ?f ?a] => change (forN 0 n f a = (ksk, (buf', st'))) in E end. rewrite E in X. destruct X as (A & B & C & D).
  - lia.
  - intros i Hi. apply Hout. lia.
  - cbn [fst snd]. split; [exact Hbuf|]. destruct st; cbn [fst snd]; f_equal; lia.
  - intros m c [bu t] Hm Hc (Hbu & Ht). cbn [fst snd] in Hbu, Ht. subst t. cbn [Nat.add]. unfold enc. cbn [fst snd].
    destruct (EncryptFFTGLevPolyTo w logN N k U G fsk p bu c (nth m skIn []) ((fst st + m * (l * (k * N)))%nat, (snd st + m * (l * N))%nat)) as [c' [bu' t']] eqn:Ec.
    apply EncryptFFTGLevPolyTo_spec in Ec; [|assumption..|apply Hin; lia]. destruct Ec as (X & Y & ->). cbn [fst snd] in *.
    split; [|split; [exact Y|f_equal; lia]].
    eapply glev_enc_ext; [|exact X]. intros j Hj. cbv beta. replace (snd st + m * (l * N) + j * N)%nat with (snd st + (m * l + j) * N)%nat by lia. reflexivity.
  - split; [lia|]. intros i Hi. apply B. lia.
Qed.
End W.
