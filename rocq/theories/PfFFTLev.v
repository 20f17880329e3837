(** Proofs about transformed GLev, GGSW and uni-encryptions (property C75). *)
From Verif Require Import Base NegaRing ModelNum ModelVec ModelPoly SpecNum SpecPoly ModelGadget SpecGadget ModelEncoder ModelLWE SpecLWE ModelGLWE SpecGLWE ModelMK SpecMK ModelFFTLev SpecFFTLev
  PfPoly PfVec PfKS2 PfGLWE PfGLWE3 PfMK5 PfBFV.

(** A loop over all entries is a pointwise map. *)
Lemma loopMap {A B} (d : A) (d' : B) (g : nat -> A -> A) (h : B -> A) n (out : list A) (ct : list B) : length out = n -> length ct = n ->
  (forall i, (i < n)%nat -> g i (nth i out d) = h (nth i ct d')) -> forN 0 n (fun i o => upd o i (g i (nth i o d))) out = map h ct.
Proof.
  intros Lo Lc H. apply (list_ext d).
  - rewrite map_length, (forN_upd_length 0 n (fun i => i) (fun i o => g i (nth i o d))). lia.
  - intros i Hi. rewrite (forN_upd_length 0 n (fun i => i) (fun i o => g i (nth i o d))) in Hi.
    pose proof (forN_upd_range d 0 n g out i ltac:(lia)) as R. rewrite R. clear R.
    replace ((0 <=? i)%nat && (i <? 0 + n)%nat)%bool with true by (symmetry; lia). rewrite H by lia.
    rewrite (nth_indep (map h ct) d (h d')) by (rewrite map_length; lia). now rewrite map_nth.
Qed.

Section W.
Variable w : Z.
Hypothesis Hw : 0 < w.
Notation Q := (2 ^ w).
Variable N : nat.
Hypothesis HN : (0 < N)%nat.
Notation Fwd := (map (fwdFFT w)).
Notation Inv := (map (invFFT w)).
Notation zz := (fun _ : nat => 0).

Lemma inv_fwd_glwe k c : glwe_ct w N k c -> Inv (Fwd c) = c.
Proof.
  intros (L & H). rewrite map_map. rewrite <- (map_id c) at 2. apply map_ext_in. intros a Ha. apply (inv_fwd_word w Hw N HN zz zz).
  destruct (In_nth c a [] Ha) as (i & Hi & <-). apply H. lia.
Qed.

Section Lev.
Variables (k : nat) (p : gadget).
Notation l := (g_level p).

Lemma FwdLev_eq out ct : lshape N k p out -> lshape N k p ct -> FwdFFTGLevCiphertextTo w p out ct = map Fwd ct.
Proof.
  intros (Lo & Ho) (Lc & Hc). unfold FwdFFTGLevCiphertextTo.
  apply (loopMap [] [] (fun i x => FwdFFTGLWECiphertextTo w x (nth i ct [])) Fwd); [assumption..|]. intros i Hi. apply (FwdFFT_eq w N HN k zz zz); [apply Ho|apply Hc]; exact Hi.
Qed.
Lemma InvLev_eq out ct : lshape N k p out -> lshape N k p ct -> InvFFTGLevCiphertextTo w p out ct = map Inv ct.
Proof.
  intros (Lo & Ho) (Lc & Hc). unfold InvFFTGLevCiphertextTo.
  apply (loopMap [] [] (fun i x => InvFFTGLWECiphertextTo w x (nth i ct [])) Inv); [assumption..|]. intros i Hi. apply (InvFFT_eq w N HN k zz zz); [apply Ho|apply Hc]; exact Hi.
Qed.
Lemma nth_mapF j (ct : list (list (list Z))) : nth j (map Fwd ct) [] = Fwd (nth j ct []).
Proof. change [] with (Fwd []) at 1. apply map_nth. Qed.
Lemma nth_mapI j (ct : list (list (list Z))) : nth j (map Inv ct) [] = Inv (nth j ct []).
Proof. change [] with (Inv []) at 1. apply map_nth. Qed.
Lemma lshape_F ct : lshape N k p ct -> lshape N k p (map Fwd ct).
Proof. intros (L & H). split; [now rewrite map_length|]. intros j Hj. rewrite nth_mapF. apply gshape_fwd. now apply H. Qed.
Lemma lshape_I ct : lshape N k p ct -> lshape N k p (map Inv ct).
Proof. intros (L & H). split; [now rewrite map_length|]. intros j Hj. rewrite nth_mapI. eapply glwe_shape. apply glwe_inv; [exact Hw|exact HN|]. now apply H. Qed.

Notation lwords := (lev_words w N k p).
Lemma lwords_shape ct : lwords ct -> lshape N k p ct.
Proof. intros (L & H). split; [exact L|]. intros j Hj. eapply glwe_shape. apply H. exact Hj. Qed.
Lemma inv_fwd_lev ct : lwords ct -> map Inv (map Fwd ct) = ct.
Proof.
  intros (L & H). rewrite map_map. rewrite <- (map_id ct) at 2. apply map_ext_in. intros a Ha. apply (inv_fwd_glwe k).
  destruct (In_nth ct a [] Ha) as (i & Hi & <-). apply H. lia.
Qed.
Lemma glev_roundtrip o1 o2 ct : lshape N k p o1 -> lshape N k p o2 -> lwords ct -> InvFFTGLevCiphertextTo w p o2 (FwdFFTGLevCiphertextTo w p o1 ct) = ct.
Proof. intros H1 H2 Hc. pose proof (lwords_shape _ Hc) as Hs. rewrite FwdLev_eq, InvLev_eq by (try apply lshape_F; assumption). now apply inv_fwd_lev. Qed.

Variable sk : list (list Z).
Lemma glev_shape lev m e : glev_enc w N k p sk lev m e -> lshape N k p lev.
Proof. intros (L & H). split; [exact L|]. intros j Hj. apply H. exact Hj. Qed.
Lemma glev_forward o lev m e : lshape N k p o -> glev_enc w N k p sk lev m e -> glev_enc w N k p sk (FwdFFTGLevCiphertextTo w p o lev) m e.
Proof.
  intros Ho He. pose proof (glev_shape _ _ _ He) as Hs. rewrite FwdLev_eq by assumption. destruct He as (L & H). split; [now rewrite map_length|]. intros j Hj. destruct (H j Hj) as (A & B).
  rewrite nth_mapF. split; [now apply gshape_fwd|]. rewrite gphase_fwd by assumption. exact B.
Qed.
Lemma glev_inverse o lev m e : lshape N k p o -> glev_enc w N k p sk lev m e -> glev_enc w N k p sk (InvFFTGLevCiphertextTo w p o lev) m e /\ lwords (InvFFTGLevCiphertextTo w p o lev).
Proof.
  intros Ho He. pose proof (glev_shape _ _ _ He) as Hs. rewrite InvLev_eq by assumption. destruct He as (L & H). split; (split; [now rewrite map_length|]); intros j Hj; destruct (H j Hj) as (A & B); rewrite nth_mapI.
  - pose proof (glwe_inv w Hw N HN k _ A) as Y. split; [eapply glwe_shape; exact Y|]. rewrite gphase_inv by assumption. exact B.
  - now apply glwe_inv.
Qed.

(** ** GGSW *)
Lemma FwdGSW_eq out ct : gsw_shape N k p out -> gsw_shape N k p ct -> FwdFFTGGSWCiphertextTo w p out ct = map (map Fwd) ct.
Proof.
  intros (Lo & Ho) (Lc & Hc). unfold FwdFFTGGSWCiphertextTo. rewrite Lc.
  apply (loopMap [] [] (fun i x => FwdFFTGLevCiphertextTo w p x (nth i ct [])) (map Fwd)); [assumption..|]. intros i Hi. apply FwdLev_eq; [apply Ho|apply Hc]; lia.
Qed.
Lemma InvGSW_eq out ct : gsw_shape N k p out -> gsw_shape N k p ct -> InvFFTGGSWCiphertextTo w p out ct = map (map Inv) ct.
Proof.
  intros (Lo & Ho) (Lc & Hc). unfold InvFFTGGSWCiphertextTo. rewrite Lc.
  apply (loopMap [] [] (fun i x => InvFFTGLevCiphertextTo w p x (nth i ct [])) (map Inv)); [assumption..|]. intros i Hi. apply InvLev_eq; [apply Ho|apply Hc]; lia.
Qed.
Lemma nth_mapFF j (ct : list (list (list (list Z)))) : nth j (map (map Fwd) ct) [] = map Fwd (nth j ct []).
Proof. change [] with (map Fwd []) at 1. apply map_nth. Qed.
Lemma nth_mapII j (ct : list (list (list (list Z)))) : nth j (map (map Inv) ct) [] = map Inv (nth j ct []).
Proof. change [] with (map Inv []) at 1. apply map_nth. Qed.
Lemma gsw_words_shape ct : gsw_words w N k p ct -> gsw_shape N k p ct.
Proof. intros (L & H). split; [exact L|]. intros i Hi. apply lwords_shape. now apply H. Qed.
Lemma gsw_shape_F ct : gsw_shape N k p ct -> gsw_shape N k p (map (map Fwd) ct).
Proof. intros (L & H). split; [now rewrite map_length|]. intros j Hj. rewrite nth_mapFF. apply lshape_F. now apply H. Qed.
Lemma ggsw_roundtrip o1 o2 ct : gsw_shape N k p o1 -> gsw_shape N k p o2 -> gsw_words w N k p ct -> InvFFTGGSWCiphertextTo w p o2 (FwdFFTGGSWCiphertextTo w p o1 ct) = ct.
Proof.
  intros H1 H2 Hc. pose proof (gsw_words_shape _ Hc) as Hs. rewrite FwdGSW_eq, InvGSW_eq by (try apply gsw_shape_F; assumption).
  destruct Hc as (L & H). rewrite map_map. rewrite <- (map_id ct) at 2. apply map_ext_in. intros a Ha. apply inv_fwd_lev.
  destruct (In_nth ct a [] Ha) as (i & Hi & <-). apply H. lia.
Qed.
Lemma ggsw_enc_shape ct m e : ggsw_enc w N k p sk ct m e -> gsw_shape N k p ct.
Proof. intros (L & H0 & H). split; [exact L|]. intros [|i] Hi; [eapply glev_shape; exact H0|eapply glev_shape; apply H; lia]. Qed.
Lemma ggsw_forward o ct m e : gsw_shape N k p o -> ggsw_enc w N k p sk ct m e -> ggsw_enc w N k p sk (FwdFFTGGSWCiphertextTo w p o ct) m e.
Proof.
  intros Ho He. pose proof (ggsw_enc_shape _ _ _ He) as Hs. rewrite FwdGSW_eq by assumption. destruct He as (L & H0 & H), Ho as (Lo & Ho), Hs as (Ls & Hs).
  split; [now rewrite map_length|]. split; [|intros i Hi]; rewrite nth_mapFF.
  - rewrite <- (FwdLev_eq (nth 0 o [])) by (apply Ho || apply Hs; lia). apply glev_forward; [apply Ho; lia|exact H0].
  - rewrite <- (FwdLev_eq (nth (S i) o [])) by (apply Ho || apply Hs; lia). apply glev_forward; [apply Ho; lia|now apply H].
Qed.
Lemma ggsw_inverse o ct m e : gsw_shape N k p o -> ggsw_enc w N k p sk ct m e -> ggsw_enc w N k p sk (InvFFTGGSWCiphertextTo w p o ct) m e /\ gsw_words w N k p (InvFFTGGSWCiphertextTo w p o ct).
Proof.
  intros Ho He. pose proof (ggsw_enc_shape _ _ _ He) as Hs. rewrite InvGSW_eq by assumption. destruct He as (L & H0 & H), Ho as (Lo & Ho), Hs as (Ls & Hs).
  assert (forall i, (i <= k)%nat -> lwords (map Inv (nth i ct []))) as Hl.
  { intros i Hi. rewrite <- (InvLev_eq (nth i o [])) by (apply Ho || apply Hs; lia). destruct i as [|i]; [eapply (glev_inverse _ _ _ _ (Ho O Hi) H0)|eapply (glev_inverse _ _ _ _ (Ho (S i) Hi) (H i ltac:(lia)))]. }
  split; (split; [now rewrite map_length|]).
  - split; [|intros i Hi]; rewrite nth_mapII.
    + rewrite <- (InvLev_eq (nth 0 o [])) by (apply Ho || apply Hs; lia). apply glev_inverse; [apply Ho; lia|exact H0].
    + rewrite <- (InvLev_eq (nth (S i) o [])) by (apply Ho || apply Hs; lia). apply glev_inverse; [apply Ho; lia|now apply H].
  - intros i Hi. rewrite nth_mapII. now apply Hl.
Qed.

(** ** Keys *)
Lemma key_roundtrip o1 o2 : skey N k sk -> (forall i, (i < k)%nat -> wpoly w N (nth i sk [])) -> length o1 = k -> length o2 = k ->
  InvFFTGLWESecretKeyTo w o2 (FwdFFTGLWESecretKeyTo w o1 sk) = sk.
Proof.
  intros (L & _) H L1 L2. unfold InvFFTGLWESecretKeyTo, FwdFFTGLWESecretKeyTo. rewrite L1, L2.
  rewrite (loopMap [] [] (fun i _ => fwdFFT w (nth i sk [])) (fwdFFT w) k o1 sk L1 L) by reflexivity.
  rewrite (loopMap [] [] (fun i _ => invFFT w (nth i (Fwd sk) [])) (invFFT w) k o2 (Fwd sk) L2) by (rewrite ?map_length; auto).
  rewrite map_map. rewrite <- (map_id sk) at 2. apply map_ext_in. intros a Ha. apply (inv_fwd_word w Hw N HN zz zz).
  destruct (In_nth sk a [] Ha) as (i & Hi & <-). apply H. lia.
Qed.

(** ** Decryption *)
Variables (logN : Z) (Hl : 0 < splitBitsShort logN) (Hok : gadget_ok w p).
Notation fsk := (map (fwdFFT w) sk).

Lemma DecFFT_eq buf pOut f : length buf = S k -> gshape N k (nth 0 f []) -> DecryptFFTGLevPolyTo w logN N k fsk p buf pOut f = DecryptGLevPolyTo w logN N k fsk p pOut (map Inv f).
Proof. intros Lb (L & _). unfold DecryptFFTGLevPolyTo, DecryptGLevPolyTo, DecryptFFTGLWEPhaseTo. rewrite (InvFFT_eq w N HN k zz zz) by assumption. now rewrite nth_mapI. Qed.
Lemma lpos' : (0 < l)%nat.
Proof. exact (lpos w p Hok). Qed.
Lemma DecryptFFTGLevPolyTo_spec buf pOut f m e : skey N k sk -> length buf = S k -> length pOut = N -> glev_enc w N k p sk f m e -> small_noise w N p (e O) ->
  length (DecryptFFTGLevPolyTo w logN N k fsk p buf pOut f) = N /\
  forall i, (i < N)%nat -> nthZ (DecryptFFTGLevPolyTo w logN N k fsk p buf pOut f) i = cf m (Z.of_nat i) mod g_base p.
Proof.
  intros Hk Lb Lo He Hn. pose proof (glev_shape _ _ _ He) as Hs. rewrite DecFFT_eq by (try assumption; apply Hs, lpos').
  destruct (glev_inverse f f m e Hs He) as (A & B). rewrite InvLev_eq in A, B by assumption.
  apply (DecryptGLevPolyTo_spec w Hw N HN k sk logN Hl zz zz p Hok pOut (map Inv f) m e); [assumption..| |exact Hn]. apply B, lpos'.
Qed.
Lemma DecryptFFTGLevTo_spec mm buf mb mo f m e : 0 < mm -> g_base p <= 2 ^ 63 \/ mm <= 2 ^ 63 -> skey N k sk -> length buf = S k -> length mb = N -> glev_enc w N k p sk f m e -> small_noise w N p (e O) ->
  forall i, (i < N)%nat -> (i < length mo)%nat -> nthZ (DecryptFFTGLevTo w logN N k mm fsk p buf mb mo f) i = (cf m (Z.of_nat i) mod g_base p) mod mm.
Proof.
  intros Hm Hm2 Hk Lb Lo He Hn. pose proof (glev_shape _ _ _ He) as Hs. unfold DecryptFFTGLevTo. cbv zeta. rewrite DecFFT_eq by (try assumption; apply Hs, lpos').
  destruct (glev_inverse f f m e Hs He) as (A & B). rewrite InvLev_eq in A, B by assumption.
  apply (DecryptGLevTo_spec w Hw N HN k sk logN Hl zz zz p Hok mm mb mo (map Inv f) m e); [assumption..| |exact Hn]. apply B, lpos'.
Qed.
(** Decrypting the transform is decrypting the ciphertext, whatever it encrypts. *)
Lemma decrypt_same o buf pOut lev : lshape N k p o -> length buf = S k -> lwords lev ->
  DecryptFFTGLevPolyTo w logN N k fsk p buf pOut (FwdFFTGLevCiphertextTo w p o lev) = DecryptGLevPolyTo w logN N k fsk p pOut lev.
Proof.
  intros Ho Lb Hc. pose proof (lwords_shape _ Hc) as Hs. rewrite FwdLev_eq by assumption. rewrite DecFFT_eq; [now rewrite inv_fwd_lev|exact Lb|].
  apply (lshape_F _ Hs), lpos'.
Qed.
End Lev.
End W.
