(** Codec lemmas, type by type. *)
From Verif Require Import Base ModelNum SpecNum ModelGadget SpecGadget ModelParams SpecParams ModelCodec SpecCodec PfNum PfGadget PfParams PfCodec.

Lemma header_length l : length (header l) = (8 * length l)%nat.
Proof. induction l; [reflexivity|]. unfold header in *. cbn [map concat]. rewrite app_length, be64_length. cbn [length]. lia. Qed.
Lemma hd_nth {A} (l : list A) d : nth 0 l d = hd d l. Proof. destruct l; reflexivity. Qed.
Lemma Forall_hd {A} (P : A -> Prop) l d : Forall P l -> (1 <= length l)%nat -> P (hd d l).
Proof. destruct 1; cbn; [lia|auto]. Qed.
Lemma mkN_ok {A} n (a : A) : mkN (Z.of_nat n) (Some a) = Some (repeat a n).
Proof.
  unfold mkN. replace (Z.of_nat n <? 0) with false by (symmetry; apply Z.ltb_ge; lia).
  destruct (Z.of_nat n =? 0) eqn:E; [apply Z.eqb_eq in E; destruct n; [reflexivity|lia]|]. now rewrite Nat2Z.id.
Qed.
Lemma okint_lt n : okint n -> Z.of_nat n < 2 ^ 63. Proof. unfold okint. lia. Qed.
Lemma int_ok n : okint n -> getInt (be64 (Z.of_nat n)) = Z.of_nat n.
Proof. intros H. apply getInt_be64, sword_nat. now apply okint_lt. Qed.
Lemma okrank_int N : okrank N -> okint N.
Proof. intros (e & He & E). unfold okint. rewrite E. clear E. assert (2 ^ e <= 2 ^ 62) as H by (apply Z.pow_le_mono_r; lia). change (2 ^ 62) with 4611686018427387904 in H. change (2 ^ 63) with 9223372036854775808. lia. Qed.
Lemma NewPoly_ok N : okrank N -> NewPoly (Z.of_nat N) = Some (repeat 0 N).
Proof.
  intros (e & He & E). unfold NewPoly. rewrite Nat2Z.id, E. rewrite (proj2 (IsPowerOfTwo_spec (2 ^ e))).
  - assert (2 ^ 4 <= 2 ^ e) by (apply Z.pow_le_mono_r; lia). replace (2 ^ e <? 16) with false by (symmetry; apply Z.ltb_ge; lia). reflexivity.
  - exists e. split; [lia|reflexivity].
Qed.
Lemma succ_ok k : okint k -> swrap 64 (Z.of_nat k + 1) = Z.of_nat (S k).
Proof. intros H. rewrite swrap_small by (unfold sword, okint in *; try lia; change (64 - 1) with 63; lia). lia. Qed.
Lemma NewGLWE_ok k N : okint k -> okrank N -> NewGLWECiphertextCustom (Z.of_nat k) (Z.of_nat N) = Some (repeat (repeat 0 N) (S k)).
Proof. intros Hk HN. unfold NewGLWECiphertextCustom. now rewrite succ_ok, NewPoly_ok, mkN_ok. Qed.
Lemma getInt_pred v : okint v -> getInt (be64 (Z.of_nat v - 1)) = Z.of_nat v - 1.
Proof. intros H. apply getInt_be64. unfold okint in H. unfold sword. change (64 - 1) with 63. lia. Qed.

Ltac hdr := unfold header; cbn [map concat app]; repeat (eapply reads_bind; [apply reads_full; apply be64_length|]).
Ltac hdrE := unfold header; cbn [map concat app]; repeat (eapply reads_bind; [apply reads_fullE; apply be64_length|]).
Ltac whd := repeat first [apply wspec_seq | rewrite putInt_be; apply wspec_Write | eapply wspec_index].

Ltac untype := unfold evalKey, brKey, gsw, ggsw, lev, glev in *.

Ltac zr := untype; cbn [length]; repeat rewrite ?Nat2Z.inj_add, ?Nat2Z.inj_mul; repeat match goal with |- context [Z.of_nat (S ?k)] => is_var k; rewrite (Nat2Z.inj_succ k) end;
  change (Z.of_nat 8) with 8; change (Z.of_nat 5) with 5; change (Z.of_nat 4) with 4; change (Z.of_nat 3) with 3; change (Z.of_nat 2) with 2; change (Z.of_nat 1) with 1; unfold Z.succ; first [ring|lia].

Section T.
Variable sz : nat.
Hypothesis Hsz : (1 <= sz <= 8)%nat.
Notation w := (8 * Z.of_nat sz).

Lemma gad_level g : gadget_ok w g -> okint (g_level g) /\ (1 <= g_level g)%nat.
Proof. intros (H1 & H2 & H3 & H4 & H5 & H6). unfold okint. split; [nia|exact H3]. Qed.
Lemma gad_base g : gadget_ok w g -> uword w (g_base g).
Proof. intros (H1 & H2 & H3 & H4 & H5 & H6). unfold uword. rewrite H2. split; [apply Z.pow_nonneg; lia|]. apply Z.pow_lt_mono_r; lia. Qed.
Lemma gadOf_ok g : gadget_ok w g -> gadOf sz (getT sz (be64 (g_base g))) (getInt (be64 (Z.of_nat (g_level g)))) = Some g.
Proof.
  intros H. rewrite getT_be64 by (try lia; now apply gad_base). rewrite int_ok by now apply gad_level.
  unfold gadOf. destruct H as (H1 & H2 & H3 & H4 & H5 & H6). rewrite H2, CompileGadget_complete by (try lia; nia).
  cbn. destruct g as [b lb l s]; cbn in *. congruence.
Qed.

(** ** Vectors with a one-word header *)
Lemma LWESecretKey_w x v : wtop x (LWESecretKey_WriteTo sz v) (header [len v] ++ ewords sz v).
Proof.
  apply wtop_hv.
  - unfold LWESecretKey_header, header. cbn [map concat]. rewrite app_nil_r, putInt_be. apply wspec_Write.
  - apply vecWriteTo_w.
  - unfold LWESecretKey_ByteSize, lenZ. rewrite app_length, header_length, ewords_length. cbn [length]. lia.
Qed.
Lemma LWESecretKey_r old v : okint (length v) -> wfwords sz (length v) v -> reads (LWESecretKey_ReadFrom sz old) (header [len v] ++ ewords sz v) v.
Proof.
  intros Hi Hv. unfold LWESecretKey_ReadFrom. eapply reads_bind.
  - apply reads_call. unfold LWESecretKey_headerReadFrom. hdr. apply reads_lift. unfold len, NewLWESecretKeyCustom. rewrite int_ok by exact Hi. apply mkN_ok.
  - apply reads_callLost. now apply vecReadFrom_reads.
Qed.
Lemma LWECiphertext_w x v : wtop x (LWECiphertext_WriteTo sz v) (header [len v - 1] ++ ewords sz v).
Proof.
  apply wtop_hv.
  - unfold header. cbn [map concat]. rewrite app_nil_r, putInt_be. apply wspec_Write.
  - apply vecWriteTo_w.
  - unfold LWECiphertext_ByteSize, lenZ. rewrite app_length, header_length, ewords_length. cbn [length]. lia.
Qed.
Lemma NewLWE_ok d : okint d -> NewLWECiphertextCustom (getInt (be64 (Z.of_nat d - 1))) = Some (repeat 0 d).
Proof.
  intros Hd. unfold NewLWECiphertextCustom. rewrite getInt_pred by exact Hd. replace (Z.of_nat d - 1 + 1) with (Z.of_nat d) by lia.
  rewrite swrap_small by (try lia; apply sword_nat; now apply okint_lt). apply mkN_ok.
Qed.
Lemma LWECiphertext_r old v : okint (length v) -> wfwords sz (length v) v -> reads (LWECiphertext_ReadFrom sz old) (header [len v - 1] ++ ewords sz v) v.
Proof.
  intros Hi Hv. unfold LWECiphertext_ReadFrom. eapply reads_bind.
  - apply reads_call. unfold LWECiphertext_headerReadFrom. hdr. apply reads_lift. unfold len. now apply NewLWE_ok.
  - apply reads_call. now apply vecReadFrom_reads.
Qed.
Lemma GLWEPlaintext_w x v : wtop x (GLWEPlaintext_WriteTo sz v) (header [len v] ++ ewords sz v).
Proof.
  apply wtop_hv.
  - unfold header. cbn [map concat]. rewrite app_nil_r, putInt_be. apply wspec_Write.
  - apply wspec_callI, vecWriteTo_w.
  - unfold GLWEPlaintext_ByteSize, lenZ. rewrite app_length, header_length, ewords_length. cbn [length]. lia.
Qed.
Lemma GLWEPlaintext_r old v : okrank (length v) -> wfwords sz (length v) v -> reads (GLWEPlaintext_ReadFrom sz old) (header [len v] ++ ewords sz v) v.
Proof.
  intros Hi Hv. unfold GLWEPlaintext_ReadFrom. eapply reads_bind.
  - apply reads_call. unfold GLWEPlaintext_headerReadFrom. hdr. apply reads_lift. unfold len. rewrite int_ok by now apply okrank_int. now apply NewPoly_ok.
  - apply reads_call. now apply vecReadFrom_reads.
Qed.
Lemma LWEPlaintext_w x v : wtop x (LWEPlaintext_WriteTo sz v) (be sz v).
Proof.
  apply wtop_check. { unfold LWEPlaintext_ByteSize, lenZ. now rewrite be_length. }
  apply wspec_callI. replace (be sz v) with (ewords sz [v]) by (unfold ewords; cbn; apply app_nil_r). apply vecWriteTo_w.
Qed.
Lemma LWEPlaintext_r old v : uword w v -> reads (LWEPlaintext_ReadFrom sz old) (be sz v) v.
Proof.
  intros Hv. unfold LWEPlaintext_ReadFrom. replace (be sz v) with (ewords sz [v]) by (unfold ewords; cbn; apply app_nil_r).
  eapply reads_bind0. { apply reads_call. apply (vecReadFrom_reads sz [v] 1). split; auto. }
  apply reads_ret.
Qed.

(** ** Rows with a two-word header *)
Lemma rows_len s N m r : wfrows s N m r -> (1 <= m)%nat -> length (hd [] r) = N.
Proof. intros [Hl Hr] Hm. apply (Forall_hd _ r []) in Hr; [|lia]. apply Hr. Qed.
Lemma encRows_length s N m d r : wfrows s N m r -> length (encRows s d r) = (16 + m * (N * s))%nat.
Proof. intros H. unfold encRows. rewrite app_length, header_length, (erows_length s N m) by exact H. reflexivity. Qed.
Lemma rows_w x (wr : list Z -> W) s N m d r size : (forall b, wspec x (wr b) b) -> wfrows s N m r -> (1 <= m)%nat -> size = 16 + Z.of_nat (m * (N * s)) ->
  wtop x (callW (wr (putInt d) ;;w windex r (fun p => wr (putInt (lenZ p)))) ;;w callW (windex r (fun p => wrows s (length p * s) r)) ;;w shortCheck size) (encRows s d r).
Proof.
  intros Hwr Hr Hm ->. pose proof (rows_len s N m r Hr Hm) as HN. assert (1 <= length r)%nat by (destruct Hr; lia).
  unfold encRows. apply wtop_hv.
  - unfold header. cbn [map concat]. rewrite app_nil_r. rewrite !putInt_be. apply wspec_seq; [apply Hwr|].
    eapply wspec_index with (d := []); [assumption|]. rewrite putInt_be. apply Hwr.
  - eapply wspec_index with (d := []); [assumption|]. eapply wrows_w; [exact Hr|]. now rewrite HN.
  - unfold lenZ. fold (encRows s d r). rewrite (encRows_length s N m) by exact Hr. lia.
Qed.
Lemma GLWESecretKey_w x r : wfGLWESK sz r -> wtop x (GLWESecretKey_WriteTo sz r) (encRows sz (len r) r).
Proof.
  intros (k & N & Hk & Hk' & HN & Hr). unfold GLWESecretKey_WriteTo. eapply rows_w; [intros; apply wspec_Write|exact Hr|lia|].
  unfold GLWESecretKey_ByteSize, lenZ. rewrite hd_nth, (rows_len _ _ _ _ Hr Hk). destruct Hr as [-> _]. lia.
Qed.
Lemma NewRows_ok k N : okint k -> okrank N -> NewGLWESecretKeyCustom (Z.of_nat k) (Z.of_nat N) = Some (repeat (repeat 0 N) k).
Proof. intros Hk HN. unfold NewGLWESecretKeyCustom. now rewrite NewPoly_ok, mkN_ok. Qed.
Lemma rows_r s N m r : wfrows s N m r -> (1 <= m)%nat ->
  reads (callR (rindex (repeat (repeat 0 N) m) (fun p => rrows s (length p * s) (repeat (repeat 0 N) m)))) (erows s r) r.
Proof.
  intros Hr Hm. apply reads_call. eapply reads_index with (d := []); [rewrite repeat_length; lia|].
  destruct m; [untype; lia|]. cbn [repeat hd]. change (repeat 0 N :: repeat (repeat 0 N) m) with (repeat (repeat 0 N) (S m)). rewrite repeat_length. now apply rrows_reads.
Qed.
Lemma GLWESecretKey_r old r : wfGLWESK sz r -> reads (GLWESecretKey_ReadFrom sz old) (encRows sz (len r) r) r.
Proof.
  intros (k & N & Hk & Hk' & HN & Hr). unfold GLWESecretKey_ReadFrom, encRows. eapply reads_bind.
  - apply reads_call. unfold GLWESecretKey_headerReadFrom. hdr. apply reads_lift. unfold len. rewrite (rows_len _ _ _ _ Hr Hk).
    destruct Hr as [-> _]. rewrite !int_ok by (auto; now apply okrank_int). now apply NewRows_ok.
  - now apply rows_r.
Qed.
Lemma FFTGLWESecretKey_w r : wfGLWESK 8 r -> wtop false (FFTGLWESecretKey_WriteTo r) (encRows 8 (len r) r).
Proof.
  intros (k & N & Hk & Hk' & HN & Hr). unfold FFTGLWESecretKey_WriteTo. eapply rows_w; [intros; apply wspec_WriteE|exact Hr|lia|].
  unfold FFTGLWESecretKey_ByteSize, lenZ. rewrite hd_nth, (rows_len _ _ _ _ Hr Hk). destruct Hr as [-> _]. lia.
Qed.
Lemma FFTGLWESecretKey_r old r : wfGLWESK 8 r -> reads (FFTGLWESecretKey_ReadFrom old) (encRows 8 (len r) r) r.
Proof.
  intros (k & N & Hk & Hk' & HN & Hr). unfold FFTGLWESecretKey_ReadFrom, encRows. eapply reads_bind.
  - apply reads_call. unfold FFTGLWESecretKey_headerReadFrom. hdrE. apply reads_lift. unfold len. rewrite (rows_len _ _ _ _ Hr Hk).
    destruct Hr as [-> _]. rewrite !int_ok by (auto; now apply okrank_int). now apply NewRows_ok.
  - now apply rows_r.
Qed.
Lemma len_pred k : Z.of_nat (S k) - 1 = Z.of_nat k. Proof. lia. Qed.
Lemma GLWECiphertext_w x r : wfGLWE sz r -> wtop x (GLWECiphertext_WriteTo sz r) (encRows sz (len r - 1) r).
Proof.
  intros (k & N & Hk & HN & Hr). unfold GLWECiphertext_WriteTo. eapply rows_w; [intros; apply wspec_Write|exact Hr|lia|].
  unfold GLWECiphertext_ByteSize, lenZ. rewrite hd_nth, (rows_len _ _ _ _ Hr) by lia. destruct Hr as [-> _]. lia.
Qed.
Lemma GLWECiphertext_r old r : wfGLWE sz r -> reads (GLWECiphertext_ReadFrom sz old) (encRows sz (len r - 1) r) r.
Proof.
  intros (k & N & Hk & HN & Hr). unfold GLWECiphertext_ReadFrom, encRows. eapply reads_bind.
  - apply reads_call. unfold GLWECiphertext_headerReadFrom. hdr. apply reads_lift. unfold len. rewrite (rows_len _ _ _ _ Hr) by lia.
    destruct Hr as [-> _]. rewrite len_pred, !int_ok by (auto; now apply okrank_int). now apply NewGLWE_ok.
  - apply rows_r; [exact Hr|untype; lia].
Qed.
Lemma FFTGLWECiphertext_w r : wfGLWE 8 r -> wtop false (FFTGLWECiphertext_WriteTo r) (encRows 8 (len r - 1) r).
Proof.
  intros (k & N & Hk & HN & Hr). unfold FFTGLWECiphertext_WriteTo. eapply rows_w; [intros; apply wspec_WriteE|exact Hr|lia|].
  unfold FFTGLWECiphertext_ByteSize, lenZ. rewrite hd_nth, (rows_len _ _ _ _ Hr) by lia. destruct Hr as [-> _]. lia.
Qed.
Lemma FFTGLWECiphertext_r old r : wfGLWE 8 r -> reads (FFTGLWECiphertext_ReadFrom old) (encRows 8 (len r - 1) r) r.
Proof.
  intros (k & N & Hk & HN & Hr). unfold FFTGLWECiphertext_ReadFrom, encRows. eapply reads_bind.
  - apply reads_call. unfold FFTGLWECiphertext_headerReadFrom. hdrE. apply reads_lift. unfold len. rewrite (rows_len _ _ _ _ Hr) by lia.
    destruct Hr as [-> _]. rewrite len_pred, !int_ok by (auto; now apply okrank_int). now apply NewGLWE_ok.
  - apply rows_r; [exact Hr|untype; lia].
Qed.

(** ** Public keys *)
Lemma cube_hd s N m c : Forall (wfrows s N (S m)) c -> (1 <= length c)%nat -> length (hd [] c) = S m /\ length (hd [] (hd [] c)) = N.
Proof.
  intros H Hl. apply (Forall_hd _ c []) in H; [|exact Hl]. split; [apply H|]. eapply rows_len; [exact H|lia].
Qed.
Lemma PK_w x pk : wfPK sz pk -> wtop x (LWEPublicKey_WriteTo sz pk) (encPK sz pk).
Proof.
  intros (k & N & Hk & Hk' & HN & Hl & Hr). destruct (cube_hd _ _ _ _ Hr ltac:(untype; lia)) as [H1 H2].
  unfold LWEPublicKey_WriteTo, encPK. apply wtop_hv.
  - unfold LWEPublicKey_header, header. cbn [map concat]. rewrite app_nil_r, putInt_be. apply wspec_seq; [apply wspec_Write|].
    apply wspec_index with (d := []); [untype; lia|]. apply wspec_index with (d := []); [untype; lia|]. rewrite putInt_be. apply wspec_Write.
  - unfold LWEPublicKey_value. apply wspec_index with (d := []); [untype; lia|]. apply wspec_index with (d := []); [untype; lia|].
    eapply wcube_w; [exact Hr|]. now rewrite H2.
  - unfold LWEPublicKey_ByteSize, lenZ. rewrite app_length, header_length, (ecube_length _ _ _ _ Hr), !hd_nth, H2. zr.
Qed.
Lemma PK_r old pk : wfPK sz pk -> reads (LWEPublicKey_ReadFrom sz old) (encPK sz pk) pk.
Proof.
  intros (k & N & Hk & Hk' & HN & Hl & Hr). destruct (cube_hd _ _ _ _ Hr ltac:(untype; lia)) as [H1 H2].
  unfold LWEPublicKey_ReadFrom, encPK. eapply reads_bind.
  - apply reads_call. unfold LWEPublicKey_headerReadFrom. hdr. apply reads_lift. unfold len. rewrite H2, Hl.
    rewrite !int_ok by (auto; now apply okrank_int). unfold NewPublicKeyCustom. rewrite NewGLWE_ok by auto. apply mkN_ok.
  - apply reads_call. unfold LWEPublicKey_valueReadFrom. destruct k as [|k]; [untype; lia|].
    apply reads_index with (d := []); [rewrite repeat_length; lia|]. apply reads_index with (d := []); [cbn; lia|].
    cbn [repeat hd]. rewrite repeat_length.
    change (rloop ?a _) with (rloop (repeat (repeat (repeat 0 N) (S (S k))) (S k)) (rrows sz (N * sz))). now apply rcube_reads.
Qed.
Lemma PublicKey_w x pk : wfPK sz (fst pk) /\ wfPK sz (snd pk) -> wtop x (PublicKey_WriteTo sz pk) (encPK sz (fst pk) ++ encPK sz (snd pk)).
Proof.
  intros [H1 H2]. unfold PublicKey_WriteTo. eapply wtop_ext; [apply wseq_assoc|]. apply wtop_check.
  - rewrite lenZ_app. unfold PublicKey_ByteSize. f_equal.
    + clear H2. destruct H1 as (k & N & Hk & Hk' & HN & Hl & Hr). destruct (cube_hd _ _ _ _ Hr ltac:(untype; lia)) as [H1 H2].
      unfold LWEPublicKey_ByteSize, lenZ, encPK. rewrite app_length, header_length, (ecube_length _ _ _ _ Hr), !hd_nth, H2. zr.
    + clear H1. destruct H2 as (k & N & Hk & Hk' & HN & Hl & Hr). destruct (cube_hd _ _ _ _ Hr ltac:(untype; lia)) as [H1 H2].
      unfold LWEPublicKey_ByteSize, lenZ, encPK. rewrite app_length, header_length, (ecube_length _ _ _ _ Hr), !hd_nth, H2. zr.
  - apply wspec_seq; apply wspec_call; now apply PK_w.
Qed.
Lemma PublicKey_r old pk : wfPK sz (fst pk) /\ wfPK sz (snd pk) -> reads (PublicKey_ReadFrom sz old) (encPK sz (fst pk) ++ encPK sz (snd pk)) pk.
Proof.
  intros [H1 H2]. unfold PublicKey_ReadFrom. eapply reads_bind; [apply reads_call, PK_r, H1|]. eapply reads_bind0; [apply reads_call, PK_r, H2|].
  rewrite <- surjective_pairing. apply reads_ret.
Qed.

(** ** Lev, GSW, key-switching keys *)
Lemma Lev_w x l : wfLev sz l -> wtop x (Lev_WriteTo sz l) (header [g_base (fst l); len (snd l); len (hd [] (snd l)) - 1] ++ erows sz (snd l)).
Proof.
  intros (Hg & d & Hd & _ & Hr). destruct (gad_level _ Hg) as [HL1 HL2]. pose proof (rows_len _ _ _ _ Hr HL2) as HN.
  unfold Lev_WriteTo. apply wtop_hv.
  - unfold Lev_header, header. cbn [map concat]. rewrite app_nil_r, !putInt_be. repeat (apply wspec_seq; [apply wspec_Write|]).
    apply wspec_index with (d := []); [destruct Hr; lia|]. rewrite putInt_be. apply wspec_Write.
  - unfold Lev_value. apply wspec_index with (d := []); [destruct Hr; lia|]. eapply wrows_w; [exact Hr|]. now rewrite HN.
  - unfold Lev_ByteSize, lenZ. rewrite app_length, header_length, (erows_length _ _ _ _ Hr), hd_nth, HN. destruct Hr as [-> _]. zr.
Qed.
Lemma Lev_r old l : wfLev sz l -> reads (Lev_ReadFrom sz old) (header [g_base (fst l); len (snd l); len (hd [] (snd l)) - 1] ++ erows sz (snd l)) l.
Proof.
  intros (Hg & d & Hd & _ & Hr). destruct (gad_level _ Hg) as [HL1 HL2]. pose proof (rows_len _ _ _ _ Hr HL2) as HN.
  unfold Lev_ReadFrom. eapply reads_bind.
  - apply reads_call. unfold Lev_headerReadFrom. hdr. apply reads_lift. unfold len. rewrite HN. destruct Hr as [-> _].
    rewrite gadOf_ok by exact Hg. cbn [optBind]. unfold NewLevCiphertextCustom. rewrite NewLWE_ok by exact Hd. rewrite mkN_ok. reflexivity.
  - apply reads_call. unfold Lev_valueReadFrom. cbn [snd]. apply reads_index with (d := []); [rewrite repeat_length; lia|].
    destruct l as [g r]; cbn [fst snd] in *. apply reads_withG. destruct (g_level g) as [|L]; [untype; lia|]. cbn [repeat hd]. rewrite repeat_length.
    change (rrows sz ?a ?b) with (rrows sz (d * sz) (repeat (repeat 0 d) (S L))). now apply rrows_reads.
Qed.
Lemma levs_len c g d : Forall (wflev sz d g) c -> (1 <= length c)%nat -> (1 <= g_level g)%nat ->
  length (snd (hd (g, []) c)) = g_level g /\ length (hd [] (snd (hd (g, []) c))) = d.
Proof. intros H Hl HL. apply (Forall_hd _ c (g, [])) in H; [|exact Hl]. destruct H as [_ H]. split; [apply H|]. eapply rows_len; [exact H|exact HL]. Qed.
Lemma elevs_length c g d : Forall (wflev sz d g) (snd c) -> length (elevs sz c) = (length (snd c) * (g_level g * (d * sz)))%nat.
Proof.
  intros H. unfold elevs. apply concat_length_const. intros l Hl. rewrite Forall_forall in H. destruct (H l Hl) as [_ Hr]. eapply erows_length; exact Hr.
Qed.
Lemma wlevs_w x (c : gsw) g d bl : Forall (wflev sz d g) (snd c) -> bl = (d * sz)%nat -> wspec x (wloop (snd c) (fun l => wrows sz bl (snd l))) (elevs sz c).
Proof. intros H ->. unfold elevs. apply (wspec_loop x _ (fun l => erows sz (snd l))). eapply Forall_impl; [|exact H]. intros l [_ Hl]. cbn beta. eapply wrows_w; eauto. Qed.
Lemma rlevs_r (c : list lev) g d n bl : Forall (wflev sz d g) c -> length c = n -> bl = (d * sz)%nat ->
  reads (rloop (repeat (g, repeat (repeat 0 d) (g_level g)) n) (withG (rrows sz bl))) (concat (map (fun l => erows sz (snd l)) c)) c.
Proof.
  intros H Hl ->. apply reads_loop; [exact Hl|]. eapply Forall_impl; [|exact H]. intros [g' r] [E Hr]. cbn [fst snd] in *. subst g'.
  apply reads_withG. now apply rrows_reads.
Qed.
Lemma GSW_w x c : wfGSW sz c -> wtop x (GSW_WriteTo sz c) (header [g_base (fst c); hdl (fst c) (snd c) len; len (snd c) - 1] ++ elevs sz c).
Proof.
  intros (Hg & H1 & Hi & Hr). destruct (gad_level _ Hg) as [HL1 HL2]. destruct (levs_len _ _ _ Hr H1 HL2) as [HA HB].
  unfold GSW_WriteTo. apply wtop_hv.
  - unfold GSW_header, header. cbn [map concat]. rewrite app_nil_r, !putInt_be. repeat (apply wspec_seq; [apply wspec_Write|]).
    apply wspec_seq; [|apply wspec_Write]. apply wspec_index with (d := (fst c, [])); [untype; lia|]. rewrite putInt_be. apply wspec_Write.
  - unfold GSW_value. eapply wlevs_w; [exact Hr|reflexivity].
  - unfold GSW_ByteSize, lenZ. untype. rewrite app_length, header_length, (elevs_length _ _ _ Hr), hd_nth; untype; rewrite ?HA. zr.
Qed.
Lemma GSW_r old c : wfGSW sz c -> reads (GSW_ReadFrom sz old) (header [g_base (fst c); hdl (fst c) (snd c) len; len (snd c) - 1] ++ elevs sz c) c.
Proof.
  intros (Hg & H1 & Hi & Hr). destruct (gad_level _ Hg) as [HL1 HL2]. destruct (levs_len _ _ _ Hr H1 HL2) as [HA HB].
  unfold GSW_ReadFrom. eapply reads_bind.
  - apply reads_call. unfold GSW_headerReadFrom. hdr. apply reads_lift. unfold hdl, len. untype. rewrite HA.
    rewrite gadOf_ok by exact Hg. cbn [optBind]. unfold NewGSWCiphertextCustom, NewLevCiphertextCustom. rewrite NewLWE_ok by exact Hi. rewrite mkN_ok. cbn [optBind].
    rewrite getInt_pred by exact Hi. replace (Z.of_nat (length (snd c)) - 1 + 1) with (Z.of_nat (length (snd c))) by lia.
    rewrite swrap_small by (try lia; apply sword_nat; now apply okint_lt). rewrite mkN_ok. reflexivity.
  - apply reads_call. unfold GSW_valueReadFrom. cbn [snd]. destruct c as [g ls]; cbn [fst snd] in *. apply reads_withG.
    rewrite repeat_length. now apply rlevs_r.
Qed.
Lemma KSK_size c : wfKSK sz c -> LWEKeySwitchKey_ByteSize sz c = lenZ (encKSK sz c).
Proof.
  intros (Hg & n & d & Hn & Hi & Hd & Hl & Hr). destruct (gad_level _ Hg) as [HL1 HL2]. destruct (levs_len _ _ _ Hr ltac:(untype; lia) HL2) as [HA HB].
  unfold LWEKeySwitchKey_ByteSize, lenZ, encKSK. untype. rewrite app_length, header_length, (elevs_length _ _ _ Hr), !hd_nth. cbv zeta. untype. rewrite HA, HB. zr.
Qed.
Lemma KSK_w x c : wfKSK sz c -> wtop x (LWEKeySwitchKey_WriteTo sz c) (encKSK sz c).
Proof.
  intros H. pose proof (KSK_size c H) as HS. destruct H as (Hg & n & d & Hn & Hi & Hd & Hl & Hr). destruct (gad_level _ Hg) as [HL1 HL2]. destruct (levs_len _ _ _ Hr ltac:(untype; lia) HL2) as [HA HB].
  unfold LWEKeySwitchKey_WriteTo, encKSK. apply wtop_hv.
  - unfold LWEKeySwitchKey_header, header. cbn [map concat]. rewrite app_nil_r, !putInt_be. repeat (apply wspec_seq; [apply wspec_Write|]).
    apply wspec_index with (d := (fst c, [])); [untype; lia|]. apply wspec_index with (d := []); [untype; lia|]. rewrite putInt_be. apply wspec_Write.
  - unfold LWEKeySwitchKey_value. apply wspec_index with (d := (fst c, [])); [untype; lia|]. apply wspec_index with (d := []); [untype; lia|]. eapply wlevs_w; [exact Hr|now rewrite HB].
  - exact HS.
Qed.
Lemma KSK_r old c : wfKSK sz c -> reads (LWEKeySwitchKey_ReadFrom sz old) (encKSK sz c) c.
Proof.
  intros (Hg & n & d & Hn & Hi & Hd & Hl & Hr). destruct (gad_level _ Hg) as [HL1 HL2]. destruct (levs_len _ _ _ Hr ltac:(untype; lia) HL2) as [HA HB].
  unfold LWEKeySwitchKey_ReadFrom, encKSK. eapply reads_bind.
  - apply reads_call. unfold LWEKeySwitchKey_headerReadFrom. hdr. apply reads_lift. unfold hdl, len. untype. rewrite HB, Hl.
    rewrite gadOf_ok by exact Hg. cbn [optBind]. unfold NewLWEKeySwitchKeyCustom, NewLevCiphertextCustom. rewrite NewLWE_ok by exact Hd. rewrite mkN_ok. cbn [optBind].
    rewrite int_ok by exact Hi. rewrite mkN_ok. reflexivity.
  - apply reads_call. unfold LWEKeySwitchKey_valueReadFrom. cbn [snd]. destruct c as [g ls]; cbn [fst snd] in *.
    destruct n as [|n]; [untype; lia|]. apply reads_index with (d := (g, [])); [rewrite repeat_length; lia|]. cbn [repeat hd snd].
    apply reads_index with (d := []); [rewrite repeat_length; lia|]. replace (length (hd [] (repeat (repeat 0 d) (g_level g)))) with d.
    2:{ destruct (g_level g); [untype; lia|]. cbn [repeat hd]. now rewrite repeat_length. }
    apply reads_withG. change (?a :: repeat ?a n) with (repeat a (S n)). now apply rlevs_r.
Qed.

(** ** GLev, GGSW, blind rotation keys *)
Lemma glev_len s k N g l : wfglev s k N g l -> (1 <= g_level g)%nat ->
  length (snd l) = g_level g /\ length (hd [] (snd l)) = S k /\ length (hd [] (hd [] (snd l))) = N.
Proof. intros (E & Hl & Hr) HL. split; [exact Hl|]. apply (cube_hd s N k); [exact Hr|untype; lia]. Qed.
Lemma eglev_length s k N g l : wfglev s k N g l -> length (eglev s l) = (g_level g * (S k * (N * s)))%nat.
Proof. intros (E & Hl & Hr). unfold eglev. now rewrite (ecube_length _ _ _ _ Hr), Hl. Qed.
Lemma GLev_size s l : wfGLev sz s l -> GLev_ByteSize s l = lenZ (encGLev s l).
Proof.
  intros (Hg & k & N & Hk & HN & Hl). destruct (gad_level _ Hg) as [HL1 HL2]. destruct (glev_len _ _ _ _ _ Hl HL2) as (HA & HB & HC).
  unfold GLev_ByteSize, lenZ, encGLev, glevRank. untype. rewrite app_length, header_length, (eglev_length _ _ _ _ _ Hl), !hd_nth; untype; rewrite HA, HB, HC. zr.
Qed.
Lemma GLev_gen_w x wr s l : (forall b, wspec x (wr b) b) -> wfGLev sz s l -> wtop x (callW (GLev_header wr l) ;;w callW (GLev_value s l) ;;w shortCheck (GLev_ByteSize s l)) (encGLev s l).
Proof.
  intros Hwr H. pose proof (GLev_size s l H) as HS. destruct H as (Hg & k & N & Hk & HN & Hl). destruct (gad_level _ Hg) as [HL1 HL2]. destruct (glev_len _ _ _ _ _ Hl HL2) as (HA & HB & HC).
  unfold encGLev. apply wtop_hv; [| |exact HS].
  - unfold GLev_header, header. cbn [map concat]. rewrite app_nil_r, !putInt_be. repeat (apply wspec_seq; [apply Hwr|]).
    apply wspec_index with (d := []); [untype; lia|]. rewrite putInt_be. apply wspec_seq; [apply Hwr|]. apply wspec_index with (d := []); [untype; lia|]. rewrite putInt_be. apply Hwr.
  - unfold GLev_value. apply wspec_index with (d := []); [untype; lia|]. apply wspec_index with (d := []); [untype; lia|]. eapply wcube_w; [apply Hl|now rewrite HC].
Qed.
Lemma NewGLev_ok k N g : okint k -> okrank N -> NewGLevCiphertextCustom (Z.of_nat k) (Z.of_nat N) g = Some (g, repeat (repeat (repeat 0 N) (S k)) (g_level g)).
Proof. intros Hk HN. unfold NewGLevCiphertextCustom. rewrite NewGLWE_ok by auto. rewrite mkN_ok. reflexivity. Qed.
Lemma GLev_gen_r s l old : wfGLev sz s l -> reads (ct <-- callR (GLev_headerReadFrom sz old) ;; callR (GLev_valueReadFrom s ct)) (encGLev s l) l.
Proof.
  intros (Hg & k & N & Hk & HN & Hl). destruct (gad_level _ Hg) as [HL1 HL2]. destruct (glev_len _ _ _ _ _ Hl HL2) as (HA & HB & HC).
  unfold encGLev. eapply reads_bind.
  - apply reads_call. unfold GLev_headerReadFrom. hdr. apply reads_lift. unfold len. rewrite HA, HB, HC, len_pred.
    rewrite gadOf_ok by exact Hg. cbn [optBind]. rewrite !int_ok by (auto; now apply okrank_int). now apply NewGLev_ok.
  - apply reads_call. unfold GLev_valueReadFrom. cbn [snd]. destruct l as [g c]; cbn [fst snd] in *.
    destruct Hl as (_ & Hl & Hr). cbn [snd] in *. destruct (g_level g) as [|L]; [untype; lia|].
    apply reads_index with (d := []); [rewrite repeat_length; lia|]. apply reads_index with (d := []); [cbn; lia|]. cbn [repeat hd]. rewrite repeat_length.
    apply reads_withG. change (rloop ?a ?f) with (rloop (repeat (repeat (repeat 0 N) (S k)) (S L)) f). now apply rcube_reads.
Qed.
Definition glevs_wf s k N g c := Forall (wfglev s k N g) c.
Lemma glevs_len s k N g c : Forall (wfglev s k N g) c -> (1 <= length c)%nat -> (1 <= g_level g)%nat ->
  length (snd (hd (g, []) c)) = g_level g /\ length (hd [] (snd (hd (g, []) c))) = S k /\ length (hd [] (hd [] (snd (hd (g, []) c)))) = N.
Proof. intros H Hl HL. apply (Forall_hd _ c (g, [])) in H; [|exact Hl]. eapply glev_len; eauto. Qed.
Lemma eggsw_length s k N g (c : ggsw) : Forall (wfglev s k N g) (snd c) -> length (eggsw s c) = (length (snd c) * (g_level g * (S k * (N * s))))%nat.
Proof. intros H. unfold eggsw. apply concat_length_const. intros l Hl. rewrite Forall_forall in H. eapply eglev_length. apply H, Hl. Qed.
Lemma wglevs_w x s k N g (c : list glev) bl : Forall (wfglev s k N g) c -> bl = (N * s)%nat ->
  wspec x (wloop c (fun l => wloop (snd l) (wrows s bl))) (concat (map (eglev s) c)).
Proof. intros H ->. apply wspec_loop. eapply Forall_impl; [|exact H]. intros l (_ & _ & Hl). cbn beta. eapply wcube_w; eauto. Qed.
Lemma rglevs_r s k N g (c : list glev) n bl : Forall (wfglev s k N g) c -> length c = n -> bl = (N * s)%nat ->
  reads (rloop (repeat (g, repeat (repeat (repeat 0 N) (S k)) (g_level g)) n) (withG (fun cs => rloop cs (rrows s bl)))) (concat (map (eglev s) c)) c.
Proof.
  intros H Hl ->. apply reads_loop; [exact Hl|]. eapply Forall_impl; [|exact H]. intros [g' r] (E & Hn & Hr). cbn [fst snd] in *. subst g'.
  apply reads_withG. now apply rcube_reads.
Qed.
Lemma GGSW_value_w x s k N (c : ggsw) : gadget_ok w (fst c) -> Forall (wfglev s k N (fst c)) (snd c) -> (1 <= length (snd c))%nat -> wspec x (GGSW_value s c) (eggsw s c).
Proof.
  intros Hg H Hl. destruct (gad_level _ Hg) as [HL1 HL2]. destruct (glevs_len _ _ _ _ _ H Hl HL2) as (HA & HB & HC).
  unfold GGSW_value. apply wspec_index with (d := (fst c, [])); [untype; lia|]. apply wspec_index with (d := []); [untype; lia|]. apply wspec_index with (d := []); [untype; lia|].
  eapply wglevs_w; [exact H|]. now rewrite HC.
Qed.
Lemma GGSW_value_r s k N g (c : list glev) n : gadget_ok w g -> Forall (wfglev s k N g) c -> length c = n -> (1 <= n)%nat ->
  reads (GGSW_valueReadFrom s (g, repeat (g, repeat (repeat (repeat 0 N) (S k)) (g_level g)) n)) (concat (map (eglev s) c)) (g, c).
Proof.
  intros Hg H Hl Hn. destruct (gad_level _ Hg) as [HL1 HL2]. unfold GGSW_valueReadFrom. cbn [snd].
  apply reads_index with (d := (g, [])); [rewrite repeat_length; lia|]. destruct n as [|n]; [untype; lia|]. cbn [repeat hd snd].
  apply reads_index with (d := []); [rewrite repeat_length; lia|].
  replace (hd [] (repeat (repeat 0 N :: repeat (repeat 0 N) k) (g_level g))) with (repeat (repeat 0 N) (S k)) by (destruct (g_level g); [lia|reflexivity]).
  apply reads_index with (d := []); [rewrite repeat_length; lia|]. cbn [repeat hd]. rewrite repeat_length.
  apply reads_withG. change (rloop ?a ?f) with (rloop (repeat (g, repeat (repeat (repeat 0 N) (S k)) (g_level g)) (S n)) f). now apply rglevs_r.
Qed.
Lemma GGSW_size s c : wfGGSW sz s c -> GGSW_ByteSize s c = lenZ (encGGSW s c).
Proof.
  intros (Hg & k & N & Hk & HN & (_ & Hl & Hr)). destruct (gad_level _ Hg) as [HL1 HL2]. destruct (glevs_len _ _ _ _ _ Hr ltac:(untype; lia) HL2) as (HA & HB & HC).
  unfold GGSW_ByteSize, lenZ, encGGSW, glevRank, dglev. untype. rewrite app_length, header_length, (eggsw_length _ _ _ _ _ Hr), !hd_nth; untype; rewrite HA, HC, Hl. zr.
Qed.
Lemma GGSW_w x s c : wfGGSW sz s c -> wtop x (GGSW_WriteTo s c) (encGGSW s c).
Proof.
  intros H. pose proof (GGSW_size s c H) as HS. destruct H as (Hg & k & N & Hk & HN & (_ & Hl & Hr)). destruct (gad_level _ Hg) as [HL1 HL2]. destruct (glevs_len _ _ _ _ _ Hr ltac:(untype; lia) HL2) as (HA & HB & HC).
  unfold GGSW_WriteTo, encGGSW. apply wtop_hv; [| |exact HS].
  - unfold GGSW_header, header. cbn [map concat]. rewrite app_nil_r, !putInt_be. repeat (apply wspec_seq; [apply wspec_Write|]).
    apply wspec_seq; [|apply wspec_seq; [apply wspec_Write|]]; (apply wspec_index with (d := (fst c, [])); [untype; lia|]).
    + rewrite putInt_be. apply wspec_Write.
    + apply wspec_index with (d := []); [untype; lia|]. apply wspec_index with (d := []); [untype; lia|]. rewrite putInt_be. apply wspec_Write.
  - eapply GGSW_value_w; [exact Hg|exact Hr|untype; lia].
Qed.
Lemma GGSW_r s old c : wfGGSW sz s c -> reads (GGSW_ReadFrom sz s old) (encGGSW s c) c.
Proof.
  intros (Hg & k & N & Hk & HN & (_ & Hl & Hr)). destruct (gad_level _ Hg) as [HL1 HL2]. destruct (glevs_len _ _ _ _ _ Hr ltac:(untype; lia) HL2) as (HA & HB & HC).
  unfold GGSW_ReadFrom, encGGSW. eapply reads_bind.
  - apply reads_call. unfold GGSW_headerReadFrom. hdr. apply reads_lift. unfold hdl, len. untype. rewrite HA, HC, Hl, len_pred.
    rewrite gadOf_ok by exact Hg. cbn [optBind]. rewrite !int_ok by (auto; now apply okrank_int).
    unfold NewGGSWCiphertextCustom. rewrite NewGLev_ok by auto. rewrite succ_ok by exact Hk. rewrite mkN_ok. reflexivity.
  - destruct c as [g c]. apply reads_call. apply GGSW_value_r; auto. lia.
Qed.
Lemma Uni_size s c : wfUni sz s c -> UniEncryption_ByteSize s c = lenZ (encUni s c).
Proof.
  intros (Hg & N & HN & Hl & Hr). destruct (gad_level _ Hg) as [HL1 HL2]. destruct (glevs_len _ _ _ _ _ Hr ltac:(untype; lia) HL2) as (HA & HB & HC).
  unfold UniEncryption_ByteSize, lenZ, encUni, glevRank, dglev. untype. rewrite app_length, header_length, (eggsw_length _ _ _ _ _ Hr), !hd_nth; untype; rewrite HA, HC, Hl. zr.
Qed.
Lemma Uni_w x s c : wfUni sz s c -> wtop x (UniEncryption_WriteTo s c) (encUni s c).
Proof.
  intros H. pose proof (Uni_size s c H) as HS. destruct H as (Hg & N & HN & Hl & Hr). destruct (gad_level _ Hg) as [HL1 HL2]. destruct (glevs_len _ _ _ _ _ Hr ltac:(untype; lia) HL2) as (HA & HB & HC).
  unfold UniEncryption_WriteTo, encUni. apply wtop_hv; [| |exact HS].
  - unfold UniEncryption_header, header. cbn [map concat]. rewrite app_nil_r, !putInt_be. apply wspec_seq; [apply wspec_Write|].
    apply wspec_index with (d := (fst c, [])); [untype; lia|]. rewrite putInt_be. apply wspec_seq; [apply wspec_Write|].
    apply wspec_index with (d := []); [untype; lia|]. apply wspec_index with (d := []); [untype; lia|]. rewrite putInt_be. apply wspec_Write.
  - eapply GGSW_value_w; [exact Hg|exact Hr|untype; lia].
Qed.
Lemma Uni_r s old c : wfUni sz s c -> reads (UniEncryption_ReadFrom sz s old) (encUni s c) c.
Proof.
  intros (Hg & N & HN & Hl & Hr). destruct (gad_level _ Hg) as [HL1 HL2]. destruct (glevs_len _ _ _ _ _ Hr ltac:(untype; lia) HL2) as (HA & HB & HC).
  unfold UniEncryption_ReadFrom, encUni. eapply reads_bind.
  - apply reads_call. unfold UniEncryption_headerReadFrom. hdr. apply reads_lift. unfold hdl, len. untype. rewrite HA, HC.
    rewrite gadOf_ok by exact Hg. cbn [optBind]. rewrite !int_ok by (auto; now apply okrank_int).
    unfold NewUniEncryptionCustom. change 1 with (Z.of_nat 1). rewrite NewGLev_ok by (auto; unfold okint; lia). reflexivity.
  - destruct c as [g c]. apply reads_call. change [?a; ?a] with (repeat a 2). apply GGSW_value_r; auto.
Qed.
Lemma GKSK_w x c : wfGKSK sz c -> wtop x (GLWEKeySwitchKey_WriteTo c) (encGKSK c).
Proof.
  intros (Hg & n & k & N & Hn & Hi & Hk & HN & Hl & Hr). destruct (gad_level _ Hg) as [HL1 HL2]. destruct (glevs_len _ _ _ _ _ Hr ltac:(untype; lia) HL2) as (HA & HB & HC).
  unfold GLWEKeySwitchKey_WriteTo, encGKSK. apply wtop_hv.
  - unfold GLWEKeySwitchKey_header, header. cbn [map concat]. rewrite app_nil_r, !putInt_be. repeat (apply wspec_seq; [apply wspec_Write|]).
    apply wspec_index with (d := (fst c, [])); [untype; lia|]. apply wspec_index with (d := []); [untype; lia|]. rewrite putInt_be. apply wspec_seq; [apply wspec_Write|].
    apply wspec_index with (d := []); [untype; lia|]. rewrite putInt_be. apply wspec_Write.
  - eapply GGSW_value_w; [exact Hg|exact Hr|untype; lia].
  - unfold GLWEKeySwitchKey_ByteSize, lenZ, glevRank, dglev. cbv zeta. untype. rewrite app_length, header_length, (eggsw_length _ _ _ _ _ Hr), !hd_nth; untype; rewrite HA, HB, HC, Hl. zr.
Qed.
Lemma GKSK_r old c : wfGKSK sz c -> reads (GLWEKeySwitchKey_ReadFrom sz old) (encGKSK c) c.
Proof.
  intros (Hg & n & k & N & Hn & Hi & Hk & HN & Hl & Hr). destruct (gad_level _ Hg) as [HL1 HL2]. destruct (glevs_len _ _ _ _ _ Hr ltac:(untype; lia) HL2) as (HA & HB & HC).
  unfold GLWEKeySwitchKey_ReadFrom, encGKSK. eapply reads_bind.
  - apply reads_call. unfold GLWEKeySwitchKey_headerReadFrom. hdr. apply reads_lift. unfold hdl, len. untype. rewrite HB, HC, Hl, len_pred.
    rewrite gadOf_ok by exact Hg. cbn [optBind]. rewrite !int_ok by (auto; now apply okrank_int).
    unfold NewGLWEKeySwitchKeyCustom. rewrite NewGLev_ok by auto. rewrite mkN_ok. reflexivity.
  - destruct c as [g c]. apply reads_call. apply GGSW_value_r; auto.
Qed.
Lemma ggsws_len s k N g (c : list ggsw) : Forall (wfggsw s k N g) c -> (1 <= length c)%nat -> (1 <= g_level g)%nat ->
  length (snd (hd (g, []) c)) = S k /\ Forall (wfglev s k N g) (snd (hd (g, []) c)).
Proof. intros H Hl HL. apply (Forall_hd _ c (g, [])) in H; [|exact Hl]. destruct H as (_ & H1 & H2). auto. Qed.
Lemma ebrk_length k N g (b : brKey) : Forall (wfggsw 8 k N g) (snd b) -> length (ebrk 8 b) = (length (snd b) * (S k * (g_level g * (S k * (N * 8)))))%nat.
Proof.
  intros Hr. unfold ebrk. apply concat_length_const. intros c Hc. rewrite Forall_forall in Hr. destruct (Hr c Hc) as (_ & H1 & H2). now rewrite (eggsw_length _ _ _ _ _ H2), H1.
Qed.
Lemma BRK_size b : wfBRK sz b -> BlindRotateKey_ByteSize b = lenZ (encBRK b).
Proof.
  intros (Hg & n & k & N & Hn & Hi & Hk & HN & Hl & Hr). destruct (gad_level _ Hg) as [HL1 HL2].
  destruct (ggsws_len _ _ _ _ _ Hr ltac:(untype; lia) HL2) as [HZ Hr']. destruct (glevs_len _ _ _ _ _ Hr' ltac:(untype; lia) HL2) as (HA & HB & HC).
  unfold BlindRotateKey_ByteSize, lenZ, encBRK, glevRank, dglev. cbv zeta. rewrite app_length, header_length, (ebrk_length _ _ _ _ Hr). untype. rewrite !hd_nth. untype. rewrite HZ, HA, HC. zr.
Qed.
Lemma BRK_w x b : wfBRK sz b -> wtop x (BlindRotateKey_WriteTo b) (encBRK b).
Proof.
  intros H. pose proof (BRK_size b H) as HS. destruct H as (Hg & n & k & N & Hn & Hi & Hk & HN & Hl & Hr). destruct (gad_level _ Hg) as [HL1 HL2].
  destruct (ggsws_len _ _ _ _ _ Hr ltac:(untype; lia) HL2) as [HZ Hr']. destruct (glevs_len _ _ _ _ _ Hr' ltac:(untype; lia) HL2) as (HA & HB & HC).
  unfold BlindRotateKey_WriteTo, encBRK. apply wtop_hv; [| |exact HS].
  - unfold BlindRotateKey_header, header. cbn [map concat]. rewrite app_nil_r, !putInt_be. repeat (apply wspec_seq; [apply wspec_Write|]).
    apply wspec_index with (d := (fst b, [])); [untype; lia|]. rewrite putInt_be. apply wspec_seq; [apply wspec_Write|].
    apply wspec_index with (d := (fst b, [])); [untype; lia|]. apply wspec_index with (d := []); [untype; lia|]. apply wspec_index with (d := []); [untype; lia|]. rewrite putInt_be. apply wspec_Write.
  - unfold BlindRotateKey_value. apply wspec_index with (d := (fst b, [])); [untype; lia|].
    apply wspec_index with (d := (fst b, [])); [untype; lia|]. apply wspec_index with (d := []); [untype; lia|]. apply wspec_index with (d := []); [untype; lia|].
    rewrite HC. unfold ebrk. apply wspec_loop. eapply Forall_impl; [|exact Hr]. intros c (_ & _ & Hc). cbn beta. unfold eggsw. eapply wglevs_w; eauto.
Qed.
Lemma BRK_r old b : wfBRK sz b -> reads (BlindRotateKey_ReadFrom sz old) (encBRK b) b.
Proof.
  intros (Hg & n & k & N & Hn & Hi & Hk & HN & Hl & Hr). destruct (gad_level _ Hg) as [HL1 HL2].
  destruct (ggsws_len _ _ _ _ _ Hr ltac:(untype; lia) HL2) as [HZ Hr']. destruct (glevs_len _ _ _ _ _ Hr' ltac:(untype; lia) HL2) as (HA & HB & HC).
  unfold BlindRotateKey_ReadFrom, encBRK. eapply reads_bind.
  - apply reads_call. unfold BlindRotateKey_headerReadFrom. hdr. apply reads_lift. unfold hdl, len. untype. rewrite HZ, HC, Hl, len_pred.
    rewrite gadOf_ok by exact Hg. cbn [optBind]. rewrite !int_ok by (auto; now apply okrank_int).
    unfold NewBlindRotateKeyCustom, NewGGSWCiphertextCustom. rewrite NewGLev_ok by auto. rewrite succ_ok by exact Hk. rewrite mkN_ok. cbn [optBind]. rewrite mkN_ok. reflexivity.
  - destruct b as [g c]. cbn [fst snd] in *. apply reads_call. unfold BlindRotateKey_valueReadFrom. cbn [snd]. destruct n as [|n]; [untype; lia|].
    apply reads_index with (d := (g, [])); [rewrite repeat_length; lia|].
    change (snd (hd (g, []) (repeat (g, ?z) (S n)))) with z.
    apply reads_index with (d := (g, [])); [rewrite repeat_length; lia|].
    change (snd (hd (g, []) (repeat (g, ?z) (S k)))) with z.
    apply reads_index with (d := []); [rewrite repeat_length; lia|].
    replace (hd [] (repeat (repeat (repeat 0 N) (S k)) (g_level g))) with (repeat (repeat 0 N) (S k)) by (destruct (g_level g); [lia|reflexivity]).
    apply reads_index with (d := []); [rewrite repeat_length; lia|]. cbn [repeat hd]. rewrite repeat_length.
    apply reads_withG. change (rloop ?a ?f) with (rloop (repeat (g, repeat (g, repeat (repeat (repeat 0 N) (S k)) (g_level g)) (S k)) (S n)) f).
    apply reads_loop; [exact Hl|]. eapply Forall_impl; [|exact Hr]. intros [g' c'] (E & Hn' & Hc'). cbn [fst snd] in *. subst g'.
    apply reads_withG. unfold eggsw. cbn [snd]. now apply rglevs_r.
Qed.

(** ** Gadget parameters, evaluation keys *)
Lemma Gad_w x g : wtop x (GadgetParameters_WriteTo g) (encGad g).
Proof.
  unfold GadgetParameters_WriteTo, encGad. eapply wtop_ext; [apply wseq_assoc|]. apply wtop_check.
  - unfold lenZ. rewrite header_length. reflexivity.
  - unfold header. cbn [map concat]. rewrite app_nil_r, !putInt_be. apply wspec_seq; apply wspec_Write.
Qed.
Lemma Gad_r old g : gadget_ok w g -> reads (GadgetParameters_ReadFrom sz old) (encGad g) g.
Proof. intros Hg. unfold GadgetParameters_ReadFrom, encGad. hdr. apply reads_lift. now apply gadOf_ok. Qed.
Lemma Gad_len g : lenZ (encGad g) = 16. Proof. unfold encGad, lenZ. now rewrite header_length. Qed.
Lemma Evk_size k : wfEvk sz k -> EvaluationKey_ByteSize sz k = lenZ (encEvk sz k).
Proof.
  intros [Hb Hk]. unfold EvaluationKey_ByteSize, ksPresent, encEvk. rewrite (BRK_size _ Hb).
  destruct Hk as [Hk|[Hg Hn]].
  - rewrite (KSK_size _ Hk). destruct Hk as (_ & n & d & Hn & _ & _ & Hl & _). destruct (snd (snd k)) as [|a l]; [cbn in Hl; lia|].
    replace (0 <? lenZ (a :: l)) with true by (symmetry; apply Z.ltb_lt; unfold lenZ; cbn; lia). rewrite !lenZ_app. unfold lenZ at 3. cbn [length]. lia.
  - rewrite Hn. cbn [lenZ length Z.of_nat Z.ltb Z.compare]. change (0 <? lenZ []) with false. cbn iota. unfold GadgetParameters_ByteSize. rewrite !lenZ_app, Gad_len. unfold lenZ at 2. cbn [length]. lia.
Qed.
Lemma wtop3 x a b c ab bb cb size : size = lenZ (ab ++ bb ++ cb) -> wspec x a ab -> wspec x b bb -> wspec x c cb -> wtop x (a ;;w b ;;w c ;;w shortCheck size) (ab ++ bb ++ cb).
Proof.
  intros Hs Ha Hb Hc. apply (wtop_ext x ((a ;;w b ;;w c) ;;w shortCheck size)).
  - intros O n s. rewrite wseq_assoc. apply wseq_ext. apply wseq_assoc.
  - apply wtop_check; [exact Hs|]. apply wspec_seq; [exact Ha|]. now apply wspec_seq.
Qed.
Lemma Evk_w x k : wfEvk sz k -> wtop x (EvaluationKey_WriteTo sz k) (encEvk sz k).
Proof.
  intros H. pose proof (Evk_size k H) as HS. destruct H as [Hb Hk]. unfold EvaluationKey_WriteTo, encEvk in *. unfold ksPresent.
  destruct Hk as [Hk|[Hg Hn]].
  - pose proof Hk as (_ & n & d & Hn & _ & _ & Hl & _). destruct (snd (snd k)) as [|a l]; [cbn in Hl; lia|].
    replace (0 <? lenZ (a :: l)) with true by (symmetry; apply Z.ltb_lt; unfold lenZ; cbn; lia).
    apply wtop3; [exact HS|apply wspec_Write|apply wspec_call, BRK_w, Hb|apply wspec_call, KSK_w, Hk].
  - rewrite Hn in *. change (0 <? lenZ []) with false. cbn iota.
    apply wtop3; [exact HS|apply wspec_Write|apply wspec_call, BRK_w, Hb|apply wspec_call, Gad_w].
Qed.
Lemma Evk_r old k : wfEvk sz k -> reads (EvaluationKey_ReadFrom sz old) (encEvk sz k) k.
Proof.
  intros [Hb Hk]. unfold EvaluationKey_ReadFrom, encEvk. destruct k as [b c]; cbn [fst snd] in *.
  destruct Hk as [Hk|[Hg Hn]].
  - pose proof Hk as (_ & n & d & Hn & _ & _ & Hl & _). destruct (snd c) as [|a l] eqn:E; [cbn in Hl; lia|].
    eapply reads_bind; [now apply reads_full|]. eapply reads_bind; [apply reads_call, BRK_r, Hb|]. cbn [nthZ nth]. change (nthZ [1] 0 =? 0) with false. cbn iota.
    eapply reads_bind0; [apply reads_call, KSK_r, Hk|]. apply reads_ret.
  - rewrite Hn. eapply reads_bind; [now apply reads_full|]. eapply reads_bind; [apply reads_call, BRK_r, Hb|]. change (nthZ [0] 0 =? 0) with true. cbn iota.
    eapply reads_bind0; [apply reads_call, Gad_r, Hg|]. eapply reads_bind0; [apply reads_lift; reflexivity|].
    destruct c as [g l]; cbn [fst snd] in *. subst l. apply reads_ret.
Qed.
Lemma MkEvk_w k : wfEvk sz (fst k) /\ wfGLev sz 8 (fst (snd k)) /\ wfUni sz 8 (snd (snd k)) ->
  wtop false (MkEvaluationKey_WriteTo sz k) (encEvk sz (fst k) ++ encGLev 8 (fst (snd k)) ++ encUni 8 (snd (snd k))).
Proof.
  intros (H1 & H2 & H3). unfold MkEvaluationKey_WriteTo. apply wtop3.
  - unfold MkEvaluationKey_ByteSize. rewrite !lenZ_app, (Evk_size _ H1), (GLev_size _ _ H2), (Uni_size _ _ H3). lia.
  - apply wspec_call, Evk_w, H1.
  - apply wspec_call. apply GLev_gen_w; [apply wspec_WriteE|exact H2].
  - apply wspec_call, Uni_w, H3.
Qed.

(** ** Secret keys *)
Lemma concat_views N : forall k (l : list (list Z)), length l = k -> Forall (fun p => length p = N) l -> tab k (fun i => firstn N (skipn (i * N) (concat l))) = l.
Proof.
  intros k l <- H. induction H as [|p l Hp Hl IH]; [reflexivity|]. cbn [length concat]. unfold tab in *. cbn [seq map]. f_equal.
  - cbn [Nat.mul skipn]. rewrite firstn_app, firstn_all2, Hp, Nat.sub_diag by lia. cbn. apply app_nil_r.
  - rewrite <- seq_shift, map_map. rewrite <- IH at 2. apply map_ext. intros i. f_equal. rewrite skipn_app, (skipn_all2 p) by (cbn; lia). cbn [app]. f_equal. cbn [Nat.mul]. lia.
Qed.
Lemma FFTvalue_w x N k r : wfrows 8 N k r -> (1 <= k)%nat -> wspec x (FFTGLWESecretKey_value r) (erows 8 r).
Proof.
  intros Hr Hk. unfold FFTGLWESecretKey_value. apply wspec_index with (d := []); [destruct Hr; lia|]. eapply wrows_w; [exact Hr|]. now rewrite (rows_len _ _ _ _ Hr Hk).
Qed.
Lemma SK_w x sk : wfSecretKey sz sk -> wtop x (SecretKey_WriteTo sz sk) (header [len (sk_lwe sk); len (sk_glwe sk); len (hd [] (sk_glwe sk))] ++ ewords sz (sk_large sk) ++ erows 8 (sk_fft sk)).
Proof.
  intros (n & k & N & Hk & Hki & HN & HkN & Hn & Hlg & Hf & Hg1 & Hg2 & Hg3 & Hs).
  assert (length (hd [] (sk_glwe sk)) = N) as Hhd by (apply (Forall_hd (fun p => length p = N)); [exact Hg2|lia]).
  unfold SecretKey_WriteTo. apply wtop3.
  - unfold SecretKey_ByteSize, lenZ. rewrite !app_length, header_length, ewords_length, (erows_length _ _ _ _ Hf), hd_nth, Hhd, Hg1. destruct Hlg as [-> _]. zr.
  - apply wspec_callI. unfold header. cbn [map concat]. rewrite app_nil_r, !putInt_be. repeat (apply wspec_seq; [apply wspec_Write|]).
    apply wspec_index with (d := []); [untype; lia|]. rewrite putInt_be. apply wspec_Write.
  - apply wspec_callI, vecWriteTo_w.
  - apply wspec_callI. eapply FFTvalue_w; [exact Hf|exact Hk].
Qed.
Lemma SK_r old sk : wfSecretKey sz sk -> reads (SecretKey_ReadFrom sz old) (header [len (sk_lwe sk); len (sk_glwe sk); len (hd [] (sk_glwe sk))] ++ ewords sz (sk_large sk) ++ erows 8 (sk_fft sk)) sk.
Proof.
  intros (n & k & N & Hk & Hki & HN & HkN & Hn & Hlg & Hf & Hg1 & Hg2 & Hg3 & Hs).
  assert (length (hd [] (sk_glwe sk)) = N) as Hhd by (apply (Forall_hd (fun p => length p = N)); [exact Hg2|lia]).
  assert (length (sk_lwe sk) = n) as Hlw. { rewrite Hs, firstn_length_le; [reflexivity|]. destruct Hlg; lia. }
  assert (okint n) as Hni by (unfold okint in *; lia).
  unfold SecretKey_ReadFrom. eapply reads_bind.
  - apply reads_call. unfold SecretKey_headerReadFrom. hdr. apply reads_lift. unfold len. rewrite Hhd, Hg1, Hlw.
    rewrite !int_ok by (auto; now apply okrank_int). unfold NewSecretKeyCustom. rewrite <- Nat2Z.inj_mul.
    rewrite swrap_small by (try lia; apply sword_nat; now apply okint_lt).
    replace (Z.of_nat (k * N) <? 0) with false by (symmetry; apply Z.ltb_ge; lia).
    replace (Z.of_nat k <? 0) with false by (symmetry; apply Z.ltb_ge; lia).
    replace (Z.of_nat N <? 0) with false by (symmetry; apply Z.ltb_ge; lia).
    replace (Z.of_nat n <? 0) with false by (symmetry; apply Z.ltb_ge; lia).
    replace (Z.of_nat (k * N) <? Z.of_nat n) with false by (symmetry; apply Z.ltb_ge; lia).
    rewrite Z.eqb_refl. cbn [negb orb andb]. rewrite andb_false_r. cbn [orb]. rewrite NewRows_ok by auto. cbn [optBind]. rewrite !Nat2Z.id. reflexivity.
  - eapply reads_bind; [apply reads_call; apply vecReadFrom_reads; exact Hlg|].
    eapply reads_bind0.
    + apply (rows_r 8 N k); [exact Hf|exact Hk].
    + assert (skViews n k N (sk_large sk) (sk_fft sk) = sk) as E.
      { unfold skViews. rewrite <- Hs, <- Hg3. rewrite concat_views by assumption. rewrite Hg3. destruct sk; reflexivity. }
      rewrite E. apply reads_ret.
Qed.

(** ** Parameters *)
Lemma sane_ok l p : lit_sane w l -> Compile w l = Ok p -> params_ok w p /\ Compile w (Literal p) = Ok p.
Proof. intros Hs Hc. split; [eapply Compile_sound; [|exact Hs|exact Hc]; lia|]. eapply Compile_Literal; [|exact Hs|exact Hc]. lia. Qed.
Lemma Compile_inv_order l p : Compile w l = Ok p -> p_order p = 0 \/ p_order p = 1.
Proof.
  intros H. unfold Compile in H. repeat (match type of H with (if ?b then _ else _) = _ => destruct b eqn:?; [discriminate|] end).
  destruct (Log2 (l_PolyRank l)); try discriminate. destruct (CompileGadget w (l_BlindRotate l)); try discriminate. destruct (CompileGadget w (l_KeySwitch l)); try discriminate.
  injection H as <-. cbn. match goal with H : negb ((l_Order l =? 0) || _) = false |- _ => rename H into Ho end.
  apply negb_false_iff, orb_true_iff in Ho. destruct Ho as [Ho|Ho]; apply Z.eqb_eq in Ho; auto.
Qed.
Lemma Params_len p : lenZ (encParams p) = 97.
Proof. unfold encParams, encGad. rewrite !lenZ_app. unfold lenZ. rewrite !header_length. reflexivity. Qed.
Lemma wtopR x m bs size : size = lenZ bs -> wspec x m bs -> forall m', weq (m ;;w shortCheck size) m' -> wtop x m' bs.
Proof. intros Hs Hm m' E. eapply wtop_ext; [exact E|]. now apply wtop_check. Qed.
Lemma Params_w x p : wfParams sz p -> wtop x (Parameters_WriteTo p) (encParams p).
Proof.
  intros (l & Hs & Hc). pose proof (Compile_inv_order _ _ Hc) as Ho. unfold Parameters_WriteTo, encParams.
  eapply wtopR with (size := Parameters_ByteSize p) (m := Write (putInt (p_lweDimension p)) ;;w Write (putInt (p_glweRank p)) ;;w Write (putInt (p_polyRank p)) ;;w Write (putInt (p_lutSize p)) ;;w
  Write (putInt (p_lweStdDev p)) ;;w Write (putInt (p_glweStdDev p)) ;;w Write (putInt (p_blockSize p)) ;;w Write (putInt (p_messageModulus p)) ;;w
  callW (GadgetParameters_WriteTo (p_blindRotate p)) ;;w callW (GadgetParameters_WriteTo (p_keySwitch p)) ;;w Write [wrap 8 (p_order p)]).
  3:{ intros O n s. repeat (rewrite wseq_assoc; apply wseq_ext; intros ? ? ?). reflexivity. }
  - fold (encParams p). rewrite Params_len. reflexivity.
  - unfold header. cbn [map concat]. rewrite app_nil_r, <- !app_assoc, !putInt_be. repeat (apply wspec_seq; [apply wspec_Write|]).
    do 2 (apply wspec_seq; [apply wspec_call, Gad_w|]). replace (wrap 8 (p_order p)) with (p_order p) by (destruct Ho as [-> | ->]; reflexivity). apply wspec_Write.
Qed.
Lemma Params_r old p : wfParams sz p -> reads (Parameters_ReadFrom sz old) (encParams p) p.
Proof.
  intros (l & Hs & Hc). destruct (sane_ok l p Hs Hc) as [Hok HL]. pose proof (Compile_inv_order _ _ Hc) as Ho.
  destruct (Compile_fields w l p Hc) as (F1 & F2 & F3 & F4 & F5 & F6 & F7 & F8 & _ & _ & F9 & F10).
  destruct Hs as (S1 & S2 & S3 & S4 & S5 & S6 & S7 & S8 & S9 & S10 & S11 & S12 & S13).
  assert (gadget_ok w (p_blindRotate p)) as G1 by (eapply CompileGadget_inv; [|exact S9|exact S12|exact F9]; lia).
  assert (gadget_ok w (p_keySwitch p)) as G2 by (eapply CompileGadget_inv; [|exact S10|exact S13|exact F10]; lia).
  assert (sword 64 1) as Hone by (unfold sword; change (64 - 1) with 63; lia).
  unfold Parameters_ReadFrom, encParams. unfold header. cbn [map concat]. rewrite app_nil_r, <- !app_assoc.
  repeat (eapply reads_bind; [apply reads_full; apply be64_length|]).
  do 2 (eapply reads_bind; [apply reads_call, Gad_r; assumption|]).
  eapply reads_bind0; [now apply reads_full|]. apply reads_lift.
  rewrite !getInt_be64 by (rewrite ?F1, ?F2, ?F3, ?F4, ?F5; try assumption; destruct (_ =? 0); assumption).
  rewrite (getInt_be64 (p_blockSize p)) by (rewrite F5; destruct (l_BlockSize l =? 0); [exact Hone|exact S5]).
  rewrite getT_be64 by (rewrite ?F8; try assumption; lia). rewrite !beVal_be64, !Z.mod_small by (rewrite ?F6, ?F7; assumption).
  change (nthZ [p_order p] 0) with (p_order p).
  change (mkLit _ _ _ _ _ _ _ _ _ _ _) with (Literal p). rewrite HL. reflexivity.
Qed.
Lemma MkParams_inv l p : MkCompile w l = Ok p -> Compile w (ml_Sub l) = Ok (mp_sub p) /\ mp_partyCount p = ml_PartyCount l /\
  CompileGadget w (ml_Acc l) = Ok (mp_acc p) /\ CompileGadget w (ml_Relin l) = Ok (mp_relin p).
Proof.
  intros H. unfold MkCompile in H. destruct (Compile w (ml_Sub l)) as [s| |]; try discriminate.
  repeat (match type of H with (if ?b then _ else _) = _ => destruct b eqn:?; [discriminate|] end).
  destruct (CompileGadget w (ml_Acc l)); try discriminate. destruct (CompileGadget w (ml_Relin l)); try discriminate. injection H as <-. auto.
Qed.
Lemma MkParams_w x p : wfMkParams sz p -> wtop x (MkParameters_WriteTo p) (encParams (mp_sub p) ++ header [mp_partyCount p] ++ encGad (mp_acc p) ++ encGad (mp_relin p)).
Proof.
  intros (l & Hs & _ & _ & _ & _ & _ & Hc). destruct (MkParams_inv _ _ Hc) as (H1 & _).
  unfold MkParameters_WriteTo. eapply wtopR with (size := MkParameters_ByteSize p) (m := callW (Parameters_WriteTo (mp_sub p)) ;;w Write (putInt (mp_partyCount p)) ;;w callW (GadgetParameters_WriteTo (mp_acc p)) ;;w callW (GadgetParameters_WriteTo (mp_relin p))).
  3:{ intros O n s. repeat (rewrite wseq_assoc; apply wseq_ext; intros ? ? ?). reflexivity. }
  - rewrite !lenZ_app, Params_len, !Gad_len. unfold lenZ. rewrite header_length. reflexivity.
  - apply wspec_seq; [apply wspec_call, Params_w; exists (ml_Sub l); auto|]. apply wspec_seq; [unfold header; cbn [map concat]; rewrite app_nil_r, putInt_be; apply wspec_Write|].
    apply wspec_seq; apply wspec_call, Gad_w.
Qed.
Lemma MkParams_r old p : wfMkParams sz p -> reads (MkParameters_ReadFrom sz old) (encParams (mp_sub p) ++ header [mp_partyCount p] ++ encGad (mp_acc p) ++ encGad (mp_relin p)) p.
Proof.
  intros (l & Hs & Hpc & Ha & Hr & La & Lr & Hc). destruct (MkParams_inv _ _ Hc) as (H1 & H2 & H3 & H4).
  assert (MkCompile w (MkLiteral p) = Ok p) as HL by (eapply MkCompile_sound; [|exact Hs|exact Ha|exact Hr|exact La|exact Lr|exact Hc]; lia).
  assert (gadget_ok w (mp_acc p)) as G1 by (eapply CompileGadget_inv; [|exact Ha|exact La|exact H3]; lia).
  assert (gadget_ok w (mp_relin p)) as G2 by (eapply CompileGadget_inv; [|exact Hr|exact Lr|exact H4]; lia).
  unfold MkParameters_ReadFrom. eapply reads_bind; [apply reads_call, Params_r; exists (ml_Sub l); auto|].
  unfold header. cbn [map concat]. rewrite app_nil_r. eapply reads_bind; [apply reads_full, be64_length|].
  eapply reads_bind; [apply reads_call, Gad_r, G1|]. eapply reads_bind0; [apply reads_call, Gad_r, G2|]. apply reads_lift.
  rewrite getInt_be64 by (rewrite H2; exact Hpc). change (mkMkLit _ _ _ _) with (MkLiteral p). rewrite HL. reflexivity.
Qed.

(** ** Counts and extension of every reader *)
Lemma cnt_vecReadFrom x s v : cnt x (vecReadFrom s v).
Proof. apply cnt_loop. intros. apply cnt_bind; [apply cnt_full|]. intros. apply cnt_ret. Qed.
Lemma cnt_buf x s v bl : cnt x (vecReadFromBuf s v bl).
Proof. apply cnt_bind; [apply cnt_full|]. intros. apply cnt_if; [apply cnt_ret|apply cnt_lift]. Qed.
Lemma ext_vecReadFrom s v : ext (vecReadFrom s v).
Proof. apply ext_loop. intros. apply ext_bind; [apply ext_full|]. intros. apply ext_ret. Qed.
Lemma ext_buf s v bl : ext (vecReadFromBuf s v bl).
Proof. apply ext_bind; [apply ext_full|]. intros. apply ext_if; [apply ext_ret|apply ext_lift]. Qed.
End T.

Ltac cnt_step := first
  [ apply cnt_ret | apply cnt_lift | apply cnt_full | apply cnt_fullE | apply cnt_vecReadFrom | apply cnt_buf | apply cnt_size
  | apply cnt_call | apply cnt_loop; intros | apply cnt_index; intros | apply cnt_withG; intros | apply cnt_if | apply cnt_bind; [|intros] ].
Ltac ext_step := first
  [ apply ext_ret | apply ext_lift | apply ext_full | apply ext_fullE | apply ext_vecReadFrom | apply ext_buf | apply ext_size
  | apply ext_call | apply ext_callLost | apply ext_loop; intros | apply ext_index; intros | apply ext_withG; intros | apply ext_if | apply ext_bind; [|intros] ].

Section U.
Variable sz : nat.
Ltac unf := unfold MkEvaluationKey_ReadFrom, MkParameters_ReadFrom, UniEncryption_ReadFrom, UniEncryption_headerReadFrom, Parameters_ReadFrom,
  EvaluationKey_ReadFrom, GadgetParameters_ReadFrom, GLWEKeySwitchKey_ReadFrom, GLWEKeySwitchKey_headerReadFrom, LWEKeySwitchKey_ReadFrom,
  LWEKeySwitchKey_headerReadFrom, LWEKeySwitchKey_valueReadFrom, BlindRotateKey_ReadFrom, BlindRotateKey_headerReadFrom, BlindRotateKey_valueReadFrom,
  PublicKey_ReadFrom, SecretKey_ReadFrom, SecretKey_headerReadFrom, FFTGGSW_ReadFrom, FFTGLev_ReadFrom, FFTGLWECiphertext_ReadFrom,
  FFTGLWECiphertext_headerReadFrom, FFTGLWESecretKey_ReadFrom, FFTGLWESecretKey_headerReadFrom, FFTGLWESecretKey_valueReadFrom,
  GGSW_ReadFrom, GGSW_headerReadFrom, GGSW_valueReadFrom, GLev_ReadFrom, GLev_headerReadFrom, GLev_valueReadFrom, GLWECiphertext_ReadFrom,
  GLWECiphertext_headerReadFrom, GLWEPlaintext_ReadFrom, GLWEPlaintext_headerReadFrom, GLWESecretKey_ReadFrom, GLWESecretKey_headerReadFrom,
  GSW_ReadFrom, GSW_headerReadFrom, GSW_valueReadFrom, Lev_ReadFrom, Lev_headerReadFrom, Lev_valueReadFrom, LWECiphertext_ReadFrom,
  LWECiphertext_headerReadFrom, LWEPlaintext_ReadFrom, LWEPublicKey_ReadFrom, LWEPublicKey_headerReadFrom, LWEPublicKey_valueReadFrom,
  LWESecretKey_ReadFrom, LWESecretKey_headerReadFrom, rrows.
Lemma cRead_ext t old : ext (cRead sz t old).
Proof.
  destruct t; cbn [cRead cval]; unf; repeat ext_step.
  all: match goal with |- context [match ?h with _ => _ end] => destruct h as [[[[? ?] ?] ?] ?] end; repeat ext_step.
Qed.
Lemma cRead_cnt t old : read_count_exact t = true -> cnt true (cRead sz t old).
Proof.
  destruct t; cbn [read_count_exact]; try discriminate; intros _; cbn [cRead cval]; unf; repeat cnt_step.
  all: match goal with |- context [match ?h with _ => _ end] => destruct h as [[[[? ?] ?] ?] ?] end; repeat cnt_step.
Qed.
Lemma cRead_cntS t old : read_count_success t = true -> cnt false (cRead sz t old).
Proof.
  intros Ht. destruct (read_count_exact t) eqn:E; [now apply cnt_weaken, cRead_cnt|].
  destruct t; try discriminate; cbn [cRead cval]; unf; repeat cnt_step.
Qed.
(** LWESecretKey: the position is right, and the count on errors. *)
Lemma LWESecretKey_pos old n p n' a r : LWESecretKey_ReadFrom sz old n p = RRet n' a r -> exists c, p = c ++ r /\ (a = None -> n' = n + lenZ c).
Proof.
  unfold LWESecretKey_ReadFrom. intros H. unfold rbind in H.
  destruct (callR (LWESecretKey_headerReadFrom old) n p) as [|n1 [v|] r1] eqn:E1; [discriminate| |].
  - assert (cnt true (callR (LWESecretKey_headerReadFrom old))) as C1 by (unf; repeat cnt_step).
    destruct (C1 _ _ _ _ _ E1) as (c1 & -> & D1). unfold callRlost in H.
    destruct (vecReadFrom sz v 0 r1) as [|n2 [v2|] r2] eqn:E2; [discriminate| |]; injection H as <- <- <-;
      destruct (cnt_vecReadFrom true _ _ _ _ _ _ _ E2) as (c2 & -> & D2); exists (c1 ++ c2); (split; [now rewrite app_assoc|]).
    + discriminate.
    + intros _. rewrite D1, D2, lenZ_app by (left; reflexivity). lia.
  - injection H as <- <- <-. assert (cnt true (callR (LWESecretKey_headerReadFrom old))) as C1 by (unf; repeat cnt_step).
    destruct (C1 _ _ _ _ _ E1) as (c1 & -> & D1). exists c1. split; [reflexivity|]. intros _. apply D1. auto.
Qed.
End U.

Section V.
Variable sz : nat.
Hypothesis Hsz : (1 <= sz <= 8)%nat.
Definition rtop {A} (m : R A) bs (a : A) : Prop := forall rest, exists n', m 0 (bs ++ rest) = RRet n' (Some a) rest.
Lemma reads_top {A} (m : R A) bs a : reads m bs a -> rtop m bs a. Proof. intros H r. apply H. Qed.
Lemma MkEvk_r old k : wfEvk sz (fst k) /\ wfGLev sz 8 (fst (snd k)) /\ wfUni sz 8 (snd (snd k)) ->
  rtop (MkEvaluationKey_ReadFrom sz old) (encEvk sz (fst k) ++ encGLev 8 (fst (snd k)) ++ encUni 8 (snd (snd k))) k.
Proof.
  intros (H1 & H2 & H3) rest. destruct k as [a [b c]]; cbn [fst snd] in *. unfold MkEvaluationKey_ReadFrom. rewrite <- !app_assoc.
  destruct (reads_call _ _ _ (Evk_r sz Hsz (fst old) a H1) 0 (encGLev 8 b ++ encUni 8 c ++ rest)) as [n1 E1].
  unfold rbind. rewrite E1. destruct (reads_call _ _ _ (GLev_gen_r sz Hsz 8 b (fst (snd old)) H2) n1 (encUni 8 c ++ rest)) as [n2 E2].
  unfold FFTGLev_ReadFrom. rewrite E2. destruct (reads_call _ _ _ (Uni_r sz Hsz 8 (snd (snd old)) c H3) n2 rest) as [n3 E3]. rewrite E3.
  pose proof (cnt_call _ _ (cRead_cnt sz TEvaluationKey (fst old) eq_refl) _ _ _ _ _ E1) as (c1 & F1 & D1).
  pose proof (cnt_call _ _ (cRead_cnt sz TFFTGLev (fst (snd old)) eq_refl) _ _ _ _ _ E2) as (c2 & F2 & D2).
  pose proof (cnt_call _ _ (cRead_cnt sz TMkFFTUniEncryption (snd (snd old)) eq_refl) _ _ _ _ _ E3) as (c3 & F3 & D3).
  apply app_inv_tail in F1, F2, F3. subst c1 c2 c3. rewrite D1 in D2 by auto. rewrite D2 in D3 by auto. specialize (D3 (or_introl eq_refl)).
  replace (n3 <? MkEvaluationKey_ByteSize sz (a, (b, c))) with false; [eexists; reflexivity|].
  symmetry. apply Z.ltb_ge. unfold MkEvaluationKey_ByteSize. cbn [fst snd]. rewrite (Evk_size sz Hsz _ H1), (GLev_size sz Hsz _ _ H2), (Uni_size sz Hsz _ _ H3). lia.
Qed.

Lemma cRead_top t old v : wf sz t v -> rtop (cRead sz t old) (enc sz t v) v.
Proof.
  destruct t; cbn [wf enc cRead cval]; intros H; match goal with |- rtop (MkEvaluationKey_ReadFrom _ _) _ _ => idtac | _ => apply reads_top end.
  - now apply LWESecretKey_r.
  - now apply PK_r.
  - now apply LWEPlaintext_r.
  - now apply LWECiphertext_r.
  - now apply Lev_r.
  - now apply GSW_r.
  - now apply GLWESecretKey_r.
  - now apply PK_r.
  - now apply GLWEPlaintext_r.
  - now apply GLWECiphertext_r.
  - now apply GLev_gen_r.
  - now apply GGSW_r.
  - now apply (FFTGLWESecretKey_r sz Hsz).
  - now apply (FFTGLWECiphertext_r sz Hsz).
  - now apply GLev_gen_r.
  - now apply GGSW_r.
  - now apply SK_r.
  - now apply PublicKey_r.
  - now apply BRK_r.
  - now apply Evk_r.
  - now apply KSK_r.
  - now apply GKSK_r.
  - now apply Gad_r.
  - now apply Params_r.
  - now apply LWECiphertext_r.
  - now apply GLWECiphertext_r.
  - now apply Uni_r.
  - now apply (FFTGLWECiphertext_r sz Hsz).
  - now apply Uni_r.
  - now apply MkEvk_r.
  - now apply MkParams_r.
Qed.
Lemma cWrite_top t v : wf sz t v -> wtop (write_count_exact t) (cWrite sz t v) (enc sz t v).
Proof.
  destruct t; cbn [wf enc cWrite cval write_count_exact]; intros H.
  - now apply LWESecretKey_w.
  - now apply PK_w.
  - now apply LWEPlaintext_w.
  - now apply LWECiphertext_w.
  - now apply Lev_w.
  - now apply GSW_w.
  - now apply GLWESecretKey_w.
  - now apply PK_w.
  - now apply GLWEPlaintext_w.
  - now apply GLWECiphertext_w.
  - apply (GLev_gen_w sz Hsz true Write); [apply wspec_Write|exact H].
  - now apply (GGSW_w sz Hsz).
  - now apply (FFTGLWESecretKey_w sz Hsz).
  - now apply (FFTGLWECiphertext_w sz Hsz).
  - apply (GLev_gen_w sz Hsz false WriteE); [apply wspec_WriteE|exact H].
  - now apply (GGSW_w sz Hsz).
  - now apply SK_w.
  - now apply PublicKey_w.
  - now apply (BRK_w sz Hsz).
  - now apply Evk_w.
  - now apply KSK_w.
  - now apply (GKSK_w sz Hsz).
  - now apply Gad_w.
  - now apply (Params_w sz).
  - now apply LWECiphertext_w.
  - now apply GLWECiphertext_w.
  - now apply (Uni_w sz Hsz).
  - now apply (FFTGLWECiphertext_w sz Hsz).
  - now apply (Uni_w sz Hsz).
  - now apply MkEvk_w.
  - now apply (MkParams_w sz).
Qed.
Lemma cWrite_ok t v O : wf sz t v -> write_count_exact t = true -> write_ok O (cWrite sz t v) (enc sz t v).
Proof.
  intros H Ht s. destruct (cWrite_top t v H O s) as (n & e & s' & acc & H1 & H2 & H3 & H4 & H5 & H6 & H7 & H8).
  exists n, e, s', acc. rewrite Ht in H3. repeat (split; [auto; fail|]). auto.
Qed.
Lemma cWrite_ok_nil t v O : wf sz t v -> write_ok_nil O (cWrite sz t v) (enc sz t v).
Proof.
  intros H s. destruct (cWrite_top t v H O s) as (n & e & s' & acc & H1 & H2 & H3 & H4 & H5 & H6 & H7 & H8).
  exists n, e, s', acc. repeat (split; [auto; fail|]). auto.
Qed.
Lemma vec_size d v : 8 + lenZ v * Z.of_nat sz = lenZ (header [d] ++ ewords sz v).
Proof. rewrite lenZ_app. unfold lenZ. rewrite header_length, ewords_length. cbn [length]. lia. Qed.
Lemma rows_size s d N m r : wfrows s N m r -> (1 <= m)%nat -> 16 + lenZ r * lenZ (nth 0 r []) * Z.of_nat s = lenZ (encRows s d r).
Proof. intros Hr Hm. unfold lenZ. rewrite (encRows_length s N m d r Hr), hd_nth, (rows_len sz Hsz s N m r Hr Hm). destruct Hr as [-> _]. lia. Qed.
Lemma PK_size pk : wfPK sz pk -> LWEPublicKey_ByteSize sz pk = lenZ (encPK sz pk).
Proof.
  intros (k & N & Hk & Hk' & HN & Hl & Hr). destruct (cube_hd sz Hsz _ _ _ _ Hr ltac:(lia)) as [H1 H2].
  unfold LWEPublicKey_ByteSize, lenZ, encPK. rewrite app_length, header_length, (ecube_length _ _ _ _ Hr), !hd_nth, H2, Hl. cbn [length]. nia.
Qed.
Lemma cSize_ok t v : wf sz t v -> cSize sz t v = lenZ (enc sz t v).
Proof.
  destruct t; cbn [wf enc cSize cval]; intros H.
  - apply vec_size.
  - now apply PK_size.
  - unfold LWEPlaintext_ByteSize, lenZ. now rewrite be_length.
  - apply vec_size.
  - destruct H as (Hg & d & Hd & _ & Hr). destruct (gad_level sz Hsz _ Hg) as [HL1 HL2]. pose proof (rows_len sz Hsz _ _ _ _ Hr HL2) as HN.
    unfold Lev_ByteSize, lenZ. rewrite app_length, header_length, (erows_length _ _ _ _ Hr), hd_nth, HN. destruct Hr as [-> _]. zr.
  - destruct H as (Hg & H1 & Hi & Hr). destruct (gad_level sz Hsz _ Hg) as [HL1 HL2]. destruct (levs_len sz Hsz _ _ _ Hr H1 HL2) as [HA HB].
    unfold GSW_ByteSize, lenZ. untype. rewrite app_length, header_length, (elevs_length sz _ _ _ Hr), hd_nth; untype; rewrite ?HA. zr.
  - destruct H as (k & N & Hk & Hk' & HN & Hr). apply (rows_size sz _ N k); auto.
  - now apply PK_size.
  - apply vec_size.
  - destruct H as (k & N & Hk & HN & Hr). unfold GLWECiphertext_ByteSize. replace (lenZ v - 1 + 1) with (lenZ v) by lia. apply (rows_size sz _ N (S k)); auto; lia.
  - now apply (GLev_size sz Hsz).
  - now apply (GGSW_size sz Hsz).
  - destruct H as (k & N & Hk & Hk' & HN & Hr). apply (rows_size 8 _ N k); auto.
  - destruct H as (k & N & Hk & HN & Hr). unfold FFTGLWECiphertext_ByteSize. replace (lenZ v - 1 + 1) with (lenZ v) by lia. apply (rows_size 8 _ N (S k)); auto; lia.
  - now apply (GLev_size sz Hsz).
  - now apply (GGSW_size sz Hsz).
  - destruct H as (n & k & N & Hk & Hki & HN & HkN & Hn & Hlg & Hf & Hg1 & Hg2 & Hg3 & Hs).
    assert (length (hd [] (sk_glwe v)) = N) as Hhd by (apply (Forall_hd (fun p => length p = N)); [exact Hg2|lia]).
    unfold SecretKey_ByteSize, lenZ. rewrite !app_length, header_length, ewords_length, (erows_length _ _ _ _ Hf), hd_nth, Hhd, Hg1. destruct Hlg as [-> _]. cbn [length]. nia.
  - destruct H as [H1 H2]. unfold PublicKey_ByteSize. rewrite lenZ_app. f_equal; now apply PK_size.
  - now apply (BRK_size sz Hsz).
  - now apply (Evk_size sz Hsz).
  - now apply (KSK_size sz Hsz).
  - destruct H as (Hg & n & k & N & Hn & Hi & Hk & HN & Hl & Hr). destruct (gad_level sz Hsz _ Hg) as [HL1 HL2]. destruct (glevs_len sz Hsz _ _ _ _ _ Hr ltac:(untype; lia) HL2) as (HA & HB & HC).
    unfold GLWEKeySwitchKey_ByteSize, encGKSK, lenZ, glevRank, dglev. cbv zeta. untype. rewrite app_length, header_length, (eggsw_length _ _ _ _ _ Hr), !hd_nth; untype; rewrite HA, HB, HC, Hl. zr.
  - symmetry. apply Gad_len.
  - symmetry. apply Params_len.
  - apply vec_size.
  - destruct H as (k & N & Hk & HN & Hr). unfold GLWECiphertext_ByteSize. replace (lenZ v - 1 + 1) with (lenZ v) by lia. apply (rows_size sz _ N (S k)); auto; lia.
  - now apply (Uni_size sz Hsz).
  - destruct H as (k & N & Hk & HN & Hr). unfold FFTGLWECiphertext_ByteSize. replace (lenZ v - 1 + 1) with (lenZ v) by lia. apply (rows_size 8 _ N (S k)); auto; lia.
  - now apply (Uni_size sz Hsz).
  - destruct H as (H1 & H2 & H3). unfold MkEvaluationKey_ByteSize. rewrite !lenZ_app, (Evk_size sz Hsz _ H1), (GLev_size sz Hsz _ _ H2), (Uni_size sz Hsz _ _ H3). lia.
  - unfold MkParameters_ByteSize. rewrite !lenZ_app, Params_len, !Gad_len. unfold lenZ. rewrite header_length. reflexivity.
Qed.
Lemma honest_buffer : honest bufferWriter. Proof. intros i l. cbn. lia. Qed.
Lemma never_buffer : never_fails bufferWriter. Proof. intros i l. reflexivity. Qed.
Lemma Marshal_ok t v : wf sz t v -> MarshalBinary (cWrite sz t v) = Some (enc sz t v, false).
Proof.
  intros H. destruct (cWrite_top t v H bufferWriter (O, [])) as (n & e & s' & acc & H1 & H2 & H3 & H4 & H5 & H6 & H7 & H8).
  unfold MarshalBinary. rewrite H1. rewrite (H8 honest_buffer never_buffer) in *. rewrite H2. cbn [snd app]. now rewrite H6.
Qed.
Lemma roundtrip t v old : wf sz t v -> exists b, MarshalBinary (cWrite sz t v) = Some (b, false) /\ UnmarshalBinary (cRead sz t) old b = Some (Some v).
Proof.
  intros H. exists (enc sz t v). split; [now apply Marshal_ok|]. unfold UnmarshalBinary.
  destruct (cRead_top t old v H []) as [n E]. rewrite app_nil_r in E. now rewrite E.
Qed.
Lemma truncated t v old p q : wf sz t v -> enc sz t v = p ++ q -> q <> [] -> exists n r, cRead sz t old 0 p = RRet n None r.
Proof.
  intros H E Hq. destruct (cRead_top t old v H []) as [n En]. rewrite app_nil_r, E in En.
  pose proof (cRead_ext sz t old 0 p q) as X. destruct (cRead sz t old 0 p) as [|n' [a|] r] eqn:F.
  - congruence.
  - rewrite X in En. injection En as _ _ Er. apply app_eq_nil in Er. tauto.
  - eauto.
Qed.
Lemma readAll_ok l old rest : Forall (fun o : obj => wf sz (projT1 o) (projT2 o)) l -> map (@projT1 _ _) old = map (@projT1 _ _) l ->
  readAll sz old (stream sz l ++ rest) = Some (l, rest).
Proof.
  intros H. revert old. induction H as [|[t v] l Hv Hl IH]; intros [|[t' v'] old] E; try discriminate; [reflexivity|].
  cbn [map projT1] in E. injection E as Et E. subst t'. cbn [projT1 projT2] in Hv.
  unfold stream. cbn [map concat projT1 projT2 readAll]. rewrite <- app_assoc.
  destruct (cRead_top t v' v Hv (stream sz l ++ rest)) as [n En]. fold (stream sz l). rewrite En. now rewrite IH.
Qed.
Lemma writeAll_ok l : Forall (fun o : obj => wf sz (projT1 o) (projT2 o)) l -> MarshalBinary (writeAll sz l) = Some (stream sz l, false).
Proof.
  intros H. assert (wspec false (writeAll sz l) (stream sz l)) as X.
  { unfold writeAll, stream. apply wspec_loop. eapply Forall_impl; [|exact H]. intros [t v] Hv. cbn [projT1 projT2] in *. apply wspec_call.
    pose proof (cWrite_top t v Hv) as Y. destruct (write_count_exact t); [|exact Y].
    intros O s. destruct (Y O s) as (n & e & s' & acc & H1 & H2 & H3 & H4). exists n, e, s', acc. split; [exact H1|]. split; [exact H2|]. split; [auto|exact H4]. }
  destruct (X bufferWriter 0 (O, [])) as (n & e & s' & acc & H1 & H2 & H3 & H4 & H5 & H6 & H7 & H8).
  unfold MarshalBinary. rewrite H1. rewrite (H8 honest_buffer never_buffer) in *. rewrite H2. cbn [snd app]. now rewrite (H6 honest_buffer).
Qed.
End V.
