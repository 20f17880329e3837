From Verif Require Import Base SpecNum ModelNum PfNum ModelVec SpecVec PfVec ModelPoly SpecPoly PfPoly ModelGadget SpecGadget PfGadget ModelParams SpecParams ModelEncoder PfEncoder ModelLWE SpecLWE PfLWE PfKS PfKS2.

Lemma EncDec_small w k U G sk out msg st ct' st' : 0 < w <= 52 -> 0 <= k <= w - 2 -> length out = S (length sk) ->
  let mm := 2 ^ k in let scale := scaleOf w mm in
  - scale <= 2 * G (snd st) < scale ->
  EncryptLWETo w U G mm scale sk out msg st = (ct', st') -> DecryptLWE w mm scale sk ct' = Some (msg mod mm).
Proof.
  intros Hw Hk L mm scale He E. unfold DecryptLWE. unfold EncryptLWETo in E.
  rewrite (EncDec_LWE w ltac:(lia) U G sk out _ st ct' st' L E). now apply decode_params_small.
Qed.
Lemma EncDec_large w k U G sk out msg st ct' st' : 0 < w <= 64 -> 0 <= k <= w - 2 -> length out = S (length sk) ->
  let mm := 2 ^ k in let scale := scaleOf w mm in
  2 * Z.abs (G (snd st)) + 2 ^ 13 + 2 < scale ->
  EncryptLWETo w U G mm scale sk out msg st = (ct', st') -> DecryptLWE w mm scale sk ct' = Some (msg mod mm).
Proof.
  intros Hw Hk L mm scale He E. unfold DecryptLWE. unfold EncryptLWETo in E.
  rewrite (EncDec_LWE w ltac:(lia) U G sk out _ st ct' st' L E). now apply decode_params_large.
Qed.

(** Store operations: phase of the output and frame, whatever the aliasing. *)
Definition sstep (st st' : store) (out : nat) : Prop := forall y, y <> out -> st' y = st y.
Lemma sset_same s x v : sset s x v x = v.
Proof. unfold sset. now rewrite Nat.eqb_refl. Qed.
Lemma sset_step s x v : sstep s (sset s x v) x.
Proof. intros y Hy. unfold sset. destruct (Nat.eqb_spec y x); [contradiction|reflexivity]. Qed.

Section W.
Variable w : Z.
Hypothesis Hw : 0 < w.
Notation Q := (2 ^ w).
Variables (s : list Z) (st : store).
Notation n := (length s).
Definition opok (out : nat) (st' : store) (v : Z) : Prop :=
  lwe_ct w n (st' out) /\ eqm Q (phase s (st' out)) v /\ sstep st st' out.

Lemma AddLWETo_spec out a b : length (st a) = S n -> length (st b) = S n ->
  opok out (AddLWETo w st out a b) (phase s (st a) + phase s (st b)).
Proof. intros. unfold AddLWETo. split; [|split; [|apply sset_step]]; rewrite sset_same; [now apply lwe_vadd|now apply phase_vadd]. Qed.
Lemma SubLWETo_spec out a b : length (st a) = S n -> length (st b) = S n ->
  opok out (SubLWETo w st out a b) (phase s (st a) - phase s (st b)).
Proof. intros. unfold SubLWETo. split; [|split; [|apply sset_step]]; rewrite sset_same; [now apply lwe_vsub|now apply phase_vsub]. Qed.
Lemma NegLWETo_spec out a : length (st a) = S n -> opok out (NegLWETo w st out a) (- phase s (st a)).
Proof. intros. unfold NegLWETo. split; [|split; [|apply sset_step]]; rewrite sset_same; [now apply lwe_vneg|now apply phase_vneg]. Qed.
Lemma ScalarMulLWETo_spec out a c : length (st a) = S n -> opok out (ScalarMulLWETo w st out a c) (c * phase s (st a)).
Proof. intros. unfold ScalarMulLWETo. split; [|split; [|apply sset_step]]; rewrite sset_same; [now apply lwe_vscale|now apply phase_vscale]. Qed.
Lemma ScalarMulAddLWETo_spec out a c : length (st a) = S n -> length (st out) = S n ->
  opok out (ScalarMulAddLWETo w st out a c) (phase s (st out) + c * phase s (st a)).
Proof. intros. unfold ScalarMulAddLWETo. split; [|split; [|apply sset_step]]; rewrite sset_same; [now apply lwe_vscaleAdd|now apply phase_vscaleAdd]. Qed.
Lemma ScalarMulSubLWETo_spec out a c : length (st a) = S n -> length (st out) = S n ->
  opok out (ScalarMulSubLWETo w st out a c) (phase s (st out) - c * phase s (st a)).
Proof. intros. unfold ScalarMulSubLWETo. split; [|split; [|apply sset_step]]; rewrite sset_same; [now apply lwe_vscaleSub|now apply phase_vscaleSub]. Qed.

Lemma plain_spec out a f g : length (st out) = S n -> lwe_ct w n (st a) ->
  eqm Q f g ->
  let s1 := sset st out (go_copy (st out) (st a)) in
  opok out (sset s1 out (upd (s1 out) 0 (wrap w (nthZ (s1 out) 0 + f)))) (phase s (st a) + g).
Proof.
  intros Lo (La & Wa) E. cbv zeta. rewrite !sset_same. rewrite (go_copy_full 0) by lia. split; [|split].
  - rewrite sset_same. split; [now rewrite upd_length|]. destruct (st a) as [|y t]; [constructor|]. cbn [upd]. inversion Wa; subst. constructor; [now apply wrap_word|assumption].
  - rewrite sset_same, phase_upd0 by lia. rewrite wrap_eqm, E. apply eqm_eq. ring.
  - intros y Hy. unfold sset. destruct (Nat.eqb_spec y out); [contradiction|reflexivity].
Qed.
Lemma AddPlainLWETo_spec out a pt : length (st out) = S n -> lwe_ct w n (st a) ->
  opok out (AddPlainLWETo w st out a pt) (phase s (st a) + pt).
Proof. intros. unfold AddPlainLWETo. apply plain_spec; [assumption..|reflexivity]. Qed.
Lemma SubPlainLWETo_spec out a pt : length (st out) = S n -> lwe_ct w n (st a) ->
  opok out (SubPlainLWETo w st out a pt) (phase s (st a) - pt).
Proof.
  intros. unfold SubPlainLWETo. pose proof (plain_spec out a (- pt) (- pt) H H0 (eqm_refl _ _)) as X. cbv zeta in X.
  unfold Z.sub at 1 2. exact X.
Qed.

(** Key switching with the digits made explicit. *)
Variable p : gadget.
Hypothesis Hok : gadget_ok w p.
Lemma KeySwitch_dcmp sIn out ct ksk e : (0 < length sIn)%nat -> length out = S n -> lwe_ct w (length sIn) ct ->
  ksk_enc w p s sIn ksk e ->
  lwe_ct w n (KeySwitchLWETo w p out ct ksk) /\
  exists (d : nat -> nat -> Z) (r : nat -> Z),
    (forall i, (i < length sIn)%nat -> is_dcmp w p (nthZ ct (S i)) (d i) (r i)) /\
    eqm Q (phase s (KeySwitchLWETo w p out ct ksk))
      (phase sIn ct + zsum (length sIn) (fun i => zsum (g_level p) (fun j => d i j * e i j) - nthZ sIn i * r i)).
Proof.
  intros H0 Lo (Lc & Wc) Hk. destruct (KeySwitchLWETo_spec w Hw p Hok s sIn out ct ksk e H0 Lo Lc Hk) as (A & B).
  split; [exact A|]. exists (fun i => sdig w p (nthZ ct (S i))), (fun i => gerr w p (nthZ ct (S i))). split.
  - intros i Hi. apply dcmp_spec; [exact Hok|]. apply (Forall_nth_lt (uword w) ct 0 (S i) Wc). lia.
  - rewrite B. reflexivity.
Qed.
Lemma KeySwitch_bound sIn out ct ksk e E : (0 < length sIn)%nat -> length out = S n -> lwe_ct w (length sIn) ct ->
  ksk_enc w p s sIn ksk e -> binary sIn ->
  (forall i j, (i < length sIn)%nat -> (j < g_level p)%nat -> Z.abs (e i j) <= E) ->
  dist_le Q (phase s (KeySwitchLWETo w p out ct ksk)) (phase sIn ct)
    (Z.of_nat (length sIn) * (Z.of_nat (g_level p) * (2 ^ (g_logBase p - 1) * E) + 2 ^ (w - Z.of_nat (g_level p) * g_logBase p) / 2)).
Proof.
  intros H0 Lo (Lc & Wc) Hk Hb HE. destruct (KeySwitchLWETo_spec w Hw p Hok s sIn out ct ksk e H0 Lo Lc Hk) as (A & B).
  exists (ksErr w p ct sIn e 0). split; [rewrite B; apply eqm_eq; ring|].
  apply ksErr_bound; [exact Hok| |lia|exact Hb|exact HE]. intros i Hi. apply (Forall_nth_lt (uword w) ct 0 i Wc). lia.
Qed.
Lemma DefaultKeySwitch_dcmp large out ct ksk e : let D := length large in
  s = firstn n large -> (n <= D)%nat -> length out = S n -> lwe_ct w D ct ->
  ksk_enc w p s (skipn n large) ksk e ->
  lwe_ct w n (DefaultKeySwitchTo w n D p out ct ksk) /\
  exists (d : nat -> nat -> Z) (r : nat -> Z),
    (forall i, (i < D - n)%nat -> is_dcmp w p (nthZ ct (n + S i)) (d i) (r i)) /\
    eqm Q (phase s (DefaultKeySwitchTo w n D p out ct ksk))
      (phase large ct + zsum (D - n) (fun i => zsum (g_level p) (fun j => d i j * e i j) - nthZ large (n + i) * r i)).
Proof.
  intros D Es Hn Lo Hc Hk. destruct (DefaultKeySwitchTo_spec w Hw p Hok s large out ct ksk e Es Hn Lo Hc Hk) as (A & B).
  split; [exact A|]. exists (fun i => sdig w p (nthZ ct (n + S i))), (fun i => gerr w p (nthZ ct (n + S i))). split.
  - intros i Hi. apply dcmp_spec; [exact Hok|]. destruct Hc as (Lc & Wc). apply (Forall_nth_lt (uword w) ct 0 (n + S i) Wc). lia.
  - unfold D. rewrite B. unfold ksErr. rewrite skipn_length. apply eqm_eq. f_equal. apply zsum_ext. intros i Hi. unfold gpErr. now rewrite nthZ_skipn.
Qed.
Lemma DefaultKeySwitch_bound large out ct ksk e E : let D := length large in
  s = firstn n large -> (n <= D)%nat -> length out = S n -> lwe_ct w D ct ->
  ksk_enc w p s (skipn n large) ksk e -> binary large ->
  (forall i j, (i < D - n)%nat -> (j < g_level p)%nat -> Z.abs (e i j) <= E) ->
  dist_le Q (phase s (DefaultKeySwitchTo w n D p out ct ksk)) (phase large ct)
    (Z.of_nat (D - n) * (Z.of_nat (g_level p) * (2 ^ (g_logBase p - 1) * E) + 2 ^ (w - Z.of_nat (g_level p) * g_logBase p) / 2)).
Proof.
  intros D Es Hn Lo Hc Hk Hb HE. destruct (DefaultKeySwitchTo_spec w Hw p Hok s large out ct ksk e Es Hn Lo Hc Hk) as (A & B).
  exists (ksErr w p ct (skipn n large) e n). split; [unfold D; rewrite B; apply eqm_eq; ring|].
  destruct Hc as (Lc & Wc). unfold D. rewrite <- (skipn_length n large). apply ksErr_bound; [exact Hok| | | |].
  - intros i Hi. apply (Forall_nth_lt (uword w) ct 0 i Wc). lia.
  - rewrite skipn_length. lia.
  - apply Forall_forall. intros x Hx. apply (proj1 (Forall_forall _ _) Hb). rewrite <- (firstn_skipn n large). apply in_or_app; now right.
  - rewrite skipn_length. exact HE.
Qed.

(** External product. *)
Lemma ExternalProd_dcmp out gsw m e ct : length out = S n -> lwe_ct w n ct -> gsw_enc w p s gsw m e ->
  lwe_ct w n (ExternalProdLWETo w n p out gsw ct) /\
  exists (d : nat -> nat -> Z) (r : nat -> Z),
    (forall i, (i <= n)%nat -> is_dcmp w p (nthZ ct i) (d i) (r i)) /\
    eqm Q (phase s (ExternalProdLWETo w n p out gsw ct))
      (m * (phase s ct - (r O + zsum n (fun i => r (S i) * nthZ s i))) + zsum (S n) (fun i => zsum (g_level p) (fun j => d i j * e i j))).
Proof.
  intros Lo (Lc & Wc) Hg. destruct (ExternalProdLWETo_spec w Hw p Hok s out gsw m e ct Lo Hg) as (A & B).
  split; [exact A|]. exists (fun i => sdig w p (nthZ ct i)), (fun i => gerr w p (nthZ ct i)). split.
  - intros i Hi. apply dcmp_spec; [exact Hok|]. apply (Forall_nth_lt (uword w) ct 0 i Wc). lia.
  - rewrite B. unfold epErr, gpErr. rewrite zsum_S_l. apply eqm_eq.
    rewrite zsum_sub. rewrite (zsum_ext n (fun i => m * nthZ s i * _) (fun i => m * (gerr w p (nthZ ct (S i)) * nthZ s i))) by (intros; ring).
    rewrite zsum_scale_l. ring.
Qed.
Lemma ExternalProd_var out o0 gsw m e ct : lwe_ct w n out -> length o0 = S n -> gsw_enc w p s gsw m e ->
  ExternalProdAddLWETo w n p out gsw ct = vadd w out (ExternalProdLWETo w n p o0 gsw ct) /\
  ExternalProdSubLWETo w n p out gsw ct = vsub w out (ExternalProdLWETo w n p o0 gsw ct) /\
  eqm Q (phase s (ExternalProdAddLWETo w n p out gsw ct)) (phase s out + phase s (ExternalProdLWETo w n p o0 gsw ct)) /\
  eqm Q (phase s (ExternalProdSubLWETo w n p out gsw ct)) (phase s out - phase s (ExternalProdLWETo w n p o0 gsw ct)).
Proof.
  intros (Lo & _) L0 Hg. destruct (extProdLWE_spec w Hw p Hok s gsw m e ct Hg) as ((A & _) & B).
  assert (ExternalProdLWETo w n p o0 gsw ct = extProdLWE w n p gsw ct) as -> by (unfold ExternalProdLWETo; apply (go_copy_full 0); lia).
  split; [reflexivity|]. split; [reflexivity|]. split; [now apply phase_vadd|now apply phase_vsub].
Qed.
Lemma ExternalProd_bound out gsw m e ct E : length out = S n -> lwe_ct w n ct -> gsw_enc w p s gsw m e -> binary s ->
  (forall i j, (i <= n)%nat -> (j < g_level p)%nat -> Z.abs (e i j) <= E) ->
  dist_le Q (phase s (ExternalProdLWETo w n p out gsw ct)) (m * phase s ct)
    ((Z.of_nat n + 1) * (Z.of_nat (g_level p) * (2 ^ (g_logBase p - 1) * E) + Z.abs m * (2 ^ (w - Z.of_nat (g_level p) * g_logBase p) / 2))).
Proof.
  intros Lo Hc Hg Hb HE. destruct (ExternalProdLWETo_spec w Hw p Hok s out gsw m e ct Lo Hg) as (A & B).
  exists (epErr w p s ct m e). split; [rewrite B; apply eqm_eq; ring|]. apply epErr_bound; auto. lia.
Qed.
Lemma GadgetProd_dcmp lev m e x out : uword w x -> lwe_ct w n out -> lev_enc w p s lev m e ->
  exists (d : nat -> Z) (r : Z), is_dcmp w p x d r /\
    let v := m * (x - r) + zsum (g_level p) (fun j => d j * e j) in
    lwe_ct w n (GadgetProdLWETo w p lev x) /\ eqm Q (phase s (GadgetProdLWETo w p lev x)) v /\
    lwe_ct w n (GadgetProdAddLWETo w p out lev x) /\ eqm Q (phase s (GadgetProdAddLWETo w p out lev x)) (phase s out + v) /\
    lwe_ct w n (GadgetProdSubLWETo w p out lev x) /\ eqm Q (phase s (GadgetProdSubLWETo w p out lev x)) (phase s out - v).
Proof.
  intros Hx Ho H. exists (sdig w p x), (gerr w p x). split; [now apply dcmp_spec|]. cbv zeta.
  destruct (GadgetProdLWETo_spec w Hw p Hok s lev m e x H) as (A1 & A2).
  destruct (GadgetProdAddLWETo_spec w Hw p Hok s out lev m e x Ho H) as (B1 & B2).
  destruct (GadgetProdSubLWETo_spec w Hw p Hok s out lev m e x Ho H) as (C1 & C2).
  repeat match goal with |- _ /\ _ => split end; try assumption; [rewrite A2|rewrite B2|rewrite C2]; apply eqm_eq; unfold gpErr; ring.
Qed.
End W.
