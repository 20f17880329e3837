From Verif Require Import Base SpecNum ModelNum PfNum ModelVec SpecVec PfVec ModelPoly SpecPoly PfPoly ModelGadget SpecGadget PfGadget ModelLWE SpecLWE PfLWE PfKS.

Section W.
Variable w : Z.
Hypothesis Hw : 0 < w.
Notation Q := (2 ^ w).
Variable p : gadget.
Hypothesis Hok : gadget_ok w p.
Notation l := (g_level p).
Notation b := (g_logBase p).

Lemma dcmp_spec x : uword w x -> is_dcmp w p x (sdig w p x) (gerr w p x).
Proof.
  intros Hx. split; [|split].
  - intros j _. apply (sdig_range w p Hok).
  - rewrite (sdig_recompose w p Hok x) at 1. apply eqm_eq. f_equal. apply zsum_ext. intros j Hj. now rewrite (LogBaseQ_eq w p Hok).
  - pose proof (gerr_bound w p Hok x Hx) as H. unfold LogLastBaseQ in H. destruct Hok as (_ & _ & _ & H4 & _). now rewrite H4 in H.
Qed.

Lemma DecomposeScalar_nth x j : (j < l)%nat -> eqm Q (nthZ (DecomposeScalar w p x) j) (sdig w p x j).
Proof.
  intros Hj. unfold DecomposeScalar. rewrite (DecomposeScalarTo_tab w p Hok) by apply repeat_length.
  rewrite nthZ_tab by exact Hj. apply wrap_eqm.
Qed.

Variable s : list Z.
Notation n := (length s).
Definition lvs (lev : list (list Z)) : Prop := forall j, (j < l)%nat -> length (nth j lev []) = S n.
Lemma lev_lvs lev m e : lev_enc w p s lev m e -> lvs lev.
Proof. intros (_ & H) j Hj. apply H; exact Hj. Qed.

Lemma mulAddRow_spec lo k lev d acc : (lo + k <= l)%nat -> lvs lev -> length acc = S n ->
  length (mulAddRow w lo k lev d acc) = S n /\
  (Forall (uword w) acc -> Forall (uword w) (mulAddRow w lo k lev d acc)) /\
  eqm Q (phase s (mulAddRow w lo k lev d acc)) (phase s acc + zsum k (fun j => nthZ d (lo + j) * phase s (nth (lo + j) lev []))).
Proof.
  intros Hlk Hl La. unfold mulAddRow.
  set (P := fun m a => (m <= k)%nat -> length a = S n /\ (Forall (uword w) acc -> Forall (uword w) a) /\
    eqm Q (phase s a) (phase s acc + zsum m (fun j => nthZ d (lo + j) * phase s (nth (lo + j) lev [])))).
  match goal with |- context [forN lo k ?f acc] => enough (P k (forN lo k f acc)) as H by (apply H; lia) end.
  apply (forN_ind P); unfold P.
  - intros _. split; [exact La|]. split; [auto|]. cbn [zsum]. apply eqm_eq; ring.
  - intros m a Hm IH _. destruct (IH ltac:(lia)) as (A & _ & C).
    destruct (lwe_vscaleAdd w Hw n (nthZ d (lo + m)) a (nth (lo + m) lev []) A (Hl (lo + m)%nat ltac:(lia))) as (X & Y).
    split; [exact X|]. split; [intros _; exact Y|]. rewrite phase_vscaleAdd by (try apply Hl; lia). rewrite C. cbn [zsum]. apply eqm_eq; ring.
Qed.
Lemma mulSubRow_spec lo k lev d acc : (lo + k <= l)%nat -> lvs lev -> length acc = S n ->
  length (mulSubRow w lo k lev d acc) = S n /\
  (Forall (uword w) acc -> Forall (uword w) (mulSubRow w lo k lev d acc)) /\
  eqm Q (phase s (mulSubRow w lo k lev d acc)) (phase s acc - zsum k (fun j => nthZ d (lo + j) * phase s (nth (lo + j) lev []))).
Proof.
  intros Hlk Hl La. unfold mulSubRow.
  set (P := fun m a => (m <= k)%nat -> length a = S n /\ (Forall (uword w) acc -> Forall (uword w) a) /\
    eqm Q (phase s a) (phase s acc - zsum m (fun j => nthZ d (lo + j) * phase s (nth (lo + j) lev [])))).
  match goal with |- context [forN lo k ?f acc] => enough (P k (forN lo k f acc)) as H by (apply H; lia) end.
  apply (forN_ind P); unfold P.
  - intros _. split; [exact La|]. split; [auto|]. cbn [zsum]. apply eqm_eq; ring.
  - intros m a Hm IH _. destruct (IH ltac:(lia)) as (A & _ & C).
    destruct (lwe_vscaleSub w Hw n (nthZ d (lo + m)) a (nth (lo + m) lev []) A (Hl (lo + m)%nat ltac:(lia))) as (X & Y).
    split; [exact X|]. split; [intros _; exact Y|]. rewrite phase_vscaleSub by (try apply Hl; lia). rewrite C. cbn [zsum]. apply eqm_eq; ring.
Qed.

(** The exact error of one gadget product of [x] with an encryption of [m]. *)
Definition gpErr (x m : Z) (e : nat -> Z) : Z := zsum l (fun j => sdig w p x j * e j) - m * gerr w p x.

Lemma digits_sum x lev m e : lev_enc w p s lev m e ->
  eqm Q (zsum l (fun j => nthZ (DecomposeScalar w p x) j * phase s (nth j lev []))) (m * x + gpErr x m e).
Proof.
  intros (L & H).
  rewrite (zsum_eqm Q l _ (fun j => m * (sdig w p x j * 2 ^ LogBaseQ p j) + sdig w p x j * e j)).
  2:{ intros j Hj. destruct (H j Hj) as (_ & E). rewrite DecomposeScalar_nth by exact Hj. rewrite E, (LogBaseQ_eq w p Hok). apply eqm_eq; ring. }
  rewrite zsum_add, zsum_scale_l. unfold gpErr. rewrite (sdig_recompose w p Hok x) at 1. apply eqm_eq; ring.
Qed.

Lemma GadgetProdLWETo_spec lev m e x : lev_enc w p s lev m e ->
  lwe_ct w n (GadgetProdLWETo w p lev x) /\ eqm Q (phase s (GadgetProdLWETo w p lev x)) (m * x + gpErr x m e).
Proof.
  intros H. pose proof (lev_lvs lev m e H) as Hl. pose proof Hok as (H1 & H2 & H3 & H4 & H5 & H6).
  unfold GadgetProdLWETo. cbv zeta. set (d := DecomposeScalar w p x).
  destruct (lwe_vscale w Hw n (nthZ d 0) (nth 0 lev []) (Hl O ltac:(lia))) as (A1 & A2).
  destruct (mulAddRow_spec 1 (l - 1) lev d (vscale w (nthZ d 0) (nth 0 lev [])) ltac:(lia) Hl A1) as (B1 & B2 & B3).
  split; [split; auto|]. rewrite B3, phase_vscale by (apply Hl; lia).
  rewrite <- (digits_sum x lev m e H). fold d. replace l with (S (l - 1)) at 2 by lia. rewrite zsum_S_l. apply eqm_eq. reflexivity.
Qed.

Lemma GadgetProdAddLWETo_spec out lev m e x : lwe_ct w n out -> lev_enc w p s lev m e ->
  lwe_ct w n (GadgetProdAddLWETo w p out lev x) /\ eqm Q (phase s (GadgetProdAddLWETo w p out lev x)) (phase s out + (m * x + gpErr x m e)).
Proof.
  intros (Lo & Wo) H. pose proof (lev_lvs lev m e H) as Hl.
  destruct (mulAddRow_spec 0 l lev (DecomposeScalar w p x) out ltac:(lia) Hl Lo) as (B1 & B2 & B3).
  split; [split; auto|]. unfold GadgetProdAddLWETo. rewrite B3. rewrite <- (digits_sum x lev m e H). apply eqm_eq. reflexivity.
Qed.
Lemma GadgetProdSubLWETo_spec out lev m e x : lwe_ct w n out -> lev_enc w p s lev m e ->
  lwe_ct w n (GadgetProdSubLWETo w p out lev x) /\ eqm Q (phase s (GadgetProdSubLWETo w p out lev x)) (phase s out - (m * x + gpErr x m e)).
Proof.
  intros (Lo & Wo) H. pose proof (lev_lvs lev m e H) as Hl.
  destruct (mulSubRow_spec 0 l lev (DecomposeScalar w p x) out ltac:(lia) Hl Lo) as (B1 & B2 & B3).
  split; [split; auto|]. unfold GadgetProdSubLWETo. rewrite B3. rewrite <- (digits_sum x lev m e H). apply eqm_eq. reflexivity.
Qed.

(** Accumulating one gadget product per step. *)
Lemma accLoop_spec lo k (levs : nat -> list (list Z)) (xs ms : nat -> Z) (es : nat -> nat -> Z) acc :
  (forall i, (lo <= i < lo + k)%nat -> lev_enc w p s (levs i) (ms i) (es i)) -> lwe_ct w n acc ->
  let r := forN lo k (fun i a => mulAddRow w 0 l (levs i) (DecomposeScalar w p (xs i)) a) acc in
  lwe_ct w n r /\ eqm Q (phase s r)
    (phase s acc + zsum k (fun i => ms (lo + i)%nat * xs (lo + i)%nat + gpErr (xs (lo + i)%nat) (ms (lo + i)%nat) (es (lo + i)%nat))).
Proof.
  intros H Ha. cbv zeta.
  set (P := fun m a => (m <= k)%nat -> lwe_ct w n a /\ eqm Q (phase s a)
    (phase s acc + zsum m (fun i => ms (lo + i)%nat * xs (lo + i)%nat + gpErr (xs (lo + i)%nat) (ms (lo + i)%nat) (es (lo + i)%nat)))).
  match goal with |- context [forN lo k ?f acc] => enough (P k (forN lo k f acc)) as HP by (apply HP; lia) end.
  apply (forN_ind P); unfold P.
  - intros _. split; [exact Ha|]. cbn [zsum]. apply eqm_eq; ring.
  - intros m a Hm IH _. destruct (IH ltac:(lia)) as (A & C).
    destruct (GadgetProdAddLWETo_spec a (levs (lo + m)%nat) (ms (lo + m)%nat) (es (lo + m)%nat) (xs (lo + m)%nat) A (H (lo + m)%nat ltac:(lia))) as (X & Y).
    split; [exact X|]. unfold GadgetProdAddLWETo in Y. rewrite Y, C. cbn [zsum]. apply eqm_eq; ring.
Qed.

(** ** External product *)
Definition epErr (ct : list Z) (m : Z) (e : nat -> nat -> Z) : Z :=
  gpErr (nthZ ct 0) m (e O) + zsum n (fun i => gpErr (nthZ ct (S i)) (m * nthZ s i) (e (S i))).

Lemma extProdLWE_spec gsw m e ct : gsw_enc w p s gsw m e ->
  lwe_ct w n (extProdLWE w n p gsw ct) /\ eqm Q (phase s (extProdLWE w n p gsw ct)) (m * phase s ct + epErr ct m e).
Proof.
  intros (L & H0 & HS). unfold extProdLWE. cbv zeta.
  destruct (GadgetProdLWETo_spec _ _ _ (nthZ ct 0) H0) as (A & B).
  destruct (accLoop_spec 1 n (fun i => nth i gsw []) (fun i => nthZ ct i) (fun i => m * nthZ s (i - 1)) e (GadgetProdLWETo w p (nth 0 gsw []) (nthZ ct 0))) as (X & Y).
  { intros i Hi. specialize (HS (i - 1)%nat ltac:(lia)). replace (S (i - 1)) with i in HS by lia. exact HS. }
  { exact A. }
  split; [exact X|]. rewrite Y, B. unfold epErr, phase. rewrite zsum_add.
  rewrite (zsum_ext n (fun i => m * nthZ s (1 + i - 1) * nthZ ct (1 + i)) (fun i => m * (nthZ ct (S i) * nthZ s i))).
  2:{ intros i _. replace (1 + i - 1)%nat with i by lia. cbn [Nat.add]. ring. }
  rewrite zsum_scale_l.
  rewrite (zsum_ext n (fun i => gpErr (nthZ ct (1 + i)) (m * nthZ s (1 + i - 1)) (e (1 + i)%nat)) (fun i => gpErr (nthZ ct (S i)) (m * nthZ s i) (e (S i)))).
  2:{ intros i _. replace (1 + i - 1)%nat with i by lia. reflexivity. }
  apply eqm_eq; ring.
Qed.

Lemma go_copy_full {A} (d : A) (dst src : list A) : length dst = length src -> go_copy dst src = src.
Proof.
  intros L. unfold go_copy. rewrite L, Nat.min_id. rewrite firstn_all, skipn_all2 by lia. apply app_nil_r.
Qed.

Lemma ExternalProdLWETo_spec out gsw m e ct : length out = S n -> gsw_enc w p s gsw m e ->
  lwe_ct w n (ExternalProdLWETo w n p out gsw ct) /\ eqm Q (phase s (ExternalProdLWETo w n p out gsw ct)) (m * phase s ct + epErr ct m e).
Proof.
  intros Lo H. destruct (extProdLWE_spec gsw m e ct H) as (A & B). unfold ExternalProdLWETo.
  rewrite (go_copy_full 0) by (rewrite Lo; symmetry; apply A). auto.
Qed.
Lemma ExternalProdAddLWETo_spec out gsw m e ct : lwe_ct w n out -> gsw_enc w p s gsw m e ->
  lwe_ct w n (ExternalProdAddLWETo w n p out gsw ct) /\
  eqm Q (phase s (ExternalProdAddLWETo w n p out gsw ct)) (phase s out + (m * phase s ct + epErr ct m e)).
Proof.
  intros (Lo & _) H. destruct (extProdLWE_spec gsw m e ct H) as ((A & _) & B). unfold ExternalProdAddLWETo.
  split; [now apply lwe_vadd|]. rewrite phase_vadd by assumption. now rewrite B.
Qed.
Lemma ExternalProdSubLWETo_spec out gsw m e ct : lwe_ct w n out -> gsw_enc w p s gsw m e ->
  lwe_ct w n (ExternalProdSubLWETo w n p out gsw ct) /\
  eqm Q (phase s (ExternalProdSubLWETo w n p out gsw ct)) (phase s out - (m * phase s ct + epErr ct m e)).
Proof.
  intros (Lo & _) H. destruct (extProdLWE_spec gsw m e ct H) as ((A & _) & B). unfold ExternalProdSubLWETo.
  split; [now apply lwe_vsub|]. rewrite phase_vsub by assumption. now rewrite B.
Qed.

(** ** Bounds *)
Lemma gpErr_bound x m e E M : uword w x -> (forall j, (j < l)%nat -> Z.abs (e j) <= E) -> Z.abs m <= M ->
  Z.abs (gpErr x m e) <= Z.of_nat l * (2 ^ (b - 1) * E) + M * (2 ^ (w - Z.of_nat l * b) / 2).
Proof.
  intros Hx He Hm. unfold gpErr. pose proof Hok as (H1 & H2 & H3 & H4 & H5 & H6).
  assert (Z.abs (zsum l (fun j => sdig w p x j * e j)) <= Z.of_nat l * (2 ^ (b - 1) * E)) as A.
  { apply zsum_abs_le. intros j Hj. rewrite Z.abs_mul. pose proof (sdig_range w p Hok x j).
    apply Z.mul_le_mono_nonneg; try apply Z.abs_nonneg; [lia|now apply He]. }
  assert (Z.abs (m * gerr w p x) <= M * (2 ^ (w - Z.of_nat l * b) / 2)) as B.
  { rewrite Z.abs_mul. apply Z.mul_le_mono_nonneg; try apply Z.abs_nonneg; [exact Hm|].
    pose proof (gerr_half w p Hok x Hx) as H. unfold LogLastBaseQ in H. now rewrite H4 in H. }
  lia.
Qed.

Lemma epErr_bound ct m e E M : lwe_ct w n ct -> binary s ->
  (forall i j, (i <= n)%nat -> (j < l)%nat -> Z.abs (e i j) <= E) -> Z.abs m <= M ->
  Z.abs (epErr ct m e) <= (Z.of_nat n + 1) * (Z.of_nat l * (2 ^ (b - 1) * E) + M * (2 ^ (w - Z.of_nat l * b) / 2)).
Proof.
  intros (Lc & Wc) Hs He Hm. unfold epErr.
  assert (forall i, (i < S n)%nat -> uword w (nthZ ct i)) as Wi by (intros i Hi; apply (Forall_nth_lt (uword w) ct 0 i Wc); lia).
  pose proof (gpErr_bound (nthZ ct 0) m (e O) E M (Wi O ltac:(lia)) (fun j Hj => He O j ltac:(lia) Hj) Hm) as A.
  assert (Z.abs (zsum n (fun i => gpErr (nthZ ct (S i)) (m * nthZ s i) (e (S i)))) <= Z.of_nat n * (Z.of_nat l * (2 ^ (b - 1) * E) + M * (2 ^ (w - Z.of_nat l * b) / 2))) as B.
  { apply zsum_abs_le. intros i Hi. apply gpErr_bound; [apply Wi; lia|intros j Hj; apply He; lia|].
    rewrite Z.abs_mul. pose proof (Forall_nth_lt _ s 0 i Hs Hi) as Hb. fold (nthZ s i) in Hb. destruct Hb as [-> | ->]; cbn [Z.abs]; lia. }
  lia.
Qed.

(** ** Key switching *)
Definition ksErr (ct sIn : list Z) (e : nat -> nat -> Z) (lo : nat) : Z :=
  zsum (length sIn) (fun i => gpErr (nthZ ct (lo + S i)) (nthZ sIn i) (e i)).

Lemma phase_upd0 o v : (0 < length o)%nat -> phase s (upd o 0 v) = v + (phase s o - nthZ o 0).
Proof.
  intros H. unfold phase. rewrite nthZ_upd by exact H. cbn [Nat.eqb].
  rewrite (zsum_ext n (fun i => nthZ (upd o 0 v) (S i) * nthZ s i) (fun i => nthZ o (S i) * nthZ s i)); [ring|].
  intros i Hi. rewrite nthZ_upd by exact H. reflexivity.
Qed.

Lemma KeySwitchLWETo_spec sIn out ct ksk e : (0 < length sIn)%nat -> length out = S n -> length ct = S (length sIn) ->
  ksk_enc w p s sIn ksk e ->
  lwe_ct w n (KeySwitchLWETo w p out ct ksk) /\
  eqm Q (phase s (KeySwitchLWETo w p out ct ksk)) (phase sIn ct + ksErr ct sIn e 0).
Proof.
  intros HsIn Lo Lc (Lk & Hk). unfold KeySwitchLWETo. cbv zeta.
  destruct (GadgetProdLWETo_spec _ _ _ (nthZ ct 1) (Hk O HsIn)) as (A & B).
  destruct (accLoop_spec 1 (length ksk - 1) (fun i => nth i ksk []) (fun i => nthZ ct (S i)) (fun i => nthZ sIn i) e (GadgetProdLWETo w p (nth 0 ksk []) (nthZ ct 1))) as ((X1 & X2) & Y).
  { intros i Hi. apply Hk. lia. }
  { exact A. }
  match goal with |- context [upd out 0 (wrap w (_ + nthZ ?pr 0))] => set (prod := pr) in * end.
  destruct out as [|o0 rest]; [cbn [length] in Lo; lia|]. cbn [upd]. cbn [length] in Lo.
  assert (length rest = length (tl prod)) as Lr by (destruct prod; cbn [length tl] in *; lia).
  rewrite (go_copy_full 0) by exact Lr.
  replace (wrap w (nthZ ct 0 + nthZ prod 0) :: tl prod) with (upd prod 0 (wrap w (nthZ ct 0 + nthZ prod 0)))
    by (destruct prod as [|y t]; [cbn [length] in X1; lia|reflexivity]).
  split.
  { split; [now rewrite upd_length|]. destruct prod as [|y t]; [constructor|]. cbn [upd]. inversion X2; subst. constructor; [apply wrap_word; exact Hw|assumption]. }
  rewrite phase_upd0 by lia. rewrite wrap_eqm, Y, B. unfold phase at 1. unfold ksErr.
  replace (length sIn) with (S (length ksk - 1)) by lia. rewrite !zsum_S_l. rewrite zsum_add. cbn [Nat.add].
  rewrite (zsum_ext (length ksk - 1) (fun i => nthZ sIn (S i) * nthZ ct (S (S i))) (fun i => nthZ ct (S (S i)) * nthZ sIn (S i))) by (intros; ring).
  apply eqm_eq. ring.
Qed.

Lemma DefaultKeySwitchTo_spec large out ct ksk e : let glweDim := length large in
  s = firstn n large -> (n <= glweDim)%nat -> length out = S n -> lwe_ct w glweDim ct ->
  ksk_enc w p s (skipn n large) ksk e ->
  lwe_ct w n (DefaultKeySwitchTo w n glweDim p out ct ksk) /\
  eqm Q (phase s (DefaultKeySwitchTo w n glweDim p out ct ksk)) (phase large ct + ksErr ct (skipn n large) e n).
Proof.
  intros D Es Hn Lo (Lc & Wc) (Lk & Hk). unfold DefaultKeySwitchTo. cbv zeta. fold D in Lc.
  assert (length (skipn n large) = (D - n)%nat) as Lt by (now rewrite skipn_length).
  rewrite (go_copy_full 0) by (rewrite firstn_length; lia).
  destruct (accLoop_spec 0 (D - n) (fun i => nth i ksk []) (fun i => nthZ ct (S (n + i))) (fun i => nthZ (skipn n large) i) e (firstn (S n) ct)) as (X & Y).
  { intros i Hi. apply Hk. lia. }
  { split; [rewrite firstn_length; lia|]. apply Forall_forall. intros x Hx. apply (proj1 (Forall_forall _ _) Wc). rewrite <- (firstn_skipn (S n) ct). apply in_or_app; now left. }
  split; [exact X|]. rewrite Y. unfold phase at 2. unfold ksErr. rewrite Lt. fold D.
  replace D with (n + (D - n))%nat at 2 by lia. rewrite zsum_app, zsum_add. unfold phase.
  rewrite nthZ_firstn by lia.
  rewrite (zsum_ext n (fun i => nthZ (firstn (S n) ct) (S i) * nthZ s i) (fun i => nthZ ct (S i) * nthZ large i)).
  2:{ intros i Hi. rewrite nthZ_firstn by lia. f_equal. rewrite Es. rewrite nthZ_firstn by lia. reflexivity. }
  rewrite (zsum_ext (D - n) (fun i => nthZ (skipn n large) (0 + i) * nthZ ct (S (n + (0 + i)))) (fun i => nthZ ct (S (n + i)) * nthZ large (n + i))).
  2:{ intros i Hi. rewrite nthZ_skipn. cbn [Nat.add]. ring. }
  rewrite (zsum_ext (D - n) (fun i => gpErr (nthZ ct (S (n + (0 + i)))) (nthZ (skipn n large) (0 + i)) (e (0 + i)%nat)) (fun i => gpErr (nthZ ct (n + S i)) (nthZ (skipn n large) i) (e i))).
  2:{ intros i Hi. cbn [Nat.add]. now rewrite Nat.add_succ_r. }
  apply eqm_eq. ring.
Qed.

Lemma ksErr_bound ct sIn e lo E : (forall i, (i < length ct)%nat -> uword w (nthZ ct i)) -> (lo + length sIn < length ct)%nat -> binary sIn ->
  (forall i j, (i < length sIn)%nat -> (j < l)%nat -> Z.abs (e i j) <= E) ->
  Z.abs (ksErr ct sIn e lo) <= Z.of_nat (length sIn) * (Z.of_nat l * (2 ^ (b - 1) * E) + 2 ^ (w - Z.of_nat l * b) / 2).
Proof.
  intros Wi Hlo Hs He. unfold ksErr. apply zsum_abs_le. intros i Hi.
  rewrite <- (Z.mul_1_l (2 ^ (w - Z.of_nat l * b) / 2)). apply gpErr_bound; [apply Wi; lia|intros; now apply He|].
  pose proof (Forall_nth_lt _ sIn 0 i Hs Hi) as Hb. fold (nthZ sIn i) in Hb. destruct Hb as [-> | ->]; cbn [Z.abs]; lia.
Qed.
End W.
