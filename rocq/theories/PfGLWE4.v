From Verif Require Import Base NegaRing SpecNum ModelNum PfNum ModelVec SpecVec PfVec ModelPoly SpecPoly PfPoly PfPerm PfSplit ModelGadget SpecGadget PfGadget ModelParams ModelEncoder PfEncoder ModelLWE SpecLWE PfLWE PfKS PfKS2 ModelGLWE SpecGLWE PfGLWE PfGLWE2 PfGLWE3.

Lemma pdist_le_le {N} Q (x y : npoly N) b b' : b <= b' -> pdist_le Q x y b -> pdist_le Q x y b'.
Proof. intros H (r & A & B). exists r. split; [exact A|]. now apply (pbound_le b). Qed.
Lemma pdist_le_peq {N} Q (x x' y y' : npoly N) b : peq Q x x' -> peq Q y y' -> pdist_le Q x y b -> pdist_le Q x' y' b.
Proof. intros H1 H2 (r & A & B). exists r. split; [now rewrite <- H1, <- H2|exact B]. Qed.

Section W.
Variable w : Z.
Hypothesis Hw : 0 < w.
Notation Q := (2 ^ w).
Variable N : nat.
Hypothesis HN : (0 < N)%nat.
Variable k : nat.
Add Ring nring : (@npoly_ring N Q) (setoid (@peq_equiv N Q) (@npoly_ring_ext N Q)).
Variable sk : list (list Z).
Notation gph := (gphase N k sk).
Notation S_ i := (pol N (nth i sk [])).
Variable p : gadget.
Hypothesis Hok : gadget_ok w p.
Notation l := (g_level p).
Notation eps := (2 ^ (w - Z.of_nat l * g_logBase p) / 2).
Notation NZ := (Z.of_nat N).
Notation kZ := (Z.of_nat k).

(** Noise of the row encryptions, at most E each, over n rows. *)
Notation rowNoise := (rowNoise N p).
Definition decAll (ct : list (list Z)) (D : nat -> nat -> npoly N) (r : nat -> npoly N) : Prop :=
  forall i, (i <= k)%nat -> is_pdcmp w N p (nth i ct []) (D i) (r i).

Definition rsum (r : nat -> npoly N) : npoly N := padd (r O) (psum k (fun i => pmul (r (S i)) (S_ i))).
Lemma rsum_bound ct D r : decAll ct D r -> (forall i, (i < k)%nat -> pbound 1 (S_ i)) -> pbound (eps * (1 + kZ * NZ)) (rsum r).
Proof.
  intros Hd Hs. replace (eps * (1 + kZ * NZ)) with (eps + kZ * (NZ * (eps * 1))) by ring. apply pbound_add; [apply (Hd O); lia|].
  apply pbound_psum. intros i Hi. apply pbound_mul; [apply (Hd (S i)); lia|now apply Hs].
Qed.
Lemma noise_bound ct D r e E : decAll ct D r -> (forall i j, (i <= k)%nat -> (j < l)%nat -> pbound E (e i j)) ->
  pbound (rowNoise (kZ + 1) E) (psum (S k) (fun i => dsum N p (D i) (e i))).
Proof.
  intros Hd He. unfold SpecGLWE.rowNoise. replace (kZ + 1) with (Z.of_nat (S k)) by lia. apply pbound_psum. intros i Hi.
  apply (pbound_dsum w N p _ _ E (nth i ct []) (r i)); [apply Hd; lia|]. intros j Hj. apply He; lia.
Qed.
Lemma epVal_dist m ct D e r B E : decAll ct D r -> pbound B (pmul m (rsum r)) -> (forall i j, (i <= k)%nat -> (j < l)%nat -> pbound E (e i j)) ->
  pdist_le Q (epVal N k sk p m ct D e r) (pmul m (gph ct)) (B + rowNoise (kZ + 1) E).
Proof.
  intros Hd HB He. exists (padd (popp (pmul m (rsum r))) (psum (S k) (fun i => dsum N p (D i) (e i)))). split.
  - unfold epVal. fold (rsum r). ring.
  - apply pbound_add; [now apply pbound_opp|]. now apply (noise_bound ct D r).
Qed.
Lemma epVal_dist_const c ct D e r E : decAll ct D r -> (forall i, (i < k)%nat -> pbound 1 (S_ i)) -> (forall i j, (i <= k)%nat -> (j < l)%nat -> pbound E (e i j)) ->
  pdist_le Q (epVal N k sk p (pconst c) ct D e r) (pscale c (gph ct)) (Z.abs c * (eps * (1 + kZ * NZ)) + rowNoise (kZ + 1) E).
Proof.
  intros Hd Hs He. exists (padd (popp (pscale c (rsum r))) (psum (S k) (fun i => dsum N p (D i) (e i)))). split.
  - unfold epVal. fold (rsum r). rewrite (pscale_mul Q c (gph ct)), (pscale_mul Q c (rsum r)). ring.
  - apply pbound_add; [|now apply (noise_bound ct D r)]. apply pbound_opp, pbound_scale. now apply (rsum_bound ct D).
Qed.
Lemma epVal_dist_poly m M ct D e r E : decAll ct D r -> pbound M m -> (forall i, (i < k)%nat -> pbound 1 (S_ i)) -> (forall i j, (i <= k)%nat -> (j < l)%nat -> pbound E (e i j)) ->
  pdist_le Q (epVal N k sk p m ct D e r) (pmul m (gph ct)) (NZ * (M * (eps * (1 + kZ * NZ))) + rowNoise (kZ + 1) E).
Proof. intros Hd Hm Hs He. apply epVal_dist; [exact Hd| |exact He]. apply pbound_mul; [exact Hm|now apply (rsum_bound ct D)]. Qed.

(** The message value with the rounding error written out. *)
Definition epExact (m : npoly N) (ct : list (list Z)) (D e : nat -> nat -> npoly N) (r : nat -> npoly N) : npoly N :=
  padd (pmul m (psub (gph ct) (padd (r O) (psum k (fun i => pmul (r (S i)) (S_ i))))))
       (psum (S k) (fun i => psum l (fun j => pmul (D i j) (e i j)))).

Lemma decAll_dD ct : glwe_ct w N k ct -> decAll ct (dD w N p ct) (dR w N p ct).
Proof. intros (L & H) i Hi. apply (pdcmp_spec w N HN p Hok). now apply H. Qed.

Lemma ExternalProd_exact ggsw m e ct out : ggsw_enc w N k p sk ggsw m e -> glwe_ct w N k ct -> gshape N k out ->
  exists D r v, decAll ct D r /\ v = epExact m ct D e r /\
    (glwe_ct w N k (ExternalProdGLWETo w N k p ggsw ct) /\ peq Q (gph (ExternalProdGLWETo w N k p ggsw ct)) v) /\
    (glwe_ct w N k (ExternalProdAddGLWETo w N k p out ggsw ct) /\ peq Q (gph (ExternalProdAddGLWETo w N k p out ggsw ct)) (padd (gph out) v)) /\
    (glwe_ct w N k (ExternalProdSubGLWETo w N k p out ggsw ct) /\ peq Q (gph (ExternalProdSubGLWETo w N k p out ggsw ct)) (psub (gph out) v)).
Proof.
  intros He Hc Ho. exists (dD w N p ct), (dR w N p ct), (epExact m ct (dD w N p ct) e (dR w N p ct)).
  split; [now apply decAll_dD|]. split; [reflexivity|].
  split; [now apply ExternalProdGLWETo_spec|]. split; [now apply ExternalProdAddGLWETo_spec|now apply ExternalProdSubGLWETo_spec].
Qed.
Lemma ExternalProdFFT_exact ggsw m e ct out fd : ggsw_enc w N k p sk ggsw m e -> glwe_ct w N k ct -> gshape N k out ->
  (forall i, (i <= k)%nat -> nth i fd [] = fdigits w p (nth i ct [])) ->
  exists D r v, decAll ct D r /\ v = epExact m ct D e r /\
    (gshape N k (ExternalProdFFTGLWETo N k p ggsw fd) /\ peq Q (gph (ExternalProdFFTGLWETo N k p ggsw fd)) v) /\
    (gshape N k (ExternalProdAddFFTGLWETo N k p out ggsw fd) /\ peq Q (gph (ExternalProdAddFFTGLWETo N k p out ggsw fd)) (padd (gph out) v)) /\
    (gshape N k (ExternalProdSubFFTGLWETo N k p out ggsw fd) /\ peq Q (gph (ExternalProdSubFFTGLWETo N k p out ggsw fd)) (psub (gph out) v)).
Proof.
  intros He Hc Ho Hfd. exists (dD w N p ct), (dR w N p ct), (epExact m ct (dD w N p ct) e (dR w N p ct)).
  pose proof (decAll_dD ct Hc) as Hd. split; [exact Hd|]. split; [reflexivity|].
  assert (forall i, (i <= k)%nat -> is_pdcmp w N p (nth i ct []) (dD w N p ct i) (dR w N p ct i) /\ isd w N p (dD w N p ct i) (nth i fd [])) as H.
  { intros i Hi. split; [apply Hd; exact Hi|]. rewrite (Hfd i Hi). apply isd_fdigits; [exact HN|exact Hok|]. apply Hc. exact Hi. }
  split; [|split].
  - exact (ExternalProdFFT_spec w Hw N HN k sk p Hok ggsw m e ct _ _ fd He H).
  - exact (ExternalProdAddFFT_spec w N HN k sk p out ggsw m e ct _ _ fd Ho He H).
  - exact (ExternalProdSubFFT_spec w N HN k sk p out ggsw m e ct _ _ fd Ho He H).
Qed.
Lemma GadgetProdFFT_exact lev m e c out : glev_enc w N k p sk lev m e -> wpoly w N c -> gshape N k out ->
  exists D r v, is_pdcmp w N p c D r /\ v = padd (pmul m (psub (pol N c) r)) (psum l (fun j => pmul (D j) (e j))) /\
    (gshape N k (GadgetProdFFTGLWETo N k p lev (fdigits w p c)) /\ peq Q (gph (GadgetProdFFTGLWETo N k p lev (fdigits w p c))) v) /\
    (gshape N k (GadgetProdAddFFTGLWETo N k p out lev (fdigits w p c)) /\ peq Q (gph (GadgetProdAddFFTGLWETo N k p out lev (fdigits w p c))) (padd (gph out) v)) /\
    (gshape N k (GadgetProdSubFFTGLWETo N k p out lev (fdigits w p c)) /\ peq Q (gph (GadgetProdSubFFTGLWETo N k p out lev (fdigits w p c))) (psub (gph out) v)).
Proof.
  intros He Hc Ho. exists (dpol w p N c), (gerrp w p N c). eexists.
  pose proof (pdcmp_spec w N HN p Hok c Hc) as Hd. pose proof (isd_fdigits w N HN p Hok c (proj1 Hc)) as Hi. split; [exact Hd|]. split; [reflexivity|].
  split; [|split].
  - exact (GadgetProdFFT_spec w Hw N HN k sk p Hok lev m e _ c _ _ He Hd Hi).
  - exact (GadgetProdAddFFT_spec w N HN k sk p out lev m e _ c _ _ Ho He Hd Hi).
  - exact (GadgetProdSubFFT_spec w N HN k sk p out lev m e _ c _ _ Ho He Hd Hi).
Qed.
(** Accumulating variants are exactly out +- product. *)
Lemma ExternalProdAdd_value out ggsw ct i : (i <= k)%nat -> nth i (ExternalProdAddGLWETo w N k p out ggsw ct) [] = vadd w (nth i out []) (nth i (ExternalProdGLWETo w N k p ggsw ct) []).
Proof. intros Hi. unfold ExternalProdAddGLWETo, ExternalProdGLWETo, gInvAdd, gInv. now rewrite !nth_tab by lia. Qed.
Lemma ExternalProdSub_value out ggsw ct i : (i <= k)%nat -> nth i (ExternalProdSubGLWETo w N k p out ggsw ct) [] = vsub w (nth i out []) (nth i (ExternalProdGLWETo w N k p ggsw ct) []).
Proof. intros Hi. unfold ExternalProdSubGLWETo, ExternalProdGLWETo, gInvSub, gInv. now rewrite !nth_tab by lia. Qed.
Lemma ExternalProd_bound_const ggsw c e ct E : ggsw_enc w N k p sk ggsw (pconst c) e -> glwe_ct w N k ct -> (forall i, (i < k)%nat -> pbound 1 (S_ i)) ->
  (forall i j, (i <= k)%nat -> (j < l)%nat -> pbound E (e i j)) ->
  pdist_le Q (gph (ExternalProdGLWETo w N k p ggsw ct)) (pscale c (gph ct)) (Z.abs c * (eps * (1 + kZ * NZ)) + rowNoise (kZ + 1) E).
Proof.
  intros He Hc Hs HE. destruct (ExternalProdGLWETo_spec w Hw N HN k sk p Hok ggsw _ e ct He Hc) as (A & B).
  eapply pdist_le_peq; [symmetry; exact B|reflexivity|]. apply epVal_dist_const; [now apply decAll_dD|exact Hs|exact HE].
Qed.
Lemma ExternalProd_bound_poly ggsw m M e ct E : ggsw_enc w N k p sk ggsw m e -> pbound M m -> glwe_ct w N k ct -> (forall i, (i < k)%nat -> pbound 1 (S_ i)) ->
  (forall i j, (i <= k)%nat -> (j < l)%nat -> pbound E (e i j)) ->
  pdist_le Q (gph (ExternalProdGLWETo w N k p ggsw ct)) (pmul m (gph ct)) (NZ * (M * (eps * (1 + kZ * NZ))) + rowNoise (kZ + 1) E).
Proof.
  intros He Hm Hc Hs HE. destruct (ExternalProdGLWETo_spec w Hw N HN k sk p Hok ggsw _ e ct He Hc) as (A & B).
  eapply pdist_le_peq; [symmetry; exact B|reflexivity|]. apply epVal_dist_poly; [now apply decAll_dD|exact Hm|exact Hs|exact HE].
Qed.

(** Gadget product with a plain polynomial. *)
Lemma GadgetProd_exact lev m e c out : glev_enc w N k p sk lev m e -> wpoly w N c -> gshape N k out ->
  exists D r v, is_pdcmp w N p c D r /\ v = padd (pmul m (psub (pol N c) r)) (psum l (fun j => pmul (D j) (e j))) /\
    (glwe_ct w N k (GadgetProdGLWETo w N k p lev c) /\ peq Q (gph (GadgetProdGLWETo w N k p lev c)) v) /\
    (glwe_ct w N k (GadgetProdAddGLWETo w N k p out lev c) /\ peq Q (gph (GadgetProdAddGLWETo w N k p out lev c)) (padd (gph out) v)) /\
    (glwe_ct w N k (GadgetProdSubGLWETo w N k p out lev c) /\ peq Q (gph (GadgetProdSubGLWETo w N k p out lev c)) (psub (gph out) v)).
Proof.
  intros He Hc Ho. exists (dpol w p N c), (gerrp w p N c). eexists.
  pose proof (pdcmp_spec w N HN p Hok c Hc) as Hd. split; [exact Hd|]. split; [reflexivity|].
  destruct (GadgetProdFFT_spec w Hw N HN k sk p Hok lev m e _ c _ (fdigits w p c) He Hd (isd_fdigits w N HN p Hok c (proj1 Hc))) as (A & B).
  destruct (gInv_spec w Hw N HN k sk _ A) as (X1 & Y1). destruct (gInvAdd_spec w Hw N HN k sk _ _ Ho A) as (X2 & Y2). destruct (gInvSub_spec w Hw N HN k sk _ _ Ho A) as (X3 & Y3).
  split; [split; [exact X1|]|split; (split; [assumption|])].
  - unfold GadgetProdGLWETo. rewrite Y1. exact B.
  - unfold GadgetProdAddGLWETo. rewrite Y2, B. reflexivity.
  - unfold GadgetProdSubGLWETo. rewrite Y3, B. reflexivity.
Qed.

(** ** CMux *)
Lemma CMux_exact s out c0 c1 ggsw m e : glwe_ct w N k (s out) -> glwe_ct w N k (s c0) -> glwe_ct w N k (s c1) -> out <> c1 ->
  ggsw_enc w N k p sk ggsw m e ->
  let s' := CMuxTo w N k p s out c0 c1 ggsw in
  glwe_ct w N k (s' out) /\ (forall y, y <> out -> s' y = s y) /\
  exists (D : nat -> nat -> npoly N) (r : nat -> npoly N),
    (forall i, (i <= k)%nat -> (forall j, (j < l)%nat -> pbound (2 ^ (g_logBase p - 1)) (D i j)) /\ pbound eps (r i)) /\
    peq Q (gph (s' out)) (padd (gph (s c0)) (padd (pmul m (psub (psub (gph (s c1)) (gph (s c0))) (padd (r O) (psum k (fun i => pmul (r (S i)) (S_ i))))))
       (psum (S k) (fun i => psum l (fun j => pmul (D i j) (e i j)))))).
Proof.
  intros Wo W0 W1 Hne He. destruct (CMuxTo_spec w Hw N HN k sk p Hok s out c0 c1 ggsw m e Wo W0 W1 Hne He) as (A & B & C). cbv zeta in *.
  split; [exact A|]. split; [exact C|]. set (df := cdiff w k (s c0) (s c1)) in *.
  destruct (cdiff_spec w Hw N HN k sk (s c0) (s c1) (glwe_shape w N k _ W0) (glwe_shape w N k _ W1)) as (X & Y). fold df in X, Y.
  exists (dD w N p df), (dR w N p df). split.
  - intros i Hi. destruct (decAll_dD df X i Hi) as (U1 & U2 & U3). split; assumption.
  - rewrite B. unfold epVal, dsum. rewrite Y. reflexivity.
Qed.
Lemma CMux_bound s out c0 c1 ggsw c e E : glwe_ct w N k (s out) -> glwe_ct w N k (s c0) -> glwe_ct w N k (s c1) -> out <> c1 ->
  (c = 0 \/ c = 1) -> ggsw_enc w N k p sk ggsw (pconst c) e -> (forall i, (i < k)%nat -> pbound 1 (S_ i)) ->
  (forall i j, (i <= k)%nat -> (j < l)%nat -> pbound E (e i j)) ->
  pdist_le Q (gph (CMuxTo w N k p s out c0 c1 ggsw out)) (gph (s (if c =? 0 then c0 else c1))) (eps * (1 + kZ * NZ) + rowNoise (kZ + 1) E).
Proof.
  intros Wo W0 W1 Hne Hc He Hs HE. destruct (CMuxTo_spec w Hw N HN k sk p Hok s out c0 c1 ggsw _ e Wo W0 W1 Hne He) as (A & B & _). cbv zeta in *.
  set (df := cdiff w k (s c0) (s c1)) in *.
  destruct (cdiff_spec w Hw N HN k sk (s c0) (s c1) (glwe_shape w N k _ W0) (glwe_shape w N k _ W1)) as (X & Y). fold df in X, Y.
  destruct (epVal_dist_const c df (dD w N p df) e (dR w N p df) E (decAll_dD df X) Hs HE) as (r & R1 & R2).
  exists r. split.
  - rewrite B, <- R1, (pscale_mul Q c (gph df)), Y.
    match goal with |- context [epVal N k sk p ?a ?b ?c ?d ?e] => generalize (epVal N k sk p a b c d e); intros ev end. destruct Hc as [-> | ->].
    + change (0 =? 0) with true. cbv iota. assert (peq Q (pconst 0) (@pzero N)) as -> by (intros x; apply eqm_eq; cbn [cf pconst pscale pzero]; ring). ring.
    + change (1 =? 0) with false. cbv iota. assert (peq Q (pconst 1) (@pone N)) as -> by (intros x; apply eqm_eq; cbn [cf pconst pscale]; ring). ring.
  - apply (pbound_le (Z.abs c * (eps * (1 + kZ * NZ)) + rowNoise (kZ + 1) E)); [|exact R2].
    assert (0 <= eps * (1 + kZ * NZ)) by (apply Z.mul_nonneg_nonneg; [apply Z.div_pos; [apply Z.pow_nonneg; lia|lia]|lia]).
    destruct Hc as [-> | ->]; [change (Z.abs 0) with 0|change (Z.abs 1) with 1]; lia.
Qed.

(** ** Key switching *)
Lemma KeySwitch_exact skIn out ct ksk e : (1 <= length skIn)%nat -> gshape N k out -> glwe_ct w N (length skIn) ct -> gksk_enc w N k p sk skIn ksk e ->
  glwe_ct w N k (KeySwitchGLWETo w N k p out ct ksk) /\
  exists D r, (forall i, (i < length skIn)%nat -> is_pdcmp w N p (nth (S i) ct []) (D i) (r i)) /\
  peq Q (gph (KeySwitchGLWETo w N k p out ct ksk))
    (padd (psub (gphase N (length skIn) skIn ct) (psum (length skIn) (fun i => pmul (pol N (nth i skIn [])) (r i))))
          (psum (length skIn) (fun i => psum l (fun j => pmul (D i j) (e i j))))).
Proof.
  intros H1 Ho Hc Hk. destruct (KeySwitchGLWETo_spec w Hw N HN k sk p Hok skIn out ct ksk e H1 Ho Hc Hk) as (A & B). split; [exact A|].
  exists (fun i => dD w N p ct (S i)), (fun i => dR w N p ct (S i)). split; [|exact B].
  intros i Hi. apply (pdcmp_spec w N HN p Hok). apply Hc. lia.
Qed.
Lemma KeySwitch_bound skIn out ct ksk e E : (1 <= length skIn)%nat -> gshape N k out -> glwe_ct w N (length skIn) ct -> gksk_enc w N k p sk skIn ksk e ->
  (forall i, (i < length skIn)%nat -> pbound 1 (pol N (nth i skIn []))) -> (forall i j, (i < length skIn)%nat -> (j < l)%nat -> pbound E (e i j)) ->
  pdist_le Q (gph (KeySwitchGLWETo w N k p out ct ksk)) (gphase N (length skIn) skIn ct)
    (Z.of_nat (length skIn) * (NZ * eps) + rowNoise (Z.of_nat (length skIn)) E).
Proof.
  intros H1 Ho Hc Hk Hs HE. destruct (KeySwitch_exact skIn out ct ksk e H1 Ho Hc Hk) as (A & D & r & Hd & B).
  exists (padd (popp (psum (length skIn) (fun i => pmul (pol N (nth i skIn [])) (r i)))) (psum (length skIn) (fun i => dsum N p (D i) (e i)))). split.
  - rewrite B. unfold dsum. ring.
  - apply pbound_add.
    + apply pbound_opp. apply pbound_psum. intros i Hi. apply (pbound_le (NZ * (1 * eps))); [lia|]. apply pbound_mul; [now apply Hs|now apply Hd].
    + unfold SpecGLWE.rowNoise. apply pbound_psum. intros i Hi. apply (pbound_dsum w N p _ _ E (nth (S i) ct []) (r i)); [now apply Hd|]. intros j Hj. now apply HE.
Qed.

(** ** Sample extraction *)
Notation flat := (flat N).
Lemma AsLWEKeyTo_spec skOut : (length skOut = length sk * N)%nat -> (forall i, (i < length sk)%nat -> length (nth i sk []) = N) ->
  flat sk (AsLWEKeyTo N skOut sk).
Proof.
  intros Lo Hs. unfold AsLWEKeyTo. set (n := length sk) in *.
  set (P := fun (m : nat) (o : list Z) => (m <= n)%nat -> length o = (n * N)%nat /\ forall i j, (i < m)%nat -> (j < N)%nat -> nthZ o (i * N + j) = nthZ (nth i sk []) j).
  match goal with |- flat sk (forN 0 n ?f skOut) => enough (P n (forN 0 n f skOut)) as HP by (apply HP; lia) end.
  apply (forN_ind P); unfold P.
  - intros _. split; [exact Lo|]. intros; lia.
  - intros m o Hm IH _. destruct (IH ltac:(lia)) as (A & B). cbn [Nat.add].
    assert ((m * N + N <= n * N)%nat) as Hle by nia.
    assert (length (firstn (m * N) o) = (m * N)%nat) as L1 by (rewrite firstn_length; lia).
    assert (length (firstn N (skipn (m * N) o)) = N) as L2 by (rewrite firstn_length, skipn_length; lia).
    rewrite (go_copy_full 0) by (rewrite L2; symmetry; apply Hs; lia).
    split.
    + rewrite !app_length, L1, Hs, skipn_length by lia. lia.
    + intros i j Hi Hj. destruct (Nat.eq_dec i m) as [->|Hne].
      * rewrite nthZ_app_r by lia. rewrite nthZ_app_l by (rewrite Hs; lia). f_equal. lia.
      * assert ((i * N + j < m * N)%nat) by nia. rewrite nthZ_app_l by lia. rewrite nthZ_firstn by lia. apply B; lia.
Qed.

Lemma AsLWECiphertextTo_nth idx out ct : length ct = S k -> (idx < N)%nat -> length out = S (k * N) ->
  length (AsLWECiphertextTo w N idx out ct) = S (k * N) /\
  nthZ (AsLWECiphertextTo w N idx out ct) 0 = nthZ (nth 0 ct []) idx /\
  forall i j, (i < k)%nat -> (j < N)%nat -> nthZ (AsLWECiphertextTo w N idx out ct) (1 + i * N + j) =
    if (j <=? idx)%nat then nthZ (nth (S i) ct []) (idx - j) else wrap w (- nthZ (nth (S i) ct []) (idx + N - j)).
Proof.
  intros Lc Hx Lo. unfold AsLWECiphertextTo. rewrite Lc. replace (S k - 1)%nat with k by lia.
  set (val := fun i j => if (j <=? idx)%nat then nthZ (nth (S i) ct []) (idx - j) else wrap w (- nthZ (nth (S i) ct []) (idx + N - j))).
  set (o0 := upd out 0 (nthZ (nth 0 ct []) idx)).
  set (P := fun (m : nat) (o : list Z) => (m <= k)%nat -> length o = S (k * N) /\ nthZ o 0 = nthZ (nth 0 ct []) idx /\
    forall i j, (i < m)%nat -> (j < N)%nat -> nthZ o (1 + i * N + j) = val i j).
  match goal with |- context [forN 0 k ?f o0] => enough (P k (forN 0 k f o0)) as HP by (apply HP; lia) end.
  apply (forN_ind P); unfold P.
  - intros _. unfold o0. split; [now rewrite upd_length|]. split; [rewrite nthZ_upd by lia; reflexivity|]. intros; lia.
  - intros m o Hm IH _. destruct (IH ltac:(lia)) as (A & B & C). clear IH. cbn [Nat.add].
    assert ((m * N + N <= k * N)%nat) as Hle by nia.
    set (P2 := fun (lo q : nat) (o2 : list Z) => (q <= N)%nat -> length o2 = S (k * N) /\ nthZ o2 0 = nthZ (nth 0 ct []) idx /\
      (forall i j, (i < m)%nat -> (j < N)%nat -> nthZ o2 (1 + i * N + j) = val i j) /\ forall j, (j < q)%nat -> nthZ o2 (1 + m * N + j) = val m j).
    assert (forall q o2 v, (q < N)%nat -> v = val m q -> P2 O q o2 -> P2 O (S q) (upd o2 (1 + m * N + q) v)) as Step.
    { intros q o2 v Hq -> H2 Hq'. destruct (H2 ltac:(lia)) as (X1 & X2 & X3 & X4). split; [now rewrite upd_length|]. split; [rewrite nthZ_upd by lia; exact X2|]. split.
      - intros i j Hi Hj. assert ((i * N + j < m * N)%nat) by nia. rewrite nthZ_upd by lia. destruct (Nat.eqb_spec (1 + i * N + j) (1 + m * N + q)); [lia|now apply X3].
      - intros j Hj. rewrite nthZ_upd by lia. destruct (Nat.eqb_spec (1 + m * N + j) (1 + m * N + q)) as [E|E]; [f_equal; lia|apply X4; lia]. }
    set (o1 := forN 0 (S idx) (fun j o => upd o (S (m * N + j)) (nthZ (nth (S m) ct []) (idx - j))) o).
    assert (P2 O (S idx) o1) as H1.
    { unfold o1. apply (forN_ind (fun q => P2 O q)).
      - intros _. split; [exact A|]. split; [exact B|]. split; [exact C|]. intros; lia.
      - intros q o2 Hq H2. cbn [Nat.add]. apply (Step q o2); [lia| |exact H2]. unfold val. replace (q <=? idx)%nat with true by (symmetry; apply Nat.leb_le; lia). reflexivity. }
    assert (P2 O N (forN (S idx) (N - S idx) (fun j o => upd o (S (m * N + j)) (wrap w (- nthZ (nth (S m) ct []) (idx + N - j)))) o1)) as H2.
    { assert (P2 O (S idx + (N - S idx))%nat (forN (S idx) (N - S idx) (fun j o => upd o (S (m * N + j)) (wrap w (- nthZ (nth (S m) ct []) (idx + N - j)))) o1)) as H2.
      { apply (forN_ind (fun q => P2 O (S idx + q)%nat)); [replace (S idx + 0)%nat with (S idx) by lia; exact H1|].
        intros q o2 Hq H2. replace (S idx + S q)%nat with (S (S idx + q)) by lia. apply (Step (S idx + q)%nat o2); [lia| |exact H2]. unfold val.
        replace (S idx + q <=? idx)%nat with false by (symmetry; apply Nat.leb_gt; lia). reflexivity. }
      replace (S idx + (N - S idx))%nat with N in H2 by lia. exact H2. }
    destruct (H2 ltac:(lia)) as (X1 & X2 & X3 & X4). split; [exact X1|]. split; [exact X2|]. intros i j Hi Hj.
    destruct (Nat.eq_dec i m) as [->|Hne]; [now apply X4|apply X3; lia].
Qed.

Lemma extract_spec s idx out ct : length sk = k -> flat sk s -> glwe_ct w N k ct -> (idx < N)%nat -> length out = S (k * N) ->
  lwe_ct w (k * N) (AsLWECiphertextTo w N idx out ct) /\
  eqm Q (phase s (AsLWECiphertextTo w N idx out ct)) (cf (gph ct) (Z.of_nat idx)).
Proof.
  intros Lk (Ls & Hs) (Lc & Hc) Hx Lo. destruct (AsLWECiphertextTo_nth idx out ct Lc Hx Lo) as (A & B & C).
  set (r := AsLWECiphertextTo w N idx out ct) in *. split.
  - split; [exact A|]. apply Forall_forall. intros x Hin. destruct (In_nth r x 0 Hin) as (q & Hq & <-). fold (nthZ r q).
    destruct q as [|q]; [rewrite B; apply (nth_word N HN w); [apply Hc; lia|exact Hx]|].
    assert (q = q / N * N + q mod N)%nat as Eq by (pose proof (Nat.div_mod q N ltac:(lia)); lia).
    pose proof (Nat.mod_upper_bound q N ltac:(lia)) as Hm.
    assert (q / N < k)%nat as Hd by (apply Nat.div_lt_upper_bound; lia).
    replace (S q) with (1 + q / N * N + q mod N)%nat by lia. rewrite C by assumption. destruct (Nat.leb_spec (q mod N) idx).
    + apply (nth_word N HN w); [apply Hc; lia|lia].
    + apply wrap_word. lia.
  - unfold phase. rewrite Ls, Lk, zsum_concat, B. unfold gphase. cbn [cf padd]. rewrite cf_psum, cf_pol_at by assumption.
    apply eqm_add; [reflexivity|]. apply zsum_eqm. intros i Hi. cbn [cf pmul].
    assert (forall x y : Z, x = y -> eqm Q x y) as Heq by (intros; now apply eqm_eq).
    transitivity (zsum N (fun j => cf (pol N (nth (S i) ct [])) (Z.of_nat idx - Z.of_nat j) * cf (S_ i) (Z.of_nat j))).
    + apply zsum_eqm. intros j Hj. replace (S (i * N + j)) with (1 + i * N + j)%nat by lia. rewrite C, Hs by lia. rewrite (cf_pol_at N HN (nth i sk []) j Hj).
      apply eqm_mul; [|reflexivity]. destruct (Nat.leb_spec j idx).
      * replace (Z.of_nat idx - Z.of_nat j) with (Z.of_nat (idx - j)) by lia. now rewrite cf_pol_at by lia.
      * rewrite wrap_eqm. replace (Z.of_nat idx - Z.of_nat j) with (Z.of_nat (idx + N - j) - NZ) by lia. rewrite cf_anti_sub, cf_pol_at by lia. reflexivity.
    + pose proof (pmul_comm Q (S_ i) (pol N (nth (S i) ct [])) (Z.of_nat idx)) as Hcm. cbn [cf pmul] in Hcm. rewrite <- Hcm. apply Heq. apply zsum_ext. intros j Hj. ring.
Qed.
End W.

(** ** Whole GLWE messages *)
Lemma EncDec_GLWE_gen w (Hw : 0 < w) N (HN : (0 < N)%nat) k sk logN (HlN : 0 < splitBitsShort logN) U G mm scale buf buf2 out mo messages st ct' st' :
  0 < mm -> skey N k sk -> gshape N k out -> length buf = N -> length buf2 = N -> length mo = N ->
  (forall i, (i < N)%nat -> DecodeLWECustom w (wrap w (EncodeLWECustom w (nthZ messages i) mm scale + G (snd st + i)%nat)) mm scale = Some (nthZ messages i mod mm)) ->
  EncryptGLWETo w logN N k U G mm scale (map (fwdFFT w) sk) buf out messages st = (ct', st') ->
  exists o, DecryptGLWETo w logN N k mm scale (map (fwdFFT w) sk) buf2 mo ct' = Some o /\ length o = N /\ forall i, (i < N)%nat -> nthZ o i = nthZ messages i mod mm.
Proof.
  intros Hmm Hs Ho Lb Lb2 Lm Hdec E. unfold EncryptGLWETo in E. unfold DecryptGLWETo.
  destruct (EncodeGLWE_spec w N buf messages mm scale Lb) as (L1 & L2).
  pose proof (EncDec_GLWE w Hw N HN k sk logN HlN U G out _ st ct' st' buf2 Hs Ho L1 Lb2 E) as Hd.
  destruct (DecodeGLWE_spec w N mo (DecryptGLWEPhaseTo w logN N k (map (fwdFFT w) sk) buf2 ct') mm scale (fun i => nthZ messages i mod mm) Hmm) as (o & E2 & L & V & _).
  - intros i Hi. rewrite Lm in Hi. rewrite Hd, L2 by lia. unfold wrap in Hdec. specialize (Hdec i ltac:(lia)).
    destruct (Nat.ltb_spec i (length messages)) as [Hlt|Hge]; [exact Hdec|].
    assert (nthZ messages i = 0) as E0 by (unfold nthZ; apply nth_overflow; lia). rewrite E0 in *.
    replace (EncodeLWECustom w 0 mm scale) with 0 in Hdec; [exact Hdec|]. unfold EncodeLWECustom, wrap. rewrite Zmod_0_l.
    destruct (mm =? 0); rewrite ?Zmod_0_l, ?Z.mul_0_l, ?Zmod_0_l; reflexivity.
  - rewrite Lm in *. exists o. split; [exact E2|]. split; [exact L|]. intros i Hi. apply V. lia.
Qed.
Lemma EncDec_GLWE_small w n N (HN : (0 < N)%nat) k sk logN (HlN : 0 < splitBitsShort logN) U G buf buf2 out mo messages st ct' st' :
  0 < w <= 52 -> 0 <= n <= w - 2 -> let mm := 2 ^ n in let scale := scaleOf w mm in
  skey N k sk -> gshape N k out -> length buf = N -> length buf2 = N -> length mo = N ->
  (forall i, (i < N)%nat -> - scale <= 2 * G (snd st + i)%nat < scale) ->
  EncryptGLWETo w logN N k U G mm scale (map (fwdFFT w) sk) buf out messages st = (ct', st') ->
  exists o, DecryptGLWETo w logN N k mm scale (map (fwdFFT w) sk) buf2 mo ct' = Some o /\ length o = N /\ forall i, (i < N)%nat -> nthZ o i = nthZ messages i mod mm.
Proof.
  intros Hw Hn mm scale Hs Ho L1 L2 L3 HG. apply EncDec_GLWE_gen; try assumption; [lia|apply Z.pow_pos_nonneg; lia|].
  intros i Hi. apply decode_params_small; [exact Hw|exact Hn|now apply HG].
Qed.
Lemma EncDec_GLWE_large w n N (HN : (0 < N)%nat) k sk logN (HlN : 0 < splitBitsShort logN) U G buf buf2 out mo messages st ct' st' :
  0 < w <= 64 -> 0 <= n <= w - 2 -> let mm := 2 ^ n in let scale := scaleOf w mm in
  skey N k sk -> gshape N k out -> length buf = N -> length buf2 = N -> length mo = N ->
  (forall i, (i < N)%nat -> 2 * Z.abs (G (snd st + i)%nat) + 2 ^ 13 + 2 < scale) ->
  EncryptGLWETo w logN N k U G mm scale (map (fwdFFT w) sk) buf out messages st = (ct', st') ->
  exists o, DecryptGLWETo w logN N k mm scale (map (fwdFFT w) sk) buf2 mo ct' = Some o /\ length o = N /\ forall i, (i < N)%nat -> nthZ o i = nthZ messages i mod mm.
Proof.
  intros Hw Hn mm scale Hs Ho L1 L2 L3 HG. apply EncDec_GLWE_gen; try assumption; [lia|apply Z.pow_pos_nonneg; lia|].
  intros i Hi. apply decode_params_large; [exact Hw|exact Hn|now apply HG].
Qed.
