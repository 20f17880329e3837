(** Lemmas: arithmetic on transformed GLWE ciphertexts. *)
From Verif Require Import Base NegaRing ModelNum ModelPoly ModelFFT ModelGLWE ModelFFTOps SpecNum SpecPoly SpecFFT SpecGLWE SpecFFTOps PfNum PfVec PfPoly PfFFT2 PfFFT3 PfFFT4 PfFFT6 PfPerm PfGLWE PfGLWE3.
From Coq Require Import Lia.
Open Scope Z_scope.

(** The phase of any k+1 polynomials is linear. *)
Section Ph.
Variables (N k : nat) (Q : Z) (sk : list (list Z)).
Add Ring nring : (@npoly_ring N Q) (setoid (@peq_equiv N Q) (@npoly_ring_ext N Q)).
Definition ph (P : nat -> npoly N) : npoly N := padd (P 0%nat) (psum k (fun i => pmul (P (S i)) (pol N (nth i sk [])))).
Lemma ph_ext P R : (forall i, (i <= k)%nat -> peq Q (P i) (R i)) -> peq Q (ph P) (ph R).
Proof.
  intros H. unfold ph. rewrite (H 0%nat ltac:(lia)). apply padd_proper; [reflexivity|].
  assert (forall m, (m <= k)%nat -> peq Q (psum m (fun i => pmul (P (S i)) (pol N (nth i sk [])))) (psum m (fun i => pmul (R (S i)) (pol N (nth i sk []))))) as G; [|apply G; lia].
  induction m as [|m IH]; intros Hm; [reflexivity|]. cbn [psum]. rewrite IH, (H (S m)) by lia. reflexivity.
Qed.
Lemma ph_add P R : peq Q (ph (fun i => padd (P i) (R i))) (padd (ph P) (ph R)).
Proof.
  unfold ph. assert (forall m, peq Q (psum m (fun i => pmul (padd (P (S i)) (R (S i))) (pol N (nth i sk [])))) (padd (psum m (fun i => pmul (P (S i)) (pol N (nth i sk [])))) (psum m (fun i => pmul (R (S i)) (pol N (nth i sk [])))))) as G; [|rewrite G; ring].
  induction m as [|m IH]; cbn [psum]; [ring|]. rewrite IH. ring.
Qed.
Lemma ph_mul P q : peq Q (ph (fun i => pmul (P i) q)) (pmul (ph P) q).
Proof.
  unfold ph. assert (forall m, peq Q (psum m (fun i => pmul (pmul (P (S i)) q) (pol N (nth i sk [])))) (pmul (psum m (fun i => pmul (P (S i)) (pol N (nth i sk [])))) q)) as G; [|rewrite G; ring].
  induction m as [|m IH]; cbn [psum]; [ring|]. rewrite IH. ring.
Qed.
Lemma ph_opp P : peq Q (ph (fun i => popp (P i))) (popp (ph P)).
Proof. transitivity (ph (fun i => pmul (P i) (popp pone))); [apply ph_ext; intros; ring|]. rewrite ph_mul. ring. Qed.
Lemma ph_sub P R : peq Q (ph (fun i => psub (P i) (R i))) (psub (ph P) (ph R)).
Proof. transitivity (ph (fun i => padd (P i) (popp (R i)))); [apply ph_ext; intros; ring|]. rewrite ph_add, ph_opp. ring. Qed.
Lemma ph_scale P c : peq Q (ph (fun i => pscale c (P i))) (pscale c (ph P)).
Proof. rewrite pscale_mul. transitivity (ph (fun i => pmul (P i) (pconst c))); [apply ph_ext; intros; rewrite pscale_mul; ring|]. rewrite ph_mul. ring. Qed.
End Ph.

(** Multiplication by a complex constant. *)
Section Cmplx.
Variable A : arith.
Notation F := (car A).
Variables (N lm : nat) (z : Z -> F * F).
Hypothesis Hex : exact A N z.
Hypothesis Hlm : (3 <= lm)%nat.
Hypothesis HN : N = (2 ^ S lm)%nat.
Let rth := ex_ring A N z Hex.
Add Ring Fring : rth.
Lemma oddp r : 1 - 4 * r = 2 * (- 2 * r) + 1.
Proof. lia. Qed.
Lemma gauss_eval a b r : evalZ A N z (gauss N a b) (1 - 4 * r) = (aofZ A a, aofZ A b).
Proof.
  unfold gauss, pconst. rewrite oddp. rewrite (evalZ_add A N z Hex), !(evalZ_scale A N z Hex), (evalZ_one A N lm z Hex Hlm HN), (evalZ_mono A N lm z Hex Hlm HN).
  rewrite <- oddp. assert (E : Z.of_nat N / 2 * (1 - 4 * r) = Z.of_nat N / 2 + 2 * Z.of_nat N * (- r)).
  { assert (Z.of_nat N = 2 * (Z.of_nat N / 2)) as E2; [|set (h := Z.of_nat N / 2) in *; nia]. apply Z.div_exact; [lia|]. rewrite HN, Nat.pow_succ_r', Nat2Z.inj_mul, Z.mul_comm. apply Z.mod_mul. lia. }
  rewrite E, (z_eqm A N lm z Hex Hlm HN _ (Z.of_nat N / 2)) by (exists (- r); lia). rewrite (ex_zI A N z Hex).
  unfold cadd, cmul, cofF, c1, cI. cbn [fst snd]. f_equal; ring.
Qed.
Lemma cmplxMul_transform o v p a b : length o = N -> transform A N z v p -> transform A N z (cmplxMulCmplxTo A o v (aofZ A a, aofZ A b)) (pmul p (gauss N a b)).
Proof.
  intros Lo H. apply (transform_at A N lm z Hex Hlm HN) in H. destruct H as [L E].
  destruct (cmplxLoop_spec A N lm z Hex Hlm HN (fun _ x _ => cmulG A x (aofZ A a, aofZ A b)) o v v Lo) as [HL HE]. apply (at_transform A N lm z Hex Hlm HN); [exact HL|]. intros k Hk.
  unfold cmplxMulCmplxTo. rewrite HE, E by exact Hk. rewrite <- (gauss_eval a b (Z.of_nat (bitrev lm k))). rewrite oddp, (evalZ_mul A N lm z Hex Hlm HN). reflexivity.
Qed.
Lemma cmplxMulAdd_transform o v po p a b : transform A N z o po -> transform A N z v p -> transform A N z (cmplxMulAddCmplxTo A o v (aofZ A a, aofZ A b)) (padd po (pmul p (gauss N a b))).
Proof.
  intros Ho H. apply (transform_at A N lm z Hex Hlm HN) in H. destruct H as [L E]. apply (transform_at A N lm z Hex Hlm HN) in Ho. destruct Ho as [Lo Eo].
  destruct (cmplxLoop_spec A N lm z Hex Hlm HN (fun o x _ => cadd2 A o (cmulG A x (aofZ A a, aofZ A b))) o v v Lo) as [HL HE]. apply (at_transform A N lm z Hex Hlm HN); [exact HL|]. intros k Hk.
  unfold cmplxMulAddCmplxTo. rewrite HE, E, Eo by exact Hk. rewrite <- (gauss_eval a b (Z.of_nat (bitrev lm k))). rewrite oddp, (evalZ_add A N z Hex), (evalZ_mul A N lm z Hex Hlm HN). reflexivity.
Qed.
Lemma cmplxMulSub_transform o v po p a b : transform A N z o po -> transform A N z v p -> transform A N z (cmplxMulSubCmplxTo A o v (aofZ A a, aofZ A b)) (psub po (pmul p (gauss N a b))).
Proof.
  intros Ho H. apply (transform_at A N lm z Hex Hlm HN) in H. destruct H as [L E]. apply (transform_at A N lm z Hex Hlm HN) in Ho. destruct Ho as [Lo Eo].
  destruct (cmplxLoop_spec A N lm z Hex Hlm HN (fun o x _ => csub2 A o (cmulG A x (aofZ A a, aofZ A b))) o v v Lo) as [HL HE]. apply (at_transform A N lm z Hex Hlm HN); [exact HL|]. intros k Hk.
  unfold cmplxMulSubCmplxTo. rewrite HE, E, Eo by exact Hk. rewrite <- (gauss_eval a b (Z.of_nat (bitrev lm k))). rewrite oddp, (evalZ_sub A N lm z Hex Hlm HN), (evalZ_mul A N lm z Hex Hlm HN). reflexivity.
Qed.
End Cmplx.

Section Ops.
Variable A : arith.
Variables (N k : nat) (z : Z -> car A * car A) (e : evaluator A) (Q : Z).
Hypothesis Hex : exact A N z.
Hypothesis He : NewEvaluator A N = Ok e.
Notation fph := (fct_phase A N z k Q).
Notation tr := (transform A N z).
Add Ring nring2 : (@npoly_ring N Q) (setoid (@peq_equiv N Q) (@npoly_ring_ext N Q)).

Lemma comps_phase sk f o x y (T : nat -> npoly N) q : (forall i, (i <= k)%nat -> tr (f (nth i o []) (nth i x []) (nth i y [])) (T i)) -> peq Q q (ph N k sk T) -> fph sk (comps A k f o x y) q.
Proof.
  intros H E. exists T. split; [|exact E]. intros i Hi. unfold comps. rewrite nth_tab by lia. now apply H.
Qed.
Lemma comps_shape f o x y : (forall i, (i <= k)%nat -> length (f (nth i o []) (nth i x []) (nth i y [])) = N) -> fct_shape N k (comps A k f o x y).
Proof. intros H. unfold comps. split; [apply tab_length|]. intros i Hi. rewrite nth_tab by lia. now apply H. Qed.
Lemma fph_proper sk x p q : peq Q p q -> fph sk x p -> fph sk x q.
Proof. intros E (P & H1 & H2). exists P. split; [exact H1|]. now rewrite <- E. Qed.

(** Operations that overwrite their output. *)
Lemma linear sk o x y px py c : fct_shape N k o -> fph sk x px -> fph sk y py ->
  fph sk (AddFFTGLWETo A k o x y) (padd px py) /\ fph sk (SubFFTGLWETo A k o x y) (psub px py) /\ fph sk (NegFFTGLWETo A k o x) (popp px) /\
  fph sk (FloatMulFFTGLWETo A k o x (aofZ A c)) (pscale c px).
Proof.
  intros [_ Ho] (P & HP & EP) (R & HR & ER).
  assert (W : forall i, (i <= k)%nat -> _) by (intros i Hi; exact (pointwise A N z e Hex He _ _ _ (P i) (R i) c (Ho i Hi) (HP i Hi) (HR i Hi))).
  repeat split.
  - apply (comps_phase _ _ _ _ _ (fun i => padd (P i) (R i))); [intros i Hi; apply (W i Hi)|]. rewrite ph_add, EP, ER. reflexivity.
  - apply (comps_phase _ _ _ _ _ (fun i => psub (P i) (R i))); [intros i Hi; apply (W i Hi)|]. rewrite ph_sub, EP, ER. reflexivity.
  - apply (comps_phase _ _ _ _ _ (fun i => popp (P i))); [intros i Hi; apply (W i Hi)|]. rewrite ph_opp, EP. reflexivity.
  - apply (comps_phase _ _ _ _ _ (fun i => pscale c (P i))); [intros i Hi; apply (W i Hi)|]. rewrite ph_scale, EP. reflexivity.
Qed.
Lemma float_acc sk o x po px c : fph sk o po -> fph sk x px ->
  fph sk (FloatMulAddFFTGLWETo A k o x (aofZ A c)) (padd po (pscale c px)) /\ fph sk (FloatMulSubFFTGLWETo A k o x (aofZ A c)) (psub po (pscale c px)).
Proof.
  intros (P & HP & EP) (R & HR & ER).
  assert (W : forall i, (i <= k)%nat -> _) by (intros i Hi; exact (pointwise_acc A N z e Hex He _ _ _ (P i) (R i) (R i) c (HP i Hi) (HR i Hi) (HR i Hi))).
  split.
  - apply (comps_phase _ _ _ _ _ (fun i => padd (P i) (pscale c (R i)))); [intros i Hi; apply (W i Hi)|]. rewrite ph_add, ph_scale, EP, ER. reflexivity.
  - apply (comps_phase _ _ _ _ _ (fun i => psub (P i) (pscale c (R i)))); [intros i Hi; apply (W i Hi)|]. rewrite ph_sub, ph_scale, EP, ER. reflexivity.
Qed.
Lemma fftpoly sk o x fp px q : fct_shape N k o -> fph sk x px -> tr fp q -> fph sk (FFTPolyMulFFTGLWETo A k o x fp) (pmul px q).
Proof.
  intros [_ Ho] (P & HP & EP) Hq. apply (comps_phase _ _ _ _ _ (fun i => pmul (P i) q)); [intros i Hi; exact (proj1 (proj2 (proj2 (proj2 (pointwise A N z e Hex He _ _ _ (P i) q 0 (Ho i Hi) (HP i Hi) Hq)))))|].
  rewrite ph_mul, EP. reflexivity.
Qed.
Lemma fftpoly_acc sk o x fp po px q : fph sk o po -> fph sk x px -> tr fp q ->
  fph sk (FFTPolyMulAddFFTGLWETo A k o x fp) (padd po (pmul px q)) /\ fph sk (FFTPolyMulSubFFTGLWETo A k o x fp) (psub po (pmul px q)).
Proof.
  intros (P & HP & EP) (R & HR & ER) Hq.
  assert (W : forall i, (i <= k)%nat -> _) by (intros i Hi; exact (pointwise_acc A N z e Hex He _ _ _ (P i) (R i) q 0 (HP i Hi) (HR i Hi) Hq)).
  split.
  - apply (comps_phase _ _ _ _ _ (fun i => padd (P i) (pmul (R i) q))); [intros i Hi; apply (W i Hi)|]. rewrite (ph_add N k Q sk P (fun i => pmul (R i) q)), ph_mul, EP, ER. reflexivity.
  - apply (comps_phase _ _ _ _ _ (fun i => psub (P i) (pmul (R i) q))); [intros i Hi; apply (W i Hi)|]. rewrite (ph_sub N k Q sk P (fun i => pmul (R i) q)), ph_mul, EP, ER. reflexivity.
Qed.
Lemma cmplx sk o x px a b : fct_shape N k o -> fph sk x px -> fph sk (CmplxMulFFTGLWETo A k o x (aofZ A a, aofZ A b)) (pmul px (gauss N a b)).
Proof.
  destruct (NewEvaluator_inv A N z e Hex He) as (lm & Hlm & HN & _).
  intros [_ Ho] (P & HP & EP). apply (comps_phase _ _ _ _ _ (fun i => pmul (P i) (gauss N a b))); [intros i Hi; exact (cmplxMul_transform A N lm z Hex Hlm HN _ _ _ a b (Ho i Hi) (HP i Hi))|].
  rewrite ph_mul, EP. reflexivity.
Qed.
Lemma cmplx_acc sk o x po px a b : fph sk o po -> fph sk x px ->
  fph sk (CmplxMulAddFFTGLWETo A k o x (aofZ A a, aofZ A b)) (padd po (pmul px (gauss N a b))) /\ fph sk (CmplxMulSubFFTGLWETo A k o x (aofZ A a, aofZ A b)) (psub po (pmul px (gauss N a b))).
Proof.
  destruct (NewEvaluator_inv A N z e Hex He) as (lm & Hlm & HN & _).
  intros (P & HP & EP) (R & HR & ER). split.
  - apply (comps_phase _ _ _ _ _ (fun i => padd (P i) (pmul (R i) (gauss N a b)))); [intros i Hi; exact (cmplxMulAdd_transform A N lm z Hex Hlm HN _ _ _ _ a b (HP i Hi) (HR i Hi))|]. rewrite (ph_add N k Q sk P (fun i => pmul (R i) (gauss N a b))), ph_mul, EP, ER. reflexivity.
  - apply (comps_phase _ _ _ _ _ (fun i => psub (P i) (pmul (R i) (gauss N a b)))); [intros i Hi; exact (cmplxMulSub_transform A N lm z Hex Hlm HN _ _ _ _ a b (HP i Hi) (HR i Hi))|]. rewrite (ph_sub N k Q sk P (fun i => pmul (R i) (gauss N a b))), ph_mul, EP, ER. reflexivity.
Qed.

(** Permutations. *)
Hypothesis HN63 : Z.of_nat N < 2 ^ 63.
Lemma permLoop_spec perm o x d (P R T : nat -> npoly N) : length o = S k ->
  (forall i v, (i <= k)%nat -> v = nth i o [] -> exists r, perm v (nth i x []) d = Some r /\ tr r (T i)) ->
  exists o', permLoop A k perm o x d = Some o' /\ length o' = S k /\ forall i, (i <= k)%nat -> tr (nth i o' []) (T i).
Proof.
  intros Lo H. unfold permLoop.
  pose (J := fun (m : nat) (r : option (list (list (car A)))) => exists o', r = Some o' /\ length o' = S k /\
    (forall i, (i < m)%nat -> tr (nth i o' []) (T i)) /\ (forall i, (m <= i)%nat -> nth i o' [] = nth i o [])).
  match goal with |- exists o', ?r = Some o' /\ _ => assert (G : J (S k) r) end.
  { apply (forN_ind J).
    - exists o. split; [reflexivity|]. split; [exact Lo|]. split; [intros; lia|reflexivity].
    - intros m s Hm (o' & -> & L & H1 & H2). rewrite Nat.add_0_l. destruct (H m (nth m o' []) ltac:(lia) (H2 m ltac:(lia))) as (r & -> & Hr).
      exists (upd o' m r). split; [reflexivity|]. split; [rewrite upd_length; exact L|]. split.
      + intros i Hi. destruct (Nat.eq_dec i m) as [-> | D]; [rewrite nth_upd_same by lia; exact Hr|]. rewrite nth_upd_other by exact D. apply H1. lia.
      + intros i Hi. rewrite nth_upd_other by lia. apply H2. lia. }
  destruct G as (o' & -> & L & H1 & _). exists o'. split; [reflexivity|]. split; [exact L|]. intros i Hi. apply H1. lia.
Qed.
Lemma inPlace_spec b x d (T : nat -> npoly N) : length x = S k -> length b = N ->
  (forall i b, (i <= k)%nat -> length b = N -> exists r, PermuteFFTPolyInPlace A N b (nth i x []) d = Some r /\ tr r (T i)) ->
  exists o', PermuteFFTGLWEInPlace A k N b x d = Some o' /\ length o' = S k /\ forall i, (i <= k)%nat -> tr (nth i o' []) (T i).
Proof.
  intros Lo Lb H. unfold PermuteFFTGLWEInPlace.
  pose (J := fun (m : nat) (r : option (list (list (car A)) * list (car A))) => exists o' b', r = Some (o', b') /\ length o' = S k /\ length b' = N /\
    (forall i, (i < m)%nat -> tr (nth i o' []) (T i)) /\ (forall i, (m <= i)%nat -> nth i o' [] = nth i x [])).
  match goal with |- exists o', match ?r with _ => _ end = Some o' /\ _ => assert (G : J (S k) r) end.
  { apply (forN_ind J).
    - exists x, b. split; [reflexivity|]. split; [exact Lo|]. split; [exact Lb|]. split; [intros; lia|reflexivity].
    - intros m s Hm (o' & b' & -> & L & L' & H1 & H2). rewrite Nat.add_0_l. rewrite (H2 m ltac:(lia)). destruct (H m b' ltac:(lia) L') as (r & -> & Hr).
      exists (upd o' m r), r. split; [reflexivity|]. split; [rewrite upd_length; exact L|]. split; [apply Hr|]. split.
      + intros i Hi. destruct (Nat.eq_dec i m) as [-> | D]; [rewrite nth_upd_same by lia; exact Hr|]. rewrite nth_upd_other by exact D. apply H1. lia.
      + intros i Hi. rewrite nth_upd_other by lia. apply H2. lia. }
  destruct G as (o' & b' & -> & L & _ & H1 & _). exists o'. split; [reflexivity|]. split; [exact L|]. intros i Hi. apply H1. lia.
Qed.
Lemma ph_subst sk sk' d P : Z.odd d = true -> (forall i, (i < k)%nat -> peq Q (pol N (nth i sk' [])) (psubst d (pol N (nth i sk [])))) ->
  peq Q (ph N k sk' (fun i => psubst d (P i))) (psubst d (ph N k sk P)).
Proof.
  destruct (NewEvaluator_inv A N z e Hex He) as (lm & Hlm & HN & _). intros Hd Hs.
  assert (HNn : Z.of_nat N = 2 ^ Z.of_nat (S lm)) by (rewrite HN, Nat2Z.inj_pow; reflexivity).
  assert (Hn : 0 <= Z.of_nat (S lm) <= 62) by (rewrite HNn in HN63; apply Z.pow_lt_mono_r_iff in HN63; lia).
  unfold ph. rewrite (psubst_add N _ Hn HNn) by exact Hd. apply padd_proper; [reflexivity|].
  assert (G : forall m, (m <= k)%nat -> peq Q (psum m (fun i => pmul (psubst d (P (S i))) (pol N (nth i sk' [])))) (psubst d (psum m (fun i => pmul (P (S i)) (pol N (nth i sk [])))))); [|apply G; lia].
  induction m as [|m IH]; intros Hm; cbn [psum].
  - symmetry. assert (E : peq Q (psubst d (padd (@pzero N) pzero)) (padd (psubst d pzero) (psubst d pzero))) by (apply (psubst_add N _ Hn HNn); exact Hd).
    assert (E2 : peq Q (psubst d (padd (@pzero N) pzero)) (psubst d pzero)) by (apply (psubst_proper N _ Hn HNn); [exact Hd|ring]).
    set (s := psubst d pzero) in *. transitivity (psub (padd s s) s); [ring|]. rewrite <- E, E2. ring.
  - rewrite (psubst_add N _ Hn HNn), (psubst_mul N _ Hn HNn), IH, (Hs m) by (exact Hd || lia). reflexivity.
Qed.
Lemma permute sk sk' o x b px d : fct_shape N k o -> length x = S k -> length b = N -> fph sk x px -> Z.odd d = true ->
  (forall i, (i < k)%nat -> peq Q (pol N (nth i sk' [])) (psubst d (pol N (nth i sk [])))) ->
  (exists o', PermuteFFTGLWETo A k N o x d = Some o' /\ fph sk' o' (psubst d px)) /\
  (exists o', PermuteFFTGLWEInPlace A k N b x d = Some o' /\ fph sk' o' (psubst d px)) /\
  (forall po, fph sk' o po -> (exists o', PermuteAddFFTGLWETo A k N o x d = Some o' /\ fph sk' o' (padd po (psubst d px))) /\
                              (exists o', PermuteSubFFTGLWETo A k N o x d = Some o' /\ fph sk' o' (psub po (psubst d px)))).
Proof.
  intros [Lo Ho] Lx Lb (P & HP & EP) Hd Hs. pose proof (ph_subst sk sk' d P Hd Hs) as E.
  destruct (NewEvaluator_inv A N z e Hex He) as (lm & Hlm & HN & _).
  assert (HNn : Z.of_nat N = 2 ^ Z.of_nat (S lm)) by (rewrite HN, Nat2Z.inj_pow; reflexivity).
  assert (Hn : 0 <= Z.of_nat (S lm) <= 62) by (rewrite HNn in HN63; apply Z.pow_lt_mono_r_iff in HN63; lia).
  assert (E' : peq Q (psubst d px) (ph N k sk' (fun i => psubst d (P i)))) by (rewrite E; apply (psubst_proper N _ Hn HNn); [exact Hd|exact EP]).
  split; [|split].
  - destruct (permLoop_spec (PermuteFFTPolyTo A N) o x d P P (fun i => psubst d (P i)) Lo) as (o' & E1 & _ & H1).
    + intros i v Hi ->. apply (PermuteFFTPolyTo_spec A N z e Hex He); auto.
    + exists o'. split; [exact E1|]. exists (fun i => psubst d (P i)). split; [exact H1|exact E'].
  - destruct (inPlace_spec b x d (fun i => psubst d (P i)) Lx Lb) as (o' & E1 & _ & H1).
    + intros i v Hi Lv. apply (PermuteFFTPolyTo_spec A N z e Hex He); auto.
    + exists o'. split; [exact E1|]. exists (fun i => psubst d (P i)). split; [exact H1|exact E'].
  - intros po (R & HR & ER). split.
    + destruct (permLoop_spec (PermuteAddFFTPolyTo A N) o x d P P (fun i => padd (R i) (psubst d (P i))) Lo) as (o' & E1 & _ & H1).
      * intros i v Hi ->. apply (PermuteAddFFTPolyTo_spec A N z e Hex He); auto.
      * exists o'. split; [exact E1|]. eexists. split; [exact H1|]. change (peq Q (padd po (psubst d px)) (ph N k sk' (fun i => padd (R i) (psubst d (P i))))). rewrite (ph_add N k Q sk' R (fun i => psubst d (P i))), <- E', ER. reflexivity.
    + destruct (permLoop_spec (PermuteSubFFTPolyTo A N) o x d P P (fun i => psub (R i) (psubst d (P i))) Lo) as (o' & E1 & _ & H1).
      * intros i v Hi ->. apply (PermuteSubFFTPolyTo_spec A N z e Hex He); auto.
      * exists o'. split; [exact E1|]. eexists. split; [exact H1|]. change (peq Q (psub po (psubst d px)) (ph N k sk' (fun i => psub (R i) (psubst d (P i))))). rewrite (ph_sub N k Q sk' R (fun i => psubst d (P i))), <- E', ER. reflexivity.
Qed.
End Ops.

Lemma permute_panics A N k o b x d : Z.odd d = false ->
  PermuteFFTGLWETo A k N o x d = None /\ PermuteAddFFTGLWETo A k N o x d = None /\ PermuteSubFFTGLWETo A k N o x d = None /\ PermuteFFTGLWEInPlace A k N b x d = None.
Proof.
  intros Hd.
  assert (G : forall perm, (forall o x, perm o x d = None) -> permLoop A k perm o x d = None).
  { intros perm H. unfold permLoop.
    pose (J := fun (m : nat) (r : option (list (list (car A)))) => (0 < m)%nat -> r = None).
    match goal with |- ?r = None => assert (J (S k) r) as X end; [|apply X; lia].
    apply (forN_ind J); [unfold J; lia|]. intros m s Hm Hs _. destruct s as [s|]; [rewrite H; reflexivity|reflexivity]. }
  split; [|split; [|split]]; try (apply G; intros o' x'; apply (permute_even_all A N o' x' d Hd)).
  unfold PermuteFFTGLWEInPlace.
  pose (J := fun (m : nat) (r : option (list (list (car A)) * list (car A))) => (0 < m)%nat -> r = None).
  match goal with |- match ?r with _ => _ end = None => assert (J (S k) r) as X end; [|rewrite (X ltac:(lia)); reflexivity].
  apply (forN_ind J); [unfold J; lia|]. intros m s Hm Hs _. destruct s as [[s b']|]; [|reflexivity]. unfold PermuteFFTPolyInPlace. rewrite (proj1 (permute_even_all A N b' (nth (0 + m) s []) d Hd)). reflexivity.
Qed.

Section Conv.
Variable A : arith.
Variables (N k : nat) (z : Z -> car A * car A) (e : evaluator A) (w : Z).
Hypothesis Hex : exact A N z.
Hypothesis He : NewEvaluator A N = Ok e.
Hypothesis Hw : 0 < w.
Notation Q := (2 ^ w).
Notation fph := (fct_phase A N z k Q).
Notation tr := (transform A N z).
Add Ring nring3 : (@npoly_ring N Q) (setoid (@peq_equiv N Q) (@npoly_ring_ext N Q)).
Lemma Npos : (0 < N)%nat.
Proof. destruct (NewEvaluator_inv A N z e Hex He) as (lm & Hlm & HN & _). rewrite HN. apply Nat.neq_0_lt_0, Nat.pow_nonzero. lia. Qed.
Lemma pol_fwd p : length p = N -> peq Q (pol N (fwdFFT w p)) (pol N p).
Proof. intros H. pose proof Npos. now apply pol_fwdFFT. Qed.
Lemma fwd_tr b p : length b = N -> length p = N -> tr (FwdFFTTo A e false w b p) (pol N (fwdFFT w p)).
Proof. intros. now apply (FwdFFTTo_spec A N z e Hex He false). Qed.
Lemma polymul sk o b x px p : fct_shape N k o -> length b = N -> length p = N -> fph sk x px ->
  fph sk (PolyMulFFTGLWETo A k e w b o x p) (pmul px (pol N p)).
Proof.
  intros Ho Lb Lp Hx. apply (fph_proper A N k z Q sk _ (pmul px (pol N (fwdFFT w p)))); [now rewrite pol_fwd|].
  apply (fftpoly A N k z e Q Hex He); auto. now apply fwd_tr.
Qed.
Lemma polymul_acc sk o b x po px p : fph sk o po -> length b = N -> length p = N -> fph sk x px ->
  fph sk (PolyMulAddFFTGLWETo A k e w b o x p) (padd po (pmul px (pol N p))) /\ fph sk (PolyMulSubFFTGLWETo A k e w b o x p) (psub po (pmul px (pol N p))).
Proof.
  intros Ho Lb Lp Hx. destruct (fftpoly_acc A N k z e Q Hex He sk o x _ po px _ Ho Hx (fwd_tr b p Lb Lp)) as [H1 H2].
  split; [apply (fph_proper A N k z Q sk _ (padd po (pmul px (pol N (fwdFFT w p)))))|apply (fph_proper A N k z Q sk _ (psub po (pmul px (pol N (fwdFFT w p)))))]; try assumption; now rewrite pol_fwd.
Qed.
(** mktfhe: any multiplication into the components. *)
Lemma mkPolyMul_spec sk mul o b x p q (T : nat -> npoly N) : length o = S k -> length b = N -> length p = N ->
  (forall i fp, (i <= k)%nat -> tr fp (pol N (fwdFFT w p)) -> tr (mul (nth i o []) (nth i x []) fp) (T i)) -> peq Q q (ph N k sk T) ->
  fph sk (mkPolyMul A k mul e w b o x p) q.
Proof.
  intros Lo Lb Lp H Hq. unfold mkPolyMul.
  pose (J := fun (m : nat) (r : list (list (car A)) * list (car A)) => length (fst r) = S k /\ length (snd r) = N /\
    (forall i, (i < m)%nat -> tr (nth i (fst r) []) (T i)) /\ (forall i, (m <= i)%nat -> nth i (fst r) [] = nth i o [])).
  match goal with |- fct_phase _ _ _ _ _ _ (fst ?r) _ => assert (G : J (S k) r) end.
  { apply (forN_ind J).
    - split; [exact Lo|]. split; [exact Lb|]. split; [intros; lia|reflexivity].
    - intros m [o' b'] Hm (L & L' & H1 & H2). rewrite Nat.add_0_l. cbn [fst snd] in *. pose proof (fwd_tr b' p L' Lp) as Hf. split; [cbn [fst]; rewrite upd_length; exact L|]. split; [apply Hf|]. cbn [fst]. split.
      + intros i Hi. destruct (Nat.eq_dec i m) as [-> | D]; [rewrite nth_upd_same by lia; rewrite (H2 m ltac:(lia)); apply H; [lia|exact Hf]|]. rewrite nth_upd_other by exact D. apply H1. lia.
      + intros i Hi. rewrite nth_upd_other by lia. apply H2. lia. }
  destruct G as (L & _ & H1 & _). exists T. split; [|exact Hq]. intros i Hi. apply H1. lia.
Qed.
Lemma mk_polymul sk o b x px p : fct_shape N k o -> length b = N -> length p = N -> fph sk x px ->
  fph sk (mkPolyMul A k (mulCmplxTo A) e w b o x p) (pmul px (pol N p)).
Proof.
  intros [Lo Ho] Lb Lp (P & HP & EP). apply (mkPolyMul_spec sk _ o b x p _ (fun i => pmul (P i) (pol N (fwdFFT w p))) Lo Lb Lp).
  - intros i fp Hi Hf. exact (proj1 (proj2 (proj2 (proj2 (pointwise A N z e Hex He _ _ _ (P i) _ 0 (Ho i Hi) (HP i Hi) Hf))))).
  - rewrite ph_mul, EP, pol_fwd by exact Lp. reflexivity.
Qed.
Lemma mk_polymul_acc sk o b x po px p : length o = S k -> fph sk o po -> length b = N -> length p = N -> fph sk x px ->
  fph sk (mkPolyMul A k (mulAddCmplxTo A) e w b o x p) (padd po (pmul px (pol N p))) /\ fph sk (mkPolyMul A k (mulSubCmplxTo A) e w b o x p) (psub po (pmul px (pol N p))).
Proof.
  intros Lo (P & HP & EP) Lb Lp (R & HR & ER). split.
  - apply (mkPolyMul_spec sk _ o b x p _ (fun i => padd (P i) (pmul (R i) (pol N (fwdFFT w p)))) Lo Lb Lp).
    + intros i fp Hi Hf. apply (pointwise_acc A N z e Hex He _ _ _ (P i) (R i) _ 0 (HP i Hi) (HR i Hi) Hf).
    + rewrite (ph_add N k Q sk P (fun i => pmul (R i) (pol N (fwdFFT w p)))), ph_mul, EP, ER, pol_fwd by exact Lp. reflexivity.
  - apply (mkPolyMul_spec sk _ o b x p _ (fun i => psub (P i) (pmul (R i) (pol N (fwdFFT w p)))) Lo Lb Lp).
    + intros i fp Hi Hf. apply (pointwise_acc A N z e Hex He _ _ _ (P i) (R i) _ 0 (HP i Hi) (HR i Hi) Hf).
    + rewrite (ph_sub N k Q sk P (fun i => pmul (R i) (pol N (fwdFFT w p)))), ph_mul, EP, ER, pol_fwd by exact Lp. reflexivity.
Qed.
Lemma forward sk o ct : fct_shape N k o -> glwe_ct w N k ct -> fct_shape N k (FwdFFTGLWETo A k e w o ct) /\ fph sk (FwdFFTGLWETo A k e w o ct) (gphase N k sk ct).
Proof.
  intros [Lo Ho] [Lc Hc]. unfold FwdFFTGLWETo.
  assert (W : forall i, (i <= k)%nat -> tr (nth i (tab (S k) (fun i => FwdFFTTo A e false w (nth i o []) (nth i ct []))) []) (pol N (fwdFFT w (nth i ct [])))).
  { intros i Hi. rewrite nth_tab by lia. apply fwd_tr; [now apply Ho|apply (Hc i Hi)]. }
  split; [split; [apply tab_length|intros i Hi; apply (W i Hi)]|].
  exists (fun i => pol N (fwdFFT w (nth i ct []))). split; [exact W|]. change (peq Q (ph N k sk (fun i => pol N (nth i ct []))) (ph N k sk (fun i => pol N (fwdFFT w (nth i ct []))))).
  apply ph_ext. intros i Hi. rewrite pol_fwd; [reflexivity|apply (Hc i Hi)].
Qed.
Lemma inverse sk o x px : (forall y, around A (aofZ A y) = y) -> glwe_ct w N k o -> fph sk x px ->
  glwe_ct w N k (InvFFTGLWETo A k e w o x) /\ peq Q (gphase N k sk (InvFFTGLWETo A k e w o x)) px.
Proof.
  intros Hr [Lo Ho] (P & HP & EP). unfold InvFFTGLWETo.
  assert (W : forall i, (i <= k)%nat -> nth i (tab (S k) (fun i => InvFFTTo A e false w (nth i o []) (nth i x []))) [] = tab N (fun j => wrap w (cf (P i) (Z.of_nat j)))).
  { intros i Hi. rewrite nth_tab by lia. apply (InvFFTTo_spec A N z e Hex He Hr false w _ _ (P i) ltac:(lia)); [apply (Ho i Hi)|now apply HP]. }
  split; [split; [apply tab_length|intros i Hi; rewrite (W i Hi); now apply wpoly_tab]|].
  rewrite EP. set (L := tab (S k) _) in *. change (peq Q (ph N k sk (fun i => pol N (nth i L []))) (ph N k sk P)).
  apply ph_ext. intros i Hi. rewrite (W i Hi). apply pol_peq; [exact Npos|]. intros j Hj. rewrite nthZ_tab by exact Hj. apply wrap_eqm.
Qed.
End Conv.
