(** Lemmas: products on both kernels, and their phases. *)
From Coq Require Import Floats.SpecFloat.
From Verif Require Import Base NegaRing ModelNum ModelVec ModelPoly ModelAsm ModelF64 ModelFFT ModelF64Arith ModelSplitFFT ModelFused ModelFusedMul ModelGadget ModelGLWE ModelProdFFT SpecNum SpecVec SpecPoly SpecFFT SpecFFTReal SpecRound SpecFused SpecGadget SpecGLWE SpecProdFFT
  PfNum PfVec PfPoly PfSplit PfSplitF64b PfRoundEx PfValid PfSumK PfGadget PfGLWE PfGLWE3 PfGLWE4 PfBFV PfBoot2 PfProdFFT.
From Coq Require Import Reals Lra Lia.
Open Scope Z_scope.

Lemma cexpT_valid : cexp_valid cexpT.
Proof. intros a b. unfold cexpT. cbn [fst snd]. split; apply BN_valid. Qed.

Section Phase.
Variables (w : Z) (N k : nat).
Hypothesis HN : (0 < N)%nat.
Notation Q := (2 ^ w).
Add Ring nringPF : (@npoly_ring N Q) (setoid (@peq_equiv N Q) (@npoly_ring_ext N Q)).
Lemma close_ct D a b : close w N k D a b -> glwe_ct w N k a.
Proof. intros [L H]. split; [exact L|]. intros i Hi. now apply H. Qed.
Lemma close_pdist D a b i : close w N k D a b -> gshape N k b -> (i <= k)%nat -> pdist_le Q (pol N (nth i a [])) (pol N (nth i b [])) D.
Proof.
  intros [_ H] [_ Hb] Hi. destruct (H i Hi) as [[La _] Hd]. apply pdist_of_cf; [exact HN|]. intros t Ht. destruct (Hd t Ht) as (d & D1 & D2). exists d. split; [|exact D1].
  rewrite !cf_pol_at by assumption. rewrite D2. apply wrap_eqm.
Qed.
Lemma close_phase D sk a b : close w N k D a b -> gshape N k b -> (forall i, (i < k)%nat -> pbound 1 (pol N (nth i sk []))) ->
  pdist_le Q (gphase N k sk a) (gphase N k sk b) (D * (1 + Z.of_nat k * Z.of_nat N)).
Proof.
  intros Hc Hb Hs. unfold gphase. destruct (close_pdist D a b O Hc Hb ltac:(lia)) as (r0 & E0 & B0).
  assert (G : forall n, (n <= k)%nat -> pdist_le Q (psum n (fun i => pmul (pol N (nth (S i) a [])) (pol N (nth i sk [])))) (psum n (fun i => pmul (pol N (nth (S i) b [])) (pol N (nth i sk [])))) (Z.of_nat n * (Z.of_nat N * D))).
  { induction n as [|n IH]; intros Hn; [apply pdist_refl; lia|]. destruct (IH ltac:(lia)) as (r & E & B). destruct (close_pdist D a b (S n) Hc Hb ltac:(lia)) as (r1 & E1 & B1).
    exists (padd r (pmul r1 (pol N (nth n sk [])))). split.
    - cbn [psum]. rewrite <- E, <- E1. ring.
    - replace (Z.of_nat (S n) * (Z.of_nat N * D)) with (Z.of_nat n * (Z.of_nat N * D) + Z.of_nat N * (D * 1)) by nia. apply pbound_add; [exact B|]. apply pbound_mul; [exact B1|apply Hs; lia]. }
  destruct (G k (le_n k)) as (r & E & B). exists (padd r0 r). split; [rewrite <- E0, <- E; ring|].
  replace (D * (1 + Z.of_nat k * Z.of_nat N)) with (D + Z.of_nat k * (Z.of_nat N * D)) by ring. now apply pbound_add.
Qed.
End Phase.

Section Both.
Variable cexp : Z -> Z -> spec_float * spec_float.
Notation A := (f64Arith cexp).
Hypothesis Hexp : cexp_near A finF val 17 (5 * powerRZ 2 (-52)).
Hypothesis Hval : cexp_valid cexp.
Variables (N : nat) (logN : Z).
Hypothesis HN : Z.of_nat N = 2 ^ logN.
Hypothesis HlogN : 4 <= logN <= 15.
Variable e : evaluator A.
Hypothesis Hev : NewEvaluator A N = Ok e.
Variable K : kern (car A).
Hypothesis HK : K = goKern A e \/ K = avxKern cexp e.
Variables (w : Z) (k : nat) (p : gadget).
Hypothesis Hw : 0 < w <= 64.
Hypothesis Hp : gadget_ok w p.

Lemma both_near lm : (3 <= lm)%nat -> (lm <= 14)%nat -> N = (2 ^ S lm)%nat -> kernNear cexp N lm K.
Proof.
  intros L3 L14 EN. destruct HK as [-> | ->]; [exact (go_kernNear cexp N lm Hexp Hval L3 L14 EN e Hev)|exact (avx_kernNear cexp N lm Hexp Hval L3 L14 EN e Hev)].
Qed.
Lemma level64 : Z.of_nat (g_level p) <= 64.
Proof. destruct Hp as (H1 & _ & _ & _ & _ & H6). nia. Qed.
Lemma gadget_main kd fb o out lev c D : (forall j i, (j < g_level p)%nat -> (i <= k)%nat -> wpoly w N (nth i (nth j lev []) [])) -> length c = N ->
  (forall j, (j < g_level p)%nat -> valid64 N (nth j fb [])) -> (forall i, (i <= k)%nat -> valid64 N (nth i o [])) -> (forall i, (i <= k)%nat -> length (nth i out []) = N) ->
  prodErr_le w (g_logBase p) logN N (g_level p) D -> let levZ := map (map (fwdFFT w)) lev in
  close w N k D (GadgetProdGLWEToK K w k kd p fb o out (toFFTGLev K w lev) c)
    (match kd with None => GadgetProdGLWETo w N k p levZ c | Some false => GadgetProdAddGLWETo w N k p out levZ c | Some true => GadgetProdSubGLWETo w N k p out levZ c end).
Proof.
  intros HL Lc Hfb Ho Hout HD levZ. destruct (pow2_lm N logN HN HlogN) as (lm & L3 & L14 & EN & EL).
  pose proof (gadget_close cexp N lm L3 L14 EN K (both_near lm L3 L14 EN) w k p ltac:(lia) Hp logN kd fb o out lev c D EL HL Lc Hfb (fun i Hi => Ho i ltac:(lia)) Hout ltac:(pose proof level64; lia) HD) as G.
  destruct kd as [[|]|]; exact G.
Qed.
Lemma ext_main kd fm o out ggsw ct D : (forall r j i, (r <= k)%nat -> (j < g_level p)%nat -> (i <= k)%nat -> wpoly w N (nth i (nth j (nth r ggsw []) []) [])) -> (forall i, (i <= k)%nat -> length (nth i ct []) = N) ->
  valid64 N fm -> (forall i, (i <= k)%nat -> valid64 N (nth i o [])) -> (forall i, (i <= k)%nat -> length (nth i out []) = N) ->
  Z.of_nat (S k * g_level p) <= 1000000 -> prodErr_le w (g_logBase p) logN N (S k * g_level p) D -> let ggswZ := map (map (map (fwdFFT w))) ggsw in
  close w N k D (ExternalProdGLWEToK K w k kd p fm o out (toFFTGGSW K w ggsw) ct)
    (match kd with None => ExternalProdGLWETo w N k p ggswZ ct | Some false => ExternalProdAddGLWETo w N k p out ggswZ ct | Some true => ExternalProdSubGLWETo w N k p out ggswZ ct end).
Proof.
  intros HG Lc [Lf Vf] Ho Hout Hn HD ggswZ. destruct (pow2_lm N logN HN HlogN) as (lm & L3 & L14 & EN & EL).
  pose proof (ext_close cexp N lm L3 L14 EN K (both_near lm L3 L14 EN) w k p ltac:(lia) Hp logN kd fm o out ggsw ct D EL (fun r Hr j i Hj Hi => HG r j i Hr Hj Hi) Lc Lf Vf (fun i Hi => Ho i ltac:(lia)) Hout Hn HD) as G.
  destruct kd as [[|]|]; exact G.
Qed.
Lemma N0b : (0 < N)%nat.
Proof. clear - HN HlogN. pose proof (Z.pow_pos_nonneg 2 logN). lia. Qed.
Lemma ext_phase fm o out ggsw ct D sk m M (er : nat -> nat -> npoly N) E : (forall r j i, (r <= k)%nat -> (j < g_level p)%nat -> (i <= k)%nat -> wpoly w N (nth i (nth j (nth r ggsw []) []) [])) ->
  ggsw_enc w N k p sk (map (map (map (fwdFFT w))) ggsw) m er -> pbound M m -> glwe_ct w N k ct -> (forall i, (i < k)%nat -> pbound 1 (pol N (nth i sk []))) ->
  (forall i j, (i <= k)%nat -> (j < g_level p)%nat -> pbound E (er i j)) -> valid64 N fm -> (forall i, (i <= k)%nat -> valid64 N (nth i o [])) -> gshape N k out ->
  Z.of_nat (S k * g_level p) <= 1000000 -> prodErr_le w (g_logBase p) logN N (S k * g_level p) D ->
  let r := ExternalProdGLWEToK K w k None p fm o out (toFFTGGSW K w ggsw) ct in
  glwe_ct w N k r /\
  pdist_le (2 ^ w) (gphase N k sk r) (pmul m (gphase N k sk ct))
    (D * (1 + Z.of_nat k * Z.of_nat N) + (Z.of_nat N * (M * (2 ^ (w - Z.of_nat (g_level p) * g_logBase p) / 2 * (1 + Z.of_nat k * Z.of_nat N))) + rowNoise N p (Z.of_nat k + 1) E)).
Proof.
  intros HG He Hm Hc Hs HE Hf Ho Hout Hn HD r.
  pose proof (ext_main None fm o out ggsw ct D HG (fun i Hi => proj1 (proj2 Hc i Hi)) Hf Ho (proj2 Hout) Hn HD) as C. cbn zeta in C. fold r in C.
  split; [exact (close_ct w N k D r _ C)|]. destruct (ExternalProd_exact w ltac:(lia) N N0b k sk p Hp _ m er ct out He Hc Hout) as (D' & r' & v & _ & _ & (Hct & _) & _).
  eapply pdist_trans; [apply (close_phase w N k N0b D sk r _ C); [|exact Hs]|].
  - split; [apply Hct|]. intros i Hi. apply Hct, Hi.
  - exact (ExternalProd_bound_poly w ltac:(lia) N N0b k sk p Hp _ m M er ct E He Hm Hc Hs HE).
Qed.
End Both.
