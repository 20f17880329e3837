From Verif Require Import Base NegaRing SpecNum ModelNum PfNum ModelVec SpecVec PfVec ModelPoly SpecPoly PfPoly PfPerm PfSplit ModelGadget SpecGadget PfGadget ModelLWE SpecLWE PfLWE PfKS PfKS2 ModelGLWE SpecGLWE PfGLWE PfGLWE2 PfGLWE3 PfGLWE4 PfBoot2 ModelBFV SpecBFV PfBFV PfBFV2 PfBFV3.

Section Mul.
Variables (w : Z) (N k : nat).
Hypothesis Hw : 0 < w.
Hypothesis HN : (0 < N)%nat.
Notation Q := (2 ^ w).
Add Ring nringQ : (@npoly_ring N Q) (setoid (@peq_equiv N Q) (@npoly_ring_ext N Q)).
Variable scale : Z.
Hypothesis Hsc : 0 < scale.
Variable sk : list (list Z).
Notation gph := (gphase N k sk).
Notation S_ i := (pol N (nth i sk [])).
Notation sg := (sg N sk).
Notation NZ := (Z.of_nat N).
Notation kZ := (Z.of_nat k).
Variable p : gadget.
Hypothesis Hok : gadget_ok w p.
Notation l := (g_level p).
Notation eps := (2 ^ (w - Z.of_nat l * g_logBase p) / 2).
Hypothesis Hbin : forall i, (i < k)%nat -> pbound 1 (S_ i).

Notation prs := (pairs (S k)).
Notation at_ L q := (pol N (nth q L [])).

(** Relinearisation of a tensor held in the buffer. *)
Lemma Relin_spec rlk buf out ct E : relin_key w N k p sk rlk E -> gshape N k out ->
  length (bb_tensor buf) = length prs -> (forall q, (q < length prs)%nat -> wpoly w N (nth q (bb_tensor buf) [])) ->
  glwe_ct w N k (RelinearizeTo w N k p rlk buf out ct) /\
  pdist_le Q (gph (RelinearizeTo w N k p rlk buf out ct))
    (psum (length prs) (fun q => pmul (at_ (bb_tensor buf) q) (pmul (sg (fst (nth q prs (0, 0)%nat))) (sg (snd (nth q prs (0, 0)%nat))))))
    (switchNoise w N (length (pairs k)) p NZ E).
Proof.
  intros (Lr & Hr) (Lo & Ho) Lt Wt. unfold RelinearizeTo. set (T := bb_tensor buf) in *. rewrite tensorRank_pairs.
  assert (length prs = S k + length (pairs k))%nat as Lp by (rewrite pairs_S, app_length, !map_length, seq_length; reflexivity).
  replace (length prs - S k)%nat with (length (pairs k)) by lia. set (m := length (pairs k)) in *.
  destruct (rows_loop [] (fun i r => go_copy r (nth i T [])) 0 (S k) out ltac:(lia)) as (L0 & V0). cbv beta in V0.
  set (o0 := forN 0 (S k) _ out) in *.
  assert (forall i, (i <= k)%nat -> nth i o0 [] = nth i T []) as V1.
  { intros i Hi. rewrite V0. replace ((0 <=? i)%nat && (i <? 0 + S k)%nat) with true by (symmetry; apply andb_true_iff; split; [apply Nat.leb_le|apply Nat.ltb_lt]; lia).
    apply (go_copy_full 0). rewrite Ho by exact Hi. symmetry. apply Wt. lia. }
  assert (glwe_ct w N k o0) as W0 by (split; [lia|]; intros i Hi; rewrite V1 by exact Hi; apply Wt; lia).
  pose (M := fun ii => pmul (sg (fst (nth (S k + ii) prs (0, 0)%nat))) (sg (snd (nth (S k + ii) prs (0, 0)%nat)))).
  assert (forall ii, (ii < m)%nat -> pbound NZ (M ii)) as BM.
  { intros ii Hii. unfold M. rewrite nth_pairs_S by exact Hii. cbn [fst snd sg].
    pose proof (proj1 (Forall_forall _ _) (pairs_lt k) (nth ii (pairs k) (0, 0)%nat) (nth_In _ _ Hii)) as (X & Y). replace NZ with (NZ * (1 * 1)) by ring. apply pbound_mul; apply Hbin; assumption. }
  pose (B1 := NZ * (NZ * eps) + rowNoise N p 1 E).
  pose (J := fun q (o : list (list Z)) => (q <= m)%nat -> glwe_ct w N k o /\
    pdist_le Q (gph o) (padd (gph o0) (psum q (fun ii => pmul (at_ T (S k + ii)) (M ii)))) (Z.of_nat q * B1)).
  match goal with |- glwe_ct _ _ _ ?g /\ _ => assert (J m g) as X end.
  { apply (forN_ind J); unfold J.
    - intros _. split; [exact W0|]. exists pzero. split; [cbn [psum]; ring|]. apply pbound_zero.
    - intros q o Hq IH _. destruct (IH ltac:(lia)) as (Wo & Do). rewrite Nat.add_0_l. destruct (Hr q Hq) as (e & He).
      destruct (nth q (pairs k) (0, 0)%nat) as [i j] eqn:Eij. destruct He as (He & HE).
      destruct (GadgetProd_exact w Hw N HN k sk p Hok (nth q rlk []) _ e (nth (S k + q) T []) o He (Wt (S k + q)%nat ltac:(lia)) (glwe_shape w N k _ Wo)) as (D & r & v & Hd & Ev & _ & (W2 & P2) & _).
      split; [exact W2|].
      assert (peq Q (pmul (S_ i) (S_ j)) (M q)) as EM. { unfold M. rewrite nth_pairs_S by exact Hq. rewrite Eij. reflexivity. }
      destruct Do as (d & Ed & Bd). exists (padd d (padd (popp (pmul (M q) r)) (dsum N p D e))). split.
      + rewrite P2, Ev, EM. cbn [psum]. assert (peq Q (gph o) (padd d (padd (gph o0) (psum q (fun ii => pmul (at_ T (S k + ii)) (M ii)))))) as -> by (rewrite <- Ed; ring). unfold dsum. ring.
      + replace (Z.of_nat (S q) * B1) with (Z.of_nat q * B1 + B1) by lia. apply pbound_add; [exact Bd|]. unfold B1. apply pbound_add.
        * apply pbound_opp, pbound_mul; [apply BM; exact Hq|apply Hd].
        * unfold rowNoise. rewrite Z.mul_1_l. apply (pbound_dsum w N p _ _ E (nth (S k + q) T []) r Hd HE). }
  destruct (X ltac:(lia)) as (Wf & Df). split; [exact Wf|].
  eapply pdist_le_le; [|eapply pdist_le_peq; [reflexivity| |exact Df]].
  - unfold switchNoise, B1, rowNoise. apply Z.eq_le_incl. ring.
  - rewrite Lp.
    assert (forall a b (F : nat -> npoly N), peq Q (psum (a + b) F) (padd (psum a F) (psum b (fun i => F (a + i)%nat)))) as Spl.
    { intros a b F. induction b as [|b IH]; [rewrite Nat.add_0_r; cbn [psum]; ring|]. rewrite Nat.add_succ_r. cbn [psum]. rewrite IH. ring. }
    rewrite Spl. apply padd_proper; [|reflexivity]. rewrite (gphase_sg N k sk Q o0). apply psum_proper. intros i Hi.
    rewrite nth_pairs_0 by lia. cbn [fst snd sg]. rewrite V1 by lia. fold (sg i). ring.
Qed.

Lemma tensor_wpoly ct0 ct1 q : (q < length prs)%nat -> wpoly w N (nth q (tensorL w N k scale ct0 ct1) []).
Proof.
  intros Hq. unfold tensorL. rewrite (nth_map_lt _ prs q _ (0, 0)%nat) by exact Hq. unfold invFFT. split; [now rewrite !map_length, (entL_length N HN)|].
  apply Forall_forall. intros x Hx. apply in_map_iff in Hx. destruct Hx as (y & <- & _). apply wrap_word. lia.
Qed.

(** Scale times the phase of the product is the product of the lifted phases, up to the rounding and the relinearisation. *)
Lemma Mul_lift rlk buf out ct0 ct1 E : relin_key w N k p sk rlk E -> gshape N k out ->
  length (bb_tensor buf) = length prs -> length (bb_fftTensor buf) = length prs ->
  let r := BFVMulTo w N k scale p rlk buf out ct0 ct1 in
  glwe_ct w N k (fst r) /\ length (bb_tensor (snd r)) = length prs /\ length (bb_fftTensor (snd r)) = length prs /\ bb_permute (snd r) = bb_permute buf /\ bb_pack (snd r) = bb_pack buf /\
  exists X, peq (scale * Q) (pscale scale (gph (fst r))) (padd (pmul (lift w N k sk ct0) (lift w N k sk ct1)) X) /\
    forall t, 2 * Z.abs (cf X t) <= scale * (1 + kZ * NZ + Z.of_nat (length (pairs k)) * (NZ * NZ)) + 2 * scale * switchNoise w N (length (pairs k)) p NZ E.
Proof.
  intros Hr Ho L1 L2. unfold BFVMulTo. destruct (TensorTo_eq w N k HN scale buf (bb_tensor buf) ct0 ct1 L1 L2) as (f & Lf & ->). cbn [snd fst bb_tensor bb_fftTensor bb_permute bb_pack].
  set (T := tensorL w N k scale ct0 ct1). assert (length T = length prs) as LT by apply map_length.
  destruct (Relin_spec rlk (mkBFVBuf T f (bb_permute buf) (bb_pack buf)) out T E Hr Ho LT (tensor_wpoly ct0 ct1)) as (W & (d & Ed & Bd)). cbn [bb_tensor] in *.
  set (o := RelinearizeTo w N k p rlk _ out T) in *. split; [exact W|]. split; [exact LT|]. split; [exact Lf|]. split; [reflexivity|]. split; [reflexivity|].
  set (f0 := map (fwdFFT w) ct0) in *. set (f1 := map (fwdFFT w) ct1) in *.
  destruct (tensor_round w N k Hw HN scale Hsc f0 f1) as (rho & Hrho & Brho).
  set (MM := fun ij : nat * nat => pmul (sg (fst ij)) (sg (snd ij))).
  exists (padd (psumL prs (fun ij => pmul (rho ij) (MM ij))) (pscale scale d)). split.
  - transitivity (pscale scale (padd (psum (length prs) (fun q => pmul (at_ T q) (MM (nth q prs (0, 0)%nat)))) d)).
    { apply peq_scale_up. rewrite <- Ed. unfold MM. ring. }
    transitivity (padd (psumL prs (fun ij => pmul (pscale scale (pol N (invFFT w (map (fun x => roundQuot x scale) (entL N f0 f1 (fst ij) (snd ij)))))) (MM ij))) (pscale scale d)).
    { transitivity (padd (pscale scale (psum (length prs) (fun q => pmul (at_ T q) (MM (nth q prs (0, 0)%nat))))) (pscale scale d)).
      - intros x. apply eqm_eq. cbn [cf pscale padd]. ring.
      - apply padd_proper; [|reflexivity]. rewrite (psumL_nth N (scale * Q) (0, 0)%nat prs). rewrite pscale_psum. apply psum_proper. intros q Hq.
        unfold T, tensorL. rewrite (nth_map_lt _ prs q _ (0, 0)%nat) by exact Hq. fold f0 f1. now rewrite pscale_mul_l. }
    rewrite (psumL_proper N (scale * Q) prs _ (fun ij => padd (pmul (pol N (entL N f0 f1 (fst ij) (snd ij))) (MM ij)) (pmul (rho ij) (MM ij)))).
    2:{ intros ij Hij. rewrite (Hrho ij Hij). apply pmul_add_l. }
    rewrite psumL_add. assert (peq (scale * Q) (psumL prs (fun ij => pmul (pol N (entL N f0 f1 (fst ij) (snd ij))) (MM ij))) (pmul (gph f0) (gph f1))) as -> by (apply peq_0_any; exact (tensor_exact N k HN sk f0 f1)). unfold lift. fold f0 f1.
    rewrite padd_assoc. reflexivity.
  - intros t. cbn [cf padd pscale]. specialize (Bd t).
    assert (2 * Z.abs (cf (psumL prs (fun ij => pmul (rho ij) (MM ij))) t) <= scale * (1 + kZ * NZ + Z.of_nat (length (pairs k)) * (NZ * NZ))) as Hsum.
    { assert (peq 0 (psumL prs (fun ij => pmul (rho ij) (MM ij))) (padd (padd (pmul (rho (0, 0)%nat) pone) (psumL (seq 0 k) (fun j => pmul (rho (0%nat, S j)) (S_ j))))
         (psumL (pairs k) (fun ij => pmul (rho (S (fst ij), S (snd ij))) (pmul (S_ (fst ij)) (S_ (snd ij))))))) as ->%(fun H => eqm0_eq _ _ (H t)).
      { rewrite pairs_S, psumL_app, !psumL_map. apply padd_proper; [|reflexivity].
        change (seq 0 (S k)) with (0%nat :: seq 1 k). rewrite <- seq_shift. cbn [psumL fold_right]. fold (psumL (map S (seq 0 k)) (fun j => pmul (rho (0%nat, j)) (MM (0%nat, j)))). rewrite psumL_map.
        unfold MM. cbn [fst snd sg]. rewrite (pmul_1_l 0 pone). apply padd_proper; [reflexivity|]. apply psumL_proper. intros j _. now rewrite (pmul_1_l 0 (S_ j)). }
      cbn [cf padd].
      assert (cf (pmul (rho (0, 0)%nat) pone) t = cf (rho (0, 0)%nat) t) as ->.
      { apply eqm0_eq. rewrite (pmul_comm 0 (rho (0, 0)%nat) pone t). apply pmul_1_l. }
      pose proof (Brho (0, 0)%nat t) as R0.
      assert (forall (A : Type) (L : list A) (F G : A -> npoly N) b, 0 <= b -> (forall a t, 2 * Z.abs (cf (F a) t) <= scale) -> (forall a, In a L -> pbound b (G a)) -> 2 * Z.abs (cf (psumL L (fun a => pmul (F a) (G a))) t) <= Z.of_nat (length L) * (NZ * (scale * b))) as Bnd.
      { clear - Hsc. intros A L F G b Hb HF HG. assert (pbound (Z.of_nat (length L) * (NZ * (scale * b))) (psumL L (fun a => pmul (pscale 2 (F a)) (G a)))) as X.
        { apply psumL_bound. intros a Ha. apply pbound_mul; [|now apply HG]. intros x. cbn [cf pscale]. specialize (HF a x). lia. }
        specialize (X t). assert (cf (psumL L (fun a => pmul (pscale 2 (F a)) (G a))) t = 2 * cf (psumL L (fun a => pmul (F a) (G a))) t) as Y.
        { apply eqm0_eq. transitivity (cf (psumL L (fun a => pscale 2 (pmul (F a) (G a)))) t); [|apply (psumL_scale N 0 2 L (fun a => pmul (F a) (G a)) t)].
          apply (psumL_proper N 0). intros a _. apply pscale_mul_l. }
        rewrite Y in X. lia. }
      pose proof (Bnd nat (seq 0 k) (fun j => rho (0%nat, S j)) (fun j => S_ j) 1 ltac:(lia) ltac:(intros; apply Brho) ltac:(intros j Hj; apply Hbin; apply in_seq in Hj; lia)) as R1.
      pose proof (Bnd (nat * nat)%type (pairs k) (fun ij => rho (S (fst ij), S (snd ij))) (fun ij => pmul (S_ (fst ij)) (S_ (snd ij))) NZ ltac:(lia) ltac:(intros; apply Brho)) as R2.
      rewrite seq_length in R1. specialize (R2 ltac:(intros ij Hij; replace NZ with (NZ * (1 * 1)) by ring; pose proof (proj1 (Forall_forall _ _) (pairs_lt k) ij Hij) as (X & Y); apply pbound_mul; apply Hbin; assumption)).
      cbv beta in R1, R2.
      set (z0 := cf (rho (0, 0)%nat) t) in *. set (z1 := cf (psumL (seq 0 k) _) t) in *. set (z2 := cf (psumL (pairs k) _) t) in *. set (m := Z.of_nat (length (pairs k))) in *. clearbody z0 z1 z2 m. clear - R0 R1 R2.
      replace (scale * (1 + kZ * NZ + m * (NZ * NZ))) with (scale + kZ * (NZ * (scale * 1)) + m * (NZ * (scale * NZ))) by ring. lia. }
    set (sw := switchNoise _ _ _ _ _ _) in *. set (z := cf (psumL prs _) t) in *. clearbody z sw. clear - Hsum Bd Hsc.
    assert (Z.abs (scale * cf d t) <= scale * sw) by (rewrite Z.abs_mul, (Z.abs_eq scale) by lia; apply Z.mul_le_mono_nonneg_l; lia). lia.
Qed.

Lemma lift_bound ct : glwe_ct w N k ct -> pbound (2 ^ (w - 1) * (1 + kZ * NZ)) (lift w N k sk ct).
Proof.
  intros (L & H). unfold lift, gphase.
  assert (forall i, (i <= k)%nat -> pbound (2 ^ (w - 1)) (pol N (nth i (map (fwdFFT w) ct) []))) as B.
  { intros i Hi. rewrite nth_map_fwd. apply pbound_coeffs; [exact HN|]. intros t Ht. rewrite (cf_pol_at N HN) by exact Ht. unfold fwdFFT. rewrite nthZ_map by (destruct (H i Hi) as (Li & _); lia).
    pose proof (swrap_range w (nthZ (nth i ct []) t) Hw) as R. unfold sword in R. lia. }
  replace (2 ^ (w - 1) * (1 + kZ * NZ)) with (2 ^ (w - 1) + kZ * (NZ * (2 ^ (w - 1) * 1))) by ring.
  apply pbound_add; [apply B; lia|]. apply pbound_psum. intros i Hi. apply pbound_mul; [apply B; lia|now apply Hbin].
Qed.

(** Messages m0, m1 at the given scale with errors e0, e1. *)
Lemma Mul_spec pm rlk buf out ct0 ct1 E (m0 e0 m1 e1 : npoly N) M0 B0 M1 B1 : Q = scale * pm -> relin_key w N k p sk rlk E -> gshape N k out ->
  length (bb_tensor buf) = length prs -> length (bb_fftTensor buf) = length prs -> glwe_ct w N k ct0 -> glwe_ct w N k ct1 ->
  peq Q (gph ct0) (padd (pscale scale m0) e0) -> peq Q (gph ct1) (padd (pscale scale m1) e1) ->
  pbound M0 m0 -> pbound B0 e0 -> pbound M1 m1 -> pbound B1 e1 ->
  let o := fst (BFVMulTo w N k scale p rlk buf out ct0 ct1) in
  glwe_ct w N k o /\ pdist_le Q (gph o) (pscale scale (pmul m0 m1)) (mulNoise w N k p scale M0 B0 M1 B1 E / (2 * scale)).
Proof.
  intros HQ Hr Ho L1 L2 W0 W1 P0 P1 BM0 BB0 BM1 BB1. destruct (Mul_lift rlk buf out ct0 ct1 E Hr Ho L1 L2) as (W & _ & _ & _ & _ & X & EX & BX). cbv zeta in *.
  set (o := fst _) in *. split; [exact W|].
  assert (forall ct m e M B, glwe_ct w N k ct -> peq Q (gph ct) (padd (pscale scale m) e) -> pbound M m -> pbound B e ->
    exists K, peq 0 (lift w N k sk ct) (padd (padd (pscale scale m) e) (pscale Q K)) /\ pbound (liftBound w N k scale M B) (pscale Q K)) as HK.
  { intros ct m e M B Wc Pc Bm Be. destruct (peq_lift N Q HN (lift w N k sk ct) (padd (pscale scale m) e)) as (K & EK).
    - unfold lift. rewrite (gphase_fwd w N HN k sk ct (glwe_shape w N k _ Wc)). exact Pc.
    - exists K. split; [exact EK|]. intros x. pose proof (eqm0_eq _ _ (EK x)) as E1. cbn [cf padd pscale] in E1. pose proof (lift_bound ct Wc x) as Lb. specialize (Bm x). specialize (Be x).
      cbn [cf pscale]. unfold liftBound. assert (Z.abs (scale * cf m x) <= scale * M) by (rewrite Z.abs_mul, (Z.abs_eq scale) by lia; apply Z.mul_le_mono_nonneg_l; lia). lia. }
  destruct (HK ct0 m0 e0 M0 B0 W0 P0 BM0 BB0) as (K0 & EK0 & BK0). destruct (HK ct1 m1 e1 M1 B1 W1 P1 BM1 BB1) as (K1 & EK1 & BK1). clear HK.
  set (Y := padd (padd (padd (pscale scale (padd (pmul m0 e1) (pmul m1 e0))) (pmul e0 e1)) (padd (pmul (pscale Q K0) e1) (pmul (pscale Q K1) e0))) X).
  assert (peq (scale * Q) (pscale scale (gph o)) (padd (pscale scale (pscale scale (pmul m0 m1))) Y)) as EF.
  { rewrite EX. rewrite (peq_0_any (scale * Q) _ _ EK0), (peq_0_any (scale * Q) _ _ EK1). unfold Y.
    set (R := scale * Q).
    assert (forall A : npoly N, peq R (pscale (scale * Q) A) pzero) as Z0 by (intros A x; exists (cf A x); cbn [cf pscale pzero]; unfold R; ring).
    transitivity (padd (padd (pscale scale (pscale scale (pmul m0 m1))) (padd (padd (padd (pscale scale (padd (pmul m0 e1) (pmul m1 e0))) (pmul e0 e1)) (padd (pmul (pscale Q K0) e1) (pmul (pscale Q K1) e0))) X))
       (padd (padd (pscale (scale * Q) (pmul m0 K1)) (pscale (scale * Q) (pmul m1 K0))) (pscale (scale * Q) (pscale pm (pmul K0 K1))))).
    - assert (peq R (pscale (scale * Q) (pscale pm (pmul K0 K1))) (pscale Q (pscale Q (pmul K0 K1)))) as -> by (intros x; apply eqm_eq; cbn [cf pscale]; rewrite HQ; ring).
      assert (forall A : npoly N, peq R (pscale (scale * Q) A) (pscale scale (pscale Q A))) as SQ by (intros A x; apply eqm_eq; cbn [cf pscale]; ring). rewrite !SQ. rewrite !(pscale_mul R).
      generalize (@pconst N scale) (@pconst N Q). intros cs cq.
      pose proof (@npoly_ring N R) as RT. clear - RT.
      Add Ring nringR' : (@npoly_ring N (scale * Q)) (setoid (@peq_equiv N (scale * Q)) (@npoly_ring_ext N (scale * Q))).
      subst R. ring.
    - rewrite !Z0. subst R. ring. }
  apply pdist_of_cf; [exact HN|]. intros t _. set (x := Z.of_nat t). specialize (EF x). destruct EF as (c & Ec). cbn [cf padd pscale] in Ec |- *.
  set (A := cf (gph o) x) in *. set (B := cf (pmul m0 m1) x) in *. set (y := cf Y x) in *.
  exists (A - scale * B - c * Q). split; [exists c; ring|].
  assert (2 * Z.abs y <= mulNoise w N k p scale M0 B0 M1 B1 E) as By.
  { unfold y, Y, mulNoise. cbn [cf padd pscale]. specialize (BX x).
    pose proof (pbound_mul M0 B1 m0 e1 BM0 BB1 x) as Q1. pose proof (pbound_mul M1 B0 m1 e0 BM1 BB0 x) as Q2. pose proof (pbound_mul B0 B1 e0 e1 BB0 BB1 x) as Q3.
    pose proof (pbound_mul _ B1 _ e1 BK0 BB1 x) as Q4. pose proof (pbound_mul _ B0 _ e0 BK1 BB0 x) as Q5.
    set (a1 := cf (pmul m0 e1) x) in *. set (a2 := cf (pmul m1 e0) x) in *. set (a3 := cf (pmul e0 e1) x) in *. set (a4 := cf (pmul (pscale Q K0) e1) x) in *. set (a5 := cf (pmul (pscale Q K1) e0) x) in *.
    set (a6 := cf X x) in *. set (s1 := NZ * (M0 * B1)) in *. set (s2 := NZ * (M1 * B0)) in *. set (s3 := NZ * (B0 * B1)) in *. set (s4 := NZ * (_ * B1)) in *. set (s5 := NZ * (_ * B0)) in *.
    match type of BX with _ <= ?u + ?v => set (u1 := u) in *; set (v1 := v) in * end. clearbody a1 a2 a3 a4 a5 a6 s1 s2 s3 s4 s5 u1 v1. clear - BX Q1 Q2 Q3 Q4 Q5 Hsc.
    assert (Z.abs (scale * (a1 + a2)) <= scale * (s1 + s2)) by (rewrite Z.abs_mul, (Z.abs_eq scale) by lia; apply Z.mul_le_mono_nonneg_l; lia). lia. }
  apply Z.div_le_lower_bound; [lia|]. assert (scale * (A - scale * B - c * Q) = y) as Ey by (clear - Ec; nia). rewrite <- Ey, Z.abs_mul, (Z.abs_eq scale) in By by lia. lia.
Qed.
End Mul.

(** ** Forms used by the property file *)
Lemma GenGaloisKeysTo_spec w N k n sk logN U G p E idx gal buf st : 0 < w -> 0 <= n <= 62 -> Z.of_nat N = 2 ^ n -> 0 < splitBitsShort logN -> gadget_ok w p ->
  0 <= E -> (forall i, Z.abs (G i) <= E) -> length sk = k -> (forall i, (i < k)%nat -> wpoly w N (nth i sk [])) -> gshape N k buf ->
  Forall (fun d => Z.odd d = true) idx ->
  exists gal' buf' st', GenGaloisKeysTo w N k logN U G sk (map (fwdFFT w) sk) p idx gal buf st = Some (gal', (buf', st')) /\
    (forall d, In d idx -> exists ksk, gal' d = Some ksk /\ galois_key w N k p sk d ksk E) /\ (forall d, ~ In d idx -> gal' d = gal d).
Proof.
  intros Hw Hn HNn Hl Hok HE HG Lk Wk Hb Hodd. apply (galoisLoop_spec w N k n Hw Hn HNn sk logN Hl U G p Hok E HE HG Lk Wk idx gal); [exact Hodd|apply repeat_length| |exact Hb].
  intros i Hi. rewrite nth_repeat_lt by exact Hi. apply repeat_length.
Qed.
Lemma GenRelinKey_spec w N k n sk logN U G p E buf st rlk buf' st' : 0 < w -> 0 <= n <= 62 -> Z.of_nat N = 2 ^ n -> 0 < splitBitsShort logN -> gadget_ok w p ->
  0 <= E -> (forall i, Z.abs (G i) <= E) -> skey N k sk -> gshape N k buf ->
  GenRelinKey w N k logN U G (map (fwdFFT w) sk) p buf st = (rlk, (buf', st')) -> relin_key w N k p sk rlk E.
Proof. intros Hw Hn HNn Hl Hok. now apply (PfBFV2.GenRelinKey_spec w N k n Hw Hn HNn sk logN Hl U G p Hok). Qed.
Lemma Permute_spec w N k n sk p d gal buf out ct ksk E : 0 < w -> 0 <= n <= 62 -> Z.of_nat N = 2 ^ n -> gadget_ok w p ->
  Z.odd d = true -> (1 <= k)%nat -> gal d = Some ksk -> galois_key w N k p sk d ksk E ->
  (forall i, (i < k)%nat -> pbound 1 (pol N (nth i sk []))) -> glwe_ct w N k (bb_permute buf) -> gshape N k out -> glwe_ct w N k ct ->
  exists o b', BFVPermuteTo w N k p gal buf out ct d = Some (o, mkBFVBuf (bb_tensor buf) (bb_fftTensor buf) b' (bb_pack buf)) /\ glwe_ct w N k b' /\
    glwe_ct w N k o /\ pdist_le (2 ^ w) (gphase N k sk o) (psubst d (gphase N k sk ct)) (switchNoise w N k p 1 E).
Proof. intros Hw Hn HNn Hok. now apply (permute_spec w N k n Hw Hn HNn sk p Hok). Qed.
Lemma Permute_panics w N k p d gal buf out ct : gal d = None \/ Z.odd d = false -> BFVPermuteTo w N k p gal buf out ct d = None.
Proof.
  intros [H|H]; unfold BFVPermuteTo.
  - destruct (PermuteGLWETo _ _ _ _ _ _ _); [now rewrite H|reflexivity].
  - assert (forall m lo (f : nat -> option gstore -> option gstore), (forall i, f i None = None) -> forN lo m f None = None) as X by (clear; induction m as [|m IH]; intros lo f Hf; cbn; [reflexivity|]; rewrite Hf; now apply IH).
    unfold PermuteGLWETo, gop. rewrite Nat.sub_0_r. cbn [forN]. unfold PermutePolyTo.
    assert (Z.land d 1 =? 0 = true) as -> by (change 1 with (Z.ones 1); rewrite Z.land_ones, Zmod_odd by lia; rewrite H; reflexivity).
    match goal with |- match ?g with _ => _ end = None => assert (g = None) as -> by (apply X; reflexivity) end. reflexivity.
Qed.
Lemma Pack_keys w N k n sk p logN gal buf s out ct E : 1 < w -> 0 <= n <= 61 -> Z.of_nat N = 2 ^ n -> gadget_ok w p ->
  Z.of_nat logN = n -> (1 <= k)%nat -> length sk = k -> flat N sk s ->
  (forall d, In d (packAuts logN) -> exists ksk, gal d = Some ksk /\ galois_key w N k p sk d ksk E) ->
  (forall i, (i < k)%nat -> pbound 1 (pol N (nth i sk []))) -> glwe_ct w N k (bb_permute buf) -> gshape N k (bb_pack buf) -> gshape N k out -> lwe_ct w (k * N) ct ->
  exists o buf', PackTo w N k logN p gal buf out ct = Some (o, buf') /\ glwe_ct w N k o /\
    pdist_le (2 ^ w) (gphase N k sk o) (pconst (phase s ct)) (n * packNoise w N k p E).
Proof. intros Hw Hn HNn Hok Hl Hk Lk Fs Hg. apply (Pack_spec w N k n Hw Hn HNn sk p Hok); try assumption. intros i Hi. apply Hg. apply (packAuts_in N n); [lia|exact HNn|exact (fun _ => 0)|exact (fun _ => 0)|exact Hi]. Qed.
Lemma newBFVBuf_ok w N k : 0 < w -> let b := newBFVBuf N k in bfv_buf_ok w N k (bb_tensor b) (bb_fftTensor b) (bb_permute b) (bb_pack b).
Proof.
  intros Hw. cbv zeta. unfold newBFVBuf. cbn [bb_tensor bb_fftTensor bb_permute bb_pack]. unfold bfv_buf_ok. rewrite !repeat_length. split; [apply tensorRank_pairs|]. split; [apply tensorRank_pairs|].
  split; (split; [apply repeat_length|]; intros i Hi; rewrite nth_repeat_lt by lia).
  - split; [apply repeat_length|]. apply Forall_forall. intros x Hx. apply repeat_spec in Hx. subst x. split; [lia|]. apply Z.pow_pos_nonneg; lia.
  - apply repeat_length.
Qed.
Lemma Tensor_zero w N k scale buf ct0 ct1 : fst (Tensor w N k scale buf ct0 ct1) = repeat (repeat 0 N) (S (tensorRank k)).
Proof. reflexivity. Qed.
Lemma Relinearize_ignores w N k p rlk buf t0 t1 : Relinearize w N k p rlk buf t0 = Relinearize w N k p rlk buf t1.
Proof. reflexivity. Qed.
