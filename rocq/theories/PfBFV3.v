From Verif Require Import Base NegaRing SpecNum ModelNum PfNum ModelVec SpecVec PfVec ModelPoly SpecPoly PfPoly PfPerm PfSplit ModelGadget SpecGadget PfGadget ModelLWE SpecLWE PfLWE PfKS PfKS2 ModelGLWE SpecGLWE PfGLWE PfGLWE2 PfGLWE3 PfGLWE4 PfBoot2 ModelBFV SpecBFV PfBFV PfBFV2.

(** ** Sums over pairs *)
Section Sum.
Variables (N : nat) (R : Z).
Add Ring nringR : (@npoly_ring N R) (setoid (@peq_equiv N R) (@npoly_ring_ext N R)).
Definition psumL {A} (L : list A) (F : A -> npoly N) : npoly N := fold_right (fun a s => padd (F a) s) pzero L.
Lemma psumL_app {A} (L1 L2 : list A) F : peq R (psumL (L1 ++ L2) F) (padd (psumL L1 F) (psumL L2 F)).
Proof. induction L1 as [|a L IH]; [symmetry; apply padd_0_l|]. change (peq R (padd (F a) (psumL (L ++ L2) F)) (padd (padd (F a) (psumL L F)) (psumL L2 F))). rewrite IH. ring. Qed.
Lemma psumL_map {A B} (g : A -> B) (L : list A) F : psumL (map g L) F = psumL L (fun a => F (g a)).
Proof. induction L as [|a L IH]; [reflexivity|]. cbn. unfold psumL in IH. now rewrite IH. Qed.
Lemma psumL_proper {A} (L : list A) F F' : (forall a, In a L -> peq R (F a) (F' a)) -> peq R (psumL L F) (psumL L F').
Proof.
  induction L as [|a L IH]; intros H; [reflexivity|]. cbn [psumL fold_right]. fold (psumL L F) (psumL L F'). rewrite IH by (intros; apply H; now right). now rewrite (H a) by now left.
Qed.
Lemma psumL_add {A} (L : list A) F F' : peq R (psumL L (fun a => padd (F a) (F' a))) (padd (psumL L F) (psumL L F')).
Proof. induction L as [|a L IH]; [symmetry; apply padd_0_l|]. change (peq R (padd (padd (F a) (F' a)) (psumL L (fun a => padd (F a) (F' a)))) (padd (padd (F a) (psumL L F)) (padd (F' a) (psumL L F')))). rewrite IH. ring. Qed.
Lemma psumL_scale {A} c (L : list A) F : peq R (psumL L (fun a => pscale c (F a))) (pscale c (psumL L F)).
Proof.
  induction L as [|a L IH]; cbn [psumL fold_right]; [intros x; apply eqm_eq; cbn [cf pscale pzero]; ring|]. fold (psumL L F) (psumL L (fun a => pscale c (F a))). rewrite IH.
  intros x. apply eqm_eq. cbn [cf pscale padd]. ring.
Qed.
Lemma psumL_seq n F : peq R (psumL (seq 0 n) F) (psum n F).
Proof.
  induction n as [|n IH]; [reflexivity|]. rewrite seq_S, psumL_app, IH. cbn [psumL fold_right psum Nat.add]. ring.
Qed.
Lemma psumL_bound {A} (L : list A) F b : (forall a, In a L -> pbound b (F a)) -> pbound (Z.of_nat (length L) * b) (psumL L F).
Proof.
  induction L as [|a L IH]; intros H; cbn [psumL fold_right length]; [apply pbound_zero|]. fold (psumL L F).
  replace (Z.of_nat (S (length L)) * b) with (b + Z.of_nat (length L) * b) by lia. apply pbound_add; [apply H; now left|]. apply IH. intros; apply H; now right.
Qed.
Lemma psumL_nth {A} (d : A) (L : list A) F : peq R (psumL L F) (psum (length L) (fun i => F (nth i L d))).
Proof.
  induction L as [|a L IH]; [reflexivity|]. cbn [length]. rewrite psum_S_l. cbn [psumL fold_right nth]. fold (psumL L F). now rewrite IH.
Qed.

(** The products of two sums, by pairs. *)
Definition pent (a b : nat -> npoly N) (ij : nat * nat) : npoly N :=
  if Nat.eqb (fst ij) (snd ij) then pmul (a (fst ij)) (b (fst ij)) else padd (pmul (a (fst ij)) (b (snd ij))) (pmul (a (snd ij)) (b (fst ij))).
Lemma pent_sum n : forall a b, peq R (psumL (pairs n) (pent a b)) (pmul (psum n a) (psum n b)).
Proof.
  induction n as [|n IH]; intros a b; [cbn; ring|]. rewrite pairs_S, psumL_app, !psumL_map. cbn [fst snd].
  rewrite (psumL_proper (pairs n) _ (pent (fun i => a (S i)) (fun i => b (S i)))) by (intros [i j] _; reflexivity). rewrite IH.
  change (seq 0 (S n)) with (0%nat :: seq 1 n). rewrite <- seq_shift. cbn [psumL fold_right]. fold (psumL (map S (seq 0 n)) (fun j => pent a b (0%nat, j))). rewrite psumL_map.
  unfold pent at 1. cbn [fst snd Nat.eqb].
  rewrite (psumL_proper (seq 0 n) _ (fun j => padd (pmul (a 0%nat) (b (S j))) (pmul (a (S j)) (b 0%nat)))) by (intros j _; reflexivity).
  rewrite psumL_add, !psumL_seq, <- pmul_psum_r, <- pmul_psum_l. rewrite !psum_S_l. ring.
Qed.
End Sum.
Arguments psumL {N A}.
Arguments pent {N}.

Section Mod.
Variables (N : nat) (s Q : Z).
Hypothesis Hs : 0 < s.
Lemma peq_scale_up (x y : npoly N) : peq Q x y -> peq (s * Q) (pscale s x) (pscale s y).
Proof. intros H t. destruct (H t) as (c & E). exists c. cbn [cf pscale]. rewrite <- Z.mul_sub_distr_l, E. ring. Qed.
Lemma peq_lift (HN : (0 < N)%nat) (x y : npoly N) : peq Q x y -> exists K, peq 0 x (padd y (pscale Q K)).
Proof.
  intros H. destruct (choice_list (fun t e => cf x (Z.of_nat t) = cf y (Z.of_nat t) + Q * e) N) as (l & L & Hl).
  { intros t Ht. destruct (H (Z.of_nat t)) as (c & E). exists c. lia. }
  exists (pol N l). apply peq_coeffs; [exact HN|]. intros t Ht. apply eqm_eq. cbn [cf padd pscale]. rewrite (cf_pol_at N HN) by exact Ht. now apply Hl.
Qed.
End Mod.

(** ** Rounded quotients *)
Lemma roundQuot_spec x y : 0 < y -> 2 * Z.abs (y * roundQuot x y - x) <= y.
Proof.
  intros Hy. unfold roundQuot. destruct (Z.leb_spec 0 x).
  - pose proof (Z_div_mod_eq_full (2 * x + y) (2 * y)). pose proof (Z.mod_pos_bound (2 * x + y) (2 * y) ltac:(lia)). nia.
  - pose proof (Z_div_mod_eq_full (2 * - x + y) (2 * y)). pose proof (Z.mod_pos_bound (2 * - x + y) (2 * y) ltac:(lia)). nia.
Qed.

Section Tensor.
Variables (w : Z) (N k : nat).
Hypothesis Hw : 0 < w.
Hypothesis HN : (0 < N)%nat.
Notation Q := (2 ^ w).
Variable scale : Z.
Hypothesis Hsc : 0 < scale.
Variable sk : list (list Z).
Notation gph := (gphase N k sk).
Notation S_ i := (pol N (nth i sk [])).
Notation NZ := (Z.of_nat N).
Notation kZ := (Z.of_nat k).

Definition entL (f0 f1 : list (list Z)) (i j : nat) : list Z :=
  if Nat.eqb i j then fmul N (nth i f0 []) (nth j f1 []) else fmulAdd N (fmul N (nth i f0 []) (nth j f1 [])) (nth j f0 []) (nth i f1 []).
Lemma upd_upd_nth {A} (d : A) t i a (f : A -> A) : upd (upd t i a) i (f (nth i (upd t i a) d)) = upd t i (f a).
Proof.
  rewrite upd_twice. destruct (Nat.lt_ge_cases i (length t)) as [H|H]; [now rewrite nth_upd_same|].
  assert (forall v, upd t i v = t) as E; [|now rewrite !E]. intros v. revert i H. induction t as [|b t IH]; intros [|i] H; cbn in *; try reflexivity; [lia|]. now rewrite IH by lia.
Qed.
Lemma tensorFFT_eq f0 f1 t : length t = length (pairs (S k)) -> tensorFFT N k f0 f1 t = (length (pairs (S k)), map (fun ij => entL f0 f1 (fst ij) (snd ij)) (pairs (S k))).
Proof.
  intros L. rewrite <- (pair_loop (entL f0 f1) (S k) t L). unfold tensorFFT. apply forN_ext. intros i [idx t'] Hi.
  replace (S k - i)%nat with (S (k - i)) by lia. cbn [forN].
  unfold entL at 2. rewrite Nat.eqb_refl. apply forN_ext. intros j [idx2 t2] Hj.
  unfold entL. destruct (Nat.eqb_spec i j) as [->|_]; [lia|].
  now rewrite (upd_upd_nth [] t2 idx2 (fmul N (nth i f0 []) (nth j f1 [])) (fun v => fmulAdd N v (nth j f0 []) (nth i f1 []))).
Qed.

Definition tensorL (ct0 ct1 : list (list Z)) : list (list Z) :=
  map (fun ij => invFFT w (map (fun x => roundQuot x scale) (entL (map (fwdFFT w) ct0) (map (fwdFFT w) ct1) (fst ij) (snd ij)))) (pairs (S k)).
Lemma TensorTo_eq buf out ct0 ct1 : length (bb_tensor buf) = length (pairs (S k)) -> length (bb_fftTensor buf) = length (pairs (S k)) ->
  exists f, length f = length (pairs (S k)) /\ TensorTo w N k scale buf out ct0 ct1 = (out, mkBFVBuf (tensorL ct0 ct1) f (bb_permute buf) (bb_pack buf)).
Proof.
  intros L1 L2. unfold TensorTo. rewrite (tensorFFT_eq _ _ _ L2). cbn [snd]. set (f := map _ (pairs (S k))).
  exists f. split; [apply map_length|]. f_equal. f_equal. rewrite tensorRank_pairs. set (m := length (pairs (S k))) in *.
  destruct (rows_loop [] (fun i _ => invFFT w (map (fun x => roundQuot x scale) (nth i f []))) 0 m (bb_tensor buf)) as (L & V); [lia|].
  apply (nth_ext _ _ [] []); [unfold tensorL; rewrite L, L1, map_length; reflexivity|]. intros i Hi. rewrite L, L1 in Hi. rewrite V.
  replace ((0 <=? i)%nat && (i <? 0 + m)%nat) with true by (symmetry; apply andb_true_iff; split; [apply Nat.leb_le|apply Nat.ltb_lt]; lia).
  unfold f, tensorL. now rewrite !(nth_map_lt _ (pairs (S k)) i _ (0, 0)%nat) by exact Hi.
Qed.

(** The key monomials: 1, s_1, ..., s_k. *)
Definition sg (i : nat) : npoly N := match i with O => pone | S i => S_ i end.
Lemma gphase_sg R ct : peq R (gph ct) (psum (S k) (fun i => pmul (pol N (nth i ct [])) (sg i))).
Proof.
  unfold gphase. rewrite psum_S_l. cbn [sg]. apply padd_proper; [|reflexivity]. intros x. pose proof (pmul_comm R (pol N (nth 0 ct [])) pone x) as E. rewrite E. symmetry. apply pmul_1_l.
Qed.

Lemma entL_length f0 f1 i j : length (entL f0 f1 i j) = N.
Proof. unfold entL. destruct (Nat.eqb i j); unfold fmulAdd, fmul; [apply nmul_length|]. rewrite fadd_length, !nmul_length. lia. Qed.
Lemma entL_pol f0 f1 i j : peq 0 (pol N (entL f0 f1 i j)) (pent (fun i => pol N (nth i f0 [])) (fun i => pol N (nth i f1 [])) (i, j)).
Proof.
  unfold entL, pent. cbn [fst snd]. destruct (Nat.eqb_spec i j) as [->|_]; [apply (pol_nmul N HN)|].
  unfold fmulAdd, fmul. rewrite (pol_fadd N HN) by apply nmul_length. now rewrite !(pol_nmul N HN).
Qed.

(** The tensor of the lifts, evaluated at the key, is the product of the phases. *)
Definition lift (ct : list (list Z)) : npoly N := gph (map (fwdFFT w) ct).
Lemma tensor_exact f0 f1 : peq 0 (psumL (pairs (S k)) (fun ij => pmul (pol N (entL f0 f1 (fst ij) (snd ij))) (pmul (sg (fst ij)) (sg (snd ij))))) (pmul (gph f0) (gph f1)).
Proof.
  pose proof (@npoly_ring N 0) as RT. rewrite !gphase_sg.
  rewrite <- (pent_sum N 0 (S k)). apply psumL_proper. intros [i j] _. cbn [fst snd]. rewrite entL_pol. unfold pent. cbn [fst snd].
  Add Ring nring0 : (@npoly_ring N 0) (setoid (@peq_equiv N 0) (@npoly_ring_ext N 0)).
  destruct (Nat.eqb_spec i j) as [->|_]; ring.
Qed.

Lemma tensor_round ct0 ct1 : exists rho : nat * nat -> npoly N,
  (forall ij, In ij (pairs (S k)) -> peq (scale * Q) (pscale scale (pol N (invFFT w (map (fun x => roundQuot x scale) (entL ct0 ct1 (fst ij) (snd ij)))))) (padd (pol N (entL ct0 ct1 (fst ij) (snd ij))) (rho ij))) /\
  (forall ij t, 2 * Z.abs (cf (rho ij) t) <= scale).
Proof.
  pose (ro := fun ij => map (fun x => scale * roundQuot x scale - x) (entL ct0 ct1 (fst ij) (snd ij))).
  exists (fun ij => pol N (ro ij)). split.
  - intros ij _. apply peq_coeffs; [exact HN|]. intros t Ht. cbn [cf pscale padd]. rewrite !(cf_pol_at N HN) by exact Ht. unfold ro, invFFT. rewrite map_map.
    pose proof (entL_length ct0 ct1 (fst ij) (snd ij)) as L. rewrite !nthZ_map by lia. set (x := nthZ _ t). destruct (wrap_eqm w (roundQuot x scale)) as (c & E). exists c. nia.
  - intros ij. assert (forall t, (t < N)%nat -> 2 * Z.abs (cf (pol N (ro ij)) (Z.of_nat t)) <= scale) as H.
    { intros t Ht. rewrite (cf_pol_at N HN) by exact Ht. unfold ro. pose proof (entL_length ct0 ct1 (fst ij) (snd ij)) as L. rewrite nthZ_map by lia. apply roundQuot_spec. exact Hsc. }
    intros t. destruct (cf_reduce (pol N (ro ij)) t HN) as (i & Hi & [[_ E]|[_ E]]); rewrite E; specialize (H i Hi); lia.
Qed.
End Tensor.
