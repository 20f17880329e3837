From Verif Require Import Base NegaRing SpecNum ModelNum PfNum ModelVec SpecVec PfVec ModelPoly SpecPoly PfPoly PfPerm PfSplit ModelGadget SpecGadget PfGadget ModelLWE SpecLWE PfLWE PfKS PfKS2 ModelGLWE SpecGLWE PfGLWE PfGLWE2.

Lemma psum_S_l {N} Q n (f : nat -> npoly N) : peq Q (psum (S n) f) (padd (f O) (psum n (fun i => f (S i)))).
Proof. intros x. cbn [cf padd]. rewrite !cf_psum, zsum_S_l. reflexivity. Qed.

(** ** Permutation *)
Section Perm.
Variables (w : Z) (N k : nat) (n d : Z).
Hypothesis Hw : 0 < w.
Hypothesis Hn : 0 <= n <= 62.
Hypothesis HNn : Z.of_nat N = 2 ^ n.
Hypothesis Hd : Z.odd d = true.
Notation Q := (2 ^ w).
Add Ring nringP : (@npoly_ring N Q) (setoid (@peq_equiv N Q) (@npoly_ring_ext N Q)).

Lemma HNpos : (0 < N)%nat.
Proof. pose proof (Z.pow_pos_nonneg 2 n ltac:(lia) ltac:(lia)). lia. Qed.

Lemma psubst_zero : peq Q (psubst d (@pzero N)) pzero.
Proof.
  transitivity (psubst d (@psub N pzero pzero)).
  - apply (psubst_proper N n Hn HNn); [exact Hd|]. ring.
  - rewrite (psubst_sub N n Hn HNn) by exact Hd. ring.
Qed.
Lemma psubst_psum m (f : nat -> npoly N) : peq Q (psubst d (psum m f)) (psum m (fun i => psubst d (f i))).
Proof.
  induction m as [|m IH]; [apply psubst_zero|]. cbn [psum]. rewrite (psubst_add N n Hn HNn) by exact Hd. now rewrite IH.
Qed.

Lemma gphase_subst sk sk' c c' :
  (forall i, (i < k)%nat -> peq Q (pol N (nth i sk' [])) (psubst d (pol N (nth i sk [])))) ->
  (forall i, (i <= k)%nat -> peq Q (pol N (nth i c' [])) (psubst d (pol N (nth i c [])))) ->
  peq Q (gphase N k sk' c') (psubst d (gphase N k sk c)).
Proof.
  intros Hs Hc. unfold gphase. rewrite (psubst_add N n Hn HNn) by exact Hd. rewrite psubst_psum, (Hc O ltac:(lia)).
  rewrite (psum_proper Q k (fun i => pmul (pol N (nth (S i) c' [])) (pol N (nth i sk' [])))
    (fun i => psubst d (pmul (pol N (nth (S i) c [])) (pol N (nth i sk []))))); [reflexivity|].
  intros i Hi. rewrite (psubst_mul N n Hn HNn) by exact Hd. now rewrite Hs, Hc by lia.
Qed.

(** The key obtained by permuting every polynomial of sk. *)
Definition perm_key (sk sk' : list (list Z)) : Prop :=
  forall i, (i < k)%nat -> peq Q (pol N (nth i sk' [])) (psubst d (pol N (nth i sk []))).

Lemma gop_perm f co cx sk sk' s out a : perm_key sk sk' -> glwe_ct w N k (s out) -> glwe_ct w N k (s a) ->
  (forall o x, wpoly w N o -> wpoly w N x -> exists v, f o x = Some v /\ wpoly w N v /\
     peq Q (pol N v) (padd (pmul co (pol N o)) (pmul cx (psubst d (pol N x))))) ->
  gopok w N k sk' s out (gop 0 k (fun o x y => f o x) s out a a) (padd (pmul co (gphase N k sk' (s out))) (pmul cx (psubst d (gphase N k sk (s a))))).
Proof.
  intros Hk (Lo & Wo) (La & Wa) Hf.
  assert (forall i, (i <= k)%nat -> exists v, f (nth i (s out) []) (nth i (s a) []) = Some v /\ wpoly w N v /\
     peq Q (pol N v) (padd (pmul co (pol N (nth i (s out) []))) (pmul cx (psubst d (pol N (nth i (s a) [])))))) as Hv
    by (intros i Hi; apply Hf; auto).
  destruct (gop_spec 0 k (fun o x y => f o x) s out a a (fun i => match f (nth i (s out) []) (nth i (s a) []) with Some v => v | None => [] end)) as (s' & E & L' & V & _ & F).
  - lia.
  - exact Lo.
  - intros i Hi. destruct (Hv i ltac:(lia)) as (v & Ev & _). now rewrite Ev.
  - exists s'. split; [exact E|].
    assert (forall i, (i <= k)%nat -> wpoly w N (nth i (s' out) []) /\ peq Q (pol N (nth i (s' out) [])) (padd (pmul co (pol N (nth i (s out) []))) (pmul cx (psubst d (pol N (nth i (s a) [])))))) as R.
    { intros i Hi. rewrite V by lia. destruct (Hv i Hi) as (v & Ev & X). rewrite Ev. exact X. }
    split; [split; [exact L'|intros i Hi; now apply R]|]. split; [|exact F].
    unfold gphase. rewrite (proj2 (R O ltac:(lia))). rewrite (psubst_add N n Hn HNn) by exact Hd. rewrite psubst_psum.
    rewrite (psum_proper Q k (fun i => pmul (pol N (nth (S i) (s' out) [])) (pol N (nth i sk' []))) (fun i => padd (pmul co (pmul (pol N (nth (S i) (s out) [])) (pol N (nth i sk' []))))
      (pmul cx (psubst d (pmul (pol N (nth (S i) (s a) [])) (pol N (nth i sk []))))))).
    2:{ intros i Hi. rewrite (proj2 (R (S i) ltac:(lia))). rewrite (psubst_mul N n Hn HNn) by exact Hd. rewrite (Hk i Hi). ring. }
    rewrite psum_add, <- !pmul_psum_r. ring.
Qed.

Lemma PermuteGLWETo_spec sk sk' s out a : perm_key sk sk' -> glwe_ct w N k (s out) -> glwe_ct w N k (s a) ->
  gopok w N k sk' s out (PermuteGLWETo w N k s out a d) (psubst d (gphase N k sk (s a))).
Proof.
  intros Hk Wo Wa. eapply gopok_peq; [|apply (gop_perm (fun o x => PermutePolyTo w N o x d) pzero pone sk sk'); try assumption]; [ring|].
  intros o x (Lo & _) Hx. destruct (PermutePolyTo_spec N n Hn HNn w o x d ltac:(lia) Hd Lo Hx) as (v & E & A & B). exists v. split; [exact E|]. split; [exact A|]. rewrite B. ring.
Qed.
Lemma PermuteGLWEInPlace_spec sk sk' s a buf : length buf = N -> perm_key sk sk' -> glwe_ct w N k (s a) ->
  gopok w N k sk' s a (PermuteGLWEInPlace w N k s a buf d) (psubst d (gphase N k sk (s a))).
Proof.
  intros Lb Hk Wa. eapply gopok_peq; [|apply (gop_perm (fun o x => PermutePolyTo w N buf x d) pzero pone sk sk'); try assumption]; [ring|].
  intros o x _ Hx. destruct (PermutePolyTo_spec N n Hn HNn w buf x d ltac:(lia) Hd Lb Hx) as (v & E & A & B). exists v. split; [exact E|]. split; [exact A|]. rewrite B. ring.
Qed.
Lemma PermuteAddGLWETo_spec sk sk' s out a : perm_key sk sk' -> glwe_ct w N k (s out) -> glwe_ct w N k (s a) ->
  gopok w N k sk' s out (PermuteAddGLWETo w N k s out a d) (padd (gphase N k sk' (s out)) (psubst d (gphase N k sk (s a)))).
Proof.
  intros Hk Wo Wa. eapply gopok_peq; [|apply (gop_perm (fun o x => PermuteAddPolyTo w N o x d) pone pone sk sk'); try assumption]; [ring|].
  intros o x (Lo & _) Hx. destruct (PermuteAddPolyTo_spec N n Hn HNn w o x d ltac:(lia) Hd Lo Hx) as (v & E & A & B). exists v. split; [exact E|]. split; [exact A|]. rewrite B. ring.
Qed.
Lemma PermuteSubGLWETo_spec sk sk' s out a : perm_key sk sk' -> glwe_ct w N k (s out) -> glwe_ct w N k (s a) ->
  gopok w N k sk' s out (PermuteSubGLWETo w N k s out a d) (psub (gphase N k sk' (s out)) (psubst d (gphase N k sk (s a)))).
Proof.
  intros Hk Wo Wa. eapply gopok_peq; [|apply (gop_perm (fun o x => PermuteSubPolyTo w N o x d) pone (popp pone) sk sk'); try assumption]; [ring|].
  intros o x (Lo & _) Hx. destruct (PermuteSubPolyTo_spec N n Hn HNn w o x d ltac:(lia) Hd Lo Hx) as (v & E & A & B). exists v. split; [exact E|]. split; [exact A|]. rewrite B. ring.
Qed.
End Perm.

(** ** Products *)
Section W.
Variable w : Z.
Hypothesis Hw : 0 < w.
Notation Q := (2 ^ w).
Variable N : nat.
Hypothesis HN : (0 < N)%nat.
Variable k : nat.
Add Ring nring : (@npoly_ring N Q) (setoid (@peq_equiv N Q) (@npoly_ring_ext N Q)).
Variable sk : list (list Z).
Notation gph := (gphase N k sk).
Notation S_ i := (pol N (nth i sk [])).
Variable p : gadget.
Hypothesis Hok : gadget_ok w p.
Notation l := (g_level p).

Lemma gshape_fgMul ct fp : gshape N k (fgMul N k ct fp).
Proof. split; [apply tab_length|]. intros i Hi. unfold fgMul. rewrite nth_tab by lia. apply nmul_length. Qed.
Lemma gphase_fgMul ct fp : peq Q (gph (fgMul N k ct fp)) (pmul (pol N fp) (gph ct)).
Proof.
  apply gphase_lin1; [exact HN|]. intros i Hi. unfold fgMul. rewrite nth_tab by lia. unfold fmul. rewrite (peq_0_any Q _ _ (pol_nmul N HN _ _)). ring.
Qed.
Lemma gshape_fgMulAdd out ct fp : gshape N k out -> gshape N k (fgMulAdd N k out ct fp).
Proof. intros (L & H). split; [apply tab_length|]. intros i Hi. unfold fgMulAdd. rewrite nth_tab by lia. unfold fmulAdd. rewrite fadd_length, nmul_length, H by exact Hi. lia. Qed.
Lemma gphase_fgMulAdd out ct fp : gshape N k out -> peq Q (gph (fgMulAdd N k out ct fp)) (padd (gph out) (pmul (pol N fp) (gph ct))).
Proof.
  intros (L & H). rewrite (gphase_lin2 w N HN k sk pone (pol N fp) out ct); [ring|]. intros i Hi. unfold fgMulAdd. rewrite nth_tab by lia. unfold fmulAdd.
  rewrite (peq_0_any Q _ _ (pol_fadd N HN _ _ (H i Hi) (nmul_length N _ _))), (peq_0_any Q _ _ (pol_nmul N HN _ _)). ring.
Qed.
Lemma gshape_fgMulSub out ct fp : gshape N k out -> gshape N k (fgMulSub N k out ct fp).
Proof. intros (L & H). split; [apply tab_length|]. intros i Hi. unfold fgMulSub. rewrite nth_tab by lia. unfold fmulSub. rewrite fsub_length, nmul_length, H by exact Hi. lia. Qed.
Lemma gphase_fgMulSub out ct fp : gshape N k out -> peq Q (gph (fgMulSub N k out ct fp)) (psub (gph out) (pmul (pol N fp) (gph ct))).
Proof.
  intros (L & H). rewrite (gphase_lin2 w N HN k sk pone (popp (pol N fp)) out ct); [ring|]. intros i Hi. unfold fgMulSub. rewrite nth_tab by lia. unfold fmulSub.
  rewrite (peq_0_any Q _ _ (pol_fsub N HN _ _ (H i Hi) (nmul_length N _ _))), (peq_0_any Q _ _ (pol_nmul N HN _ _)). ring.
Qed.

Lemma mulLoop lo n lev fd acc : gshape N k acc ->
  let r := forN lo n (fun j o => fgMulAdd N k o (nth j lev []) (nth j fd [])) acc in
  gshape N k r /\ peq Q (gph r) (padd (gph acc) (psum n (fun j => pmul (pol N (nth (lo + j) fd [])) (gph (nth (lo + j) lev []))))).
Proof.
  intros Ha. set (P := fun (m : nat) r => gshape N k r /\ peq Q (gph r) (padd (gph acc) (psum m (fun j => pmul (pol N (nth (lo + j) fd [])) (gph (nth (lo + j) lev [])))))).
  apply (forN_ind P); unfold P.
  - split; [exact Ha|]. cbn [psum]. ring.
  - intros m r Hm (A & B). split; [now apply gshape_fgMulAdd|]. rewrite gphase_fgMulAdd, B by exact A. cbn [psum]. ring.
Qed.
Lemma mulLoopSub lo n lev fd acc : gshape N k acc ->
  let r := forN lo n (fun j o => fgMulSub N k o (nth j lev []) (nth j fd [])) acc in
  gshape N k r /\ peq Q (gph r) (psub (gph acc) (psum n (fun j => pmul (pol N (nth (lo + j) fd [])) (gph (nth (lo + j) lev []))))).
Proof.
  intros Ha. set (P := fun (m : nat) r => gshape N k r /\ peq Q (gph r) (psub (gph acc) (psum m (fun j => pmul (pol N (nth (lo + j) fd [])) (gph (nth (lo + j) lev [])))))).
  apply (forN_ind P); unfold P.
  - split; [exact Ha|]. cbn [psum]. ring.
  - intros m r Hm (A & B). split; [now apply gshape_fgMulSub|]. rewrite gphase_fgMulSub, B by exact A. cbn [psum]. ring.
Qed.

(** fd are (transforms of) the digits D. *)
Definition isd (D : nat -> npoly N) (fd : list (list Z)) : Prop := forall j, (j < l)%nat -> peq Q (pol N (nth j fd [])) (D j).

(** Digits times a GLev encryption of m. *)
Definition dsum (D e : nat -> npoly N) : npoly N := psum l (fun j => pmul (D j) (e j)).
Lemma digits_glev lev m e D c r fd : glev_enc w N k p sk lev m e -> is_pdcmp w N p c D r -> isd D fd ->
  peq Q (psum l (fun j => pmul (pol N (nth j fd [])) (gph (nth j lev [])))) (padd (pmul m (psub (pol N c) r)) (dsum D e)).
Proof.
  intros (L & H) (_ & Hc & _) Hd. unfold dsum.
  rewrite (psum_proper Q l _ (fun j => padd (pmul m (pscale (2 ^ (w - (Z.of_nat j + 1) * g_logBase p)) (D j))) (pmul (D j) (e j)))).
  2:{ intros j Hj. destruct (H j Hj) as (_ & E). rewrite (Hd j Hj), E. rewrite (pscale_mul Q _ m), (pscale_mul Q _ (D j)). ring. }
  rewrite psum_add, <- pmul_psum_r, Hc. ring.
Qed.

Lemma pdcmp_spec c : wpoly w N c -> is_pdcmp w N p c (dpol w p N c) (gerrp w p N c).
Proof.
  intros Hc. pose proof Hok as (H1 & H2 & H3 & H4 & H5 & H6). split; [|split].
  - intros j Hj. apply pbound_dpol; [exact Hok|exact HN|apply Hc].
  - rewrite (dpol_recompose w p Hok N HN c (proj1 Hc)) at 1. unfold LogBaseQ. rewrite H4. reflexivity.
  - pose proof (pbound_gerrp w p Hok N HN c Hc) as X. unfold LogLastBaseQ in X. rewrite H4 in X. exact X.
Qed.
Lemma DecomposePoly_eq c : DecomposePoly w p c = dpolys w p c.
Proof.
  unfold DecomposePoly. apply DecomposePolyTo_eq; [exact Hok|]. split; [apply repeat_length|]. intros j Hj. rewrite nth_repeat_lt by exact Hj. apply repeat_length.
Qed.
Lemma isd_fdigits c : length c = N -> isd (dpol w p N c) (fdigits w p c).
Proof.
  intros Hc j Hj. unfold fdigits. rewrite DecomposePoly_eq. rewrite nth_map_fwd.
  apply peq_0_any. now apply fwd_dpolys.
Qed.

Lemma lpos : (1 <= l)%nat.
Proof. destruct Hok as (H1 & H2 & H3 & _). exact H3. Qed.

Lemma GadgetProdFFT_spec lev m e D c r fd : glev_enc w N k p sk lev m e -> is_pdcmp w N p c D r -> isd D fd ->
  gshape N k (GadgetProdFFTGLWETo N k p lev fd) /\
  peq Q (gph (GadgetProdFFTGLWETo N k p lev fd)) (padd (pmul m (psub (pol N c) r)) (dsum D e)).
Proof.
  intros He Hc Hd. unfold GadgetProdFFTGLWETo. pose proof lpos as Hl.
  destruct (mulLoop 1 (l - 1) lev fd _ (gshape_fgMul (nth 0 lev []) (nth 0 fd []))) as (A & B). split; [exact A|].
  rewrite B, gphase_fgMul, <- (digits_glev lev m e D c r fd He Hc Hd).
  replace l with (S (l - 1)) at 2 by lia. rewrite psum_S_l. reflexivity.
Qed.
Lemma GadgetProdAddFFT_spec out lev m e D c r fd : gshape N k out -> glev_enc w N k p sk lev m e -> is_pdcmp w N p c D r -> isd D fd ->
  gshape N k (GadgetProdAddFFTGLWETo N k p out lev fd) /\
  peq Q (gph (GadgetProdAddFFTGLWETo N k p out lev fd)) (padd (gph out) (padd (pmul m (psub (pol N c) r)) (dsum D e))).
Proof.
  intros Ho He Hc Hd. unfold GadgetProdAddFFTGLWETo.
  destruct (mulLoop 0 l lev fd out Ho) as (A & B). split; [exact A|].
  rewrite B, <- (digits_glev lev m e D c r fd He Hc Hd). reflexivity.
Qed.
Lemma GadgetProdSubFFT_spec out lev m e D c r fd : gshape N k out -> glev_enc w N k p sk lev m e -> is_pdcmp w N p c D r -> isd D fd ->
  gshape N k (GadgetProdSubFFTGLWETo N k p out lev fd) /\
  peq Q (gph (GadgetProdSubFFTGLWETo N k p out lev fd)) (psub (gph out) (padd (pmul m (psub (pol N c) r)) (dsum D e))).
Proof.
  intros Ho He Hc Hd. unfold GadgetProdSubFFTGLWETo.
  destruct (mulLoopSub 0 l lev fd out Ho) as (A & B). split; [exact A|].
  rewrite B, <- (digits_glev lev m e D c r fd He Hc Hd). reflexivity.
Qed.

Lemma gInv_spec f : gshape N k f -> glwe_ct w N k (gInv w k f) /\ peq Q (gph (gInv w k f)) (gph f).
Proof.
  intros (L & H). split.
  - split; [apply tab_length|]. intros i Hi. unfold gInv. rewrite nth_tab by lia. apply wpoly_invFFT; auto.
  - apply gphase_eq; [exact HN|]. intros i Hi. unfold gInv. rewrite nth_tab by lia. apply pol_invFFT; auto.
Qed.
Lemma gInvAdd_spec out f : gshape N k out -> gshape N k f -> glwe_ct w N k (gInvAdd w k out f) /\ peq Q (gph (gInvAdd w k out f)) (padd (gph out) (gph f)).
Proof.
  intros (Lo & Ho) (L & H). split.
  - split; [apply tab_length|]. intros i Hi. unfold gInvAdd. rewrite nth_tab by lia. apply wpoly_vadd; try assumption; [now apply Ho|rewrite invFFT_length; now apply H].
  - apply gphase_add; [exact HN|]. intros i Hi. unfold gInvAdd. rewrite nth_tab by lia. unfold invFFTAdd. rewrite pol_vadd by (try assumption; try (rewrite invFFT_length); auto).
    rewrite pol_invFFT by auto. reflexivity.
Qed.
Lemma gInvSub_spec out f : gshape N k out -> gshape N k f -> glwe_ct w N k (gInvSub w k out f) /\ peq Q (gph (gInvSub w k out f)) (psub (gph out) (gph f)).
Proof.
  intros (Lo & Ho) (L & H). split.
  - split; [apply tab_length|]. intros i Hi. unfold gInvSub. rewrite nth_tab by lia. apply wpoly_vsub; try assumption; [now apply Ho|rewrite invFFT_length; now apply H].
  - apply gphase_sub; [exact HN|]. intros i Hi. unfold gInvSub. rewrite nth_tab by lia. unfold invFFTSub. rewrite pol_vsub by (try assumption; try (rewrite invFFT_length); auto).
    rewrite pol_invFFT by auto. reflexivity.
Qed.

(** ** External product *)
(** m * (gphase ct - (r0 + sum r_{i+1} s_i)) + sum of digit times row error. *)
Definition epVal (m : npoly N) (ct : list (list Z)) (D e : nat -> nat -> npoly N) (r : nat -> npoly N) : npoly N :=
  padd (pmul m (psub (gph ct) (padd (r O) (psum k (fun i => pmul (r (S i)) (S_ i)))))) (psum (S k) (fun i => dsum (D i) (e i))).

Lemma rowsLoop lo n (ggsw : list (list (list (list Z)))) (fd : list (list (list Z))) acc : gshape N k acc ->
  let res := forN lo n (fun i o => forN 0 l (fun j o => fgMulAdd N k o (nth j (nth i ggsw []) []) (nth j (nth i fd []) [])) o) acc in
  gshape N k res /\ peq Q (gph res) (padd (gph acc) (psum n (fun i => psum l (fun j => pmul (pol N (nth j (nth (lo + i) fd []) [])) (gph (nth j (nth (lo + i) ggsw []) [])))))).
Proof.
  intros Ha. match goal with |- let res := ?x in _ => set (P := fun (m : nat) r => gshape N k r /\ peq Q (gph r) (padd (gph acc) (psum m (fun i => psum l (fun j => pmul (pol N (nth j (nth (lo + i) fd []) [])) (gph (nth j (nth (lo + i) ggsw []) []))))))) end.
  apply (forN_ind P); unfold P.
  - split; [exact Ha|]. cbn [psum]. ring.
  - intros m r Hm (A & B). destruct (mulLoop 0 l (nth (lo + m) ggsw []) (nth (lo + m) fd []) r A) as (X & Y). split; [exact X|].
    rewrite Y, B. cbn [psum Nat.add]. ring.
Qed.
Lemma rowsLoopSub lo n (ggsw : list (list (list (list Z)))) (fd : list (list (list Z))) acc : gshape N k acc ->
  let res := forN lo n (fun i o => forN 0 l (fun j o => fgMulSub N k o (nth j (nth i ggsw []) []) (nth j (nth i fd []) [])) o) acc in
  gshape N k res /\ peq Q (gph res) (psub (gph acc) (psum n (fun i => psum l (fun j => pmul (pol N (nth j (nth (lo + i) fd []) [])) (gph (nth j (nth (lo + i) ggsw []) [])))))).
Proof.
  intros Ha. match goal with |- let res := ?x in _ => set (P := fun (m : nat) r => gshape N k r /\ peq Q (gph r) (psub (gph acc) (psum m (fun i => psum l (fun j => pmul (pol N (nth j (nth (lo + i) fd []) [])) (gph (nth j (nth (lo + i) ggsw []) []))))))) end.
  apply (forN_ind P); unfold P.
  - split; [exact Ha|]. cbn [psum]. ring.
  - intros m r Hm (A & B). destruct (mulLoopSub 0 l (nth (lo + m) ggsw []) (nth (lo + m) fd []) r A) as (X & Y). split; [exact X|].
    rewrite Y, B. cbn [psum Nat.add]. ring.
Qed.

Lemma rows_val ggsw m e ct D r fd : ggsw_enc w N k p sk ggsw m e ->
  (forall i, (i <= k)%nat -> is_pdcmp w N p (nth i ct []) (D i) (r i) /\ isd (D i) (nth i fd [])) ->
  peq Q (psum (S k) (fun i => psum l (fun j => pmul (pol N (nth j (nth i fd []) [])) (gph (nth j (nth i ggsw []) []))))) (epVal m ct D e r).
Proof.
  intros (L & H0 & H) Hd. rewrite psum_S_l.
  destruct (Hd O ltac:(lia)) as (X & Y). rewrite (digits_glev _ m (e O) (D O) (nth 0 ct []) (r O) (nth 0 fd []) H0 X Y).
  rewrite (psum_proper Q k _ (fun i => padd (pmul m (psub (pmul (pol N (nth (S i) ct [])) (S_ i)) (pmul (r (S i)) (S_ i)))) (dsum (D (S i)) (e (S i))))).
  2:{ intros i Hi. destruct (Hd (S i) ltac:(lia)) as (X' & Y'). rewrite (digits_glev _ _ (e (S i)) (D (S i)) (nth (S i) ct []) (r (S i)) (nth (S i) fd []) (H i Hi) X' Y'). ring. }
  rewrite psum_add, <- pmul_psum_r, psum_sub. unfold epVal. rewrite psum_S_l. unfold gphase. ring.
Qed.

Lemma ExternalProdFFT_spec ggsw m e ct D r fd : ggsw_enc w N k p sk ggsw m e ->
  (forall i, (i <= k)%nat -> is_pdcmp w N p (nth i ct []) (D i) (r i) /\ isd (D i) (nth i fd [])) ->
  gshape N k (ExternalProdFFTGLWETo N k p ggsw fd) /\ peq Q (gph (ExternalProdFFTGLWETo N k p ggsw fd)) (epVal m ct D e r).
Proof.
  intros He Hd. unfold ExternalProdFFTGLWETo. pose proof lpos as Hl.
  destruct (mulLoop 1 (l - 1) (nth 0 ggsw []) (nth 0 fd []) _ (gshape_fgMul (nth 0 (nth 0 ggsw []) []) (nth 0 (nth 0 fd []) []))) as (A & B).
  destruct (rowsLoop 1 k ggsw fd _ A) as (X & Y). split; [exact X|]. rewrite Y, B, gphase_fgMul.
  rewrite <- (rows_val ggsw m e ct D r fd He Hd). rewrite psum_S_l. cbn [Nat.add].
  assert (forall f : nat -> npoly N, peq Q (psum l f) (padd (f O) (psum (l - 1) (fun j => f (S j))))) as Hs.
  { intros f. replace l with (S (l - 1)) at 1 by lia. apply psum_S_l. }
  rewrite (Hs (fun j => pmul (pol N (nth j (nth 0 fd []) [])) (gph (nth j (nth 0 ggsw []) [])))). reflexivity.
Qed.
Lemma ExternalProdAddFFT_spec out ggsw m e ct D r fd : gshape N k out -> ggsw_enc w N k p sk ggsw m e ->
  (forall i, (i <= k)%nat -> is_pdcmp w N p (nth i ct []) (D i) (r i) /\ isd (D i) (nth i fd [])) ->
  gshape N k (ExternalProdAddFFTGLWETo N k p out ggsw fd) /\ peq Q (gph (ExternalProdAddFFTGLWETo N k p out ggsw fd)) (padd (gph out) (epVal m ct D e r)).
Proof.
  intros Ho He Hd. unfold ExternalProdAddFFTGLWETo. destruct (rowsLoop 0 (S k) ggsw fd _ Ho) as (X & Y). split; [exact X|].
  rewrite Y. rewrite <- (rows_val ggsw m e ct D r fd He Hd). reflexivity.
Qed.
Lemma ExternalProdSubFFT_spec out ggsw m e ct D r fd : gshape N k out -> ggsw_enc w N k p sk ggsw m e ->
  (forall i, (i <= k)%nat -> is_pdcmp w N p (nth i ct []) (D i) (r i) /\ isd (D i) (nth i fd [])) ->
  gshape N k (ExternalProdSubFFTGLWETo N k p out ggsw fd) /\ peq Q (gph (ExternalProdSubFFTGLWETo N k p out ggsw fd)) (psub (gph out) (epVal m ct D e r)).
Proof.
  intros Ho He Hd. unfold ExternalProdSubFFTGLWETo. destruct (rowsLoopSub 0 (S k) ggsw fd _ Ho) as (X & Y). split; [exact X|].
  rewrite Y. rewrite <- (rows_val ggsw m e ct D r fd He Hd). reflexivity.
Qed.

(** The non-FFT product decomposes on the fly. *)
Lemma extProd_eq ggsw ct : length ct = S k ->
  extProdGLWE w N k p ggsw ct = ExternalProdFFTGLWETo N k p ggsw (tab (S k) (fun i => fdigits w p (nth i ct []))).
Proof.
  intros L. pose proof lpos as Hl. unfold extProdGLWE, ExternalProdFFTGLWETo, PolyMulFFTGLWETo, PolyMulAddFFTGLWETo.
  assert (forall i j, (i <= k)%nat -> nth j (nth i (tab (S k) (fun i => fdigits w p (nth i ct []))) []) [] = fwdFFT w (nth j (DecomposePoly w p (nth i ct [])) [])) as E.
  { intros i j Hi. rewrite nth_tab by lia. unfold fdigits. apply nth_map_fwd. }
  rewrite (E O O) by lia.
  match goal with |- forN 1 k ?f ?x = forN 1 k ?g ?y => transitivity (forN 1 k f y) end.
  - f_equal. apply forN_ext. intros j o Hj. now rewrite E by lia.
  - apply forN_ext. intros i o Hi. apply forN_ext. intros j o' Hj. rewrite E by lia. reflexivity.
Qed.

Definition dD (ct : list (list Z)) (i : nat) : nat -> npoly N := dpol w p N (nth i ct []).
Definition dR (ct : list (list Z)) (i : nat) : npoly N := gerrp w p N (nth i ct []).
Lemma d_ok ct i : glwe_ct w N k ct -> (i <= k)%nat ->
  is_pdcmp w N p (nth i ct []) (dD ct i) (dR ct i) /\ isd (dD ct i) (nth i (tab (S k) (fun i => fdigits w p (nth i ct []))) []).
Proof. intros (L & H) Hi. split; [apply pdcmp_spec; auto|]. rewrite nth_tab by lia. apply isd_fdigits. now apply H. Qed.

Lemma extProd_spec ggsw m e ct : ggsw_enc w N k p sk ggsw m e -> glwe_ct w N k ct ->
  gshape N k (extProdGLWE w N k p ggsw ct) /\ peq Q (gph (extProdGLWE w N k p ggsw ct)) (epVal m ct (dD ct) e (dR ct)).
Proof.
  intros He Hc. rewrite extProd_eq by apply Hc. apply ExternalProdFFT_spec; [exact He|]. intros i Hi. now apply d_ok.
Qed.
Lemma ExternalProdGLWETo_spec ggsw m e ct : ggsw_enc w N k p sk ggsw m e -> glwe_ct w N k ct ->
  glwe_ct w N k (ExternalProdGLWETo w N k p ggsw ct) /\ peq Q (gph (ExternalProdGLWETo w N k p ggsw ct)) (epVal m ct (dD ct) e (dR ct)).
Proof.
  intros He Hc. destruct (extProd_spec ggsw m e ct He Hc) as (A & B). destruct (gInv_spec _ A) as (X & Y). split; [exact X|]. unfold ExternalProdGLWETo. now rewrite Y.
Qed.
Lemma ExternalProdAddGLWETo_spec out ggsw m e ct : gshape N k out -> ggsw_enc w N k p sk ggsw m e -> glwe_ct w N k ct ->
  glwe_ct w N k (ExternalProdAddGLWETo w N k p out ggsw ct) /\ peq Q (gph (ExternalProdAddGLWETo w N k p out ggsw ct)) (padd (gph out) (epVal m ct (dD ct) e (dR ct))).
Proof.
  intros Ho He Hc. destruct (extProd_spec ggsw m e ct He Hc) as (A & B). destruct (gInvAdd_spec _ _ Ho A) as (X & Y). split; [exact X|]. unfold ExternalProdAddGLWETo. now rewrite Y, B.
Qed.
Lemma ExternalProdSubGLWETo_spec out ggsw m e ct : gshape N k out -> ggsw_enc w N k p sk ggsw m e -> glwe_ct w N k ct ->
  glwe_ct w N k (ExternalProdSubGLWETo w N k p out ggsw ct) /\ peq Q (gph (ExternalProdSubGLWETo w N k p out ggsw ct)) (psub (gph out) (epVal m ct (dD ct) e (dR ct))).
Proof.
  intros Ho He Hc. destruct (extProd_spec ggsw m e ct He Hc) as (A & B). destruct (gInvSub_spec _ _ Ho A) as (X & Y). split; [exact X|]. unfold ExternalProdSubGLWETo. now rewrite Y, B.
Qed.

(** ** CMux *)
Lemma gcopy_full dst src : gshape N k dst -> gshape N k src -> gcopy dst src = src.
Proof.
  intros (Ld & Hd) (Ls & Hs). unfold gcopy. apply (list_ext []); [rewrite tab_length; lia|]. intros i Hi. rewrite tab_length in Hi.
  rewrite nth_tab by exact Hi. apply (go_copy_full 0). rewrite Hd, Hs by lia. reflexivity.
Qed.
Definition cdiff (c0 c1 : list (list Z)) : list (list Z) := tab (S k) (fun i => vsub w (nth i c1 []) (nth i c0 [])).
Lemma cdiff_spec c0 c1 : gshape N k c0 -> gshape N k c1 -> glwe_ct w N k (cdiff c0 c1) /\ peq Q (gph (cdiff c0 c1)) (psub (gph c1) (gph c0)).
Proof.
  intros (L0 & H0) (L1 & H1). split.
  - split; [apply tab_length|]. intros i Hi. unfold cdiff. rewrite nth_tab by lia. apply wpoly_vsub; auto.
  - apply gphase_sub; [exact HN|]. intros i Hi. unfold cdiff. rewrite nth_tab by lia. apply pol_vsub; auto.
Qed.
Lemma CMuxTo_spec s out c0 c1 ggsw m e : glwe_ct w N k (s out) -> glwe_ct w N k (s c0) -> glwe_ct w N k (s c1) -> out <> c1 ->
  ggsw_enc w N k p sk ggsw m e ->
  let s' := CMuxTo w N k p s out c0 c1 ggsw in let df := cdiff (s c0) (s c1) in
  glwe_ct w N k (s' out) /\ peq Q (gph (s' out)) (padd (gph (s c0)) (epVal m df (dD df) e (dR df))) /\ (forall y, y <> out -> s' y = s y).
Proof.
  intros Wo W0 W1 Hne He. cbv zeta. unfold CMuxTo. rewrite gcopy_full by (now apply (glwe_shape w)).
  set (s1 := gset s out (s c0)). assert (s1 c1 = s c1) as E1 by (apply gset_other; auto).
  assert (s1 c0 = s c0) as E0. { unfold s1, gset. destruct (Nat.eqb c0 out); reflexivity. }
  rewrite E0, E1, !gset_same. fold (cdiff (s c0) (s c1)). unfold s1. rewrite gset_same.
  destruct (cdiff_spec (s c0) (s c1) (glwe_shape w N k _ W0) (glwe_shape w N k _ W1)) as (A & B).
  destruct (ExternalProdAddGLWETo_spec (s c0) ggsw m e _ (glwe_shape w N k _ W0) He A) as (X & Y). split; [exact X|]. split; [exact Y|].
  intros y Hy. now rewrite !gset_other by exact Hy.
Qed.

(** ** Key switching *)
Lemma KeySwitchGLWETo_spec skIn out ct ksk e : (1 <= length skIn)%nat -> gshape N k out -> glwe_ct w N (length skIn) ct -> gksk_enc w N k p sk skIn ksk e ->
  glwe_ct w N k (KeySwitchGLWETo w N k p out ct ksk) /\
  peq Q (gph (KeySwitchGLWETo w N k p out ct ksk))
    (padd (psub (gphase N (length skIn) skIn ct) (psum (length skIn) (fun i => pmul (pol N (nth i skIn [])) (dR ct (S i)))))
          (psum (length skIn) (fun i => dsum (dD ct (S i)) (e i)))).
Proof.
  intros H1 (Lo & Ho) (Lc & Hc) (Lk & Hk). unfold KeySwitchGLWETo. rewrite Lk. set (n := length skIn) in *.
  assert (forall i, (i < n)%nat -> is_pdcmp w N p (nth (S i) ct []) (dD ct (S i)) (dR ct (S i)) /\ isd (dD ct (S i)) (fdigits w p (nth (S i) ct []))) as Hd.
  { intros i Hi. split; [apply pdcmp_spec; apply Hc; lia|apply isd_fdigits; apply Hc; lia]. }
  set (val := fun i => padd (pmul (pol N (nth i skIn [])) (psub (pol N (nth (S i) ct [])) (dR ct (S i)))) (dsum (dD ct (S i)) (e i))).
  destruct (GadgetProdFFT_spec (nth 0 ksk []) (pol N (nth 0 skIn [])) (e O) (dD ct 1) (nth 1 ct []) (dR ct 1) (fdigits w p (nth 1 ct []))
    (Hk O ltac:(lia)) (proj1 (Hd O ltac:(lia))) (proj2 (Hd O ltac:(lia)))) as (A & B).
  match goal with |- context [forN 1 (n - 1) ?f ?a] => assert (gshape N k (forN 1 (n - 1) f a) /\ peq Q (gph (forN 1 (n - 1) f a)) (psum n val)) as HP end.
  { match goal with |- context [forN 1 (n - 1) ?f ?a] => set (P := fun (m : nat) r => (m <= n - 1)%nat -> gshape N k r /\ peq Q (gph r) (psum (S m) val));
      enough (P (n - 1)%nat (forN 1 (n - 1) f a)) as HP by (destruct (HP ltac:(lia)) as (X & Y); split; [exact X|replace (S (n - 1)) with n in Y by lia; exact Y]) end.
    apply (forN_ind P); unfold P.
    - intros _. split; [exact A|]. rewrite B. cbn [psum]. unfold val. ring.
    - intros m r Hm IH _. destruct (IH ltac:(lia)) as (X & Y). cbn [Nat.add].
      destruct (GadgetProdAddFFT_spec r (nth (S m) ksk []) (pol N (nth (S m) skIn [])) (e (S m)) (dD ct (S (S m))) (nth (S (S m)) ct []) (dR ct (S (S m))) (fdigits w p (nth (S (S m)) ct []))
        X (Hk (S m) ltac:(lia)) (proj1 (Hd (S m) ltac:(lia))) (proj2 (Hd (S m) ltac:(lia)))) as (X' & Y'). split; [exact X'|].
      rewrite Y', Y. cbn [psum]. unfold val. ring. }
  match goal with |- context [forN 1 (n - 1) ?f ?a] => set (prod := forN 1 (n - 1) f a) in * end. destruct HP as ((Lp & Hp) & Yp).
  rewrite (go_copy_full 0) by (rewrite Ho by lia; symmetry; apply Hc; lia).
  set (b := invFFTAdd w (nth 0 (upd out 0 (nth 0 ct [])) []) (nth 0 prod [])).
  assert (b = vadd w (nth 0 ct []) (invFFT w (nth 0 prod []))) as Eb by (unfold b; rewrite nth_upd_if by lia; reflexivity).
  set (o0 := upd (upd out 0 (nth 0 ct [])) 0 b). assert (length o0 = S k) as Lo0 by (unfold o0; now rewrite !upd_length).
  assert (nth 0 o0 [] = b) as E0 by (unfold o0; rewrite nth_upd_if by (rewrite upd_length; lia); reflexivity).
  set (P := fun (m : nat) o => (m <= k)%nat -> length o = S k /\ nth 0 o [] = b /\ forall i, (i < m)%nat -> nth (S i) o [] = invFFT w (nth (S i) prod [])).
  match goal with |- context [forN 0 k ?f o0] => assert (P k (forN 0 k f o0)) as HF end.
  { apply (forN_ind P); unfold P.
    - intros _. split; [exact Lo0|]. split; [exact E0|]. intros; lia.
    - intros m o Hm IH _. destruct (IH ltac:(lia)) as (X & Y & Z1). cbn [Nat.add]. split; [now rewrite upd_length|]. split; [rewrite nth_upd_if by lia; exact Y|].
      intros i Hi. rewrite nth_upd_if by lia. cbn [Nat.eqb]. destruct (Nat.eqb_spec i m) as [->|]; [reflexivity|apply Z1; lia]. }
  match goal with |- context [forN 0 k ?f o0] => set (res := forN 0 k f o0) in * end. destruct (HF ltac:(lia)) as (Lr & R0 & RS).
  assert (length b = N) as Lb. { rewrite Eb, vadd_length, invFFT_length, Hp by lia. pose proof (proj1 (Hc O ltac:(lia))) as Hz. rewrite Hz. lia. }
  assert (glwe_ct w N k res) as Wr.
  { split; [exact Lr|]. intros [|i] Hi; [rewrite R0, Eb|rewrite RS by lia].
    - apply wpoly_vadd; try assumption; [apply Hc; lia|rewrite invFFT_length; apply Hp; lia].
    - apply wpoly_invFFT; try assumption; apply Hp; lia. }
  split; [exact Wr|].
  assert (peq Q (gph res) (padd (pol N (nth 0 ct [])) (gph prod))) as ->.
  { unfold gphase. rewrite R0, Eb. rewrite (pol_vadd N HN w (nth 0 ct []) (invFFT w (nth 0 prod [])) (proj1 (Hc O ltac:(lia))) ltac:(rewrite invFFT_length; apply Hp; lia)).
    rewrite pol_invFFT by (try assumption; apply Hp; lia).
    rewrite (psum_proper Q k (fun i => pmul (pol N (nth (S i) res [])) (S_ i)) (fun i => pmul (pol N (nth (S i) prod [])) (S_ i))).
    2:{ intros i Hi. rewrite RS by exact Hi. rewrite pol_invFFT by (try assumption; apply Hp; lia). reflexivity. } ring. }
  rewrite Yp. unfold val, gphase.
  rewrite (psum_proper Q n _ (fun i => padd (psub (pmul (pol N (nth (S i) ct [])) (pol N (nth i skIn []))) (pmul (pol N (nth i skIn [])) (dR ct (S i)))) (dsum (dD ct (S i)) (e i)))).
  2:{ intros i Hi. ring. }
  rewrite psum_add, psum_sub. ring.
Qed.

(** ** Error bounds *)
Lemma pbound_dsum D e E c r : is_pdcmp w N p c D r -> (forall j, (j < l)%nat -> pbound E (e j)) ->
  pbound (Z.of_nat l * (Z.of_nat N * (2 ^ (g_logBase p - 1) * E))) (dsum D e).
Proof. intros (Hd & _) He. apply pbound_psum. intros j Hj. apply pbound_mul; auto. Qed.
Notation eps := (2 ^ (w - Z.of_nat l * g_logBase p) / 2).
Lemma pbound_rsum ct n (sIn : list (list Z)) : (forall i, (i <= n)%nat -> pbound eps (dR ct i)) -> (forall i, (i < n)%nat -> pbound 1 (pol N (nth i sIn []))) ->
  pbound (Z.of_nat n * (Z.of_nat N * (eps * 1))) (psum n (fun i => pmul (dR ct (S i)) (pol N (nth i sIn [])))).
Proof. intros H1 H2. apply pbound_psum. intros i Hi. apply pbound_mul; [apply H1; lia|now apply H2]. Qed.
End W.
