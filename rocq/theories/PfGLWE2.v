From Verif Require Import Base NegaRing SpecNum ModelNum PfNum ModelVec SpecVec PfVec ModelPoly SpecPoly PfPoly PfPerm PfSplit ModelGadget SpecGadget PfGadget ModelLWE SpecLWE PfLWE PfKS PfKS2 ModelGLWE SpecGLWE PfGLWE.

Lemma gset_same s x v : gset s x v x = v.
Proof. unfold gset. now rewrite Nat.eqb_refl. Qed.
Lemma gset_other s x v y : y <> x -> gset s x v y = s y.
Proof. intros H. unfold gset. destruct (Nat.eqb_spec y x); [contradiction|reflexivity]. Qed.

(** Entry i of the output depends on the entries i of the arguments before the loop, whatever the aliasing. *)
Lemma gop_spec lo k f s out a b (v : nat -> list Z) : (lo <= S k)%nat -> length (s out) = S k ->
  (forall i, (lo <= i <= k)%nat -> f (nth i (s out) []) (nth i (s a) []) (nth i (s b) []) = Some (v i)) ->
  exists s', gop lo k f s out a b = Some s' /\ length (s' out) = S k /\
    (forall i, (lo <= i <= k)%nat -> nth i (s' out) [] = v i) /\
    (forall i, (i < lo)%nat -> nth i (s' out) [] = nth i (s out) []) /\
    (forall y, y <> out -> s' y = s y).
Proof.
  intros Hlo L Hf. unfold gop.
  set (P := fun (m : nat) (r : option gstore) => (m <= S k - lo)%nat -> exists s', r = Some s' /\ length (s' out) = S k /\
    (forall i, (lo <= i < lo + m)%nat -> nth i (s' out) [] = v i) /\
    (forall i, (i < lo \/ lo + m <= i)%nat -> nth i (s' out) [] = nth i (s out) []) /\
    (forall y, y <> out -> s' y = s y)).
  match goal with |- context [forN lo ?n ?g ?x] => assert (P n (forN lo n g x)) as HP end.
  { apply (forN_ind P); unfold P.
    - intros _. exists s. repeat match goal with |- _ /\ _ => split end; auto. intros i Hi; lia.
    - intros m r Hm IH _. destruct (IH ltac:(lia)) as (s1 & -> & L1 & V1 & F1 & O1).
      assert (forall y, nth (lo + m) (s1 y) [] = nth (lo + m) (s y) []) as Hy.
      { intros y. destruct (Nat.eq_dec y out) as [->|Hne]; [apply F1; lia|now rewrite O1]. }
      rewrite !Hy, Hf by lia. eexists. split; [reflexivity|]. rewrite gset_same. split; [now rewrite upd_length|]. split; [|split].
      + intros i Hi. rewrite nth_upd_if by lia. destruct (Nat.eqb_spec i (lo + m)) as [->|]; [reflexivity|apply V1; lia].
      + intros i Hi. rewrite nth_upd_if by lia. destruct (Nat.eqb_spec i (lo + m)) as [->|]; [lia|apply F1; lia].
      + intros y Hy'. rewrite gset_other by exact Hy'. now apply O1. }
  destruct (HP ltac:(lia)) as (s' & E & L' & V & F & O). exists s'. split; [exact E|]. split; [exact L'|]. split; [|split; [|exact O]].
  - intros i Hi. apply V. lia.
  - intros i Hi. apply F. lia.
Qed.

Section W.
Variable w : Z.
Hypothesis Hw : 0 < w.
Notation Q := (2 ^ w).
Variable N : nat.
Hypothesis HN : (0 < N)%nat.
Variable k : nat.
Add Ring nring : (@npoly_ring N Q) (setoid (@peq_equiv N Q) (@npoly_ring_ext N Q)).
Variable sk : list (list Z).
Notation gph := (gphase N k sk).
Notation S_ i := (pol N (nth i sk [])).

Notation gopok := (gopok w N k sk).

Lemma gop_lin co cx cy f s out a b : glwe_ct w N k (s out) -> glwe_ct w N k (s a) -> glwe_ct w N k (s b) ->
  (forall o x y, wpoly w N o -> wpoly w N x -> wpoly w N y -> exists v, f o x y = Some v /\ wpoly w N v /\
     peq Q (pol N v) (padd (pmul co (pol N o)) (padd (pmul cx (pol N x)) (pmul cy (pol N y))))) ->
  gopok s out (gop 0 k f s out a b) (padd (pmul co (gph (s out))) (padd (pmul cx (gph (s a))) (pmul cy (gph (s b))))).
Proof.
  intros (Lo & Wo) (La & Wa) (Lb & Wb) Hf.
  assert (forall i, (i <= k)%nat -> exists v, f (nth i (s out) []) (nth i (s a) []) (nth i (s b) []) = Some v /\ wpoly w N v /\
     peq Q (pol N v) (padd (pmul co (pol N (nth i (s out) []))) (padd (pmul cx (pol N (nth i (s a) []))) (pmul cy (pol N (nth i (s b) [])))))) as Hv
    by (intros i Hi; apply Hf; auto).
  destruct (gop_spec 0 k f s out a b (fun i => match f (nth i (s out) []) (nth i (s a) []) (nth i (s b) []) with Some v => v | None => [] end)) as (s' & E & L' & V & _ & F).
  - lia.
  - exact Lo.
  - intros i Hi. destruct (Hv i ltac:(lia)) as (v & Ev & _). now rewrite Ev.
  - exists s'. split; [exact E|].
    assert (forall i, (i <= k)%nat -> wpoly w N (nth i (s' out) []) /\ peq Q (pol N (nth i (s' out) [])) (padd (pmul co (pol N (nth i (s out) []))) (padd (pmul cx (pol N (nth i (s a) []))) (pmul cy (pol N (nth i (s b) [])))))) as R.
    { intros i Hi. rewrite V by lia. destruct (Hv i Hi) as (v & Ev & X). rewrite Ev. exact X. }
    split; [split; [exact L'|intros i Hi; now apply R]|]. split; [|exact F].
    unfold gphase at 1. rewrite (proj2 (R O ltac:(lia))).
    rewrite (psum_proper Q k _ (fun i => padd (pmul co (pmul (pol N (nth (S i) (s out) [])) (S_ i)))
      (padd (pmul cx (pmul (pol N (nth (S i) (s a) [])) (S_ i))) (pmul cy (pmul (pol N (nth (S i) (s b) [])) (S_ i)))))).
    2:{ intros i Hi. rewrite (proj2 (R (S i) ltac:(lia))). ring. }
    rewrite !psum_add, <- !pmul_psum_r. unfold gphase. ring.
Qed.

Lemma gopok_peq s out r v v' : peq Q v v' -> gopok s out r v -> gopok s out r v'.
Proof. intros H (s' & A & B & C & D). exists s'. repeat match goal with |- _ /\ _ => split end; auto. rewrite C. exact H. Qed.

Variable s : gstore.
Variables out a b : nat.
Hypothesis Wo : glwe_ct w N k (s out).
Hypothesis Wa : glwe_ct w N k (s a).
Hypothesis Wb : glwe_ct w N k (s b).

Lemma AddGLWETo_spec : gopok s out (AddGLWETo w k s out a b) (padd (gph (s a)) (gph (s b))).
Proof.
  eapply gopok_peq; [|apply (gop_lin pzero pone pone); try assumption]; [ring|]. intros o x y (Lo & _) (Lx & _) (Ly & _).
  eexists. split; [reflexivity|]. split; [now apply wpoly_vadd|]. rewrite pol_vadd by assumption. ring.
Qed.
Lemma SubGLWETo_spec : gopok s out (SubGLWETo w k s out a b) (psub (gph (s a)) (gph (s b))).
Proof.
  eapply gopok_peq; [|apply (gop_lin pzero pone (popp pone)); try assumption]; [ring|]. intros o x y (Lo & _) (Lx & _) (Ly & _).
  eexists. split; [reflexivity|]. split; [now apply wpoly_vsub|]. rewrite pol_vsub by assumption. ring.
Qed.
Lemma NegGLWETo_spec : gopok s out (NegGLWETo w k s out a) (popp (gph (s a))).
Proof.
  eapply gopok_peq; [|apply (gop_lin pzero (popp pone) pzero); try assumption]; [ring|]. intros o x y (Lo & _) (Lx & _) (Ly & _).
  eexists. split; [reflexivity|]. split; [now apply wpoly_vneg|]. rewrite pol_vneg by assumption. ring.
Qed.
Lemma ScalarMulGLWETo_spec c : gopok s out (ScalarMulGLWETo w k s out a c) (pscale c (gph (s a))).
Proof.
  eapply gopok_peq; [|apply (gop_lin pzero (pconst c) pzero); try assumption]; [rewrite (pscale_mul Q c (gph (s a))); ring|]. intros o x y (Lo & _) (Lx & _) (Ly & _).
  eexists. split; [reflexivity|]. split; [now apply wpoly_vscale|]. rewrite pol_vscale, (pscale_mul Q c (pol N x)) by assumption. ring.
Qed.
Lemma pol_vscaleAdd c o x : length o = N -> length x = N ->
  wpoly w N (vscaleAdd w c o x) /\ peq Q (pol N (vscaleAdd w c o x)) (padd (pol N o) (pscale c (pol N x))).
Proof.
  intros Lo Lx. split.
  - split; [unfold vscaleAdd; rewrite map2_length; lia|]. apply Forall_map2. intros; apply wrap_word; lia.
  - apply pol_peq; [exact HN|]. intros i Hi. cbn [cf padd pscale]. rewrite !cf_pol_at by assumption. unfold vscaleAdd. rewrite nthZ_map2 by lia.
    rewrite !wrap_eqm. reflexivity.
Qed.
Lemma pol_vscaleSub c o x : length o = N -> length x = N ->
  wpoly w N (vscaleSub w c o x) /\ peq Q (pol N (vscaleSub w c o x)) (psub (pol N o) (pscale c (pol N x))).
Proof.
  intros Lo Lx. split.
  - split; [unfold vscaleSub; rewrite map2_length; lia|]. apply Forall_map2. intros; apply wrap_word; lia.
  - apply pol_peq; [exact HN|]. intros i Hi. cbn [cf psub pscale]. rewrite !cf_pol_at by assumption. unfold vscaleSub. rewrite nthZ_map2 by lia.
    rewrite !wrap_eqm. reflexivity.
Qed.
Lemma ScalarMulAddGLWETo_spec c : gopok s out (ScalarMulAddGLWETo w k s out a c) (padd (gph (s out)) (pscale c (gph (s a)))).
Proof.
  eapply gopok_peq; [|apply (gop_lin pone (pconst c) pzero); try assumption]; [rewrite (pscale_mul Q c (gph (s a))); ring|]. intros o x y (Lo & _) (Lx & _) (Ly & _).
  eexists. split; [reflexivity|]. destruct (pol_vscaleAdd c o x Lo Lx) as (A & B). split; [exact A|]. rewrite B, (pscale_mul Q c (pol N x)). ring.
Qed.
Lemma ScalarMulSubGLWETo_spec c : gopok s out (ScalarMulSubGLWETo w k s out a c) (psub (gph (s out)) (pscale c (gph (s a)))).
Proof.
  eapply gopok_peq; [|apply (gop_lin pone (popp (pconst c)) pzero); try assumption]; [rewrite (pscale_mul Q c (gph (s a))); ring|]. intros o x y (Lo & _) (Lx & _) (Ly & _).
  eexists. split; [reflexivity|]. destruct (pol_vscaleSub c o x Lo Lx) as (A & B). split; [exact A|]. rewrite B, (pscale_mul Q c (pol N x)). ring.
Qed.

Section PM.
Variable logN : Z.
Hypothesis HlN : 0 < splitBits logN.
Variable p : list Z.
Hypothesis Wp : wpoly w N p.
Lemma PolyMulGLWETo_spec : gopok s out (PolyMulGLWETo w logN N k s out a p) (pmul (pol N p) (gph (s a))).
Proof.
  eapply gopok_peq; [|apply (gop_lin pzero (pol N p) pzero); try assumption]; [ring|]. intros o x y Ho Hx Hy.
  eexists. split; [reflexivity|]. destruct (MulPolyTo_spec N HN false w logN x p Hw HlN Hx Wp) as (A & B). split; [exact A|]. rewrite B. ring.
Qed.
Lemma PolyMulAddGLWETo_spec : gopok s out (PolyMulAddGLWETo w logN N k s out a p) (padd (gph (s out)) (pmul (pol N p) (gph (s a)))).
Proof.
  eapply gopok_peq; [|apply (gop_lin pone (pol N p) pzero); try assumption]; [ring|]. intros o x y Ho Hx Hy.
  eexists. split; [reflexivity|]. destruct (MulAddPolyTo_spec N HN false w logN o x p Hw HlN (proj1 Ho) Hx Wp) as (A & B). split; [exact A|]. rewrite B. ring.
Qed.
Lemma PolyMulSubGLWETo_spec : gopok s out (PolyMulSubGLWETo w logN N k s out a p) (psub (gph (s out)) (pmul (pol N p) (gph (s a)))).
Proof.
  eapply gopok_peq; [|apply (gop_lin pone (popp (pol N p)) pzero); try assumption]; [ring|]. intros o x y Ho Hx Hy.
  eexists. split; [reflexivity|]. destruct (MulSubPolyTo_spec N HN false w logN o x p Hw HlN (proj1 Ho) Hx Wp) as (A & B). split; [exact A|]. rewrite B. ring.
Qed.
End PM.
Lemma FFTPolyMulGLWETo_spec fp : gopok s out (FFTPolyMulGLWETo w N k s out a fp) (pmul (pol N fp) (gph (s a))).
Proof.
  eapply gopok_peq; [|apply (gop_lin pzero (pol N fp) pzero); try assumption]; [ring|]. intros o x y (Lo & _) (Lx & _) (Ly & _).
  eexists. split; [reflexivity|]. split.
  - unfold FFTPolyMulPolyTo. apply wpoly_invFFT; [assumption..|]. unfold fmul. now rewrite nmul_length.
  - rewrite pol_FFTPolyMulPolyTo by assumption. ring.
Qed.
Lemma FFTPolyMulAddGLWETo_spec fp : gopok s out (FFTPolyMulAddGLWETo w N k s out a fp) (padd (gph (s out)) (pmul (pol N fp) (gph (s a)))).
Proof.
  eapply gopok_peq; [|apply (gop_lin pone (pol N fp) pzero); try assumption]; [ring|]. intros o x y (Lo & _) (Lx & _) (Ly & _).
  eexists. split; [reflexivity|]. split.
  - unfold FFTPolyMulAddPolyTo, invFFTAdd. apply wpoly_vadd; [assumption..|]. unfold fmul. now rewrite invFFT_length, nmul_length.
  - rewrite pol_FFTPolyMulAddPolyTo by assumption. ring.
Qed.
Lemma FFTPolyMulSubGLWETo_spec fp : gopok s out (FFTPolyMulSubGLWETo w N k s out a fp) (psub (gph (s out)) (pmul (pol N fp) (gph (s a)))).
Proof.
  eapply gopok_peq; [|apply (gop_lin pone (popp (pol N fp)) pzero); try assumption]; [ring|]. intros o x y (Lo & _) (Lx & _) (Ly & _).
  eexists. split; [reflexivity|]. split.
  - unfold FFTPolyMulSubPolyTo, invFFTSub. apply wpoly_vsub; [assumption..|]. unfold fmul. now rewrite invFFT_length, nmul_length.
  - rewrite pol_FFTPolyMulSubPolyTo by assumption. ring.
Qed.

Section Mono.
Variable n : Z.
Hypothesis Hn : 0 <= n.
Hypothesis HNn : Z.of_nat N = 2 ^ n.
Variable d : Z.
Lemma MonomialMulGLWETo_spec : gopok s out (MonomialMulGLWETo w N k s out a d) (pmul (pmono d) (gph (s a))).
Proof.
  eapply gopok_peq; [|apply (gop_lin pzero (pmono d) pzero); try assumption]; [ring|]. intros o x y Ho Hx Hy.
  eexists. split; [reflexivity|]. destruct (MonomialMulPolyTo_spec N HN w n o x d Hn ltac:(lia) HNn (proj1 Ho) Hx) as (A & B). split; [exact A|]. rewrite B. ring.
Qed.
Lemma MonomialMulAddGLWETo_spec : gopok s out (MonomialMulAddGLWETo w N k s out a d) (padd (gph (s out)) (pmul (pmono d) (gph (s a)))).
Proof.
  eapply gopok_peq; [|apply (gop_lin pone (pmono d) pzero); try assumption]; [ring|]. intros o x y Ho Hx Hy.
  eexists. split; [reflexivity|]. destruct (MonomialMulAddPolyTo_spec N HN w n o x d Hn ltac:(lia) HNn (proj1 Ho) Hx) as (A & B). split; [exact A|]. rewrite B. ring.
Qed.
Lemma MonomialMulSubGLWETo_spec : gopok s out (MonomialMulSubGLWETo w N k s out a d) (psub (gph (s out)) (pmul (pmono d) (gph (s a)))).
Proof.
  eapply gopok_peq; [|apply (gop_lin pone (popp (pmono d)) pzero); try assumption]; [ring|]. intros o x y Ho Hx Hy.
  eexists. split; [reflexivity|]. destruct (MonomialMulSubPolyTo_spec N HN w n o x d Hn ltac:(lia) HNn (proj1 Ho) Hx) as (A & B). split; [exact A|]. rewrite B. ring.
Qed.
Lemma MonomialMulGLWEInPlace_spec : gopok s a (MonomialMulGLWEInPlace w N k s a d) (pmul (pmono d) (gph (s a))).
Proof.
  eapply gopok_peq; [|apply (gop_lin pzero (pmono d) pzero); try assumption]; [ring|]. intros o x y Ho Hx Hy.
  eexists. split; [apply (MonomialMulPolyInPlace_eq N HN w n o x d Hn ltac:(lia) HNn (proj1 Ho) Hx)|].
  destruct (MonomialMulPolyTo_spec N HN w n o x d Hn ltac:(lia) HNn (proj1 Ho) Hx) as (A & B). split; [exact A|]. rewrite B. ring.
Qed.
End Mono.

Lemma plain_spec f f' pt : length pt = N ->
  (forall x, length x = N -> wpoly w N (f x pt) /\ peq Q (pol N (f x pt)) (padd (pol N x) f')) ->
  gopok s out (plainGLWE k f s out a pt) (padd (gph (s a)) f').
Proof.
  intros Lp Hf. unfold plainGLWE, gop1.
  destruct (gop_spec 1 k (fun o x y => Some (go_copy o x)) s out a a (fun i => nth i (s a) [])) as (s' & E & L' & V & F & Oth).
  - lia.
  - apply Wo.
  - intros i Hi. rewrite (go_copy_full 0); [reflexivity|]. rewrite (proj1 (proj2 Wo i ltac:(lia))), (proj1 (proj2 Wa i ltac:(lia))). reflexivity.
  - rewrite E. assert (nth 0 (s' a) [] = nth 0 (s a) []) as Hz. { destruct (Nat.eq_dec a out) as [->|Hne]; [now apply F; lia|now rewrite Oth]. }
    rewrite Hz. destruct (Hf (nth 0 (s a) []) (proj1 (proj2 Wa O ltac:(lia)))) as (X & Y).
    eexists. split; [reflexivity|]. rewrite gset_same. split; [|split].
    + split; [now rewrite upd_length|]. intros i Hi. rewrite nth_upd_if by lia. destruct (Nat.eqb_spec i 0) as [->|Hne]; [exact X|]. rewrite V by lia. now apply Wa.
    + rewrite gphase_upd0 by assumption. rewrite Y.
      assert (peq Q (psub (gph (s' out)) (pol N (nth 0 (s' out) []))) (psub (gph (s a)) (pol N (nth 0 (s a) [])))) as ->; [|ring].
      unfold gphase. rewrite (psum_proper Q k (fun i => pmul (pol N (nth (S i) (s' out) [])) (S_ i)) (fun i => pmul (pol N (nth (S i) (s a) [])) (S_ i))).
      2:{ intros i Hi. rewrite V by lia. reflexivity. } ring.
    + intros y Hy. rewrite gset_other by exact Hy. now apply Oth.
Qed.
Lemma AddPlainGLWETo_spec pt : length pt = N -> gopok s out (AddPlainGLWETo w k s out a pt) (padd (gph (s a)) (pol N pt)).
Proof. intros Lp. apply plain_spec; [exact Lp|]. intros x Lx. split; [now apply wpoly_vadd|]. now rewrite pol_vadd by assumption. Qed.
Lemma SubPlainGLWETo_spec pt : length pt = N -> gopok s out (SubPlainGLWETo w k s out a pt) (psub (gph (s a)) (pol N pt)).
Proof.
  intros Lp. eapply gopok_peq; [|apply (plain_spec _ (popp (pol N pt))); [exact Lp|]]; [ring|]. intros x Lx. split; [now apply wpoly_vsub|].
  rewrite pol_vsub by assumption. ring.
Qed.
End W.
