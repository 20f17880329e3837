(** Lemmas: evaluator tables, folding, pointwise loops and unfolding over an arithmetic without laws. *)
From Verif Require Import Base NegaRing ModelNum ModelVec ModelPoly ModelFFT SpecNum SpecVec SpecPoly SpecFFT PfNum PfVec PfPoly PfFFT PfFFT2 PfFFT3 PfNetGen.

Section NetGen2.
Variable A : arith.
Notation F := (car A).
Notation C := (F * F)%type.
Variables (N lm : nat).
Hypothesis Hlm : (3 <= lm)%nat.
Hypothesis HN : N = (2 ^ S lm)%nat.
Notation M := (2 ^ lm)%nat.
Notation cplx := (cplx A).
Notation M4 := (M4 N lm Hlm HN).
Let NM := NM N lm HN.
Let NhalfM := NhalfM N lm HN.

Lemma gN8 : (4 * ((N + 7) / 8) = M)%nat.
Proof.
  destruct (M8 N lm Hlm HN) as (g & EM & _ & _). rewrite NM, EM. replace ((2 * (8 * g) + 7) / 8)%nat with (2 * g)%nat by (apply (Nat.div_unique _ _ _ 7); lia). lia.
Qed.
Lemma gNewEvaluator : exists e, NewEvaluator A N = Ok e /\ gTWF A lm lm (e_tw A e) /\ gTWI A lm 0 (e_twInv A e).
Proof.
  unfold NewEvaluator.
  assert (IsPowerOfTwo (Z.of_nat N) = true) as ->.
  { apply IsPowerOfTwo_spec. exists (Z.of_nat (S lm)). split; [lia|]. rewrite HN, Nat2Z.inj_pow. reflexivity. }
  cbn [negb]. destruct (Nat.ltb_spec N 16) as [Hlt|_].
  { exfalso. rewrite HN in Hlt. assert (2 ^ 4 <= 2 ^ S lm)%nat by (apply Nat.pow_le_mono_r; lia). cbn [Nat.pow Nat.mul Nat.add] in *. lia. }
  rewrite NhalfM. destruct (ggenTwiddle_spec A N lm Hlm HN) as (tw & twInv & -> & HF & HI).
  set (idx := forN 1 (2 ^ lm - 1) (fun i o => upd o i (4 * Z.of_nat i - 1)) (upd (repeat 0 (2 ^ lm)) 0 (2 * Z.of_nat N - 1))).
  assert (Hlen : length idx = (2 ^ lm)%nat).
  { unfold idx. rewrite (forN_upd_length 1 (2 ^ lm - 1) (fun i => i) (fun i _ => 4 * Z.of_nat i - 1)), upd_length, repeat_length. reflexivity. }
  destruct (BitReverseInPlace_spec 0 lm idx Hlen) as (idx' & -> & _).
  eexists; split; [reflexivity|]. cbn [e_tw e_twInv]. now split.
Qed.
Lemma gfold_spec sg w (out : list F) p : length out = N ->
  length (foldPolyTo A sg w out p) = N /\
  forall k, (k < M)%nat -> cplx (foldPolyTo A sg w out p) k = (foldConv A sg w (nthZ p k), foldConv A sg w (nthZ p (k + M))).
Proof.
  intros Hl. unfold foldPolyTo. rewrite Hl, NhalfM. rewrite NM in Hl.
  destruct (lanes_spec A M M4 _ (fun k _ => (foldConv A sg w (nthZ p k), foldConv A sg w (nthZ p (k + M)%nat)))
    (fun b c o => upd (upd o (8 * b + c) (foldConv A sg w (nthZ p (4 * b + c)))) (8 * b + c + 4) (foldConv A sg w (nthZ p (4 * b + M + c)))) out gN8) as [H1 H2].
  - intros b c o _ _. replace (4 * b + M + c)%nat with (4 * b + c + M)%nat by lia. reflexivity.
  - exact Hl.
  - split; [etransitivity; [exact H1|symmetry; exact NM]|exact H2].
Qed.
Lemma gloop_spec f (o v0 v1 : list F) : length o = N ->
  length (cmplxLoop A f o v0 v1) = N /\ forall k, (k < M)%nat -> cplx (cmplxLoop A f o v0 v1) k = f (cplx o k) (cplx v0 k) (cplx v1 k).
Proof.
  intros Hl. unfold cmplxLoop. rewrite Hl. rewrite NM in Hl.
  destruct (lanes_spec A M M4 _ (fun k a => f a (cplx v0 k) (cplx v1 k))
    (fun b c o => let i := (8 * b + c)%nat in let at_ v := (nth i v (a0 A), nth (i + 4) v (a0 A)) in
      let '(x, y) := f (at_ o) (at_ v0) (at_ v1) in upd (upd o i x) (i + 4) y) o gN8) as [H1 H2].
  - intros b c o' _ Hc. cbv zeta. unfold SpecFFT.cplx. fold (L (4 * b + c)). rewrite L_block by exact Hc. reflexivity.
  - exact Hl.
  - split; [etransitivity; [exact H1|symmetry; exact NM]|exact H2].
Qed.
Lemma gunfold_spec (acc : Z -> Z -> Z) sg w (u : list F) (c : nat -> Z) out : length u = N -> length out = N ->
  (forall k, (k < M)%nat -> twrap sg w (around A (fst (cplx u k))) = twrap sg w (c k) /\
                           twrap sg w (around A (snd (cplx u k))) = twrap sg w (c (k + M)%nat)) ->
  unfoldPoly A acc sg w out u = tab N (fun i => acc (nthZ out i) (twrap sg w (c i))).
Proof.
  intros Hl Ho Hu. unfold unfoldPoly. rewrite Hl, NhalfM.
  destruct (lanesZ_spec M M4 _ (fun k o => acc o (twrap sg w (around A (fst (cplx u k))))) (fun k o => acc o (twrap sg w (around A (snd (cplx u k)))))
    (fun b c o => let o := upd o (4 * b + c) (acc (nthZ o (4 * b + c)) (twrap sg w (around A (nth (8 * b + c) u (a0 A))))) in
      upd o (4 * b + M + c) (acc (nthZ o (4 * b + M + c)) (twrap sg w (around A (nth (8 * b + c + 4) u (a0 A)))))) out gN8) as [H3 H4].
  - intros b c' o _ Hc. unfold SpecFFT.cplx. fold (L (4 * b + c')). rewrite L_block by exact Hc. reflexivity.
  - rewrite <- NM. exact Ho.
  - cbv beta in H3, H4. set (res := forN 0 ((N + 7) / 8) _ out) in *. clearbody res.
    pose proof NM. apply nthZ_ext; [rewrite tab_length; lia|]. intros i Hi. rewrite nthZ_tab by lia.
    destruct (Nat.lt_ge_cases i M) as [Hk|Hk].
    + destruct (H4 i Hk) as [-> _]. destruct (Hu i Hk) as [-> _]. reflexivity.
    + destruct (H4 (i - M)%nat ltac:(lia)) as [_ E]. replace (i - M + M)%nat with i in E by lia. rewrite E.
      destruct (Hu (i - M)%nat ltac:(lia)) as [_ ->]. replace (i - M + M)%nat with i by lia. reflexivity.
Qed.
End NetGen2.
