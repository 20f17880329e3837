(** Lemmas: blind rotation on binary64 transforms. *)
From Coq Require Import Floats.SpecFloat.
From Verif Require Import Base NegaRing ModelNum ModelVec ModelPoly ModelAsm ModelF64 ModelFFT ModelF64Arith ModelSplitFFT ModelFused ModelFusedMul ModelGadget ModelLWE ModelGLWE ModelBoot ModelProdFFT ModelBlindFFT SpecNum SpecVec SpecPoly SpecFFT SpecFFTReal SpecRound SpecFused SpecGadget SpecLWE SpecGLWE SpecBoot SpecProdFFT SpecBlindFFT
  PfNum PfVec PfPoly PfSplit PfFFT6 PfSplitFFT PfSplitF64 PfSplitF64b PfRoundEx PfValid PfSumK PfGadget PfGLWE PfGLWE2 PfGLWE3 PfGLWE4 PfBoot2 PfProdFFT PfProdFFT2 PfMonoF PfBlindFFT2 PfBlindFFT3.
From Coq Require Import Reals Lra Lia.
Open Scope Z_scope.

Section Exact.
Variable w : Z.
Hypothesis Hw : 0 < w.
Notation Q := (2 ^ w).
Variable N : nat.
Hypothesis HN : (0 < N)%nat.
Variable n0 : Z.
Hypothesis Hn0 : 0 <= n0.
Hypothesis HNn : Z.of_nat N = 2 ^ n0.
Variable k : nat.
Variable sk : list (list Z).
Notation gph := (gphase N k sk).
Hypothesis Hsk : forall i, (i < k)%nat -> pbound 1 (pol N (nth i sk [])).
Variable p : gadget.
Hypothesis Hok : gadget_ok w p.
Notation l := (g_level p).
Notation NZ := (Z.of_nat N).
Notation kZ := (Z.of_nat k).
Notation bR := (gadEps w p * (1 + kZ * NZ)).
Variables (ms : Z -> Z) (s : list Z) (bk : list (list (list (list (list Z))))) (e : nat -> nat -> nat -> npoly N) (Ek : Z).
Notation brk := (keysZ w bk).
Hypothesis Hbrk : brk_enc w N k p sk s brk e.
Hypothesis HEk : 0 <= Ek.
Hypothesis He : forall j a b, (j < length s)%nat -> (a <= k)%nat -> (b < l)%nat -> pbound Ek (e j a b).
Variables (bs bc : nat).
Hypothesis Hbs : (0 < bs)%nat.
Hypothesis Hbc : (0 < bc)%nat.
Hypothesis Hlen : length s = (bc * bs)%nat.
Hypothesis Hblk : block_binary bs s.
Variables (ct lut0 : list Z).
Hypothesis Hlut : wpoly w N lut0.
Notation bE := (rowNoise N p (kZ + 1) Ek).
Notation pst := (psumTo ms s ct).

(** A block from a phase at distance B. *)
Lemma blk_gen i out (prod : nat -> list (list Z)) rho eta B : (i < bc)%nat -> glwe_ct w N k out ->
  pdist_le Q (gph out) (pshift (- pst (i * bs)) (pol N lut0)) B -> pbound bR rho ->
  (forall j, (j < length s)%nat -> pbound bE (eta j) /\ gshape N k (prod j) /\ peq Q (gph (prod j)) (padd (pscale (nthZ s j) (psub (gph out) rho)) (eta j))) ->
  let r := gInvAdd w k out (sumZ N k prod (fun j => - ms (nthZ ct (j + 1))) (i * bs) bs) in
  glwe_ct w N k r /\ pdist_le Q (gph r) (pshift (- pst (S i * bs)) (pol N lut0)) (B + (2 * bR + Z.of_nat bs * (2 * bE))).
Proof.
  intros Hi Ho Hd Hr Hp. cbv zeta. unfold sumZ.
  assert (forall j, (j <= bs - 1)%nat -> (i * bs + j < length s)%nat) as Hidx by (intros j Hj; rewrite Hlen; nia).
  destruct (accLoop w N HN n0 k sk Hsk prod (fun j => - ms (nthZ ct (j + 1))) (i * bs) (bs - 1)) as (A & B').
  { intros j Hj. apply Hp. now apply Hidx. }
  replace (S (bs - 1)) with bs in B' by lia. replace (S (i * bs)) with (i * bs + 1)%nat in A, B' by lia.
  match goal with |- glwe_ct _ _ _ (gInvAdd w k out ?x) /\ _ => set (acc := x) in * end. clearbody acc.
  destruct (gInvAdd_spec w Hw N HN k sk out acc (glwe_shape w N k out Ho) A) as (X & Y). split; [exact X|].
  rewrite (psumTo_S N HN n0 k sk Hsk p ms s e Ek He bs bc Hbs Hbc Hlen ct).
  set (sg := zsum bs (fun j => ms (nthZ ct (S (i * bs + j))) * nthZ s (i * bs + j))).
  apply (pdist_le_peq Q (gph (gInvAdd w k out acc)) _ (pshift (- sg) (pshift (- pst (i * bs)) (pol N lut0))) _ _ (peq_refl Q _)).
  { rewrite pshift_add. replace (- sg + - pst (i * bs)) with (- (pst (i * bs) + sg)) by lia. reflexivity. }
  rewrite Z.add_comm. apply (pdist_trans Q _ (pshift (- sg) (gph out))); [|now apply pdist_shift].
  assert (- sg = zsum bs (fun j => - ms (nthZ ct (S (i * bs + j))) * nthZ s (i * bs + j))) as ->.
  { unfold sg. rewrite <- zsum_opp. apply zsum_ext. intros; lia. }
  eapply pdist_le_peq; [| |apply (block_core Q bs (fun j => nthZ s (i * bs + j)) (fun j => - ms (nthZ ct (S (i * bs + j)))) (gph out) rho (fun j => eta (i * bs + j)%nat) (fun j => gph (prod (i * bs + j)%nat)))].
  - rewrite Y, B'. apply padd_proper; [reflexivity|]. apply psum_proper. intros j Hj. rewrite Nat.add_1_r. reflexivity.
  - reflexivity.
  - apply onehot_block; try assumption. rewrite Hlen. nia.
  - exact Hr.
  - intros j Hj. apply Hp. apply Hidx. lia.
  - intros j Hj. apply Hp. apply Hidx. lia.
Qed.
Lemma firstZ_spec out : glwe_ct w N k out -> (forall i, (0 < i <= k)%nat -> nth i out [] = repeat 0 N) -> peq Q (pol N (nth 0 out [])) (pshift (- ms (nthZ ct 0)) (pol N lut0)) ->
  glwe_ct w N k (firstZ N w k p bk bs ms ct out) /\ pdist_le Q (gph (firstZ N w k p bk bs ms ct out)) (pshift (- pst (1 * bs)) (pol N lut0)) (2 * bR + Z.of_nat bs * (2 * bE)).
Proof.
  intros A B C. destruct (gad_step w Hw N HN n0 Hn0 k sk Hsk p Hok s brk e Ek (nth 0 out []) Hbrk (proj2 A O ltac:(lia)) HEk He) as (rho & eta & Hr & Hp).
  apply (blk_gen 0 out (fun j => GadgetProdFFTGLWETo N k p (nth 0 (nth j brk []) []) (fdigits w p (nth 0 out []))) rho eta 0); try assumption.
  - unfold psumTo. cbn [Nat.mul zsum]. rewrite Z.add_0_r. eapply pdist_le_peq; [symmetry; rewrite (gph_trivial w N HN n0 k sk Hsk out B), C; reflexivity|reflexivity|]. apply pdist_refl. lia.
  - intros j Hj. destruct (Hp j Hj) as (P1 & P2 & P3). split; [exact P1|]. split; [exact P2|]. rewrite P3, (gph_trivial w N HN n0 k sk Hsk out B). reflexivity.
Qed.
Lemma laterZ_spec i out B : (i < bc)%nat -> glwe_ct w N k out -> pdist_le Q (gph out) (pshift (- pst (i * bs)) (pol N lut0)) B ->
  glwe_ct w N k (laterZ N w k p bk bs ms ct i out) /\ pdist_le Q (gph (laterZ N w k p bk bs ms ct i out)) (pshift (- pst (S i * bs)) (pol N lut0)) (B + (2 * bR + Z.of_nat bs * (2 * bE))).
Proof.
  intros Hi A C. destruct (ext_step w Hw N HN k sk Hsk p Hok s brk e Ek out Hbrk A He) as (rho & eta & Hr & Hp).
  now apply (blk_gen i out (fun j => ExternalProdFFTGLWETo N k p (nth j brk []) (fdAll w k p out)) rho eta B).
Qed.

(** The whole rotation, for step functions close to the exact ones. *)
Section Loop.
Context {S0 : Type}.
Variables (stepF : list (list Z) * S0 -> list (list Z) * S0) (stepL : nat -> list (list Z) * S0 -> list (list Z) * S0) (okS : S0 -> Prop) (D : Z).
Hypothesis HF : forall out b, okS b -> (forall i, (i <= k)%nat -> length (nth i out []) = N) -> close w N k D (fst (stepF (out, b))) (firstZ N w k p bk bs ms ct out) /\ okS (snd (stepF (out, b))).
Hypothesis HL : forall i out b, (i < bc)%nat -> okS b -> (forall i, (i <= k)%nat -> length (nth i out []) = N) -> close w N k D (fst (stepL i (out, b))) (laterZ N w k p bk bs ms ct i out) /\ okS (snd (stepL i (out, b))).
Notation DD := (D * (1 + kZ * NZ)).
Notation bB := (2 * bR + Z.of_nat bs * (2 * bE)).
Lemma loop_spec ctOut b : gshape N k ctOut -> okS b -> let r := fst (forN 1 (bc - 1) stepL (stepF (rotInit w N k lut0 (- ms (nthZ ct 0)) ctOut, b))) in
  glwe_ct w N k r /\ pdist_le Q (gph r) (pshift (- rotSum ms s ct) (pol N lut0)) (brNoise w N k p bc (length s) Ek + Z.of_nat bc * DD).
Proof.
  intros Ho Hb. cbv zeta. destruct (rotInit_spec w Hw N HN n0 Hn0 HNn k sk Hsk lut0 (- ms (nthZ ct 0)) ctOut Hlut Ho) as (A & B & C).
  set (out := rotInit w N k lut0 (- ms (nthZ ct 0)) ctOut) in *. clearbody out.
  set (P := fun (m : nat) (st : list (list Z) * S0) => (m <= bc - 1)%nat -> okS (snd st) /\ glwe_ct w N k (fst st) /\ pdist_le Q (gph (fst st)) (pshift (- pst (S m * bs)) (pol N lut0)) (Z.of_nat (S m) * (bB + DD))).
  match goal with |- glwe_ct _ _ _ (fst ?r) /\ _ => assert (HP : P (bc - 1)%nat r) end.
  { apply (forN_ind P); unfold P; clear P.
    - intros _. destruct (HF out b Hb (fun i Hi => proj1 (proj2 A i Hi))) as [C1 C2]. destruct (firstZ_spec out A B C) as [F1 F2]. split; [exact C2|]. split; [exact (close_ct w N k D _ _ C1)|].
      eapply pdist_le_le; [|eapply pdist_trans; [apply (close_phase w N k HN D sk _ _ C1 (glwe_shape w N k _ F1) Hsk)|exact F2]]. lia.
    - intros m [o b'] Hm H Hm'. destruct (H ltac:(lia)) as (O1 & G1 & D1). cbn [fst snd] in *. rewrite Nat.add_1_l.
      destruct (HL (S m) o b' ltac:(lia) O1 (fun i Hi => proj1 (proj2 G1 i Hi))) as [C1 C2]. destruct (laterZ_spec (S m) o _ ltac:(lia) G1 D1) as [F1 F2]. split; [exact C2|]. split; [exact (close_ct w N k D _ _ C1)|].
      eapply pdist_le_le; [|eapply pdist_trans; [apply (close_phase w N k HN D sk _ _ C1 (glwe_shape w N k _ F1) Hsk)|exact F2]]. nia. }
  destruct (HP ltac:(lia)) as (_ & G & X). split; [exact G|]. replace (S (bc - 1)) with bc in X by lia. unfold rotSum. fold (pst (length s)). rewrite Hlen.
  eapply pdist_le_le; [|exact X]. unfold brNoise. rewrite Nat2Z.inj_mul. lia.
Qed.
End Loop.
End Exact.
