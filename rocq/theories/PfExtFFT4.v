(** Lemmas: extended blind rotation with every block close to the exact one. *)
From Coq Require Import Floats.SpecFloat.
From Verif Require Import Base NegaRing ModelNum ModelVec ModelPoly ModelAsm ModelF64 ModelFFT ModelF64Arith ModelSplitFFT ModelGadget ModelLWE ModelGLWE ModelBoot ModelProdFFT ModelBlindFFT ModelExtFFT SpecNum SpecVec SpecPoly SpecGadget SpecLWE SpecGLWE SpecBoot SpecProdFFT SpecBlindFFT
  PfNum PfVec PfPoly PfGadget PfGLWE PfGLWE2 PfGLWE3 PfGLWE4 PfBoot2 PfBoot3 PfProdFFT PfProdFFT2 PfBlindFFT3 PfExtFFT2 PfExtFFT3.
From Coq Require Import Lia.
Open Scope Z_scope.

Lemma pdist_weave N E (HE : (0 < E)%nat) Q (F G : nat -> npoly N) b : (forall i, (i < E)%nat -> pdist_le Q (F i) (G i) b) -> pdist_le Q (weave E F) (weave E G) b.
Proof.
  intros H. destruct (fin_choice pzero E (fun i r => peq Q (psub (F i) (G i)) r /\ pbound b r)) as (f & Hf); [exact H|].
  exists (weave E f). split.
  - rewrite <- (weave_sub N E HE Q). apply (weave_proper N E HE Q). intros i Hi. now apply Hf.
  - apply (weave_bound N E HE). intros i Hi. now apply Hf.
Qed.

Section Exact.
Variable w : Z.
Hypothesis Hw : 0 < w.
Notation Q := (2 ^ w).
Variable N : nat.
Hypothesis HN : (0 < N)%nat.
Variable n0 : Z.
Hypothesis Hn0 : 0 <= n0.
Hypothesis HNn : Z.of_nat N = 2 ^ n0.
Variables k E : nat.
Hypothesis HE : (0 < E)%nat.
Notation EZ := (Z.of_nat E).
Notation M := (E * N)%nat.
Add Ring nringXW : (@npoly_ring N (2 ^ w)) (setoid (@peq_equiv N (2 ^ w)) (@npoly_ring_ext N (2 ^ w))).
Add Ring nringXM : (@npoly_ring (E * N) (2 ^ w)) (setoid (@peq_equiv (E * N) (2 ^ w)) (@npoly_ring_ext (E * N) (2 ^ w))).
Variable sk : list (list Z).
Notation gph := (gphase N k sk).
Hypothesis Hsk : forall i, (i < k)%nat -> pbound 1 (pol N (nth i sk [])).
Variable p : gadget.
Hypothesis Hok : gadget_ok w p.
Notation l := (g_level p).
Notation NZ := (Z.of_nat N).
Notation kZ := (Z.of_nat k).
Notation bR := (gadEps w p * (1 + kZ * NZ)).
Variables (ms : Z -> Z) (s : list Z) (bk : list (list (list (list (list Z))))) (e : nat -> nat -> nat -> npoly N) (Ek : Z).
Notation brk := (keysZ w bk).
Notation L2 := (2 * (EZ * NZ)).
Hypothesis Hbrk : brk_enc w N k p sk s brk e.
Hypothesis HEk : 0 <= Ek.
Hypothesis He : forall j a b, (j < length s)%nat -> (a <= k)%nat -> (b < l)%nat -> pbound Ek (e j a b).
Variables (bs bc : nat).
Hypothesis Hbs : (0 < bs)%nat.
Hypothesis Hbc : (2 <= bc)%nat.
Hypothesis Hlen : length s = (bc * bs)%nat.
Hypothesis Hblk : block_binary bs s.
Variables (acc0 : list (list Z)) (ct : list Z) (lut : list (list Z)).
Hypothesis Hms : forall j, 0 <= ms (nthZ ct j) <= L2.
Hypothesis Hacc0 : length acc0 = E /\ forall i, (i < E)%nat -> length (nth i acc0 []) = N.
Hypothesis Hlut : lut_ok w N E lut.
Notation A0 := (misrot (tableOf N E lut) (L2 - ms (nthZ ct 0))).
Notation rot := (fun j : nat => L2 - ms (nthZ ct (S j))).
Notation bE := (rowNoise N p (kZ + 1) Ek).
Notation bB := (2 * bR + Z.of_nat bs * (2 * bE)).
Notation gphE := (gphE N k E sk).
Notation ctsE := (ctsE w N k E).
Notation shapesE := (shapesE N k E).
Notation maskSum := (maskSum ms s ct).

Lemma rot_nn j : 0 <= rot j.
Proof. specialize (Hms (S j)). lia. Qed.
Lemma xblock_value i B (P rho : npoly M) (T eta : nat -> npoly M) : (i < bc)%nat ->
  pdist_le Q P (pshift (- maskSum (i * bs)) A0) B -> pbound bR rho ->
  (forall j, (j < length s)%nat -> pbound bE (eta j) /\ peq Q (T j) (padd (pscale (nthZ s j) (psub P rho)) (eta j))) ->
  pdist_le Q (padd P (psum bs (fun j => psub (pshift (rot (i * bs + j)%nat) (T (i * bs + j)%nat)) (T (i * bs + j)%nat)))) (pshift (- maskSum (S i * bs)) A0) (B + bB).
Proof.
  intros Hi Hd Hr Hp.
  assert (MS : maskSum (S i * bs) = maskSum (i * bs) + zsum bs (fun j => ms (nthZ ct (S (i * bs + j))) * nthZ s (i * bs + j))).
  { unfold PfBoot3.maskSum. replace (S i * bs)%nat with (i * bs + bs)%nat by lia. rewrite zsum_app. lia. }
  rewrite MS.
  assert (forall j, (j < bs)%nat -> (i * bs + j < length s)%nat) as Hidx by (intros j Hj; rewrite Hlen; nia).
  set (sg := zsum bs (fun j => ms (nthZ ct (S (i * bs + j))) * nthZ s (i * bs + j))).
  assert (eqm (2 * Z.of_nat M) (- sg) (zsum bs (fun j => rot (i * bs + j)%nat * nthZ s (i * bs + j)))) as Hsg.
  { exists (- zsum bs (fun j => nthZ s (i * bs + j))). unfold sg. rewrite <- !zsum_opp. rewrite <- zsum_sub. rewrite <- zsum_scale_r. apply zsum_ext. intros. rewrite Nat2Z.inj_mul. ring. }
  eapply pdist_le_peq; [reflexivity| |].
  { instantiate (1 := pshift (- sg) (pshift (- maskSum (i * bs)) A0)). rewrite pshift_add. replace (- sg + - maskSum (i * bs)) with (- (maskSum (i * bs) + sg)) by lia. reflexivity. }
  rewrite Z.add_comm. apply (pdist_trans Q _ (pshift (- sg) P)); [|now apply pdist_shift].
  eapply pdist_le_peq; [reflexivity|symmetry; apply pshift_eqm; exact Hsg|].
  apply (block_core Q bs (fun j => nthZ s (i * bs + j)) (fun j => rot (i * bs + j)%nat) P rho (fun j => eta (i * bs + j)%nat) (fun j => T (i * bs + j)%nat)).
  - apply onehot_block; try assumption. rewrite Hlen. nia.
  - exact Hr.
  - intros j Hj. apply Hp. now apply Hidx.
  - intros j Hj. apply Hp. now apply Hidx.
Qed.
Lemma xblock_step i B acc (blk : nat -> list (list (list Z))) rho eta : (i < bc)%nat -> ctsE acc -> pdist_le Q (gphE acc) (pshift (- maskSum (i * bs)) A0) B -> pbound bR rho ->
  (forall j, (j < length s)%nat -> pbound bE (eta j) /\ shapesE (blk j) /\ peq Q (gphE (blk j)) (padd (pscale (nthZ s j) (psub (gphE acc) rho)) (eta j))) ->
  let r := tab E (fun j => gInvAdd w k (nth j acc []) (nth j (sumE N k E blk rot (i * bs) bs) [])) in
  ctsE r /\ pdist_le Q (gphE r) (pshift (- maskSum (S i * bs)) A0) (B + bB).
Proof.
  intros Hi Hc Hd Hr Hp. cbv zeta. unfold sumE. replace (i * bs + 1)%nat with (S (i * bs)) by lia.
  destruct (rotLoop w N HN n0 Hn0 k E HE sk Hsk blk rot (i * bs) (bs - 1)) as (A & B').
  { intros j Hj. split; [apply rot_nn|]. apply Hp. rewrite Hlen. nia. }
  replace (S (bs - 1)) with bs in B' by lia.
  match type of A with PfBoot3.shapesE _ _ _ ?f => set (facc := f) in * end. clearbody facc.
  destruct (addAll w Hw N HN k E HE sk acc facc Hc A) as (X & Y). split; [exact X|].
  eapply pdist_le_peq; [symmetry; exact Y|reflexivity|]. eapply pdist_le_peq; [rewrite B'; reflexivity|reflexivity|].
  apply (xblock_value i B (gphE acc) rho (fun j => gphE (blk j)) eta Hi Hd Hr). intros j Hj. destruct (Hp j Hj) as (H1 & _ & H3). now split.
Qed.
Lemma firstE_spec acc : ctsE acc -> (forall i j, (i < E)%nat -> (0 < j <= k)%nat -> nth j (nth i acc []) [] = repeat 0 N) -> peq Q (weave E (fun i => pol N (nth 0 (nth i acc []) []))) A0 ->
  let r := firstE N w k p E bk bs rot acc in ctsE r /\ pdist_le Q (gphE r) (pshift (- maskSum (1 * bs)) A0) bB.
Proof.
  intros Hc Hz HA. cbv zeta. unfold firstE.
  assert (G1 : forall i, (i < E)%nat -> peq Q (gph (nth i acc [])) (pol N (nth 0 (nth i acc []) []))) by (intros i Hi; apply (gph_trivial w N HN n0 k sk Hsk); intros j Hj; now apply Hz).
  assert (EG : peq Q (gphE acc) (weave E (fun i => pol N (nth 0 (nth i acc []) [])))) by (apply (weave_proper N E HE Q); exact G1).
  destruct (gad_weave w Hw N HN n0 Hn0 k E HE sk Hsk p Hok s brk e Ek Hbrk HEk He (fun i => nth 0 (nth i acc []) [])) as (rho & eta & Hr & Hp).
  { intros i Hi. apply (proj2 (proj2 Hc i Hi)). lia. }
  apply (xblock_step 0 0 acc (fun j => tab E (fun kk => GadgetProdFFTGLWETo N k p (nth 0 (nth j brk []) []) (fdigits w p (nth 0 (nth kk acc []) [])))) rho eta); [lia|exact Hc| |exact Hr|].
  - unfold PfBoot3.maskSum. cbn [Nat.mul zsum]. eapply pdist_le_peq; [|rewrite pshift_0; reflexivity|apply pdist_refl; lia]. rewrite <- HA. symmetry. exact EG.
  - intros j Hj. destruct (Hp j Hj) as (X1 & X2 & X3). split; [exact X1|]. split.
    + split; [apply tab_length|]. intros i Hi. rewrite nth_tab by exact Hi. now apply X2.
    + rewrite EG, <- X3. apply (weave_proper N E HE Q). intros i Hi. rewrite nth_tab by exact Hi. reflexivity.
Qed.
Lemma laterE_spec i B acc : (i < bc)%nat -> ctsE acc -> pdist_le Q (gphE acc) (pshift (- maskSum (i * bs)) A0) B ->
  let r := laterE N w k p E bk bs rot i acc in ctsE r /\ pdist_le Q (gphE r) (pshift (- maskSum (S i * bs)) A0) (B + bB).
Proof.
  intros Hi Hc Hd. cbv zeta. unfold laterE. destruct (ext_weave w Hw N HN k E HE sk Hsk p Hok s brk e Ek Hbrk He acc Hc) as (rho & eta & Hr & Hp).
  apply (xblock_step i B acc (fun j => tab E (fun kk => ExternalProdFFTGLWETo N k p (nth j brk []) (fdAll w k p (nth kk acc [])))) rho eta); try assumption.
  intros j Hj. destruct (Hp j Hj) as (X1 & X2 & X3). split; [exact X1|]. split.
  - split; [apply tab_length|]. intros r Hrr. rewrite nth_tab by exact Hrr. now apply X2.
  - rewrite <- X3. apply (weave_proper N E HE Q). intros r Hrr. rewrite nth_tab by exact Hrr. reflexivity.
Qed.
Lemma lastE_spec B acc : ctsE acc -> pdist_le Q (gphE acc) (pshift (- maskSum ((bc - 1) * bs)) A0) B ->
  let r := lastE N w k p E bk (length s) bs rot acc in glwe_ct w N k r /\ pdist_le Q (gph r) (comp (pshift (- maskSum (length s)) A0) 0) (B + bB).
Proof.
  intros Hc Hd. cbv zeta. unfold lastE, sumE0. destruct (ext_weave w Hw N HN k E HE sk Hsk p Hok s brk e Ek Hbrk He acc Hc) as (rho & eta & Hr & Hp).
  replace (length s - bs)%nat with ((bc - 1) * bs)%nat by (rewrite Hlen; nia). replace ((bc - 1) * bs + 1)%nat with (S ((bc - 1) * bs)) by lia.
  set (blk := fun j kk => ExternalProdFFTGLWETo N k p (nth j brk []) (fdAll w k p (nth kk acc []))).
  destruct (rotLoop0 w Hw N HN n0 Hn0 k E HE sk Hsk blk rot ((bc - 1) * bs) (bs - 1)) as (A & B').
  { intros j Hj. split; [apply rot_nn|]. intros i Hi. apply Hp; [|exact Hi]. rewrite Hlen. nia. }
  replace (S (bs - 1)) with bs in B' by lia.
  match type of A with gshape N k ?f => set (facc := f) in * end. match goal with |- context [gInvAdd w k (nth 0 acc []) ?f] => change f with facc end. clearbody facc.
  destruct (gInvAdd_spec w Hw N HN k sk (nth 0 acc []) facc (glwe_shape w N k _ (proj2 Hc O HE)) A) as (X & Y). split; [exact X|].
  rewrite Hlen. replace bc with (S (bc - 1)) at 1 by lia.
  eapply pdist_le_peq; [symmetry; rewrite Y, B'; rewrite <- (comp_weave N E HE Q (fun i => gph (nth i acc [])) 0 HE) at 1; fold (gphE acc); rewrite <- comp_add; reflexivity|reflexivity|].
  apply comp_dist.
  apply (xblock_value (bc - 1) B (gphE acc) rho (fun j => weave E (fun i => gph (blk j i))) eta); [lia|exact Hd|exact Hr|].
  intros j Hj. destruct (Hp j Hj) as (X1 & X2 & X3). split; [exact X1|exact X3].
Qed.

(** The whole rotation, for step functions close to the exact ones. *)
Section Loop.
Context {S0 : Type}.
Variables (stepF : list (list (list Z)) * S0 -> list (list (list Z)) * S0) (stepL : nat -> list (list (list Z)) * S0 -> list (list (list Z)) * S0) (stepE : list (list (list Z)) * S0 -> list (list Z)) (okS : S0 -> Prop) (D : Z).
Notation ctsL := (ctsL N k E).
Notation closeE := (closeE N w k E D).
Hypothesis HF : forall out b, okS b -> ctsL out -> closeE (fst (stepF (out, b))) (firstE N w k p E bk bs rot out) /\ okS (snd (stepF (out, b))).
Hypothesis HL : forall i out b, (i < bc)%nat -> okS b -> ctsL out -> closeE (fst (stepL i (out, b))) (laterE N w k p E bk bs rot i out) /\ okS (snd (stepL i (out, b))).
Hypothesis HE' : forall out b, okS b -> ctsL out -> close w N k D (stepE (out, b)) (lastE N w k p E bk (length s) bs rot out).
Notation DD := (D * (1 + kZ * NZ)).
Lemma ctsE_L X : ctsE X -> ctsL X.
Proof. intros [_ H] j i Hj Hi. apply (proj2 (H j Hj)). exact Hi. Qed.
Lemma closeE_phase X Y : closeE X Y -> ctsE Y -> ctsE X /\ pdist_le Q (gphE X) (gphE Y) DD.
Proof.
  intros [LX HX] HY. split; [split; [exact LX|]; intros i Hi; exact (close_ct w N k D _ _ (HX i Hi))|]. apply (pdist_weave N E HE). intros i Hi.
  apply (close_phase w N k HN D sk _ _ (HX i Hi)); [apply (glwe_shape w); now apply HY|exact Hsk].
Qed.
Lemma xloop_spec b : okS b ->
  let out := tab E (fun i => nth i (extInit w N E acc0 lut (L2 - ms (nthZ ct 0))) [] :: repeat (repeat 0 N) k) in
  let r := stepE (forN 1 (bc - 2) stepL (stepF (out, b))) in
  glwe_ct w N k r /\ pdist_le Q (gph r) (comp (pshift (- maskSum (length s)) A0) 0) (brNoise w N k p bc (length s) Ek + Z.of_nat bc * DD).
Proof.
  intros Hb. cbv zeta. destruct Hacc0 as (L0 & HL0).
  destruct (extInit_spec w Hw N HN n0 Hn0 HNn k E HE sk Hsk acc0 lut (L2 - ms (nthZ ct 0)) L0 HL0 Hlut ltac:(specialize (Hms O); lia)) as (I1 & I2 & I3).
  set (bodies := extInit w N E acc0 lut (L2 - ms (nthZ ct 0))) in *. clearbody bodies.
  set (acc1 := tab E (fun i => nth i bodies [] :: repeat (repeat 0 N) k)).
  assert (forall i, (i < E)%nat -> nth i acc1 [] = nth i bodies [] :: repeat (repeat 0 N) k) as Ha1 by (intros i Hi; unfold acc1; now rewrite nth_tab by exact Hi).
  assert (ctsE acc1) as C1.
  { split; [apply tab_length|]. intros i Hi. rewrite Ha1 by exact Hi. split; [cbn; now rewrite repeat_length|]. intros [|j] Hj; cbn [nth]; [now apply I2|].
    rewrite nth_repeat_lt by lia. split; [apply repeat_length|]. apply Forall_forall. intros x Hx. apply repeat_spec in Hx. subst. pose proof (pow2_pos w ltac:(lia)). unfold uword. lia. }
  assert (Z1 : forall i j, (i < E)%nat -> (0 < j <= k)%nat -> nth j (nth i acc1 []) [] = repeat 0 N).
  { intros i j Hi Hj. rewrite Ha1 by exact Hi. destruct j as [|j]; [lia|]. cbn [nth]. apply nth_repeat_lt. lia. }
  assert (A1 : peq Q (weave E (fun i => pol N (nth 0 (nth i acc1 []) []))) A0).
  { rewrite <- I3. apply (weave_proper N E HE Q). intros i Hi. rewrite Ha1 by exact Hi. reflexivity. }
  clearbody acc1.
  set (P := fun (m : nat) (st : list (list (list Z)) * S0) => (m <= bc - 2)%nat -> okS (snd st) /\ ctsE (fst st) /\ pdist_le Q (gphE (fst st)) (pshift (- maskSum (S m * bs)) A0) (Z.of_nat (S m) * (bB + DD))).
  match goal with |- glwe_ct _ _ _ (stepE ?r) /\ _ => assert (HP : P (bc - 2)%nat r) end.
  { apply (forN_ind P); unfold P; clear P.
    - intros _. destruct (HF acc1 b Hb (ctsE_L _ C1)) as [X1 X2]. destruct (firstE_spec acc1 C1 Z1 A1) as [F1 F2]. destruct (closeE_phase _ _ X1 F1) as [Y1 Y2].
      split; [exact X2|]. split; [exact Y1|]. eapply pdist_le_le; [|eapply pdist_trans; [exact Y2|exact F2]]. lia.
    - intros m [o b'] Hm H Hm'. destruct (H ltac:(lia)) as (O1 & G1 & D1). cbn [fst snd] in *. rewrite Nat.add_1_l.
      destruct (HL (S m) o b' ltac:(lia) O1 (ctsE_L _ G1)) as [X1 X2]. destruct (laterE_spec (S m) _ o ltac:(lia) G1 D1) as [F1 F2]. destruct (closeE_phase _ _ X1 F1) as [Y1 Y2].
      split; [exact X2|]. split; [exact Y1|]. eapply pdist_le_le; [|eapply pdist_trans; [exact Y2|exact F2]]. nia. }
  destruct (HP ltac:(lia)) as (O1 & G1 & D1). clear HP P. match goal with |- glwe_ct _ _ _ (stepE ?r) /\ _ => destruct r as [out3 b3] end. cbn [fst snd] in *.
  replace (S (bc - 2)) with (bc - 1)%nat in D1 by lia. pose proof (HE' out3 b3 O1 (ctsE_L _ G1)) as X1. destruct (lastE_spec _ out3 G1 D1) as [F1 F2].
  split; [exact (close_ct w N k D _ _ X1)|]. eapply pdist_le_le; [|eapply pdist_trans; [apply (close_phase w N k HN D sk _ _ X1 (glwe_shape w N k _ F1) Hsk)|exact F2]].
  unfold brNoise. rewrite Hlen, Nat2Z.inj_mul. nia.
Qed.
End Loop.
End Exact.
