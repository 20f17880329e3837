From Verif Require Import Base NegaRing SpecNum ModelNum PfNum ModelVec SpecVec PfVec ModelPoly SpecPoly PfPoly PfPerm PfSplit ModelGadget SpecGadget PfGadget ModelParams ModelEncoder PfEncoder ModelLWE SpecLWE PfLWE PfKS PfKS2 ModelGLWE SpecGLWE PfGLWE PfGLWE2 PfGLWE3 PfGLWE4 ModelPub SpecPub.

Section W.
Variable w : Z.
Hypothesis Hw : 0 < w.
Notation Q := (2 ^ w).
Variable N : nat.
Hypothesis HN : (0 < N)%nat.
Variable k : nat.
Add Ring nring : (@npoly_ring N Q) (setoid (@peq_equiv N Q) (@npoly_ring_ext N Q)).
Variable logN : Z.
Hypothesis HlN : 0 < splitBitsShort logN.
Variables B G : nat -> Z.
Notation NZ := (Z.of_nat N).

Lemma pol_wrapped f : peq Q (pol N (tab N (fun i => wrap w (f i)))) (pol N (tab N f)).
Proof. apply pol_peq; [exact HN|]. intros i Hi. rewrite cf_pol_at, !nthZ_tab by assumption. apply wrap_eqm. Qed.
Lemma rev_nth_tab (f : nat -> Z) : rev (tab N f) = tab N (fun i => f (N - 1 - i)%nat).
Proof.
  apply nthZ_ext; [now rewrite rev_length, !tab_length|]. rewrite rev_length, tab_length. intros i Hi. unfold nthZ at 1. rewrite rev_nth by (rewrite tab_length; lia). rewrite tab_length.
  fold (nthZ (tab N f) (N - S i)). rewrite !nthZ_tab by lia. f_equal. lia.
Qed.

(** ** Auxiliary keys *)
Lemma aux_spec aux st : ashape N k aux ->
  let '(a, t) := forN 0 k (fun i s => let '(a, st) := s in let '(v, st) := samplePolyB w B (nth i a []) st in (upd a i v, st)) (aux, st) in
  ashape N k a /\ t = ((fst st + k * N)%nat, snd st) /\ forall i, (i < k)%nat -> nth i a [] = tab N (fun j => wrap w (B (fst st + i * N + j)%nat)).
Proof.
  intros (L & H). destruct st as [b g]. cbn [fst snd].
  pose proof (updLoop (@nil Z) (fun i a st => samplePolyB w B a st) (fun m st => st = ((b + m * N)%nat, g)) (fun i a => a = tab N (fun j => wrap w (B (b + i * N + j)%nat))) (fun a => length a = N) 0 k aux (b, g)) as X.
  match type of X with _ -> _ -> _ -> _ -> let '(_, _) := ?x in _ => destruct x as [a t] end.
  destruct X as (X1 & X2 & X3 & X4); [lia|intros i Hi; apply H; lia|f_equal; lia| |].
  - intros m c s Hm Lc ->. unfold samplePolyB. rewrite Lc. cbn [fst snd Nat.add]. split; [reflexivity|]. f_equal. lia.
  - split; [split; [lia|]|split; [exact X4|]]; intros i Hi; rewrite X2 by lia; [apply tab_length|reflexivity].
Qed.

(** ** GLWE *)
Section G.
Variable sk : list (list Z).
Notation gph := (gphase N k sk).
Notation S_ i := (pol N (nth i sk [])).
Variables (pk : list (list (list Z))) (E : nat -> npoly N).
Hypothesis Hpk : pk_enc w N k sk pk E.
Notation P_ i j := (pol N (nth j (nth i pk []) [])).

Lemma row_spec i f c r : (i < k)%nat -> gshape N k c -> f = fwdFFT w r -> length r = N ->
  forall n, (n <= S k)%nat -> let c' := forN 0 n (fun j c => upd c j (ShortFFTPolyMulAddPolyTo false w logN N (nth j c []) (nth j (nth i pk []) []) f)) c in
  length c' = S k /\ (forall j, (j < n)%nat -> wpoly w N (nth j c' []) /\ peq Q (pol N (nth j c' [])) (padd (pol N (nth j c [])) (pmul (P_ i j) (pol N r)))) /\ (forall j, (n <= j)%nat -> nth j c' [] = nth j c []).
Proof.
  intros Hi (L & H) -> Lr n Hn. cbn zeta.
  apply (forN_ind (fun m c' => (m <= n)%nat -> length c' = S k /\ (forall j, (j < m)%nat -> wpoly w N (nth j c' []) /\ peq Q (pol N (nth j c' [])) (padd (pol N (nth j c [])) (pmul (P_ i j) (pol N r)))) /\ (forall j, (m <= j)%nat -> nth j c' [] = nth j c []))); [| |lia].
  - intros _. split; [exact L|]. split; [intros; lia|reflexivity].
  - intros m c' Hm IH _. destruct (IH ltac:(lia)) as (A & B1 & C). cbn [Nat.add]. split; [now rewrite upd_length|].
    destruct (proj2 Hpk i Hi) as ((_ & HW) & _).
    destruct (ShortMulAdd_spec N HN false w logN (nth m c' []) (nth m (nth i pk []) []) (fwdFFT w r) Hw HlN ltac:(rewrite C by lia; apply H; lia) (HW m ltac:(lia))) as (X & Y).
    split; intros j Hj; rewrite nth_upd_if by lia; destruct (Nat.eqb_spec j m) as [->|Hne]; try lia.
    + split; [exact X|]. rewrite Y, C by lia. rewrite pol_fwdFFT by assumption. reflexivity.
    + apply B1. lia.
    + apply C. lia.
Qed.
Lemma rows_spec (faux : list (list Z)) (r : nat -> list Z) c : (0 < k)%nat -> gshape N k c -> (forall i, (i < k)%nat -> nth i faux [] = fwdFFT w (r i) /\ length (r i) = N) ->
  let c' := forN 0 k (fun i c => forN 0 (S k) (fun j c => upd c j (ShortFFTPolyMulAddPolyTo false w logN N (nth j c []) (nth j (nth i pk []) []) (nth i faux []))) c) c in
  glwe_ct w N k c' /\ forall j, (j <= k)%nat -> peq Q (pol N (nth j c' [])) (padd (pol N (nth j c [])) (psum k (fun i => pmul (P_ i j) (pol N (r i))))).
Proof.
  intros Hk0 Hc Hr. cbn zeta.
  set (Pr := fun (m : nat) (c' : list (list Z)) => (m <= k)%nat -> (gshape N k c' /\ ((0 < m)%nat -> glwe_ct w N k c')) /\ forall j, (j <= k)%nat -> peq Q (pol N (nth j c' [])) (padd (pol N (nth j c [])) (psum m (fun i => pmul (P_ i j) (pol N (r i)))))).
  match goal with |- context [forN 0 k ?f c] => enough (Pr k (forN 0 k f c)) as HP by (destruct (HP ltac:(lia)) as ((_ & X) & Y); split; [apply X, Hk0|exact Y]) end.
  apply (forN_ind Pr); unfold Pr.
  - intros _. split; [split; [exact Hc|lia]|]. intros j Hj. cbn [psum]. ring.
  - intros m c' Hm IH _. destruct (IH ltac:(lia)) as ((A & _) & C). cbn [Nat.add]. destruct (Hr m Hm) as (Ef & Lr).
    destruct (row_spec m _ c' (r m) Hm A Ef Lr (S k) ltac:(lia)) as (X1 & X2 & _). 
    assert (glwe_ct w N k (forN 0 (S k) (fun j c => upd c j (ShortFFTPolyMulAddPolyTo false w logN N (nth j c []) (nth j (nth m pk []) []) (nth m faux []))) c')) as Hg by (split; [exact X1|]; intros j Hj; apply X2; lia).
    split; [split; [now apply (glwe_shape w N k)|auto]|]. intros j Hj. rewrite (proj2 (X2 j ltac:(lia))), C by lia. cbn [psum]. ring.
Qed.
Lemma gauss_spec c st : glwe_ct w N k c ->
  let '(c', t) := forN 0 (S k) (fun j s => let '(c, st) := s in let '(v, st) := samplePolyAdd w G (nth j c []) st in (upd c j v, st)) (c, st) in
  glwe_ct w N k c' /\ t = (fst st, (snd st + S k * N)%nat) /\ forall j, (j <= k)%nat -> peq Q (pol N (nth j c' [])) (padd (pol N (nth j c [])) (noisep N G (snd st + j * N))).
Proof.
  intros (L & H). destruct st as [b g]. cbn [fst snd].
  set (Pr := fun (m : nat) (s : list (list Z) * rst) => (m <= S k)%nat -> let '(c', t) := s in glwe_ct w N k c' /\ t = (b, (g + m * N)%nat) /\
    (forall j, (j < m)%nat -> peq Q (pol N (nth j c' [])) (padd (pol N (nth j c [])) (noisep N G (g + j * N)))) /\ (forall j, (m <= j)%nat -> nth j c' [] = nth j c [])).
  match goal with |- let '(_, _) := ?x in _ => assert (Pr (S k) x) as HP; [|unfold Pr in HP; specialize (HP ltac:(lia)); revert HP; generalize x; intros [c' t] (A & B1 & C & _)] end.
  2:{ split; [exact A|]. split; [exact B1|]. intros j Hj. apply C. lia. }
  apply (forN_ind Pr); unfold Pr.
  - intros _. split; [split; assumption|]. split; [f_equal; lia|]. split; [intros; lia|reflexivity].
  - intros m [c' t] Hm IH _. destruct (IH ltac:(lia)) as ((A1 & A2) & T & C & D). cbn [Nat.add]. subst t. unfold samplePolyAdd. cbn [fst snd]. rewrite (proj1 (A2 m ltac:(lia))).
    match goal with |- context [upd c' m ?v] => set (nb := v) end. assert (wpoly w N nb) as Wn by (apply wpoly_tab; exact Hw).
    split; [split; [now rewrite upd_length|]|split; [f_equal; lia|split]].
    + intros j Hj. rewrite nth_upd_if by lia. destruct (Nat.eqb j m); [exact Wn|now apply A2].
    + intros j Hj. rewrite nth_upd_if by lia. destruct (Nat.eqb_spec j m) as [->|]; [|apply C; lia]. apply pol_peq; [exact HN|]. intros i Hi. cbn [cf padd]. unfold noisep. rewrite !cf_pol_at by assumption.
      unfold nb. rewrite !nthZ_tab by exact Hi. rewrite !wrap_eqm, D by lia. reflexivity.
    + intros j Hj. rewrite nth_upd_if by lia. destruct (Nat.eqb_spec j m); [lia|apply D; lia].
Qed.
Lemma PubEncryptGLWEBody_spec aux ct st ct' aux' st' : (0 < k)%nat -> ashape N k aux -> gshape N k ct ->
  PubEncryptGLWEBody w logN N k B G pk aux ct st = (ct', (aux', st')) ->
  glwe_ct w N k ct' /\ ashape N k aux' /\ st' = ((fst st + k * N)%nat, (snd st + S k * N)%nat) /\
  peq Q (gph ct') (padd (gph ct) (pubNoise N k sk E B G (fst st) (snd st))).
Proof.
  intros Hk0 Ha Hc. unfold PubEncryptGLWEBody. pose proof (aux_spec aux st Ha) as X.
  match type of X with let '(_, _) := ?x in _ => destruct x as [a t] end. destruct X as (X1 & -> & X3).
  cbv zeta beta. match goal with |- context [forN 1 (k - 1) ?f (forN 1 k ?g ?y)] => replace (forN 1 (k - 1) f (forN 1 k g y)) with (forN 0 k f ct) by (destruct k as [|k']; [lia|]; cbn [Nat.sub forN]; rewrite Nat.sub_0_r; reflexivity) end.
  destruct (rows_spec (map (fwdFFT w) a) (fun i => nth i a []) ct Hk0 Hc) as (Y1 & Y2).
  { intros i Hi. split; [apply (nth_map_fwd w a i)|apply X1, Hi]. }
  match type of Y1 with glwe_ct _ _ _ ?x => set (c1 := x) in * end. cbn zeta.
  pose proof (gauss_spec c1 ((fst st + k * N)%nat, snd st) Y1) as Z1. cbn [fst snd] in Z1.
  match type of Z1 with let '(_, _) := ?x in _ => destruct x as [c2 t] end. destruct Z1 as (Z1 & -> & Z3). intros Heq. injection Heq as <- <- <-.
  split; [exact Z1|]. split; [exact X1|]. split; [reflexivity|].
  assert (forall j, (j <= k)%nat -> peq Q (pol N (nth j c2 [])) (padd (padd (pol N (nth j ct [])) (psum k (fun i => pmul (P_ i j) (noisep N B (fst st + i * N))))) (noisep N G (snd st + j * N)))) as Hj.
  { intros j Hj. rewrite (Z3 j Hj), (Y2 j Hj). rewrite (psum_proper Q k _ (fun i => pmul (P_ i j) (noisep N B (fst st + i * N)))); [reflexivity|]. intros i Hi. rewrite (X3 i Hi). rewrite pol_wrapped. reflexivity. }
  clear Z3 Y2 X3. unfold gphase, pubNoise. rewrite (Hj O ltac:(lia)). replace (snd st + 0 * N)%nat with (snd st) by lia.
  rewrite (psum_proper Q k (fun i => pmul (pol N (nth (S i) c2 [])) (S_ i)) (fun j => padd (padd (pmul (pol N (nth (S j) ct [])) (S_ j)) (psum k (fun i => pmul (pmul (P_ i (S j)) (S_ j)) (noisep N B (fst st + i * N))))) (pmul (noisep N G (snd st + S j * N)) (S_ j)))).
  2:{ intros j Hjk. rewrite (Hj (S j) ltac:(lia)). rewrite !pmul_add_l, pmul_psum_l. rewrite (psum_proper Q k (fun i => pmul (pmul (P_ i (S j)) (noisep N B (fst st + i * N))) (S_ j)) (fun i => pmul (pmul (P_ i (S j)) (S_ j)) (noisep N B (fst st + i * N)))); [reflexivity|]. intros i Hi. ring. }
  rewrite !psum_add, psum_swap.
  rewrite (psum_proper Q k (fun i => psum k (fun j => pmul (pmul (P_ i (S j)) (S_ j)) (noisep N B (fst st + i * N)))) (fun i => psub (pmul (E i) (noisep N B (fst st + i * N))) (pmul (P_ i 0%nat) (noisep N B (fst st + i * N))))).
  2:{ intros i Hi. rewrite <- (pmul_psum_l Q). destruct (proj2 Hpk i Hi) as (_ & HE). unfold gphase in HE. rewrite <- HE. ring. }
  rewrite psum_sub. ring.
Qed.
Lemma PubEncryptGLWEPlaintextTo_spec aux out pt st ct' aux' st' : (0 < k)%nat -> ashape N k aux -> gshape N k out -> length pt = N ->
  PubEncryptGLWEPlaintextTo w logN N k B G pk aux out pt st = (ct', (aux', st')) ->
  glwe_ct w N k ct' /\ ashape N k aux' /\ st' = ((fst st + k * N)%nat, (snd st + S k * N)%nat) /\
  peq Q (gph ct') (padd (padd (pol N pt) (psum k (fun j => pmul (pol N (nth (S j) out [])) (S_ j)))) (pubNoise N k sk E B G (fst st) (snd st))).
Proof.
  intros Hk0 Ha (L & Ho) Lp Eq. unfold PubEncryptGLWEPlaintextTo in Eq. rewrite (go_copy_full 0) in Eq by (rewrite Ho; lia).
  assert (gshape N k (upd out 0 pt)) as Hu by (split; [now rewrite upd_length|]; intros i Hi; rewrite nth_upd_if by lia; destruct (Nat.eqb i 0); [exact Lp|now apply Ho]).
  destruct (PubEncryptGLWEBody_spec _ _ _ _ _ _ Hk0 Ha Hu Eq) as (A & B1 & C & D).
  split; [exact A|]. split; [exact B1|]. split; [exact C|]. rewrite D. unfold gphase. rewrite nth_upd_if by lia. cbn [Nat.eqb].
  rewrite (psum_proper Q k (fun i => pmul (pol N (nth (S i) (upd out 0 pt) [])) (S_ i)) (fun j => pmul (pol N (nth (S j) out [])) (S_ j))); [reflexivity|]. intros i Hi. rewrite nth_upd_if by lia. reflexivity.
Qed.
End G.
End W.
