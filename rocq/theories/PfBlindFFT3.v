(** Lemmas: first and later blocks of the blind rotation on binary64 transforms. *)
From Coq Require Import Floats.SpecFloat.
From Verif Require Import Base NegaRing ModelNum ModelVec ModelPoly ModelAsm ModelF64 ModelFFT ModelF64Arith ModelSplitFFT ModelFused ModelFusedMul ModelGadget ModelGLWE ModelBoot ModelProdFFT ModelBlindFFT SpecNum SpecVec SpecPoly SpecFFT SpecFFTReal SpecRound SpecFused SpecGadget SpecGLWE SpecProdFFT SpecBlindFFT
  PfNum PfVec PfPoly PfSplit PfFFT6 PfRound PfNorm PfErr PfErr2 PfErr3 PfErr4 PfErrF PfF64Fused PfSplitFFT PfSplitF64 PfSplitF64b PfErrSum PfAvxKern PfValid PfSumK PfGadget PfGLWE3 PfProdFFT PfMonoF PfBlindFFT PfBlindFFT2.
From Coq Require Import Reals Lra Lia.
Open Scope Z_scope.

Section Blocks.
Variable cexp : Z -> Z -> spec_float * spec_float.
Notation A := (f64Arith cexp).
Notation Vs := (@List.Forall f64 (fun x : f64 => vb x = true)).
Variables (N lm : nat).
Hypothesis Hlm : (3 <= lm)%nat.
Hypothesis Hlm14 : (lm <= 14)%nat.
Hypothesis HN : N = (2 ^ S lm)%nat.
Variable K : kern (car A).
Hypothesis HK : kernNear cexp N lm K.
Variables (w : Z) (k : nat) (p : gadget).
Hypothesis Hw : (1 <= w <= 64)%Z.
Hypothesis Hp : gadget_ok w p.
Notation XM := (XM lm).
Notation XD := (XB lm (IZR (2 ^ (g_logBase p - 1)))).
Notation DR := (DR cexp N lm XD).
Notation rep64 := (rep A finF val u64 eta64 del64 N lm).
Variable mono : list (car A) -> Z -> list (car A).
Hypothesis Hmono : forall o d, length o = N -> Vs o -> rep64 1 XM (mono o d) (pol N (fmonoSubOne N d)) /\ Vs (mono o d).
Variable left : list (car A) -> list (car A).
Hypothesis Hleft : forall v, length v = N -> Vs v -> length (left v) = N /\ Vs (left v).
Notation bufOK := (bufOK cexp N).
Notation buf := (brBuf (car A)).
Notation bufs := (bufs cexp N k p).

Definition keysZ (bk : list (list (list (list (list Z))))) := map (map (map (map (fwdFFT w)))) bk.
Definition keysF (bk : list (list (list (list (list Z))))) := map (toFFTGGSW K w) bk.
Lemma acc_len prod d lo n b : length (b_acc (rotTerms K k mono prod d lo n b)) = S k.
Proof. unfold rotTerms. apply (forN_ind (fun _ (b : buf) => length (b_acc b) = S k)); [apply tab_length|]. intros; apply tab_length. Qed.
Lemma dcmp_keep prod d lo n b : b_dcmp (rotTerms K k mono prod d lo n b) = b_dcmp b.
Proof. unfold rotTerms. apply (forN_ind (fun _ (b' : buf) => b_dcmp b' = b_dcmp b)); [reflexivity|]. intros i s _ H. exact H. Qed.
Lemma dig_row fb c j : bufOK (g_level p) fb -> length c = N -> (j < g_level p)%nat -> DR (nth j (fdigitsK K w p fb c) []) (nth j (fdigits w p c) []).
Proof.
  intros Hfb Lc Hj. unfold fdigitsK, fdigits. rewrite nth_tab by exact Hj. rewrite (nth_map_in (fwdFFT w) _ j [] []) by (rewrite (DecomposePoly_eq w p Hp); unfold dpolys; rewrite tab_length; exact Hj).
  destruct (Hfb j Hj). now apply (dig_ok cexp N lm Hlm Hlm14 HN K HK w k p Hw Hp).
Qed.
Lemma dig_buf fb c : bufOK (g_level p) fb -> length c = N -> bufOK (g_level p) (fdigitsK K w p fb c).
Proof. intros Hfb Lc j Hj. destruct (dig_row fb c j Hfb Lc Hj) as ((L & _) & V). now split. Qed.

Variable bk : list (list (list (list (list Z)))).
Variables (n bs : nat).
Hypothesis Hkey : forall j r l i, (j < n)%nat -> (r <= k)%nat -> (l < g_level p)%nat -> (i <= k)%nat -> wpoly w N (nth i (nth l (nth r (nth j bk []) []) []) []).
Variables (ms : Z -> Z) (ct : list Z) (logN D : Z).
Hypothesis EL : logN = Z.of_nat (S lm).
Hypothesis Hbs : (1 <= bs)%nat.
Hypothesis Hcn : Z.of_nat (S k * g_level p + bs) <= 1000000.
Hypothesis HD : rotErr_le w (g_logBase p) logN N (S k * g_level p) bs D.
Lemma len_of {X} (l : list (list X)) i m : length (nth i l []) = m -> (0 < m)%nat -> (i < length l)%nat.
Proof. intros H Hm. destruct (Nat.lt_ge_cases i (length l)) as [C|C]; [exact C|]. rewrite nth_overflow in H by exact C. cbn in H. lia. Qed.
Lemma key_in j : (j < n)%nat -> (j < length bk)%nat /\ forall r, (r <= k)%nat -> (r < length (nth j bk []))%nat.
Proof.
  intros Hj. assert (L1 : (1 <= g_level p)%nat) by apply Hp. assert (N0 : (0 < N)%nat) by (rewrite HN; pose proof (Nat.pow_nonzero 2 (S lm)); lia).
  assert (X : forall r, (r <= k)%nat -> (r < length (nth j bk []))%nat).
  { intros r Hr. destruct (Hkey j r 0%nat 0%nat Hj Hr ltac:(lia) ltac:(lia)) as [L _]. apply len_of in L; [|exact N0].
    destruct (Nat.lt_ge_cases r (length (nth j bk []))) as [C|C]; [exact C|]. rewrite (nth_overflow (nth j bk [])) in L by exact C. cbn in L. lia. }
  split; [|exact X]. specialize (X O ltac:(lia)). destruct (Nat.lt_ge_cases j (length bk)) as [C|C]; [exact C|]. rewrite (nth_overflow bk) in X by exact C. cbn in X. lia.
Qed.
Lemma key_lev j r : (j < n)%nat -> (r <= k)%nat -> keyLev N w k p (nth r (nth j bk []) []).
Proof. intros Hj Hr l i Hl Hi. now apply Hkey. Qed.

Notation dms := (fun j : nat => - ms (nthZ ct (j + 1))).
Definition firstZ (out : list (list Z)) : list (list Z) :=
  gInvAdd w k out (sumZ N k (fun j => GadgetProdFFTGLWETo N k p (nth 0 (nth j (keysZ bk) []) []) (fdigits w p (nth 0 out []))) dms 0 bs).
Definition laterZ (i : nat) (out : list (list Z)) : list (list Z) :=
  gInvAdd w k out (sumZ N k (fun j => ExternalProdFFTGLWETo N k p (nth j (keysZ bk) []) (fdAll w k p out)) dms (i * bs) bs).
Lemma first_close out b : (bs <= n)%nat -> bufs b -> (forall i, (i <= k)%nat -> length (nth i out []) = N) ->
  let st := firstBlockK K w k mono left ms p (keysF bk) bs ct (out, b) in close w N k D (fst st) (firstZ out) /\ bufs (snd st).
Proof.
  intros Hn (B1 & B2 & B3 & B5) Ho. cbv zeta. unfold firstBlockK, firstZ. assert (L1 : (1 <= g_level p)%nat) by apply Hp.
  set (b' := mkBrBuf _ _ _ _). destruct B1 as [B0 B1].
  assert (E0 : nth 0 (b_dcmp b') [] = fdigitsK K w p (nth 0 (b_dcmp b) []) (nth 0 out [])) by (cbn [b' b_dcmp]; apply nth_upd_same; lia).
  assert (Hb' : bufs b').
  { split; [|split; [exact B2|split; [exact B3|exact B5]]]. split; [cbn [b' b_dcmp]; now rewrite upd_length|]. intros i Hi. destruct (Nat.eq_dec i 0) as [->|C].
    - rewrite E0. apply dig_buf; [apply B1; lia|apply Ho; lia].
    - cbn [b' b_dcmp]. rewrite nth_upd_other by lia. now apply B1. }
  destruct (terms_ok cexp N lm Hlm Hlm14 HN K HK w k p Hw Hp mono Hmono (g_level p)
    (fun j o => GadgetProdFFTGLWEToK K k p o (nth 0 (nth j (keysF bk) []) []) (nth 0 (b_dcmp b') []))
    (fun j => GadgetProdFFTGLWETo N k p (nth 0 (nth j (keysZ bk) []) []) (fdigits w p (nth 0 out []))) dms 0 bs b' L1 Hbs ltac:(lia) Hb') as [T1 T2].
  { intros j o Hj Hob. destruct (key_in j ltac:(lia)) as [K1 K2]. unfold keysF, keysZ. rewrite (nth_map_in (toFFTGGSW K w) bk j [] [] K1), (nth_map_in (map (map (map (fwdFFT w)))) bk j [] [] K1).
    unfold toFFTGGSW. rewrite (nth_map_in (toFFTGLev K w) (nth j bk []) 0 [] [] (K2 O ltac:(lia))), (nth_map_in (map (map (fwdFFT w))) (nth j bk []) 0 [] [] (K2 O ltac:(lia))).
    apply (gadF_sum cexp N lm Hlm Hlm14 HN K HK w k p Hw Hp); [apply key_lev; lia| |exact Hob|lia].
    intros l Hl. rewrite E0. apply dig_row; [apply B1; lia|apply Ho; lia|exact Hl]. }
  apply (block_end cexp N lm Hlm Hlm14 HN K HK w k p Hw Hp mono Hmono left Hleft logN (g_level p) (S k * g_level p) bs (out, _) _ D EL L1 ltac:(nia) Hbs ltac:(lia) T1 T2 (acc_len _ _ _ _ _) Ho HD).
Qed.
Lemma later_close i out b : ((i + 1) * bs <= n)%nat -> bufs b -> (forall i, (i <= k)%nat -> length (nth i out []) = N) ->
  let st := laterBlockK K w k mono left ms p (keysF bk) bs ct i (out, b) in close w N k D (fst st) (laterZ i out) /\ bufs (snd st).
Proof.
  intros Hn (B1 & B2 & B3 & B5) Ho. cbv zeta. unfold laterBlockK, laterZ. assert (L1 : (1 <= g_level p)%nat) by apply Hp.
  set (b' := mkBrBuf _ _ _ _). destruct B1 as [B0 B1].
  assert (E0 : forall r, (r <= k)%nat -> nth r (b_dcmp b') [] = fdigitsK K w p (nth r (b_dcmp b) []) (nth r out [])) by (intros r Hr; cbn [b' b_dcmp]; rewrite nth_tab by lia; reflexivity).
  assert (Hb' : bufs b').
  { split; [|split; [exact B2|split; [exact B3|exact B5]]]. split; [cbn [b' b_dcmp]; apply tab_length|]. intros r Hr. rewrite E0 by exact Hr. apply dig_buf; [now apply B1|now apply Ho]. }
  destruct (terms_ok cexp N lm Hlm Hlm14 HN K HK w k p Hw Hp mono Hmono (S k * g_level p)
    (fun j o => ExternalProdFFTGLWEToK K k p o (nth j (keysF bk) []) (b_dcmp b'))
    (fun j => ExternalProdFFTGLWETo N k p (nth j (keysZ bk) []) (fdAll w k p out)) dms (i * bs) bs b' ltac:(nia) Hbs Hcn Hb') as [T1 T2].
  { intros j o Hj Hob. destruct (key_in j ltac:(nia)) as [K1 K2]. unfold keysF, keysZ. rewrite (nth_map_in (toFFTGGSW K w) bk j [] [] K1), (nth_map_in (map (map (map (fwdFFT w)))) bk j [] [] K1).
    apply (extF_sum cexp N lm Hlm Hlm14 HN K HK w k p Hw Hp); [intros r Hr; apply key_lev; [nia|exact Hr]| |exact Hob|lia].
    intros r l Hr Hl. rewrite E0 by exact Hr. unfold fdAll. rewrite nth_tab by lia. apply dig_row; [now apply B1|now apply Ho|exact Hl]. }
  apply (block_end cexp N lm Hlm Hlm14 HN K HK w k p Hw Hp mono Hmono left Hleft logN (S k * g_level p) (S k * g_level p) bs (out, _) _ D EL ltac:(nia) ltac:(lia) Hbs Hcn T1 T2 (acc_len _ _ _ _ _) Ho HD).
Qed.
End Blocks.
