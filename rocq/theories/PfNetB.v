(** Lemmas: the butterfly networks with a butterfly of its own for the level between neighbouring lanes (as PfNetGen.v). *)
From Verif Require Import Base NegaRing ModelNum ModelVec ModelPoly ModelAsm ModelFFT ModelFused SpecVec SpecPoly SpecFFT PfNum PfVec PfPoly PfFFT PfFFT2 PfNetGen.

(** A network with the butterfly [bfs s] on level s. *)
Fixpoint netF (A : arith) (bfs : nat -> bfT A) (lm s : nat) (a : nat -> car A * car A) : nat -> car A * car A :=
  match s with O => a | S s => T A (bfs s) (2 ^ (lm - 1 - s)) (gF A lm s) (netF A bfs lm s a) end.
Fixpoint netI (A : arith) (bfs : nat -> bfT A) (lm e : nat) (a : nat -> car A * car A) : nat -> car A * car A :=
  match e with O => a | S e => T A (bfs e) (2 ^ e) (gI A lm (lm - 1 - e)) (netI A bfs lm e a) end.
Lemma gfwdN_net A lm s a : gfwdN A lm s a = netF A (fun _ => fwdButterfly A) lm s a.
Proof. induction s as [|s IH]; [reflexivity|]. cbn. rewrite IH. reflexivity. Qed.
Lemma ginvN_net A lm s a : ginvN A lm s a = netI A (fun _ => invButterfly A) lm s a.
Proof. induction s as [|s IH]; [reflexivity|]. cbn. rewrite IH. reflexivity. Qed.

Section NetB.
Variable A : arith.
Notation F := (car A).
Notation C := (F * F)%type.
Variables (N lm : nat).
Hypothesis Hlm : (3 <= lm)%nat.
Hypothesis HN : N = (2 ^ S lm)%nat.
Notation M := (2 ^ lm)%nat.
Notation cplx := (cplx A).
Notation NM := (NM N lm HN).
Notation Mpos := (Mpos lm).
Notation M8 := (M8 N lm Hlm HN).
Notation M4 := (M4 N lm Hlm HN).
Notation NhalfM := (NhalfM N lm HN).
Notation fuel_ok := (fuel_ok N lm Hlm HN).
Notation half_le := (half_le N lm Hlm HN).
Notation hdiv := (hdiv N lm Hlm HN).
Notation h4 := (h4 N lm Hlm HN).
Notation level_step := (level_step A N lm Hlm HN).
Notation gF := (gF A lm). Notation gI := (gI A lm). Notation gTWF := (gTWF A lm). Notation gTWI := (gTWI A lm).
Variables bA bB : bfT A.
Definition stF (s : nat) : bfT A := if Nat.eqb s (lm - 1) then bB else bA.
Definition stI (e : nat) : bfT A := if Nat.eqb e 0 then bB else bA.
Lemma stF_A s : (s < lm - 1)%nat -> stF s = bA.
Proof. intros H. unfold stF. destruct (Nat.eqb_spec s (lm - 1)); [lia|reflexivity]. Qed.
Lemma stI_A e : (0 < e)%nat -> stI e = bA.
Proof. intros H. unfold stI. destruct (Nat.eqb_spec e 0); [lia|reflexivity]. Qed.
Lemma stF_B : stF (lm - 1) = bB. Proof. unfold stF. rewrite Nat.eqb_refl. reflexivity. Qed.
Notation fwdN := (netF A stF lm). Notation invN := (netI A stI lm).

Section Fwd.
Variable tw : list C.
Hypothesis Htw : gTWF lm tw.

Lemma btwF s i : (s < lm)%nat -> (i < 2 ^ s)%nat -> nth (2 ^ s - 1 + i) tw (c0 A) = gF s i.
Proof. intros. now apply Htw. Qed.

Lemma bfwdMid_spec a : forall e s fuel v, (s + e = lm - 2)%nat -> (1 <= s)%nat -> (e < fuel)%nat -> length v = N ->
  (forall k, (k < M)%nat -> cplx v k = fwdN s a k) ->
  let '(v', wi) := fwdMidB A bA fuel N (2 ^ s) (2 ^ (S lm - s)) (2 ^ s - 1) tw v in
  wi = (2 ^ (lm - 2) - 1)%nat /\ length v' = N /\ forall k, (k < M)%nat -> cplx v' k = fwdN (lm - 2) a k.
Proof.
  assert (N16 : (N / 16 = 2 ^ (lm - 3))%nat).
  { rewrite HN, (pow2_split (lm - 3) 4 (S lm)) by lia. apply Nat.div_mul. cbn; lia. }
  induction e as [|e IH]; intros s fuel v Hs H1 Hf Hv Hc; (destruct fuel as [|fuel]; [lia|]); cbn [fwdMidB]; rewrite N16.
  - assert (s = lm - 2)%nat as -> by lia.
    destruct (Nat.leb_spec (2 ^ (lm - 2)) (2 ^ (lm - 3))) as [Hle|].
    + apply Nat.pow_le_mono_r_iff in Hle; lia.
    + auto.
  - destruct (Nat.leb_spec (2 ^ s) (2 ^ (lm - 3))) as [_|Hgt].
    2:{ assert (2 ^ s <= 2 ^ (lm - 3))%nat by (apply Nat.pow_le_mono_r; lia). lia. }
    replace (S lm - s)%nat with (S (lm - s)) by lia. rewrite pow2_half.
    replace (lm - s)%nat with (S lm - S s)%nat by lia.
    replace (2 ^ s - 1 + 2 ^ s)%nat with (2 ^ S s - 1)%nat by (pose proof (pow2_nat_pos s); rewrite pow2_S; lia).
    rewrite <- pow2_S.
    assert (Eh : (2 ^ (S lm - S s) = 2 * 2 ^ (lm - 1 - s))%nat) by (replace (S lm - S s)%nat with (S (lm - 1 - s)) by lia; reflexivity).
    destruct (hdiv (lm - 1 - s) ltac:(lia)) as [D1 D2]. replace (lm - 1 - (lm - 1 - s))%nat with s in D2 by lia.
    pose proof (pow2_nat_pos (lm - 1 - s)) as P1.
    destruct (level_step bA (2 ^ (lm - 1 - s)) (fun i => nth (2 ^ s - 1 + i) tw (c0 A))
       (level A bA tw (2 ^ s - 1) (2 ^ s) (2 * 2 ^ (lm - 1 - s))) (fwdN s a) v) with (W' := gF s) as [Hl' Hc'];
      [apply (level_acts A M M4); [exact P1|apply h4; lia|rewrite <- pow2_S, <- Nat.pow_add_r; f_equal; lia]|exact P1|exact D1|exact Hv| |exact Hc|].
    { intros i Hi. apply btwF; [lia|]. rewrite D2 in Hi. exact Hi. }
    rewrite <- Eh in Hl', Hc'. apply (IH (S s)); [lia|lia|lia|exact Hl'|]. intros k Hk. cbn [netF]. rewrite (stF_A s) by lia. exact (Hc' k Hk).
Qed.

Lemma bfwdFFT_computes : computes A N lm (fun v => fwdFFTB A bA bB v tw) (fwdN lm).
Proof.
  intros v Hv. unfold fwdFFTB. rewrite Hv.
  destruct M8 as (g & EM & Hg & Eg).
  assert (EN8 : ((N + 7) / 8 = M / 4)%nat).
  { rewrite NM, EM. replace (8 * g / 4)%nat with (2 * g)%nat by (apply (Nat.div_unique _ _ _ 0); lia). symmetry. apply (Nat.div_unique _ _ _ 7); lia. }
  rewrite EN8, NhalfM. 
  (* first level *)
  assert (E1 : M = (2 * 2 ^ (lm - 1 - 0))%nat) by (rewrite <- pow2_S; f_equal; lia).
  assert (H1 : length (node A bA (nth 0 tw (a0 A, a0 A)) 0 M v) = N /\
     forall k, (k < M)%nat -> cplx (node A bA (nth 0 tw (a0 A, a0 A)) 0 M v) k = fwdN 1 (cplx v) k).
  { pose proof (level_acts A M M4 bA (2 ^ (lm - 1 - 0)) 1 tw 0) as HA.
    specialize (HA (pow2_nat_pos _) (h4 (lm - 1 - 0) ltac:(lia)) ltac:(lia)).
    unfold level in HA. cbn [forN] in HA.
    destruct (hdiv (lm - 1 - 0) ltac:(lia)) as [D1 D2].
    destruct (level_step _ _ _ _ (cplx v) v HA (pow2_nat_pos _) D1 Hv (gF 0)) as [Hl' Hc'].
    - intros i Hi. rewrite D2 in Hi. replace (lm - 1 - (lm - 1 - 0))%nat with 0%nat in Hi by lia.
      cbn [Nat.pow] in Hi. assert (i = 0)%nat as -> by lia. apply (btwF 0 0); [lia|cbn; lia].
    - reflexivity.
    - rewrite <- E1 in Hl', Hc'. cbn [Nat.mul Nat.add] in Hl', Hc'. split; [exact Hl'|]. intros k Hk. cbn [netF]. rewrite (stF_A 0) by lia. exact (Hc' k Hk). }
  destruct H1 as [Hl1 Hc1]. set (v1 := node A bA (nth 0 tw (a0 A, a0 A)) 0 M v) in *. clearbody v1.
  (* middle *)
  pose proof (bfwdMid_spec (cplx v) (lm - 3) 1 N v1 ltac:(lia) ltac:(lia)) as HM.
  pose proof fuel_ok as HF. specialize (HM ltac:(rewrite NM; lia) Hl1 Hc1).
  replace (S lm - 1)%nat with lm in HM by lia. change (2 ^ 1)%nat with 2%nat in HM. change (2 - 1)%nat with 1%nat in HM.
  destruct (fwdMidB A bA N N 2 M 1 tw v1) as [v2 wi]. destruct HM as (-> & Hl2 & Hc2).
  (* last two levels *)
  assert (Eq4 : (M / 4 = 2 ^ (lm - 2))%nat).
  { rewrite (pow2_split (lm - 2) 2 lm) by lia. apply Nat.div_mul. cbn; lia. }
  pose proof (half2_acts A M M4 bA (fun b => nth (2 ^ (lm - 2) - 1 + b) tw (a0 A, a0 A)) M4) as A2.
  destruct (hdiv 1 ltac:(lia)) as [D1 D2]. change (2 ^ 1)%nat with 2%nat in D1, D2.
  destruct (level_step _ _ _ _ (fwdN (lm - 2) (cplx v)) v2 A2 ltac:(lia) D1 Hl2 (gF (lm - 2))) as [Hl3 Hc3].
  { intros i Hi. rewrite D2 in Hi. replace (lm - 1 - 1)%nat with (lm - 2)%nat in Hi by lia. apply btwF; [lia|exact Hi]. }
  { exact Hc2. }
  cbv beta in Hl3, Hc3. set (v3 := forN 0 (M / 4) (fun b v => half2 A _ _ _ v) v2) in *. clearbody v3.
  assert (Hc3' : forall k, (k < M)%nat -> cplx v3 k = fwdN (S (lm - 2)) (cplx v) k).
  { intros k Hk. rewrite Hc3 by exact Hk. cbn [netF]. rewrite (stF_A (lm - 2)) by lia. replace (lm - 1 - (lm - 2))%nat with 1%nat by lia. reflexivity. }
  pose proof (half1_acts A M M4 bB (fun b => nth (2 ^ (lm - 1) - 1 + b) tw (a0 A, a0 A)) M4) as A1.
  destruct (hdiv 0 ltac:(lia)) as [D3 D4]. change (2 ^ 0)%nat with 1%nat in D3, D4.
  destruct (level_step _ _ _ _ (fwdN (S (lm - 2)) (cplx v)) v3 A1 ltac:(lia) D3 Hl3 (gF (lm - 1))) as [Hl4 Hc4].
  { intros i Hi. rewrite D4 in Hi. replace (lm - 1 - 0)%nat with (lm - 1)%nat in Hi by lia. apply btwF; [lia|exact Hi]. }
  { exact Hc3'. }
  assert (EW : (2 ^ (lm - 2) - 1 + M / 4 = 2 ^ (lm - 1) - 1)%nat).
  { rewrite Eq4. replace (lm - 1)%nat with (S (lm - 2)) by lia. rewrite pow2_S. pose proof (pow2_nat_pos (lm - 2)). lia. }
  rewrite EW.
  assert (EX : forN 0 (M / 4) (fun b v => half1 A bB (nth (2 ^ (lm - 1) - 1 + 2 * b) tw (a0 A, a0 A)) (nth (2 ^ (lm - 1) - 1 + 2 * b + 1) tw (a0 A, a0 A)) (8 * b) v) v3 =
    forN 0 (M / 4) (fun b v => half1 A bB (nth (2 ^ (lm - 1) - 1 + 2 * b) tw (a0 A, a0 A)) (nth (2 ^ (lm - 1) - 1 + (2 * b + 1)) tw (a0 A, a0 A)) (8 * b) v) v3).
  { apply forN_ext. intros. do 2 f_equal. lia. }
  rewrite EX. split; [exact Hl4|]. intros k Hk. rewrite Hc4 by exact Hk.
  assert (EE : fwdN lm (cplx v) = T A bB 1 (gF (lm - 1)) (fwdN (S (lm - 2)) (cplx v))).
  { replace (S (lm - 2)) with (lm - 1)%nat by lia. transitivity (netF A stF lm (S (lm - 1)) (cplx v)); [f_equal; lia|]. cbn [netF]. rewrite Nat.sub_diag, stF_B. reflexivity. }
  rewrite EE. reflexivity.
Qed.
End Fwd.

Section Inv.
Variable tw : list C.
Hypothesis Htw : gTWI 0 tw.

Lemma btwI s i : (s < lm)%nat -> (i < 2 ^ s)%nat -> nth (2 ^ lm - 2 ^ S s + i) tw (c0 A) = gI s i.
Proof. intros. apply Htw; [lia|assumption]. Qed.

Lemma binvMid_spec a : forall e s fuel v, (s = e)%nat -> (s <= lm - 3)%nat -> (e < fuel)%nat -> length v = N ->
  (forall k, (k < M)%nat -> cplx v k = invN (lm - 1 - s) a k) ->
  let '(v', wi) := invMidB A bA fuel (2 ^ s) (2 ^ (lm - s)) (2 ^ lm - 2 ^ S s) tw v in
  wi = (2 ^ lm - 2)%nat /\ length v' = N /\ forall k, (k < M)%nat -> cplx v' k = invN (lm - 1) a k.
Proof.
  induction e as [|e IH]; intros s fuel v Hs H1 Hf Hv Hc; (destruct fuel as [|fuel]; [lia|]); cbn [invMidB].
  - subst s. cbn [Nat.pow Nat.leb]. rewrite Nat.sub_0_r in Hc. auto.
  - subst s. destruct (Nat.leb_spec 2 (2 ^ S e)) as [_|Hgt]; [|rewrite pow2_S in Hgt; pose proof (pow2_nat_pos e); lia].
    rewrite pow2_half.
    assert (Eh : (2 ^ (lm - S e) = 2 * 2 ^ (lm - 1 - S e))%nat) by (replace (lm - S e)%nat with (S (lm - 1 - S e)) by lia; reflexivity).
    replace (2 * 2 ^ (lm - S e))%nat with (2 ^ (lm - e))%nat by (replace (lm - e)%nat with (S (lm - S e)) by lia; reflexivity).
    assert (Hle : (2 ^ S (S e) <= 2 ^ lm)%nat) by (apply Nat.pow_le_mono_r; lia).
    replace (2 ^ lm - 2 ^ S (S e) + 2 ^ S e)%nat with (2 ^ lm - 2 ^ S e)%nat by (rewrite (pow2_S (S e)) in *; lia).
    destruct (hdiv (lm - 1 - S e) ltac:(lia)) as [D1 D2]. replace (lm - 1 - (lm - 1 - S e))%nat with (S e) in D2 by lia.
    pose proof (pow2_nat_pos (lm - 1 - S e)) as P1.
    destruct (level_step bA (2 ^ (lm - 1 - S e)) (fun i => nth (2 ^ lm - 2 ^ S (S e) + i) tw (c0 A))
       (level A bA tw (2 ^ lm - 2 ^ S (S e)) (2 ^ S e) (2 * 2 ^ (lm - 1 - S e))) (invN (lm - 1 - S e) a) v) with (W' := gI (S e)) as [Hl' Hc'];
      [apply (level_acts A M M4); [exact P1|apply h4; lia|rewrite <- pow2_S, <- Nat.pow_add_r; f_equal; lia]|exact P1|exact D1|exact Hv| |exact Hc|].
    { intros i Hi. apply btwI; [lia|]. rewrite D2 in Hi. exact Hi. }
    rewrite Eh. apply (IH e fuel); [reflexivity|lia|lia|exact Hl'|].
    intros k Hk. rewrite Hc' by exact Hk.
    replace (lm - 1 - e)%nat with (S (lm - 1 - S e)) by lia. cbn [netI]. rewrite (stI_A (lm - 1 - S e)) by lia.
    replace (lm - 1 - (lm - 1 - S e))%nat with (S e) by lia. reflexivity.
Qed.

Lemma binvFFT_computes post v : length v = N -> exists v', invFFTB A bA bB post v tw = map post v' /\
  length v' = N /\ forall k, (k < M)%nat -> cplx v' k = invN lm (cplx v) k.
Proof.
  intros Hv. unfold invFFTB. rewrite Hv.
  destruct M8 as (g & EM & Hg & Eg).
  assert (EN8 : ((N + 7) / 8 = M / 4)%nat).
  { rewrite NM, EM. replace (8 * g / 4)%nat with (2 * g)%nat by (apply (Nat.div_unique _ _ _ 0); lia). symmetry. apply (Nat.div_unique _ _ _ 7); lia. }
  rewrite EN8, NhalfM.
  assert (Eq4 : (M / 4 = 2 ^ (lm - 2))%nat).
  { rewrite (pow2_split (lm - 2) 2 lm) by lia. apply Nat.div_mul. cbn; lia. }
  assert (N16 : (N / 16 = 2 ^ (lm - 3))%nat).
  { rewrite HN, (pow2_split (lm - 3) 4 (S lm)) by lia. apply Nat.div_mul. cbn; lia. }
  (* first two levels *)
  pose proof (half1_acts A M M4 bB (fun b => nth b tw (a0 A, a0 A)) M4) as A1.
  destruct (hdiv 0 ltac:(lia)) as [D3 D4]. change (2 ^ 0)%nat with 1%nat in D3, D4.
  destruct (level_step _ _ _ _ (cplx v) v A1 ltac:(lia) D3 Hv (gI (lm - 1))) as [Hl1 Hc1].
  { intros i Hi. rewrite D4 in Hi. replace (lm - 1 - 0)%nat with (lm - 1)%nat in Hi by lia.
    pose proof (btwI (lm - 1) i ltac:(lia) Hi) as HT. replace (S (lm - 1)) with lm in HT by lia. rewrite Nat.sub_diag in HT. exact HT. }
  { reflexivity. }
  cbv beta in Hl1, Hc1.
  set (v1 := forN 0 (M / 4) _ v) in *. clearbody v1.
  assert (Hc1' : forall k, (k < M)%nat -> cplx v1 k = invN 1 (cplx v) k).
  { intros k Hk. rewrite Hc1 by exact Hk. cbn [netI Nat.pow]. replace (lm - 1 - 0)%nat with (lm - 1)%nat by lia. reflexivity. }
  pose proof (half2_acts A M M4 bA (fun b => nth (2 * (M / 4) + b) tw (a0 A, a0 A)) M4) as A2.
  destruct (hdiv 1 ltac:(lia)) as [D1 D2]. change (2 ^ 1)%nat with 2%nat in D1, D2.
  destruct (level_step _ _ _ _ (invN 1 (cplx v)) v1 A2 ltac:(lia) D1 Hl1 (gI (lm - 2))) as [Hl2 Hc2].
  { intros i Hi. rewrite D2 in Hi. replace (lm - 1 - 1)%nat with (lm - 2)%nat in Hi by lia.
    pose proof (btwI (lm - 2) i ltac:(lia) Hi) as HT.
    replace (2 ^ lm - 2 ^ S (lm - 2))%nat with (2 * (M / 4))%nat in HT; [exact HT|].
    rewrite Eq4, pow2_S. rewrite (pow2_split 2 (lm - 2) lm) by lia. cbn [Nat.pow Nat.mul]. lia. }
  { exact Hc1'. }
  cbv beta in Hl2, Hc2. set (v2 := forN 0 (M / 4) (fun b v => half2 A _ _ _ v) v1) in *. clearbody v2.
  assert (Hc2' : forall k, (k < M)%nat -> cplx v2 k = invN (lm - 1 - (lm - 3)) (cplx v) k).
  { intros k Hk. rewrite Hc2 by exact Hk. replace (lm - 1 - (lm - 3))%nat with 2%nat by lia. cbn [netI]. cbn [Nat.pow Nat.mul Nat.add].
    replace (lm - 1 - 1)%nat with (lm - 2)%nat by lia. reflexivity. }
  (* middle *)
  pose proof (binvMid_spec (cplx v) (lm - 3) (lm - 3) N v2 eq_refl ltac:(lia)) as HMid.
  pose proof fuel_ok as HF. specialize (HMid ltac:(rewrite NM; lia) Hl2 Hc2').
  replace (lm - (lm - 3))%nat with 3%nat in HMid by lia. change (2 ^ 3)%nat with 8%nat in HMid.
  replace (2 ^ lm - 2 ^ S (lm - 3))%nat with (2 * (M / 4) + M / 4)%nat in HMid.
  2:{ rewrite Eq4. replace (S (lm - 3)) with (lm - 2)%nat by lia. rewrite (pow2_split 2 (lm - 2) lm) by lia. cbn [Nat.pow Nat.mul]. lia. }
  rewrite N16. destruct (invMidB A bA N (2 ^ (lm - 3)) 8 (2 * (M / 4) + M / 4) tw v2) as [v3 wi]. destruct HMid as (-> & Hl3 & Hc3).
  (* last level *)
  eexists; split; [reflexivity|].
  assert (E1 : M = (2 * 2 ^ (lm - 1))%nat) by (rewrite <- pow2_S; f_equal; lia).
  pose proof (level_acts A M M4 bA (2 ^ (lm - 1)) 1 tw (2 ^ lm - 2)) as HA.
  specialize (HA (pow2_nat_pos _) (h4 (lm - 1) ltac:(lia)) ltac:(lia)).
  unfold level in HA. cbn [forN] in HA. rewrite Nat.add_0_r in HA.
  destruct (hdiv (lm - 1) ltac:(lia)) as [D5 D6].
  destruct (level_step _ _ _ _ (invN (lm - 1) (cplx v)) v3 HA (pow2_nat_pos _) D5 Hl3 (gI 0)) as [Hl4 Hc4].
  { intros i Hi. rewrite D6 in Hi. rewrite Nat.sub_diag in Hi. cbn [Nat.pow] in Hi. assert (i = 0)%nat as -> by lia.
    apply (btwI 0 0); [lia|cbn; lia]. }
  { exact Hc3. }
  rewrite <- E1 in Hl4, Hc4. cbn [Nat.mul Nat.add] in Hl4, Hc4. split; [exact Hl4|].
  intros k Hk. rewrite Hc4 by exact Hk. transitivity (netI A stI lm (S (lm - 1)) (cplx v) k); [|do 2 f_equal; lia]. cbn [netI]. rewrite Nat.sub_diag, (stI_A (lm - 1)) by lia. reflexivity.
Qed.
End Inv.
End NetB.
