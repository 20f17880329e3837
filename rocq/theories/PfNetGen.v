(** Lemmas: the tables and butterfly networks over an arithmetic without laws (as for the exact case in PfFFT2.v). *)
From Verif Require Import Base NegaRing ModelNum ModelVec ModelPoly ModelFFT SpecVec SpecPoly SpecFFT PfNum PfVec PfPoly PfFFT PfFFT2.

Section NetGen.
Variable A : arith.
Notation F := (car A).
Notation C := (F * F)%type.
Variables (N lm : nat).
Hypothesis Hlm : (3 <= lm)%nat.
Hypothesis HN : N = (2 ^ S lm)%nat.
Notation M := (2 ^ lm)%nat.
Notation cplx := (cplx A).
Notation NM := (NM N lm HN).
Notation Mpos := (Mpos lm).
Notation M8 := (M8 N lm Hlm HN).
Notation M4 := (M4 N lm Hlm HN).
Notation NhalfM := (NhalfM N lm HN).
Notation fuel_ok := (fuel_ok N lm Hlm HN).
Notation half_le := (half_le N lm Hlm HN).
Notation hdiv := (hdiv N lm Hlm HN).
Notation h4 := (h4 N lm Hlm HN).
Notation level_step := (level_step A N lm Hlm HN).

(** The entries of the tables. *)
Definition gF (s i : nat) : C :=
  cmulG A (acexp A (- Z.of_nat (bitrev (lm - 1) i)) (Z.of_nat M)) (acexp A (Z.of_nat (2 ^ (lm - 1 - s))) (4 * Z.of_nat M)).
Definition gI (s i : nat) : C :=
  cmulG A (acexp A (Z.of_nat (bitrev (lm - 1) i)) (Z.of_nat M)) (acexp A (- Z.of_nat (2 ^ (lm - 1 - s))) (4 * Z.of_nat M)).
Definition gTWF (s : nat) (tw : list C) : Prop :=
  (length tw + 1 = 2 ^ s)%nat /\ forall s' i, (s' < s)%nat -> (i < 2 ^ s')%nat -> nth (2 ^ s' - 1 + i) tw (c0 A) = gF s' i.
Definition gTWI (s : nat) (tw : list C) : Prop :=
  (length tw + 2 ^ s = 2 ^ lm)%nat /\ forall s' i, (s <= s' < lm)%nat -> (i < 2 ^ s')%nat ->
    nth (2 ^ lm - 2 ^ S s' + i) tw (c0 A) = gI s' i.
Lemma gTWF_step s tw (tf : list C) : (s < lm)%nat -> gTWF s tw ->
  (forall i, (i < 2 ^ (lm - 1))%nat -> nth i tf (c0 A) = acexp A (- Z.of_nat (bitrev (lm - 1) i)) (Z.of_nat M)) ->
  gTWF (S s) (tw ++ tab (2 ^ s) (fun i => cmulG A (nth i tf (c0 A)) (acexp A (Z.of_nat (2 ^ (lm - 1 - s))) (4 * Z.of_nat M)))).
Proof.
  intros Hs [Hl Ht] Htf. pose proof (pow2_nat_pos s). split.
  - rewrite app_length, tab_length, pow2_S. lia.
  - intros s' i Hs' Hi. destruct (Nat.eq_dec s' s) as [->|].
    + rewrite app_nth2 by lia. replace (2 ^ s - 1 + i - length tw)%nat with i by lia.
      rewrite nth_tab by exact Hi.
      rewrite Htf by (apply (Nat.lt_le_trans _ _ _ Hi); apply Nat.pow_le_mono_r; lia). reflexivity.
    + rewrite app_nth1. { apply Ht; [lia|exact Hi]. }
      assert (2 ^ S s' <= 2 ^ s)%nat by (apply Nat.pow_le_mono_r; lia). rewrite pow2_S in *. lia.
Qed.

Lemma gtwLoop_spec (tf : list C) :
  (forall i, (i < 2 ^ (lm - 1))%nat -> nth i tf (c0 A) = acexp A (- Z.of_nat (bitrev (lm - 1) i)) (Z.of_nat M)) ->
  forall e s t fuel tw, (s + e = lm)%nat -> (e < fuel)%nat -> (0 < e -> t = 2 ^ (lm - 1 - s))%nat -> gTWF s tw ->
  gTWF lm (twLoop A fuel M (2 ^ s) t tf tw).
Proof.
  intros Htf. induction e as [|e IH]; intros s t fuel tw Hs Hf Ht HT.
  - assert (s = lm) as -> by lia. destruct fuel as [|fuel]; [lia|]. cbn [twLoop].
    destruct (Nat.leb_spec (2 ^ lm) (2 ^ lm / 2)) as [Hle|]; [|exact HT].
    pose proof Mpos. assert (M / 2 < M)%nat by (apply Nat.div_lt; lia). lia.
  - destruct fuel as [|fuel]; [lia|]. cbn [twLoop].
    destruct (Nat.leb_spec (2 ^ s) (M / 2)) as [_|Hle]; [|pose proof (half_le s ltac:(lia)); lia].
    rewrite (Ht ltac:(lia)). rewrite forN_app_tab. rewrite <- pow2_S. apply IH; try lia.
    + intros He. replace (lm - 1 - s)%nat with (S (lm - 1 - S s)) by lia. apply pow2_half.
    + apply (gTWF_step s tw tf ltac:(lia) HT Htf).
Qed.

Lemma gTWI_step s tw (tf : list C) : (s < lm)%nat -> gTWI (S s) tw ->
  (forall i, (i < 2 ^ (lm - 1))%nat -> nth i tf (c0 A) = acexp A (Z.of_nat (bitrev (lm - 1) i)) (Z.of_nat M)) ->
  gTWI s (tw ++ tab (2 ^ s) (fun i => cmulG A (nth i tf (c0 A)) (acexp A (- Z.of_nat (2 ^ (lm - 1 - s))) (4 * Z.of_nat M)))).
Proof.
  intros Hs [Hl Ht] Htf. pose proof (pow2_nat_pos s). rewrite pow2_S in Hl. split.
  - rewrite app_length, tab_length. lia.
  - intros s' i Hs' Hi. destruct (Nat.eq_dec s' s) as [->|].
    + rewrite app_nth2 by (rewrite pow2_S; lia). rewrite pow2_S. replace (2 ^ lm - 2 * 2 ^ s + i - length tw)%nat with i by lia.
      rewrite nth_tab by exact Hi.
      rewrite Htf by (apply (Nat.lt_le_trans _ _ _ Hi); apply Nat.pow_le_mono_r; lia). reflexivity.
    + rewrite app_nth1. { apply Ht; [lia|exact Hi]. }
      assert (2 ^ S s <= 2 ^ s')%nat by (apply Nat.pow_le_mono_r; lia).
      assert (2 ^ S s' <= 2 ^ lm)%nat by (apply Nat.pow_le_mono_r; lia). rewrite pow2_S in *. lia.
Qed.

Lemma gtwInvLoop_spec (tf : list C) :
  (forall i, (i < 2 ^ (lm - 1))%nat -> nth i tf (c0 A) = acexp A (Z.of_nat (bitrev (lm - 1) i)) (Z.of_nat M)) ->
  forall s fuel tw, (s < lm)%nat -> (S s < fuel)%nat -> gTWI (S s) tw ->
  gTWI 0 (twInvLoop A fuel M (2 ^ s) (2 ^ (lm - 1 - s)) tf tw).
Proof.
  intros Htf. induction s as [|s IH]; intros fuel tw Hs Hf HT.
  - destruct fuel as [|[|fuel]]; [lia|lia|]. cbn [twInvLoop]. cbn [Nat.pow]. cbn [Nat.leb].
    change (1 / 2)%nat with 0%nat. cbn [Nat.leb]. rewrite forN_app_tab.
    pose proof (gTWI_step 0 tw tf Hs HT Htf) as H1. cbn [Nat.pow] in H1. exact H1.
  - destruct fuel as [|fuel]; [lia|]. cbn [twInvLoop].
    destruct (Nat.leb_spec 1 (2 ^ S s)) as [_|Hle]; [|pose proof (pow2_nat_pos (S s)); lia].
    rewrite forN_app_tab. rewrite pow2_half. replace (2 * 2 ^ (lm - 1 - S s))%nat with (2 ^ (lm - 1 - s))%nat.
    + apply IH; try lia. apply (gTWI_step (S s) tw tf Hs HT Htf).
    + replace (lm - 1 - s)%nat with (S (lm - 1 - S s)) by lia. reflexivity.
Qed.

Lemma ggenTwiddle_spec : exists tw twInv, genTwiddleFactors A M = Ok (tw, twInv) /\ gTWF lm tw /\ gTWI 0 twInv.
Proof.
  unfold genTwiddleFactors.
  assert (EM : (M / 2 = 2 ^ (lm - 1))%nat) by (replace lm with (S (lm - 1)) at 1 by lia; apply pow2_half).
  rewrite EM.
  destruct (BitReverseInPlace_spec (a0 A, a0 A) (lm - 1) (tab (2 ^ (lm - 1)) (fun i => acexp A (- Z.of_nat i) (Z.of_nat M))) (tab_length _ _))
    as (tf & -> & Hl & Hf).
  destruct (BitReverseInPlace_spec (a0 A, a0 A) (lm - 1) (tab (2 ^ (lm - 1)) (fun i => acexp A (Z.of_nat i) (Z.of_nat M))) (tab_length _ _))
    as (ti & -> & Hl' & Hi).
  rewrite tab_length in *.
  eexists; eexists; split; [reflexivity|]. pose proof fuel_ok as HF. split.
  - apply (gtwLoop_spec tf) with (e := lm) (s := 0%nat).
    + intros i H. change (c0 A) with (a0 A, a0 A). rewrite Hf by exact H. rewrite nth_tab by apply bitrev_lt.
      reflexivity.
    + reflexivity.
    + lia.
    + intros _. f_equal. lia.
    + split; [reflexivity|]. intros; lia.
  - pose proof (gtwInvLoop_spec ti) as HT. assert (E1 : (2 ^ (lm - 1 - (lm - 1)) = 1)%nat) by (rewrite Nat.sub_diag; reflexivity).
    specialize (fun H1 => HT H1 (lm - 1)%nat M []). rewrite E1 in HT. apply HT; clear HT.
    + intros i H. change (c0 A) with (a0 A, a0 A). rewrite Hi by exact H. rewrite nth_tab by apply bitrev_lt.
      reflexivity.
    + lia.
    + lia.
    + replace (S (lm - 1)) with lm by lia. split; [reflexivity|]. intros; lia.
Qed.

(* ------------------------------------------------------------------ *)
(** ** The networks *)
Fixpoint gfwdN (s : nat) (a : nat -> C) : nat -> C :=
  match s with O => a | S s => T A (fwdButterfly A) (2 ^ (lm - 1 - s)) (gF s) (gfwdN s a) end.
Fixpoint ginvN (e : nat) (a : nat -> C) : nat -> C :=
  match e with O => a | S e => T A (invButterfly A) (2 ^ e) (gI (lm - 1 - e)) (ginvN e a) end.

Section Fwd.
Variable tw : list C.
Hypothesis Htw : gTWF lm tw.

Lemma gtwF s i : (s < lm)%nat -> (i < 2 ^ s)%nat -> nth (2 ^ s - 1 + i) tw (c0 A) = gF s i.
Proof. intros. now apply Htw. Qed.

Lemma gfwdMid_spec a : forall e s fuel v, (s + e = lm - 2)%nat -> (1 <= s)%nat -> (e < fuel)%nat -> length v = N ->
  (forall k, (k < M)%nat -> cplx v k = gfwdN s a k) ->
  let '(v', wi) := fwdMid A fuel N (2 ^ s) (2 ^ (S lm - s)) (2 ^ s - 1) tw v in
  wi = (2 ^ (lm - 2) - 1)%nat /\ length v' = N /\ forall k, (k < M)%nat -> cplx v' k = gfwdN (lm - 2) a k.
Proof.
  assert (N16 : (N / 16 = 2 ^ (lm - 3))%nat).
  { rewrite HN, (pow2_split (lm - 3) 4 (S lm)) by lia. apply Nat.div_mul. cbn; lia. }
  induction e as [|e IH]; intros s fuel v Hs H1 Hf Hv Hc; (destruct fuel as [|fuel]; [lia|]); cbn [fwdMid]; rewrite N16.
  - assert (s = lm - 2)%nat as -> by lia.
    destruct (Nat.leb_spec (2 ^ (lm - 2)) (2 ^ (lm - 3))) as [Hle|].
    + apply Nat.pow_le_mono_r_iff in Hle; lia.
    + auto.
  - destruct (Nat.leb_spec (2 ^ s) (2 ^ (lm - 3))) as [_|Hgt].
    2:{ assert (2 ^ s <= 2 ^ (lm - 3))%nat by (apply Nat.pow_le_mono_r; lia). lia. }
    replace (S lm - s)%nat with (S (lm - s)) by lia. rewrite pow2_half.
    replace (lm - s)%nat with (S lm - S s)%nat by lia.
    replace (2 ^ s - 1 + 2 ^ s)%nat with (2 ^ S s - 1)%nat by (pose proof (pow2_nat_pos s); rewrite pow2_S; lia).
    rewrite <- pow2_S.
    assert (Eh : (2 ^ (S lm - S s) = 2 * 2 ^ (lm - 1 - s))%nat) by (replace (S lm - S s)%nat with (S (lm - 1 - s)) by lia; reflexivity).
    destruct (hdiv (lm - 1 - s) ltac:(lia)) as [D1 D2]. replace (lm - 1 - (lm - 1 - s))%nat with s in D2 by lia.
    pose proof (pow2_nat_pos (lm - 1 - s)) as P1.
    destruct (level_step (fwdButterfly A) (2 ^ (lm - 1 - s)) (fun i => nth (2 ^ s - 1 + i) tw (c0 A))
       (level A (fwdButterfly A) tw (2 ^ s - 1) (2 ^ s) (2 * 2 ^ (lm - 1 - s))) (gfwdN s a) v) with (W' := gF s) as [Hl' Hc'];
      [apply (level_acts A M M4); [exact P1|apply h4; lia|rewrite <- pow2_S, <- Nat.pow_add_r; f_equal; lia]|exact P1|exact D1|exact Hv| |exact Hc|].
    { intros i Hi. apply gtwF; [lia|]. rewrite D2 in Hi. exact Hi. }
    rewrite <- Eh in Hl', Hc'. apply (IH (S s)); [lia|lia|lia|exact Hl'|exact Hc'].
Qed.

Lemma gfwdFFT_computes : computes A N lm (fun v => fwdFFTInPlace A v tw) (gfwdN lm).
Proof.
  intros v Hv. unfold fwdFFTInPlace. rewrite Hv.
  destruct M8 as (g & EM & Hg & Eg).
  assert (EN8 : ((N + 7) / 8 = M / 4)%nat).
  { rewrite NM, EM. replace (8 * g / 4)%nat with (2 * g)%nat by (apply (Nat.div_unique _ _ _ 0); lia). symmetry. apply (Nat.div_unique _ _ _ 7); lia. }
  rewrite EN8, NhalfM. 
  (* first level *)
  assert (E1 : M = (2 * 2 ^ (lm - 1 - 0))%nat) by (rewrite <- pow2_S; f_equal; lia).
  assert (H1 : length (node A (fwdButterfly A) (nth 0 tw (a0 A, a0 A)) 0 M v) = N /\
     forall k, (k < M)%nat -> cplx (node A (fwdButterfly A) (nth 0 tw (a0 A, a0 A)) 0 M v) k = gfwdN 1 (cplx v) k).
  { pose proof (level_acts A M M4 (fwdButterfly A) (2 ^ (lm - 1 - 0)) 1 tw 0) as HA.
    specialize (HA (pow2_nat_pos _) (h4 (lm - 1 - 0) ltac:(lia)) ltac:(lia)).
    unfold level in HA. cbn [forN] in HA.
    destruct (hdiv (lm - 1 - 0) ltac:(lia)) as [D1 D2].
    destruct (level_step _ _ _ _ (cplx v) v HA (pow2_nat_pos _) D1 Hv (gF 0)) as [Hl' Hc'].
    - intros i Hi. rewrite D2 in Hi. replace (lm - 1 - (lm - 1 - 0))%nat with 0%nat in Hi by lia.
      cbn [Nat.pow] in Hi. assert (i = 0)%nat as -> by lia. apply (gtwF 0 0); [lia|cbn; lia].
    - reflexivity.
    - rewrite <- E1 in Hl', Hc'. cbn [Nat.mul Nat.add] in Hl', Hc'. split; [exact Hl'|exact Hc']. }
  destruct H1 as [Hl1 Hc1]. set (v1 := node A (fwdButterfly A) (nth 0 tw (a0 A, a0 A)) 0 M v) in *. clearbody v1.
  (* middle *)
  pose proof (gfwdMid_spec (cplx v) (lm - 3) 1 N v1 ltac:(lia) ltac:(lia)) as HM.
  pose proof fuel_ok as HF. specialize (HM ltac:(rewrite NM; lia) Hl1 Hc1).
  replace (S lm - 1)%nat with lm in HM by lia. change (2 ^ 1)%nat with 2%nat in HM. change (2 - 1)%nat with 1%nat in HM.
  destruct (fwdMid A N N 2 M 1 tw v1) as [v2 wi]. destruct HM as (-> & Hl2 & Hc2).
  (* last two levels *)
  assert (Eq4 : (M / 4 = 2 ^ (lm - 2))%nat).
  { rewrite (pow2_split (lm - 2) 2 lm) by lia. apply Nat.div_mul. cbn; lia. }
  pose proof (half2_acts A M M4 (fwdButterfly A) (fun b => nth (2 ^ (lm - 2) - 1 + b) tw (a0 A, a0 A)) M4) as A2.
  destruct (hdiv 1 ltac:(lia)) as [D1 D2]. change (2 ^ 1)%nat with 2%nat in D1, D2.
  destruct (level_step _ _ _ _ (gfwdN (lm - 2) (cplx v)) v2 A2 ltac:(lia) D1 Hl2 (gF (lm - 2))) as [Hl3 Hc3].
  { intros i Hi. rewrite D2 in Hi. replace (lm - 1 - 1)%nat with (lm - 2)%nat in Hi by lia. apply gtwF; [lia|exact Hi]. }
  { exact Hc2. }
  cbv beta in Hl3, Hc3. set (v3 := forN 0 (M / 4) (fun b v => half2 A _ _ _ v) v2) in *. clearbody v3.
  assert (Hc3' : forall k, (k < M)%nat -> cplx v3 k = gfwdN (S (lm - 2)) (cplx v) k).
  { intros k Hk. rewrite Hc3 by exact Hk. cbn [gfwdN]. replace (lm - 1 - (lm - 2))%nat with 1%nat by lia. reflexivity. }
  pose proof (half1_acts A M M4 (fwdButterfly A) (fun b => nth (2 ^ (lm - 1) - 1 + b) tw (a0 A, a0 A)) M4) as A1.
  destruct (hdiv 0 ltac:(lia)) as [D3 D4]. change (2 ^ 0)%nat with 1%nat in D3, D4.
  destruct (level_step _ _ _ _ (gfwdN (S (lm - 2)) (cplx v)) v3 A1 ltac:(lia) D3 Hl3 (gF (lm - 1))) as [Hl4 Hc4].
  { intros i Hi. rewrite D4 in Hi. replace (lm - 1 - 0)%nat with (lm - 1)%nat in Hi by lia. apply gtwF; [lia|exact Hi]. }
  { exact Hc3'. }
  assert (EW : (2 ^ (lm - 2) - 1 + M / 4 = 2 ^ (lm - 1) - 1)%nat).
  { rewrite Eq4. replace (lm - 1)%nat with (S (lm - 2)) by lia. rewrite pow2_S. pose proof (pow2_nat_pos (lm - 2)). lia. }
  rewrite EW.
  assert (EX : forN 0 (M / 4) (fun b v => half1 A (fwdButterfly A) (nth (2 ^ (lm - 1) - 1 + 2 * b) tw (a0 A, a0 A)) (nth (2 ^ (lm - 1) - 1 + 2 * b + 1) tw (a0 A, a0 A)) (8 * b) v) v3 =
    forN 0 (M / 4) (fun b v => half1 A (fwdButterfly A) (nth (2 ^ (lm - 1) - 1 + 2 * b) tw (a0 A, a0 A)) (nth (2 ^ (lm - 1) - 1 + (2 * b + 1)) tw (a0 A, a0 A)) (8 * b) v) v3).
  { apply forN_ext. intros. do 2 f_equal. lia. }
  rewrite EX. split; [exact Hl4|]. intros k Hk. rewrite Hc4 by exact Hk.
  assert (EE : gfwdN lm (cplx v) = T A (fwdButterfly A) 1 (gF (lm - 1)) (gfwdN (S (lm - 2)) (cplx v))).
  { replace (S (lm - 2)) with (lm - 1)%nat by lia. replace lm with (S (lm - 1)) at 1 by lia. cbn [gfwdN]. rewrite Nat.sub_diag. reflexivity. }
  rewrite EE. reflexivity.
Qed.
End Fwd.

Section Inv.
Variable tw : list C.
Hypothesis Htw : gTWI 0 tw.

Lemma gtwI s i : (s < lm)%nat -> (i < 2 ^ s)%nat -> nth (2 ^ lm - 2 ^ S s + i) tw (c0 A) = gI s i.
Proof. intros. apply Htw; [lia|assumption]. Qed.

Lemma ginvMid_spec a : forall e s fuel v, (s = e)%nat -> (s <= lm - 3)%nat -> (e < fuel)%nat -> length v = N ->
  (forall k, (k < M)%nat -> cplx v k = ginvN (lm - 1 - s) a k) ->
  let '(v', wi) := invMid A fuel (2 ^ s) (2 ^ (lm - s)) (2 ^ lm - 2 ^ S s) tw v in
  wi = (2 ^ lm - 2)%nat /\ length v' = N /\ forall k, (k < M)%nat -> cplx v' k = ginvN (lm - 1) a k.
Proof.
  induction e as [|e IH]; intros s fuel v Hs H1 Hf Hv Hc; (destruct fuel as [|fuel]; [lia|]); cbn [invMid].
  - subst s. cbn [Nat.pow Nat.leb]. rewrite Nat.sub_0_r in Hc. auto.
  - subst s. destruct (Nat.leb_spec 2 (2 ^ S e)) as [_|Hgt]; [|rewrite pow2_S in Hgt; pose proof (pow2_nat_pos e); lia].
    rewrite pow2_half.
    assert (Eh : (2 ^ (lm - S e) = 2 * 2 ^ (lm - 1 - S e))%nat) by (replace (lm - S e)%nat with (S (lm - 1 - S e)) by lia; reflexivity).
    replace (2 * 2 ^ (lm - S e))%nat with (2 ^ (lm - e))%nat by (replace (lm - e)%nat with (S (lm - S e)) by lia; reflexivity).
    assert (Hle : (2 ^ S (S e) <= 2 ^ lm)%nat) by (apply Nat.pow_le_mono_r; lia).
    replace (2 ^ lm - 2 ^ S (S e) + 2 ^ S e)%nat with (2 ^ lm - 2 ^ S e)%nat by (rewrite (pow2_S (S e)) in *; lia).
    destruct (hdiv (lm - 1 - S e) ltac:(lia)) as [D1 D2]. replace (lm - 1 - (lm - 1 - S e))%nat with (S e) in D2 by lia.
    pose proof (pow2_nat_pos (lm - 1 - S e)) as P1.
    destruct (level_step (invButterfly A) (2 ^ (lm - 1 - S e)) (fun i => nth (2 ^ lm - 2 ^ S (S e) + i) tw (c0 A))
       (level A (invButterfly A) tw (2 ^ lm - 2 ^ S (S e)) (2 ^ S e) (2 * 2 ^ (lm - 1 - S e))) (ginvN (lm - 1 - S e) a) v) with (W' := gI (S e)) as [Hl' Hc'];
      [apply (level_acts A M M4); [exact P1|apply h4; lia|rewrite <- pow2_S, <- Nat.pow_add_r; f_equal; lia]|exact P1|exact D1|exact Hv| |exact Hc|].
    { intros i Hi. apply gtwI; [lia|]. rewrite D2 in Hi. exact Hi. }
    rewrite Eh. apply (IH e fuel); [reflexivity|lia|lia|exact Hl'|].
    intros k Hk. rewrite Hc' by exact Hk.
    replace (lm - 1 - e)%nat with (S (lm - 1 - S e)) by lia. cbn [ginvN].
    replace (lm - 1 - (lm - 1 - S e))%nat with (S e) by lia. reflexivity.
Qed.

Lemma ginvFFT_computes v : length v = N -> exists v', invFFTInPlace A v tw = map (fun x => adivn A x (Z.of_nat M)) v' /\
  length v' = N /\ forall k, (k < M)%nat -> cplx v' k = ginvN lm (cplx v) k.
Proof.
  intros Hv. unfold invFFTInPlace. rewrite Hv.
  destruct M8 as (g & EM & Hg & Eg).
  assert (EN8 : ((N + 7) / 8 = M / 4)%nat).
  { rewrite NM, EM. replace (8 * g / 4)%nat with (2 * g)%nat by (apply (Nat.div_unique _ _ _ 0); lia). symmetry. apply (Nat.div_unique _ _ _ 7); lia. }
  rewrite EN8, NhalfM.
  assert (Eq4 : (M / 4 = 2 ^ (lm - 2))%nat).
  { rewrite (pow2_split (lm - 2) 2 lm) by lia. apply Nat.div_mul. cbn; lia. }
  assert (N16 : (N / 16 = 2 ^ (lm - 3))%nat).
  { rewrite HN, (pow2_split (lm - 3) 4 (S lm)) by lia. apply Nat.div_mul. cbn; lia. }
  (* first two levels *)
  pose proof (half1_acts A M M4 (invButterfly A) (fun b => nth b tw (a0 A, a0 A)) M4) as A1.
  destruct (hdiv 0 ltac:(lia)) as [D3 D4]. change (2 ^ 0)%nat with 1%nat in D3, D4.
  destruct (level_step _ _ _ _ (cplx v) v A1 ltac:(lia) D3 Hv (gI (lm - 1))) as [Hl1 Hc1].
  { intros i Hi. rewrite D4 in Hi. replace (lm - 1 - 0)%nat with (lm - 1)%nat in Hi by lia.
    pose proof (gtwI (lm - 1) i ltac:(lia) Hi) as HT. replace (S (lm - 1)) with lm in HT by lia. rewrite Nat.sub_diag in HT. exact HT. }
  { reflexivity. }
  cbv beta in Hl1, Hc1.
  set (v1 := forN 0 (M / 4) _ v) in *. clearbody v1.
  assert (Hc1' : forall k, (k < M)%nat -> cplx v1 k = ginvN 1 (cplx v) k).
  { intros k Hk. rewrite Hc1 by exact Hk. cbn [ginvN Nat.pow]. replace (lm - 1 - 0)%nat with (lm - 1)%nat by lia. reflexivity. }
  pose proof (half2_acts A M M4 (invButterfly A) (fun b => nth (2 * (M / 4) + b) tw (a0 A, a0 A)) M4) as A2.
  destruct (hdiv 1 ltac:(lia)) as [D1 D2]. change (2 ^ 1)%nat with 2%nat in D1, D2.
  destruct (level_step _ _ _ _ (ginvN 1 (cplx v)) v1 A2 ltac:(lia) D1 Hl1 (gI (lm - 2))) as [Hl2 Hc2].
  { intros i Hi. rewrite D2 in Hi. replace (lm - 1 - 1)%nat with (lm - 2)%nat in Hi by lia.
    pose proof (gtwI (lm - 2) i ltac:(lia) Hi) as HT.
    replace (2 ^ lm - 2 ^ S (lm - 2))%nat with (2 * (M / 4))%nat in HT; [exact HT|].
    rewrite Eq4, pow2_S. rewrite (pow2_split 2 (lm - 2) lm) by lia. cbn [Nat.pow Nat.mul]. lia. }
  { exact Hc1'. }
  cbv beta in Hl2, Hc2. set (v2 := forN 0 (M / 4) (fun b v => half2 A _ _ _ v) v1) in *. clearbody v2.
  assert (Hc2' : forall k, (k < M)%nat -> cplx v2 k = ginvN (lm - 1 - (lm - 3)) (cplx v) k).
  { intros k Hk. rewrite Hc2 by exact Hk. replace (lm - 1 - (lm - 3))%nat with 2%nat by lia. cbn [ginvN]. cbn [Nat.pow Nat.mul Nat.add].
    replace (lm - 1 - 1)%nat with (lm - 2)%nat by lia. reflexivity. }
  (* middle *)
  pose proof (ginvMid_spec (cplx v) (lm - 3) (lm - 3) N v2 eq_refl ltac:(lia)) as HMid.
  pose proof fuel_ok as HF. specialize (HMid ltac:(rewrite NM; lia) Hl2 Hc2').
  replace (lm - (lm - 3))%nat with 3%nat in HMid by lia. change (2 ^ 3)%nat with 8%nat in HMid.
  replace (2 ^ lm - 2 ^ S (lm - 3))%nat with (2 * (M / 4) + M / 4)%nat in HMid.
  2:{ rewrite Eq4. replace (S (lm - 3)) with (lm - 2)%nat by lia. rewrite (pow2_split 2 (lm - 2) lm) by lia. cbn [Nat.pow Nat.mul]. lia. }
  rewrite N16. destruct (invMid A N (2 ^ (lm - 3)) 8 (2 * (M / 4) + M / 4) tw v2) as [v3 wi]. destruct HMid as (-> & Hl3 & Hc3).
  (* last level *)
  eexists; split; [reflexivity|].
  assert (E1 : M = (2 * 2 ^ (lm - 1))%nat) by (rewrite <- pow2_S; f_equal; lia).
  pose proof (level_acts A M M4 (invButterfly A) (2 ^ (lm - 1)) 1 tw (2 ^ lm - 2)) as HA.
  specialize (HA (pow2_nat_pos _) (h4 (lm - 1) ltac:(lia)) ltac:(lia)).
  unfold level in HA. cbn [forN] in HA. rewrite Nat.add_0_r in HA.
  destruct (hdiv (lm - 1) ltac:(lia)) as [D5 D6].
  destruct (level_step _ _ _ _ (ginvN (lm - 1) (cplx v)) v3 HA (pow2_nat_pos _) D5 Hl3 (gI 0)) as [Hl4 Hc4].
  { intros i Hi. rewrite D6 in Hi. rewrite Nat.sub_diag in Hi. cbn [Nat.pow] in Hi. assert (i = 0)%nat as -> by lia.
    apply (gtwI 0 0); [lia|cbn; lia]. }
  { exact Hc3. }
  rewrite <- E1 in Hl4, Hc4. cbn [Nat.mul Nat.add] in Hl4, Hc4. split; [exact Hl4|].
  intros k Hk. rewrite Hc4 by exact Hk. replace lm with (S (lm - 1)) at 3 by lia. cbn [ginvN]. rewrite Nat.sub_diag. reflexivity.
Qed.
End Inv.
End NetGen.
