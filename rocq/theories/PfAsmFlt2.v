(** The twelve kernels of math/poly/asm_vec_cmplx_amd64.s. *)
From Coq Require Import String Lia Ring Ring_theory.
From Verif Require Import Base ModelNum ModelAsm ModelAsmInt ModelAsmFlt SpecAsm PfAsm PfAsmVec PfAsmVec2 ModelFFT SpecAsmFlt PfAsmFlt.
Import ListNotations.
Open Scope Z_scope.

Section Res.
Variable A : arith.
Notation T := (car A).
Notation C := (T * T)%type.
Variable F : fops T.
Variable s0 : state T.
Notation m0 := (mm s0).
Variables o v0 v1 : gslice.
Notation n := (gn o).
Hypothesis So : fslice A m0 o.
Hypothesis H0 : gn v0 = n.
Hypothesis H1 : gn v1 = n.
Hypothesis Hn : n mod 8 = 0.
Variable g : C -> C -> C -> C.
Definition res i := nth (Z.to_nat i) (cmplxLoop A g (fvals A m0 o) (fvals A m0 v0) (fvals A m0 v1)) (a0 A).
Notation at_ v i := (fval A m0 v i, fval A m0 v (i + 4)).

Lemma lenB : length (fvals A m0 o) = (8 * Z.to_nat (n / 8))%nat.
Proof. pose proof So as (_ & _ & Sn & _). rewrite fvals_length. pose proof (Z.div_mod n 8 ltac:(lia)). pose proof (Z.div_pos n 8). lia. Qed.
Lemma res_lane i j : 0 <= i -> i mod 8 = 0 -> i + 8 <= n -> 0 <= j < 4 ->
  res (i + j) = fst (g (at_ o (i + j)) (at_ v0 (i + j)) (at_ v1 (i + j))) /\ res (i + 4 + j) = snd (g (at_ o (i + j)) (at_ v0 (i + j)) (at_ v1 (i + j))).
Proof.
  intros Hi Hm Hin Hj. destruct (cmplxLoop_nth A g (fvals A m0 o) (fvals A m0 v0) (fvals A m0 v1) (Z.to_nat (n / 8)) lenB) as (_ & H).
  pose proof (Z.div_mod i 8 ltac:(lia)) as Ei. rewrite Hm, Z.add_0_r in Ei. pose proof (Z.div_mod n 8 ltac:(lia)) as En.
  pose proof (Z.div_pos i 8 ltac:(lia) ltac:(lia)).
  destruct (H (Z.to_nat (i / 8)) (Z.to_nat j) ltac:(lia) ltac:(lia)) as (Ha & Hb). cbv zeta in Ha, Hb.
  unfold res. replace (Z.to_nat (i + j)) with (8 * Z.to_nat (i / 8) + Z.to_nat j)%nat by lia.
  replace (Z.to_nat (i + 4 + j)) with (8 * Z.to_nat (i / 8) + Z.to_nat j + 4)%nat by lia. rewrite Ha, Hb.
  replace (8 * Z.to_nat (i / 8) + Z.to_nat j)%nat with (Z.to_nat (i + j)) by lia.
  replace (Z.to_nat (i + j) + 4)%nat with (Z.to_nat (i + j + 4)) by lia.
  rewrite !fvals_nth by lia. split; reflexivity.
Qed.
Lemma res_cw h : (forall x a b, g x a b = (h (fst x) (fst a) (fst b), h (snd x) (snd a) (snd b))) ->
  forall i, 0 <= i < n -> res i = h (fval A m0 o i) (fval A m0 v0 i) (fval A m0 v1 i).
Proof.
  intros Hh i Hi. pose proof (Z.div_mod i 8 ltac:(lia)) as Ei. pose proof (Z.mod_pos_bound i 8 ltac:(lia)) as Hb. pose proof (Z.div_mod n 8 ltac:(lia)) as En.
  destruct (Z_lt_ge_dec (i mod 8) 4) as [Hl | Hg].
  - destruct (res_lane (8 * (i / 8)) (i mod 8)) as (Ha & _); [pose proof (Z.div_pos i 8); lia|rewrite Z.mul_comm; apply Z.mod_mul; lia|lia|lia|].
    rewrite <- Ei in Ha. rewrite Ha, Hh. reflexivity.
  - destruct (res_lane (8 * (i / 8)) (i mod 8 - 4)) as (_ & Ha); [pose proof (Z.div_pos i 8); lia|rewrite Z.mul_comm; apply Z.mod_mul; lia|lia|lia|].
    replace (8 * (i / 8) + 4 + (i mod 8 - 4)) with i in Ha by lia. rewrite Ha, Hh. cbn [snd]. replace (8 * (i / 8) + (i mod 8 - 4) + 4) with i by lia. reflexivity.
Qed.
Notation a2 v i j := (fval A m0 v i, fval A m0 v j).
Lemma res8 i : 0 <= i -> i mod 8 = 0 -> i + 8 <= n ->
  (res i = fst (g (a2 o i (i + 4)) (a2 v0 i (i + 4)) (a2 v1 i (i + 4))) /\
   res (i + 1) = fst (g (a2 o (i + 1) (i + 4 + 1)) (a2 v0 (i + 1) (i + 4 + 1)) (a2 v1 (i + 1) (i + 4 + 1))) /\
   res (i + 2) = fst (g (a2 o (i + 2) (i + 4 + 2)) (a2 v0 (i + 2) (i + 4 + 2)) (a2 v1 (i + 2) (i + 4 + 2))) /\
   res (i + 3) = fst (g (a2 o (i + 3) (i + 4 + 3)) (a2 v0 (i + 3) (i + 4 + 3)) (a2 v1 (i + 3) (i + 4 + 3)))) /\
  (res (i + 4) = snd (g (a2 o i (i + 4)) (a2 v0 i (i + 4)) (a2 v1 i (i + 4))) /\
   res (i + 4 + 1) = snd (g (a2 o (i + 1) (i + 4 + 1)) (a2 v0 (i + 1) (i + 4 + 1)) (a2 v1 (i + 1) (i + 4 + 1))) /\
   res (i + 4 + 2) = snd (g (a2 o (i + 2) (i + 4 + 2)) (a2 v0 (i + 2) (i + 4 + 2)) (a2 v1 (i + 2) (i + 4 + 2))) /\
   res (i + 4 + 3) = snd (g (a2 o (i + 3) (i + 4 + 3)) (a2 v0 (i + 3) (i + 4 + 3)) (a2 v1 (i + 3) (i + 4 + 3)))).
Proof.
  intros Hi Hm Hin.
  destruct (res_lane i 0 Hi Hm Hin ltac:(lia)) as (A0 & B0). destruct (res_lane i 1 Hi Hm Hin ltac:(lia)) as (A1 & B1).
  destruct (res_lane i 2 Hi Hm Hin ltac:(lia)) as (A2 & B2). destruct (res_lane i 3 Hi Hm Hin ltac:(lia)) as (A3 & B3).
  rewrite !Z.add_0_r in A0. rewrite !(Z.add_0_r i), Z.add_0_r in B0.
  assert (Q1 : i + 1 + 4 = i + 4 + 1) by lia. assert (Q2 : i + 2 + 4 = i + 4 + 2) by lia. assert (Q3 : i + 3 + 4 = i + 4 + 3) by lia.
  rewrite Q1 in A1, B1. rewrite Q2 in A2, B2. rewrite Q3 in A3, B3.
  split; [split; [exact A0|split; [exact A1|split; [exact A2|exact A3]]]|split; [exact B0|split; [exact B1|split; [exact B2|exact B3]]]].
Qed.
Lemma to_becomes E p : terminates F E p s0 (window o (fun i => WF (res i)) m0) -> terminates F E p s0 (becomes A o (cmplxLoop A g (fvals A m0 o) (fvals A m0 v0) (fvals A m0 v1)) m0).
Proof.
  intros (s' & Hr & W). exists s'. split; [exact Hr|]. split; [|exact W].
  rewrite (proj1 (cmplxLoop_nth A g _ _ _ _ lenB)). apply fvals_length.
Qed.
End Res.

Ltac fcc := cbn [ex exec1 src dst ModelAsm.arith bsrc addr vget vset vwidth setr setvr setfl setmm rg vr ModelAsm.fl mm rid Nat.eqb branch dop qop shop
  Z.eqb Pos.eqb lookup String.eqb Ascii.eqb Bool.eqb fop2 fop3 asF map map2 map3 altmap combine fst snd repeat splitl flat_map splitq app joinq firstn].
Ltac fstep := first [progress fcc | progress regs | progress unfold ModelAsm.arith].
Ltac ldf A s0 o W v Sv Fv q :=
  match goal with |- context [vld ?m 32 (gb v, ?a)] =>
    rewrite (LF4 A s0 o _ m _ v q a W Sv Fv) by first [lia | rewrite swrap64_id by lia; lia] end; repeat fstep.
Ltac stf A F s0 o So W i lanes :=
  match goal with |- context [vst F ?m 32 (gb o, ?a) (YF [?x0; ?x1; ?x2; ?x3])] =>
    let m' := fresh "m'" in let Em := fresh "Em" in let Wm := fresh "W" in
    destruct (SF4 A F s0 o _ So m i a x0 x1 x2 x3 W ltac:(lia) ltac:(lia) ltac:(rewrite swrap64_id by lia; lia)) as (m' & Em & Wm);
    [lanes..|rewrite Em; repeat fstep] end.
Ltac fpost := eexists; split; [reflexivity|]; split; [repeat split; fcc; assumption|]; split; [fcc; assumption|]; split;
    [fcc; f_equal; apply inc_eq; lia|fcc; first [assumption | match goal with H : window (upto _ ?x) _ _ _ |- window (upto _ ?y) _ _ _ => replace y with x by lia; exact H end]].

Section K3.
Variable A : arith.
Notation T := (car A).
Variable F : fops T.
Hypothesis X : exactF A F.
Add Ring RA : (xf_ring A F X).
Variable s0 : state T.
Notation m0 := (mm s0).
Variables o v0 v1 : gslice.
Notation n := (gn o).
Hypothesis So : fslice A m0 o.
Hypothesis S0 : fslice A m0 v0.
Hypothesis S1 : fslice A m0 v1.
Hypothesis H0 : gn v0 = n.
Hypothesis H1 : gn v1 = n.
Hypothesis Hn : n mod 8 = 0.
Hypothesis F0 : no_fwd o v0.
Hypothesis F1 : no_fwd o v1.
Notation E := (mkEnv (frame3 o v0 v1 8) noData).
Definition KK (s : state T) := rg s AX = WP (gb o) (8 * go o) /\ rg s CX = WP (gb v0) (8 * go v0) /\ rg s DX = WP (gb v1) (8 * go v1).
Ltac ops := rewrite ?(xf_add A F X), ?(xf_sub A F X), ?(xf_mul A F X), ?(xf_fma A F X), ?(xf_fms A F X), ?(xf_fnma A F X).
Lemma n4 : n mod 4 = 0. Proof. pose proof (Z.div_mod n 8 ltac:(lia)) as E8. rewrite Hn in E8. rewrite E8, Z.add_0_r. replace (8 * (n / 8)) with (2 * (n / 8) * 4) by lia. apply Z.mod_mul. lia. Qed.
Ltac begin := pose proof So as (_ & Sg & Sn & Sb & _); pose proof S0 as (_ & Sg0 & Sn0 & Sb0 & _); pose proof S1 as (_ & Sg1 & Sn1 & Sb1 & _).
Ltac cwlane h := ops; rewrite (res_cw A s0 o v0 v1 So H0 H1 Hn _ h ltac:(reflexivity)) by lia; reflexivity.

Lemma k_add : terminates F E addCmplxToAVX2 s0 (becomes A o (addCmplxTo A (fvals A m0 o) (fvals A m0 v0) (fvals A m0 v1)) m0).
Proof.
  unfold addCmplxTo. apply to_becomes; [exact So|exact Hn|]. begin. apply (shapeF A F s0 o _ So E _ _ SI BX 4 KK); [lia|exact n4|tauto| |].
  - eexists. split; [fcc; cbn; reflexivity|]. fcc. repeat split; reflexivity.
  - intros s i ((K1 & K2 & K3) & Kn & Ki & W) Hi Hm Hin. repeat fstep.
    ldf A s0 o W v0 S0 F0 i. ldf A s0 o W v1 S1 F1 i.
    stf A F s0 o So W i ltac:(cwlane (fun _ a b : T => aadd A a b)). fpost.
Qed.
Lemma k_sub : terminates F E subCmplxToAVX2 s0 (becomes A o (subCmplxTo A (fvals A m0 o) (fvals A m0 v0) (fvals A m0 v1)) m0).
Proof.
  unfold subCmplxTo. apply to_becomes; [exact So|exact Hn|]. begin. apply (shapeF A F s0 o _ So E _ _ SI BX 4 KK); [lia|exact n4|tauto| |].
  - eexists. split; [fcc; cbn; reflexivity|]. fcc. repeat split; reflexivity.
  - intros s i ((K1 & K2 & K3) & Kn & Ki & W) Hi Hm Hin. repeat fstep.
    ldf A s0 o W v0 S0 F0 i. ldf A s0 o W v1 S1 F1 i.
    stf A F s0 o So W i ltac:(cwlane (fun _ a b : T => asub A a b)). fpost.
Qed.
Ltac mlane L := rewrite L; cbn [fst snd cmulG cadd2 csub2]; ops; ring.
Lemma k_mul : terminates F E mulCmplxToAVX2 s0 (becomes A o (mulCmplxTo A (fvals A m0 o) (fvals A m0 v0) (fvals A m0 v1)) m0).
Proof.
  unfold mulCmplxTo. apply to_becomes; [exact So|exact Hn|]. begin. apply (shapeF A F s0 o _ So E _ _ SI BX 8 KK); [lia|exact Hn|tauto| |].
  - eexists. split; [fcc; cbn; reflexivity|]. fcc. repeat split; reflexivity.
  - intros s i ((K1 & K2 & K3) & Kn & Ki & W) Hi Hm Hin. repeat fstep.
    ldf A s0 o W v0 S0 F0 i. ldf A s0 o W v0 S0 F0 (i + 4). ldf A s0 o W v1 S1 F1 i. ldf A s0 o W v1 S1 F1 (i + 4).
    destruct (res8 A s0 o v0 v1 So H0 H1 Hn (fun _ a b => cmulG A a b) i Hi Hm Hin) as ((L0 & L1 & L2 & L3) & M0 & M1 & M2 & M3).
    stf A F s0 o So W i ltac:(first [mlane L0 | mlane L1 | mlane L2 | mlane L3]).
    stf A F s0 o So W0 (i + 4) ltac:(first [mlane M0 | mlane M1 | mlane M2 | mlane M3]). fpost.
Qed.
Lemma k_mulAdd : terminates F E mulAddCmplxToAVX2 s0 (becomes A o (mulAddCmplxTo A (fvals A m0 o) (fvals A m0 v0) (fvals A m0 v1)) m0).
Proof.
  unfold mulAddCmplxTo. apply to_becomes; [exact So|exact Hn|]. begin. apply (shapeF A F s0 o _ So E _ _ SI BX 8 KK); [lia|exact Hn|tauto| |].
  - eexists. split; [fcc; cbn; reflexivity|]. fcc. repeat split; reflexivity.
  - intros s i ((K1 & K2 & K3) & Kn & Ki & W) Hi Hm Hin. repeat fstep.
    ldf A s0 o W v0 S0 F0 i. ldf A s0 o W v0 S0 F0 (i + 4). ldf A s0 o W v1 S1 F1 i. ldf A s0 o W v1 S1 F1 (i + 4).
    ldf A s0 o W o So (no_fwd_refl o) i. ldf A s0 o W o So (no_fwd_refl o) (i + 4).
    destruct (res8 A s0 o v0 v1 So H0 H1 Hn (fun x a b => cadd2 A x (cmulG A a b)) i Hi Hm Hin) as ((L0 & L1 & L2 & L3) & M0 & M1 & M2 & M3).
    stf A F s0 o So W i ltac:(first [mlane L0 | mlane L1 | mlane L2 | mlane L3]).
    stf A F s0 o So W0 (i + 4) ltac:(first [mlane M0 | mlane M1 | mlane M2 | mlane M3]). fpost.
Qed.
Lemma k_mulSub : terminates F E mulSubCmplxToAVX2 s0 (becomes A o (mulSubCmplxTo A (fvals A m0 o) (fvals A m0 v0) (fvals A m0 v1)) m0).
Proof.
  unfold mulSubCmplxTo. apply to_becomes; [exact So|exact Hn|]. begin. apply (shapeF A F s0 o _ So E _ _ SI BX 8 KK); [lia|exact Hn|tauto| |].
  - eexists. split; [fcc; cbn; reflexivity|]. fcc. repeat split; reflexivity.
  - intros s i ((K1 & K2 & K3) & Kn & Ki & W) Hi Hm Hin. repeat fstep.
    ldf A s0 o W v0 S0 F0 i. ldf A s0 o W v0 S0 F0 (i + 4). ldf A s0 o W v1 S1 F1 i. ldf A s0 o W v1 S1 F1 (i + 4).
    ldf A s0 o W o So (no_fwd_refl o) i. ldf A s0 o W o So (no_fwd_refl o) (i + 4).
    destruct (res8 A s0 o v0 v1 So H0 H1 Hn (fun x a b => csub2 A x (cmulG A a b)) i Hi Hm Hin) as ((L0 & L1 & L2 & L3) & M0 & M1 & M2 & M3).
    stf A F s0 o So W i ltac:(first [mlane L0 | mlane L1 | mlane L2 | mlane L3]).
    stf A F s0 o So W0 (i + 4) ltac:(first [mlane M0 | mlane M1 | mlane M2 | mlane M3]). fpost.
Qed.
End K3.

Section K2.
Variable A : arith.
Notation T := (car A).
Variable F : fops T.
Hypothesis X : exactF A F.
Add Ring RA2 : (xf_ring A F X).
Variable s0 : state T.
Notation m0 := (mm s0).
Variables o v : gslice.
Notation n := (gn o).
Hypothesis So : fslice A m0 o.
Hypothesis S0 : fslice A m0 v.
Hypothesis H0 : gn v = n.
Hypothesis Hn : n mod 8 = 0.
Hypothesis F0 : no_fwd o v.
Notation zero4 := (YI (splitl (repeat 0 4))).
Definition K2y (P : (nat -> yval T) -> Prop) (s : state T) := rg s AX = WP (gb o) (8 * go o) /\ rg s CX = WP (gb v) (8 * go v) /\ P (vr s).
Ltac ops := rewrite ?(xf_add A F X), ?(xf_sub A F X), ?(xf_mul A F X), ?(xf_fma A F X), ?(xf_fms A F X), ?(xf_fnma A F X).
Ltac begin := pose proof So as (_ & Sg & Sn & Sb & _); pose proof S0 as (_ & Sg0 & Sn0 & Sb0 & _).
Ltac cwlane h := ops; rewrite (res_cw A s0 o v v So H0 H0 Hn _ h ltac:(reflexivity)) by lia; cbv beta; ring.
Ltac mlane L := rewrite L; cbn [fst snd cmulG cadd2 csub2]; ops; ring.

Lemma k_neg : terminates F (mkEnv (frame2 o v) noData) negCmplxToAVX2 s0 (becomes A o (negCmplxTo A (fvals A m0 o) (fvals A m0 v)) m0).
Proof.
  unfold negCmplxTo. apply to_becomes; [exact So|exact Hn|]. begin.
  apply (shapeF A F s0 o _ So _ _ _ BX DX 4 (K2y (fun y => y 0%nat = YI (repeat 0 8)))); [lia|exact (n4 o Hn)|tauto| |].
  - eexists. split; [fcc; cbn; reflexivity|]. fcc. repeat split; reflexivity.
  - intros s i ((K1 & K2 & K3) & Kn & Ki & W) Hi Hm Hin. repeat fstep.
    ldf A s0 o W v S0 F0 i. change (0 + 2 ^ 32 * 0) with 0. rewrite (xf_zero A F X).
    stf A F s0 o So W i ltac:(cwlane (fun _ a b : T => aopp A a)). fpost.
Qed.
Lemma k_fmul c : terminates F (mkEnv (frame2c o v 8 (WF c)) noData) floatMulCmplxToAVX2 s0 (becomes A o (floatMulCmplxTo A (fvals A m0 o) (fvals A m0 v) c) m0).
Proof.
  unfold floatMulCmplxTo. apply to_becomes; [exact So|exact Hn|]. begin.
  apply (shapeF A F s0 o _ So _ _ _ BX DX 4 (K2y (fun y => y 0%nat = YF (repeat c 4)))); [lia|exact (n4 o Hn)|tauto| |].
  - eexists. split; [fcc; cbn; reflexivity|]. fcc. repeat split; reflexivity.
  - intros s i ((K1 & K2 & K3) & Kn & Ki & W) Hi Hm Hin. repeat fstep.
    ldf A s0 o W v S0 F0 i.
    stf A F s0 o So W i ltac:(cwlane (fun _ a b : T => amul A c a)). fpost.
Qed.
Lemma k_fmulAdd c : terminates F (mkEnv (frame2c o v 8 (WF c)) noData) floatMulAddCmplxToAVX2 s0 (becomes A o (floatMulAddCmplxTo A (fvals A m0 o) (fvals A m0 v) c) m0).
Proof.
  unfold floatMulAddCmplxTo. apply to_becomes; [exact So|exact Hn|]. begin.
  apply (shapeF A F s0 o _ So _ _ _ BX DX 4 (K2y (fun y => y 0%nat = YF (repeat c 4)))); [lia|exact (n4 o Hn)|tauto| |].
  - eexists. split; [fcc; cbn; reflexivity|]. fcc. repeat split; reflexivity.
  - intros s i ((K1 & K2 & K3) & Kn & Ki & W) Hi Hm Hin. repeat fstep.
    ldf A s0 o W v S0 F0 i. ldf A s0 o W o So (no_fwd_refl o) i.
    stf A F s0 o So W i ltac:(cwlane (fun x a b : T => aadd A x (amul A c a))). fpost.
Qed.
Lemma k_fmulSub c : terminates F (mkEnv (frame2c o v 8 (WF c)) noData) floatMulSubCmplxToAVX2 s0 (becomes A o (floatMulSubCmplxTo A (fvals A m0 o) (fvals A m0 v) c) m0).
Proof.
  unfold floatMulSubCmplxTo. apply to_becomes; [exact So|exact Hn|]. begin.
  apply (shapeF A F s0 o _ So _ _ _ BX DX 4 (K2y (fun y => y 0%nat = YF (repeat c 4)))); [lia|exact (n4 o Hn)|tauto| |].
  - eexists. split; [fcc; cbn; reflexivity|]. fcc. repeat split; reflexivity.
  - intros s i ((K1 & K2 & K3) & Kn & Ki & W) Hi Hm Hin. repeat fstep.
    ldf A s0 o W v S0 F0 i. ldf A s0 o W o So (no_fwd_refl o) i.
    stf A F s0 o So W i ltac:(cwlane (fun x a b : T => asub A x (amul A c a))). fpost.
Qed.
Notation Kc c := (K2y (fun y => y 0%nat = YF (repeat (fst c) 4) /\ y 1%nat = YF (repeat (snd c) 4))).
Lemma k_cmul c : terminates F (mkEnv (frame2cc o v (fst c) (snd c)) noData) cmplxMulCmplxToAVX2 s0 (becomes A o (cmplxMulCmplxTo A (fvals A m0 o) (fvals A m0 v) c) m0).
Proof.
  unfold cmplxMulCmplxTo. apply to_becomes; [exact So|exact Hn|]. begin.
  apply (shapeF A F s0 o _ So _ _ _ BX DX 8 (Kc c)); [lia|exact Hn|tauto| |].
  - eexists. split; [fcc; cbn; reflexivity|]. fcc. repeat split; reflexivity.
  - intros s i ((K1 & K2 & K3 & K4) & Kn & Ki & W) Hi Hm Hin. repeat fstep.
    ldf A s0 o W v S0 F0 i. ldf A s0 o W v S0 F0 (i + 4).
    destruct (res8 A s0 o v v So H0 H0 Hn (fun _ a _ => cmulG A a c) i Hi Hm Hin) as ((L0 & L1 & L2 & L3) & M0 & M1 & M2 & M3).
    stf A F s0 o So W i ltac:(first [mlane L0 | mlane L1 | mlane L2 | mlane L3]).
    stf A F s0 o So W0 (i + 4) ltac:(first [mlane M0 | mlane M1 | mlane M2 | mlane M3]). fpost.
Qed.
Lemma k_cmulAdd c : terminates F (mkEnv (frame2cc o v (fst c) (snd c)) noData) cmplxMulAddCmplxToAVX2 s0 (becomes A o (cmplxMulAddCmplxTo A (fvals A m0 o) (fvals A m0 v) c) m0).
Proof.
  unfold cmplxMulAddCmplxTo. apply to_becomes; [exact So|exact Hn|]. begin.
  apply (shapeF A F s0 o _ So _ _ _ BX DX 8 (Kc c)); [lia|exact Hn|tauto| |].
  - eexists. split; [fcc; cbn; reflexivity|]. fcc. repeat split; reflexivity.
  - intros s i ((K1 & K2 & K3 & K4) & Kn & Ki & W) Hi Hm Hin. repeat fstep.
    ldf A s0 o W v S0 F0 i. ldf A s0 o W v S0 F0 (i + 4). ldf A s0 o W o So (no_fwd_refl o) i. ldf A s0 o W o So (no_fwd_refl o) (i + 4).
    destruct (res8 A s0 o v v So H0 H0 Hn (fun x a _ => cadd2 A x (cmulG A a c)) i Hi Hm Hin) as ((L0 & L1 & L2 & L3) & M0 & M1 & M2 & M3).
    stf A F s0 o So W i ltac:(first [mlane L0 | mlane L1 | mlane L2 | mlane L3]).
    stf A F s0 o So W0 (i + 4) ltac:(first [mlane M0 | mlane M1 | mlane M2 | mlane M3]). fpost.
Qed.
Lemma k_cmulSub c : terminates F (mkEnv (frame2cc o v (fst c) (snd c)) noData) cmplxMulSubCmplxToAVX2 s0 (becomes A o (cmplxMulSubCmplxTo A (fvals A m0 o) (fvals A m0 v) c) m0).
Proof.
  unfold cmplxMulSubCmplxTo. apply to_becomes; [exact So|exact Hn|]. begin.
  apply (shapeF A F s0 o _ So _ _ _ BX DX 8 (Kc c)); [lia|exact Hn|tauto| |].
  - eexists. split; [fcc; cbn; reflexivity|]. fcc. repeat split; reflexivity.
  - intros s i ((K1 & K2 & K3 & K4) & Kn & Ki & W) Hi Hm Hin. repeat fstep.
    ldf A s0 o W v S0 F0 i. ldf A s0 o W v S0 F0 (i + 4). ldf A s0 o W o So (no_fwd_refl o) i. ldf A s0 o W o So (no_fwd_refl o) (i + 4).
    destruct (res8 A s0 o v v So H0 H0 Hn (fun x a _ => csub2 A x (cmulG A a c)) i Hi Hm Hin) as ((L0 & L1 & L2 & L3) & M0 & M1 & M2 & M3).
    stf A F s0 o So W i ltac:(first [mlane L0 | mlane L1 | mlane L2 | mlane L3]).
    stf A F s0 o So W0 (i + 4) ltac:(first [mlane M0 | mlane M1 | mlane M2 | mlane M3]). fpost.
Qed.
End K2.
