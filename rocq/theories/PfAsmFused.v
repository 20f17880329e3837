(** The AVX2 kernels on complex vectors, for any meaning of the floating point operations. *)
From Coq Require Import String Lia Ring_theory.
From Verif Require Import Base ModelNum ModelAsm ModelAsmInt ModelAsmFlt SpecAsm PfAsm PfAsmVec PfAsmVec2 ModelFFT ModelFused SpecAsmFlt PfAsmFlt PfAsmFlt2.
Import ListNotations.
Open Scope Z_scope.

Section K3B.
Variable A : arith.
Notation T := (car A).
Variable F : fops T.
Variable s0 : state T.
Notation m0 := (mm s0).
Variables o v0 v1 : gslice.
Notation n := (gn o).
Hypothesis So : fslice A m0 o.
Hypothesis S0 : fslice A m0 v0.
Hypothesis S1 : fslice A m0 v1.
Hypothesis H0 : gn v0 = n.
Hypothesis H1 : gn v1 = n.
Hypothesis Hn : n mod 8 = 0.
Hypothesis F0 : no_fwd o v0.
Hypothesis F1 : no_fwd o v1.
Notation E := (mkEnv (frame3 o v0 v1 8) noData).
Notation KK := (KK A o v0 v1).
Ltac begin := pose proof So as (_ & Sg & Sn & Sb & _); pose proof S0 as (_ & Sg0 & Sn0 & Sb0 & _); pose proof S1 as (_ & Sg1 & Sn1 & Sb1 & _).

Ltac mlane L := rewrite L; reflexivity.
Lemma kf_mul : terminates F E mulCmplxToAVX2 s0 (becomes A o (mulCmplxFused A F (fvals A m0 o) (fvals A m0 v0) (fvals A m0 v1)) m0).
Proof.
  unfold mulCmplxFused. apply to_becomes; [exact So|exact Hn|]. begin. apply (shapeF A F s0 o _ So E _ _ SI BX 8 KK); [lia|exact Hn|tauto| |].
  - eexists. split; [fcc; cbn; reflexivity|]. fcc. repeat split; reflexivity.
  - intros s i ((K1 & K2 & K3) & Kn & Ki & W) Hi Hm Hin. repeat fstep.
    ldf A s0 o W v0 S0 F0 i. ldf A s0 o W v0 S0 F0 (i + 4). ldf A s0 o W v1 S1 F1 i. ldf A s0 o W v1 S1 F1 (i + 4).
    destruct (res8 A s0 o v0 v1 So H0 H1 Hn (fun _ a b => mulF F a b) i Hi Hm Hin) as ((L0 & L1 & L2 & L3) & M0 & M1 & M2 & M3).
    stf A F s0 o So W i ltac:(first [mlane L0 | mlane L1 | mlane L2 | mlane L3]).
    stf A F s0 o So W0 (i + 4) ltac:(first [mlane M0 | mlane M1 | mlane M2 | mlane M3]). fpost.
Qed.
Lemma kf_mulAdd : terminates F E mulAddCmplxToAVX2 s0 (becomes A o (mulAddCmplxFused A F (fvals A m0 o) (fvals A m0 v0) (fvals A m0 v1)) m0).
Proof.
  unfold mulAddCmplxFused. apply to_becomes; [exact So|exact Hn|]. begin. apply (shapeF A F s0 o _ So E _ _ SI BX 8 KK); [lia|exact Hn|tauto| |].
  - eexists. split; [fcc; cbn; reflexivity|]. fcc. repeat split; reflexivity.
  - intros s i ((K1 & K2 & K3) & Kn & Ki & W) Hi Hm Hin. repeat fstep.
    ldf A s0 o W v0 S0 F0 i. ldf A s0 o W v0 S0 F0 (i + 4). ldf A s0 o W v1 S1 F1 i. ldf A s0 o W v1 S1 F1 (i + 4).
    ldf A s0 o W o So (no_fwd_refl o) i. ldf A s0 o W o So (no_fwd_refl o) (i + 4).
    destruct (res8 A s0 o v0 v1 So H0 H1 Hn (mulAddF F) i Hi Hm Hin) as ((L0 & L1 & L2 & L3) & M0 & M1 & M2 & M3).
    stf A F s0 o So W i ltac:(first [mlane L0 | mlane L1 | mlane L2 | mlane L3]).
    stf A F s0 o So W0 (i + 4) ltac:(first [mlane M0 | mlane M1 | mlane M2 | mlane M3]). fpost.
Qed.
Lemma kf_mulSub : terminates F E mulSubCmplxToAVX2 s0 (becomes A o (mulSubCmplxFused A F (fvals A m0 o) (fvals A m0 v0) (fvals A m0 v1)) m0).
Proof.
  unfold mulSubCmplxFused. apply to_becomes; [exact So|exact Hn|]. begin. apply (shapeF A F s0 o _ So E _ _ SI BX 8 KK); [lia|exact Hn|tauto| |].
  - eexists. split; [fcc; cbn; reflexivity|]. fcc. repeat split; reflexivity.
  - intros s i ((K1 & K2 & K3) & Kn & Ki & W) Hi Hm Hin. repeat fstep.
    ldf A s0 o W v0 S0 F0 i. ldf A s0 o W v0 S0 F0 (i + 4). ldf A s0 o W v1 S1 F1 i. ldf A s0 o W v1 S1 F1 (i + 4).
    ldf A s0 o W o So (no_fwd_refl o) i. ldf A s0 o W o So (no_fwd_refl o) (i + 4).
    destruct (res8 A s0 o v0 v1 So H0 H1 Hn (mulSubF F) i Hi Hm Hin) as ((L0 & L1 & L2 & L3) & M0 & M1 & M2 & M3).
    stf A F s0 o So W i ltac:(first [mlane L0 | mlane L1 | mlane L2 | mlane L3]).
    stf A F s0 o So W0 (i + 4) ltac:(first [mlane M0 | mlane M1 | mlane M2 | mlane M3]). fpost.
Qed.
End K3B.
