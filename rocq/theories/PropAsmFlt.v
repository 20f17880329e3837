(** C63: the AVX2 kernels on Fourier coefficients compute the portable Go loops. *)
From Coq Require Import String Ring_theory Lia.
From Verif Require Import Base ModelNum ModelAsm ModelAsmInt ModelAsmFlt SpecAsm SpecAsmFlt PfAsmFlt2 ModelFFT.
Import ListNotations.
Open Scope Z_scope.

Theorem C63_add : computesF3 addCmplxToAVX2 addCmplxTo.
Proof. intros A F s o v0 v1 X So S0 S1 H0 H1 Hn F0 F1. exact (k_add A F X s o v0 v1 So S0 S1 H0 H1 Hn F0 F1). Qed.
Print Assumptions C63_add.
Theorem C63_sub : computesF3 subCmplxToAVX2 subCmplxTo.
Proof. intros A F s o v0 v1 X So S0 S1 H0 H1 Hn F0 F1. exact (k_sub A F X s o v0 v1 So S0 S1 H0 H1 Hn F0 F1). Qed.
Print Assumptions C63_sub.
Theorem C63_mul : computesF3 mulCmplxToAVX2 mulCmplxTo.
Proof. intros A F s o v0 v1 X So S0 S1 H0 H1 Hn F0 F1. exact (k_mul A F X s o v0 v1 So S0 S1 H0 H1 Hn F0 F1). Qed.
Print Assumptions C63_mul.
Theorem C63_mulAdd : computesF3 mulAddCmplxToAVX2 mulAddCmplxTo.
Proof. intros A F s o v0 v1 X So S0 S1 H0 H1 Hn F0 F1. exact (k_mulAdd A F X s o v0 v1 So S0 S1 H0 H1 Hn F0 F1). Qed.
Print Assumptions C63_mulAdd.
Theorem C63_mulSub : computesF3 mulSubCmplxToAVX2 mulSubCmplxTo.
Proof. intros A F s o v0 v1 X So S0 S1 H0 H1 Hn F0 F1. exact (k_mulSub A F X s o v0 v1 So S0 S1 H0 H1 Hn F0 F1). Qed.
Print Assumptions C63_mulSub.
Theorem C63_neg : computesF2 negCmplxToAVX2 negCmplxTo.
Proof. intros A F s o v X So S0 H0 Hn F0. exact (k_neg A F X s o v So S0 H0 Hn F0). Qed.
Print Assumptions C63_neg.
Theorem C63_floatMul : computesF2c floatMulCmplxToAVX2 floatMulCmplxTo.
Proof. intros A F s o v c X So S0 H0 Hn F0. exact (k_fmul A F X s o v So S0 H0 Hn F0 c). Qed.
Print Assumptions C63_floatMul.
Theorem C63_floatMulAdd : computesF2c floatMulAddCmplxToAVX2 floatMulAddCmplxTo.
Proof. intros A F s o v c X So S0 H0 Hn F0. exact (k_fmulAdd A F X s o v So S0 H0 Hn F0 c). Qed.
Print Assumptions C63_floatMulAdd.
Theorem C63_floatMulSub : computesF2c floatMulSubCmplxToAVX2 floatMulSubCmplxTo.
Proof. intros A F s o v c X So S0 H0 Hn F0. exact (k_fmulSub A F X s o v So S0 H0 Hn F0 c). Qed.
Print Assumptions C63_floatMulSub.
Theorem C63_cmplxMul : computesF2cc cmplxMulCmplxToAVX2 cmplxMulCmplxTo.
Proof. intros A F s o v c X So S0 H0 Hn F0. exact (k_cmul A F X s o v So S0 H0 Hn F0 c). Qed.
Print Assumptions C63_cmplxMul.
Theorem C63_cmplxMulAdd : computesF2cc cmplxMulAddCmplxToAVX2 cmplxMulAddCmplxTo.
Proof. intros A F s o v c X So S0 H0 Hn F0. exact (k_cmulAdd A F X s o v So S0 H0 Hn F0 c). Qed.
Print Assumptions C63_cmplxMulAdd.
Theorem C63_cmplxMulSub : computesF2cc cmplxMulSubCmplxToAVX2 cmplxMulSubCmplxTo.
Proof. intros A F s o v c X So S0 H0 Hn F0. exact (k_cmulSub A F X s o v So S0 H0 Hn F0 c). Qed.
Print Assumptions C63_cmplxMulSub.

(** Witness: exact arithmetic on the integers; 8 floats at offset 1 of allocation 0, times those of allocation 1, in place:
    (k + i)(1 + 2i) for the four pairs (1,1) (2,1) (3,1) (4,1). *)
Definition zArith : arith := mkArith Z 0 1 Z.add Z.mul Z.sub Z.opp Z.div (fun z => z) (fun z => z) (fun _ _ => (1, 0)).
Definition zF : fops Z := mkFops Z Z.add Z.sub Z.mul (fun x y z => x * y + z) (fun x y z => x * y - z) (fun x y z => z - x * y)
  (fun z => z) (fun _ => 0) (fun z => z) (fun z => z) (fun z => z).
Definition zBlock (l : list Z) (i : Z) : option (word Z) :=
  if (0 <=? i) && (i <? Z.of_nat (List.length l)) then Some (WF (nth (Z.to_nat i) l 0)) else None.
Definition zSt (l0 l1 : list Z) : state Z := mkSt (fun _ => WI 0) (fun _ => YI []) None
  (mkMem (fun _ => 8) (fun b i => match b with 0%nat => zBlock l0 i | 1%nat => zBlock l1 i | _ => None end)).
Definition zDump (r : outcome Z) (n : nat) : list Z :=
  match r with OK s => map (fun i => match getm (mm s) 0%nat (Z.of_nat i) with Some (WF z) => z | _ => -1 end) (seq 0 n) | _ => [] end.
Definition zA := [77; 1; 2; 3; 4; 1; 1; 1; 1; 88].
Definition zB := [1; 1; 1; 1; 2; 2; 2; 2].
Lemma zBlock_ok l i : 0 <= i < Z.of_nat (List.length l) -> zBlock l i = Some (WF (nth (Z.to_nat i) l 0)).
Proof. intros H. unfold zBlock. destruct (0 <=? i) eqn:E1, (i <? Z.of_nat (List.length l)) eqn:E2; cbn; try reflexivity; lia. Qed.
Example C63_ex_hyp : exactF zArith zF /\ fslice zArith (mm (zSt zA zB)) (mkG 0 1 8 8) /\ fslice zArith (mm (zSt zA zB)) (mkG 1 0 8 8) /\
  8 mod 8 = 0 /\ no_fwd (mkG 0 1 8 8) (mkG 0 1 8 8) /\ no_fwd (mkG 0 1 8 8) (mkG 1 0 8 8).
Proof.
  split; [constructor; try reflexivity; constructor; cbn; intros; ring|].
  split; [|split; [|split; [reflexivity|split; [right; left; cbn; lia|left; cbn; lia]]]];
    (split; [reflexivity|split; [cbn; lia|split; [cbn; lia|split; [cbn; lia|]]]]); cbn [gb go gn]; intros i Hi; cbn [getm mm zSt];
    eexists; apply zBlock_ok; cbn [List.length zA zB]; lia.
Qed.
Example C63_ex_mul : zDump (run zF (mkEnv (frame3 (mkG 0 1 8 8) (mkG 0 1 8 8) (mkG 1 0 8 8) 8) noData) 40 mulCmplxToAVX2 mulCmplxToAVX2 (zSt zA zB)) 10
  = [77; -1; 0; 1; 2; 3; 5; 7; 9; 88].
Proof. vm_compute. reflexivity. Qed.
Example C63_ex_cmulSub : zDump (run zF (mkEnv (frame2cc (mkG 0 1 8 8) (mkG 1 0 8 8) 3 5) noData) 40 cmplxMulSubCmplxToAVX2 cmplxMulSubCmplxToAVX2 (zSt zA zB)) 10
  = [77; 8; 9; 10; 11; -10; -10; -10; -10; 88].
Proof. vm_compute. reflexivity. Qed.

(** Finding: as in the Go loops, an input that starts before the output inside one allocation is read after being overwritten. *)
Theorem C63_forward_overlap_refuted :
  let l := [1; 1; 1; 1; 1; 1; 1; 1; 1; 1; 1; 1] in
  let o := mkG 0 4 8 8 in let v := mkG 0 0 8 12 in let s := zSt l [] in
  fslice zArith (mm s) o /\ fslice zArith (mm s) v /\ gn v = gn o /\ gn o mod 8 = 0 /\
  zDump (run zF (mkEnv (frame3 o v o 8) noData) 40 addCmplxToAVX2 addCmplxToAVX2 s) 12 = [1; 1; 1; 1; 2; 2; 2; 2; 3; 3; 3; 3] /\
  addCmplxTo zArith (fvals zArith (mm s) o) (fvals zArith (mm s) v) (fvals zArith (mm s) o) = [2; 2; 2; 2; 2; 2; 2; 2].
Proof.
  cbv zeta. split; [|split; [|split; [reflexivity|split; [reflexivity|split; vm_compute; reflexivity]]]];
    (split; [reflexivity|split; [cbn; lia|split; [cbn; lia|split; [cbn; lia|]]]]); cbn [gb go gn]; intros i Hi; cbn [getm mm zSt];
    eexists; apply zBlock_ok; cbn [List.length]; lia.
Qed.
Print Assumptions C63_forward_overlap_refuted.
