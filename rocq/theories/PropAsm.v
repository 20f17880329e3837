(** C61: the AVX2 kernels of math/vec/asm_vec_amd64.s. *)
From Coq Require Import String.
From Verif Require Import Base ModelNum ModelVec ModelAsm ModelAsmInt SpecAsm PfAsmVec2.
Import ListNotations.
Open Scope Z_scope.

Theorem C61_addToUint32 : computes3 4 addToUint32AVX2 (fun o a b => a + b).
Proof. exact (fun A F s o v0 v1 So S0 S1 N0 N1 F0 F1 => add32 F s o v0 v1 N0 N1 F0 F1 4 So S0 S1 eq_refl). Qed.
Print Assumptions C61_addToUint32.
Theorem C61_subToUint32 : computes3 4 subToUint32AVX2 (fun o a b => a - b).
Proof. exact (fun A F s o v0 v1 So S0 S1 N0 N1 F0 F1 => sub32 F s o v0 v1 N0 N1 F0 F1 4 So S0 S1 eq_refl). Qed.
Print Assumptions C61_subToUint32.
Theorem C61_mulToUint32 : computes3 4 mulToUint32AVX2 (fun o a b => a * b).
Proof. exact (fun A F s o v0 v1 So S0 S1 N0 N1 F0 F1 => mul32 F s o v0 v1 N0 N1 F0 F1 4 So S0 S1 eq_refl). Qed.
Print Assumptions C61_mulToUint32.
Theorem C61_mulAddToUint32 : computes3 4 mulAddToUint32AVX2 (fun o a b => o + a * b).
Proof. exact (fun A F s o v0 v1 So S0 S1 N0 N1 F0 F1 => mulAdd32 F s o v0 v1 N0 N1 F0 F1 4 So S0 S1 eq_refl). Qed.
Print Assumptions C61_mulAddToUint32.
Theorem C61_mulSubToUint32 : computes3 4 mulSubToUint32AVX2 (fun o a b => o - a * b).
Proof. exact (fun A F s o v0 v1 So S0 S1 N0 N1 F0 F1 => mulSub32 F s o v0 v1 N0 N1 F0 F1 4 So S0 S1 eq_refl). Qed.
Print Assumptions C61_mulSubToUint32.
Theorem C61_scalarMulToUint32 : computes2c 4 scalarMulToUint32AVX2 (fun o a c => c * a).
Proof. exact (fun A F s o v c So S0 Hc N0 F0 => smul32 F s o v c N0 F0 4 So S0 Hc eq_refl). Qed.
Print Assumptions C61_scalarMulToUint32.
Theorem C61_scalarMulAddToUint32 : computes2c 4 scalarMulAddToUint32AVX2 (fun o a c => o + c * a).
Proof. exact (fun A F s o v c So S0 Hc N0 F0 => smulAdd32 F s o v c N0 F0 4 So S0 Hc eq_refl). Qed.
Print Assumptions C61_scalarMulAddToUint32.
Theorem C61_scalarMulSubToUint32 : computes2c 4 scalarMulSubToUint32AVX2 (fun o a c => o - c * a).
Proof. exact (fun A F s o v c So S0 Hc N0 F0 => smulSub32 F s o v c N0 F0 4 So S0 Hc eq_refl). Qed.
Print Assumptions C61_scalarMulSubToUint32.
Theorem C61_addToUint64 : computes3 8 addToUint64AVX2 (fun o a b => a + b).
Proof. exact (fun A F s o v0 v1 So S0 S1 N0 N1 F0 F1 => add64 F s o v0 v1 N0 N1 F0 F1 8 So S0 S1 eq_refl). Qed.
Print Assumptions C61_addToUint64.
Theorem C61_subToUint64 : computes3 8 subToUint64AVX2 (fun o a b => a - b).
Proof. exact (fun A F s o v0 v1 So S0 S1 N0 N1 F0 F1 => sub64 F s o v0 v1 N0 N1 F0 F1 8 So S0 S1 eq_refl). Qed.
Print Assumptions C61_subToUint64.
Theorem C61_mulToUint64 : computes3 8 mulToUint64AVX2 (fun o a b => a * b).
Proof. exact (fun A F s o v0 v1 So S0 S1 N0 N1 F0 F1 => mul64 F s o v0 v1 N0 N1 F0 F1 8 So S0 S1 eq_refl). Qed.
Print Assumptions C61_mulToUint64.
Theorem C61_mulAddToUint64 : computes3 8 mulAddToUint64AVX2 (fun o a b => o + a * b).
Proof. exact (fun A F s o v0 v1 So S0 S1 N0 N1 F0 F1 => mulAdd64 F s o v0 v1 N0 N1 F0 F1 8 So S0 S1 eq_refl). Qed.
Print Assumptions C61_mulAddToUint64.
Theorem C61_mulSubToUint64 : computes3 8 mulSubToUint64AVX2 (fun o a b => o - a * b).
Proof. exact (fun A F s o v0 v1 So S0 S1 N0 N1 F0 F1 => mulSub64 F s o v0 v1 N0 N1 F0 F1 8 So S0 S1 eq_refl). Qed.
Print Assumptions C61_mulSubToUint64.
Theorem C61_scalarMulToUint64 : computes2c 8 scalarMulToUint64AVX2 (fun o a c => c * a).
Proof. exact (fun A F s o v c So S0 Hc N0 F0 => smul64 F s o v c N0 F0 8 So S0 Hc eq_refl). Qed.
Print Assumptions C61_scalarMulToUint64.
Theorem C61_scalarMulAddToUint64 : computes2c 8 scalarMulAddToUint64AVX2 (fun o a c => o + c * a).
Proof. exact (fun A F s o v c So S0 Hc N0 F0 => smulAdd64 F s o v c N0 F0 8 So S0 Hc eq_refl). Qed.
Print Assumptions C61_scalarMulAddToUint64.
Theorem C61_scalarMulSubToUint64 : computes2c 8 scalarMulSubToUint64AVX2 (fun o a c => o - c * a).
Proof. exact (fun A F s o v c So S0 Hc N0 F0 => smulSub64 F s o v c N0 F0 8 So S0 Hc eq_refl). Qed.
Print Assumptions C61_scalarMulSubToUint64.

(** Non-vacuity: vOut = v0 = elements 1..9 of an allocation of eleven words (eight lanes and one leftover), v1 another one;
    the elements before and after the window stay. *)
Definition exF : fops unit := mkFops unit (fun _ _ => tt) (fun _ _ => tt) (fun _ _ => tt) (fun _ _ _ => tt) (fun _ _ _ => tt) (fun _ _ _ => tt)
  (fun _ => tt) (fun _ => 0) (fun _ => tt) (fun _ => tt) (fun _ => 0).
Definition exBlock (l : list Z) (i : Z) : option (word unit) :=
  if (0 <=? i) && (i <? Z.of_nat (List.length l)) then Some (WI (nth (Z.to_nat i) l 0)) else None.
Definition exMem (e : Z) (l0 l1 : list Z) : mem unit :=
  mkMem (fun _ => e) (fun b i => match b with 0%nat => exBlock l0 i | 1%nat => exBlock l1 i | _ => None end).
Definition exSt (e : Z) (l0 l1 : list Z) : state unit := mkSt (fun _ => WI 0) (fun _ => YI []) None (exMem e l0 l1).
Definition exDump (r : outcome unit) (n : nat) : list Z :=
  match r with OK s => map (fun i => match getm (mm s) 0%nat (Z.of_nat i) with Some (WI z) => z | _ => -1 end) (seq 0 n) | _ => [] end.
Definition exA := [100; 4294967295; 2; 3; 4; 5; 6; 7; 8; 9; 110].
Definition exB := [2; 20; 30; 40; 50; 60; 70; 80; 4294967295].
Lemma exBlock_ok l i : 0 <= i < Z.of_nat (List.length l) -> exBlock l i = Some (WI (nth (Z.to_nat i) l 0)).
Proof. intros H. unfold exBlock. destruct (0 <=? i) eqn:E1, (i <? Z.of_nat (List.length l)) eqn:E2; cbn; try reflexivity; lia. Qed.
Example C61_ex_hyp : islice (exMem 4 exA exB) 4 (mkG 0 1 9 10) /\ islice (exMem 4 exA exB) 4 (mkG 1 0 9 9) /\
  no_fwd (mkG 0 1 9 10) (mkG 0 1 9 10) /\ no_fwd (mkG 0 1 9 10) (mkG 1 0 9 9).
Proof.
  assert (Fa : Forall (fun z => 0 <= z < 2 ^ (8 * 4)) exA) by (unfold exA; repeat constructor; lia).
  assert (Fb : Forall (fun z => 0 <= z < 2 ^ (8 * 4)) exB) by (unfold exB; repeat constructor; lia).
  rewrite Forall_forall in Fa, Fb.
  split; [|split; [|split; [right; left; cbn; lia|left; cbn; lia]]]; (split; [reflexivity|split; [cbn; lia|split; [cbn; lia|split; [cbn; lia|]]]]);
    cbn [gb go gn]; intros i Hi; cbn [getm exMem]; eexists; (split; [apply exBlock_ok; cbn [List.length exA exB]; lia|]).
  - apply Fa. apply nth_In. cbn [List.length exA]. lia.
  - apply Fb. apply nth_In. cbn [List.length exB]. lia.
Qed.
Example C61_ex_add : exDump (run exF (mkEnv (frame3 (mkG 0 1 9 10) (mkG 0 1 9 10) (mkG 1 0 9 9) 4) intData) 100 addToUint32AVX2 addToUint32AVX2 (exSt 4 exA exB)) 11
  = [100; 1; 22; 33; 44; 55; 66; 77; 88; 8; 110].
Proof. vm_compute. reflexivity. Qed.
Example C61_ex_mul64 : exDump (run exF (mkEnv (frame3 (mkG 0 0 5 5) (mkG 0 0 5 5) (mkG 1 0 5 5) 8) intData) 100 mulToUint64AVX2 mulToUint64AVX2
    (exSt 8 [2 ^ 64 - 1; 2 ^ 33 + 1; 3; 4; 5] [2 ^ 64 - 1; 2 ^ 33 + 3; 2 ^ 63; 7; 2 ^ 62])) 5
  = [1; 2 ^ 35 + 3; 2 ^ 63; 28; 2 ^ 62].
Proof. vm_compute. reflexivity. Qed.

(** The kernels agree with the Go loops they replace, except on the empty vector, where the Go loops panic (C06_empty_refuted) and the
    kernels do nothing. *)
Example C61_ex_empty : exDump (run exF (mkEnv (frame3 (mkG 0 0 0 0) (mkG 0 0 0 0) (mkG 1 0 0 0) 4) intData) 100 addToUint32AVX2 addToUint32AVX2 (exSt 4 [7] [])) 1 = [7].
Proof. vm_compute. reflexivity. Qed.

(** Finding: as in the Go loops (C06), an input that starts before the output inside one allocation is read after being overwritten:
    AddTo(x[1:], x, x[1:]) with x = [1, 1, 1] adds twice. *)
Theorem C61_forward_overlap_refuted :
  let o := mkG 0 1 2 2 in let v := mkG 0 0 2 3 in
  islice (exMem 4 [1; 1; 1] []) 4 o /\ islice (exMem 4 [1; 1; 1] []) 4 v /\
  exDump (run exF (mkEnv (frame3 o v o 4) intData) 100 addToUint32AVX2 addToUint32AVX2 (exSt 4 [1; 1; 1] [])) 3 = [1; 2; 3].
Proof.
  cbv zeta. split; [|split]; [| |vm_compute; reflexivity];
    (split; [reflexivity|split; [cbn; lia|split; [cbn; lia|split; [cbn; lia|]]]]); cbn [gb go gn]; intros i Hi; exists 1;
    (assert (i = 0 \/ i = 1) as [-> | ->] by lia); (split; [reflexivity|lia]).
Qed.
Print Assumptions C61_forward_overlap_refuted.
