(** C62: the AVX2 decomposition kernels. *)
From Coq Require Import String.
From Verif Require Import Base ModelNum ModelPoly ModelGadget SpecGadget ModelAsm ModelAsmInt SpecAsm SpecAsmDec PfAsmDec3.
Import ListNotations.
Open Scope Z_scope.

(** The kernels store the digits of the Go code (C14, C15) in every polynomial of dcmpOut, stay inside the slices and change nothing else. *)
Theorem C62_decompose32 : decomposes 4 8 decomposePolyToUint32AVX2.
Proof. exact (fun A F s g h p d Hg HL Hp Sp Ha Hn => dec32 F s g h p d Hg HL Hp Sp Ha Hn). Qed.
Print Assumptions C62_decompose32.
Theorem C62_decompose64 : decomposes 8 4 decomposePolyToUint64AVX2.
Proof. exact (fun A F s g h p d Hg HL Hp Sp Ha Hn => dec64 F s g h p d Hg HL Hp Sp Ha Hn). Qed.
Print Assumptions C62_decompose64.
(** Hence the words left in memory are balanced digits that recompose to the input up to half the last gadget step. *)
Theorem C62_recompose32 : decomposes_recompose 4 8 decomposePolyToUint32AVX2.
Proof. exact (recompose_of 4 8 _ C62_decompose32). Qed.
Print Assumptions C62_recompose32.
Theorem C62_recompose64 : decomposes_recompose 8 4 decomposePolyToUint64AVX2.
Proof. exact (recompose_of 8 4 _ C62_decompose64). Qed.
Print Assumptions C62_recompose64.

(** Non-vacuity: two output polynomials of rank 8 in blocks 1 and 2, headers in block 0, the input in block 3. *)
Definition dxBlock (l : list (word unit)) (i : Z) : option (word unit) := if 0 <=? i then nth_error l (Z.to_nat i) else None.
Definition dxMem (e : Z) (hd : list (word unit)) (inp : list Z) : mem unit :=
  mkMem (fun b => match b with 0%nat => 8 | _ => e end)
    (fun b i => match b with 0%nat => dxBlock hd i | 3%nat => dxBlock (map WI inp) i | _ => dxBlock (repeat (WI 77) (List.length inp)) i end).
Definition dxSt (e : Z) (hd : list (word unit)) (inp : list Z) : state unit := mkSt (fun _ => WI 0) (fun _ => YI []) None (dxMem e hd inp).
Definition dxF : fops unit := mkFops unit (fun _ _ => tt) (fun _ _ => tt) (fun _ _ => tt) (fun _ _ _ => tt) (fun _ _ _ => tt) (fun _ _ _ => tt)
  (fun _ => tt) (fun _ => 0) (fun _ => tt) (fun _ => tt) (fun _ => 0).
Definition dxDump (r : outcome unit) (b n : nat) : list Z :=
  match r with OK s => map (fun i => match getm (mm s) b (Z.of_nat i) with Some (WI z) => z | _ => -1 end) (seq 0 n) | _ => [] end.
Definition dxHd : list (word unit) := [WP 1%nat 0; WI 8; WI 8; WP 2%nat 0; WI 8; WI 8].
Definition dxIn := [3735928559; 255; 0; 1; 2147483648; 4294967295; 65536; 32768].
Definition dxH := mkG 0 0 2 2.
Definition dxP := mkG 3 0 8 8.
Definition dxD (j : Z) := mkG (Z.to_nat (j + 1)) 0 8 8.
Definition dxG := mkGadget 256 8 2 32.
Example C62_ex_hyp : gadget_ok (8 * 4) dxG /\ gn dxH = Z.of_nat (g_level dxG) /\ polys (dxMem 4 dxHd dxIn) 4 dxH dxD /\ islice (dxMem 4 dxHd dxIn) 4 dxP /\
  apart dxH dxP dxD /\ gn dxP mod 8 = 0.
Proof.
  assert (Sl : forall b, (0 < b)%nat -> islice (dxMem 4 dxHd dxIn) 4 (mkG b 0 8 8)).
  { intros b Hb. do 4 (split; [destruct b; cbn; lia|]). cbn [gb go gn]. intros i Hi.
    assert (i = 0 \/ i = 1 \/ i = 2 \/ i = 3 \/ i = 4 \/ i = 5 \/ i = 6 \/ i = 7) as Hc by lia.
    destruct b as [|[|[|[|b]]]]; [lia| | | |];
      repeat destruct Hc as [-> | Hc]; try subst i; eexists; (split; [reflexivity|cbn; lia]). }
  split; [unfold gadget_ok; cbn; lia|]. split; [reflexivity|]. split; [|split; [apply Sl; lia|split; [|reflexivity]]].
  - split; [reflexivity|]. split; [cbn; lia|]. split; [cbn; lia|]. cbn [gn gb go dxH]. intros j Hj.
    assert (j = 0 \/ j = 1) as [-> | ->] by lia; (split; [reflexivity|apply Sl; cbn; lia]).
  - split.
    + cbn [gn gb go dxH dxP dxD]. intros j Hj. split; [lia|]. split; [reflexivity|]. left. cbn. lia.
    + cbn [gn gb go dxH dxP dxD]. intros j k Hj Hk Hne. left. lia.
Qed.
Example C62_ex : let r := run dxF (mkEnv (frameD dxH dxP 4 256 8 16) intData) 60 decomposePolyToUint32AVX2 decomposePolyToUint32AVX2 (dxSt 4 dxHd dxIn) in
  map (swrap 32) (dxDump r 1 8) = [-33; 0; 0; 0; -128; 0; 0; 0] /\ map (swrap 32) (dxDump r 2 8) = [-82; 0; 0; 0; 0; 0; 1; 1].
Proof. vm_compute. split; reflexivity. Qed.

(** Finding: the kernels take the number of levels from len(dcmpOut), the Go code from the parameters (tfhe/asm_decompose_amd64.go:20,
    asm_decompose.go:14).  With a dcmpOut longer than the level, Go leaves the rest alone (C15_poly_frame); the kernel overwrites it and
    stores other digits: here level 1, two polynomials. *)
Theorem C62_level_refuted : exists g out c,
  gadget_ok 32 g /\ (g_level g <= List.length out)%nat /\ List.length c = 8%nat /\
  let r := run dxF (mkEnv (frameD dxH dxP 4 (g_base g) (g_logBase g) (LogLastBaseQ g)) intData) 60 decomposePolyToUint32AVX2 decomposePolyToUint32AVX2 (dxSt 4 dxHd c) in
  map (fun b => dxDump r b 8) [1; 2]%nat <> DecomposePolyTo 32 g out c /\ out = repeat (repeat 77 8) 2 /\
  nth 1 (DecomposePolyTo 32 g out c) [] = repeat 77 8 /\ dxDump r 2 8 <> repeat 77 8.
Proof.
  exists (mkGadget 256 8 1 32), (repeat (repeat 77 8) 2), (repeat 1073741824 8). split; [unfold gadget_ok; cbn; lia|].
  split; [cbn; lia|]. split; [reflexivity|]. cbv zeta. vm_compute. split; [discriminate|]. split; [reflexivity|]. split; [reflexivity|discriminate].
Qed.
Print Assumptions C62_level_refuted.

(** Finding: there is no loop for leftover coefficients: a polynomial whose rank is not a multiple of the vector width (possible for a
    Poly built from a slice, not with NewPoly, whose ranks are powers of two from 16) is read and written past its end. *)
Theorem C62_short_refuted : exists c : list Z, List.length c = 4%nat /\
  islice (dxMem 4 [WP 1%nat 0; WI 4; WI 4] c) 4 (mkG 3 0 4 4) /\
  run dxF (mkEnv (frameD (mkG 0 0 1 1) (mkG 3 0 4 4) 4 256 8 24) intData) 60 decomposePolyToUint32AVX2 decomposePolyToUint32AVX2 (dxSt 4 [WP 1%nat 0; WI 4; WI 4] c) = Faulted.
Proof.
  exists [1; 2; 3; 4]. split; [reflexivity|]. split; [|vm_compute; reflexivity].
  do 4 (split; [cbn; lia|]). cbn [gb go gn]. intros i Hi. assert (i = 0 \/ i = 1 \/ i = 2 \/ i = 3) as Hc by lia.
  repeat destruct Hc as [-> | Hc]; try subst i; eexists; (split; [reflexivity|lia]).
Qed.
Print Assumptions C62_short_refuted.
