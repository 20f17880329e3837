(** C65: the AVX2 kernels between torus polynomials and float64 (math/poly/asm_fold_amd64.s), on binary64 arithmetic. *)
From Coq Require Import String Lia Floats.SpecFloat.
From Verif Require Import Base ModelNum ModelAsm ModelAsmInt SpecAsm ModelF64 ModelAsmFold SpecF64 SpecAsmFold PfAsmFold4 PfAsmFold6 PfAsmFold7 PfAsmFold8.
Import ListNotations.
Open Scope Z_scope.

(** Folding: the i-th float is the correctly rounded float64 of the signed coefficient foldIdx n i, as in the Go code. *)
Theorem C65_fold32 : folds 4 foldPolyToUint32AVX2 (goOfInt 32).
Proof. exact k_fold32. Qed.
Print Assumptions C65_fold32.
Theorem C65_fold64 : folds 8 foldPolyToUint64AVX2 (goOfInt 64).
Proof. exact k_fold64. Qed.
Print Assumptions C65_fold64.

(** The unfold kernels on any binary64 floats, infinities and NaN included. *)
Theorem C65_unfold32 : unfolds 4 unfoldPolyToUint32AVX2 cvt32 (fun _ y => y) /\ unfolds 4 unfoldPolyAddToUint32AVX2 cvt32 Z.add /\ unfolds 4 unfoldPolySubToUint32AVX2 cvt32 Z.sub.
Proof. exact (conj k_unfold32 (conj k_unfoldAdd32 k_unfoldSub32)). Qed.
Print Assumptions C65_unfold32.
Theorem C65_unfold64 : unfolds 8 unfoldPolyToUint64AVX2 int64part (fun _ y => y) /\ unfolds 8 unfoldPolyAddToUint64AVX2 int64part Z.add /\ unfolds 8 unfoldPolySubToUint64AVX2 int64part Z.sub.
Proof. exact (conj k_unfold64 (conj k_unfoldAdd64 k_unfoldSub64)). Qed.
Print Assumptions C65_unfold64.

(** floatModQInPlaceAVX2 and then an unfold kernel: the nearest integer modulo 2^w is stored, added or subtracted. *)
Theorem C65_torus32 : to_torus 32 unfoldPolyToUint32AVX2 (fun _ y => y) /\ to_torus 32 unfoldPolyAddToUint32AVX2 Z.add /\ to_torus 32 unfoldPolySubToUint32AVX2 Z.sub.
Proof. exact (conj torus32 (conj torusAdd32 torusSub32)). Qed.
Print Assumptions C65_torus32.
Theorem C65_torus64 : to_torus 64 unfoldPolyToUint64AVX2 (fun _ y => y) /\ to_torus 64 unfoldPolyAddToUint64AVX2 Z.add /\ to_torus 64 unfoldPolySubToUint64AVX2 Z.sub.
Proof. exact (conj torus64 (conj torusAdd64 torusSub64)). Qed.
Print Assumptions C65_torus64.

(** Fold and unfold are inverse: the places match, and a 32-bit coefficient is recovered from its float. *)
Theorem C65_layout : forall n j, n mod 8 = 0 -> 0 <= j < n -> 0 <= unfoldIdx n j < n /\ foldIdx n (unfoldIdx n j) = j.
Proof. exact layout. Qed.
Print Assumptions C65_layout.
Theorem C65_back32 : forall x N, 0 <= x < 2 ^ 32 -> nearest_even (goOfInt 32 x) N -> N mod 2 ^ 32 = x.
Proof. exact back32. Qed.
Print Assumptions C65_back32.

(** The Go code computes a nearest integer as well, the same one away from the ties. *)
Theorem C65_Go_nearest : forall w x, w = 32 \/ w = 64 -> normalF x ->
  exists N, match x with S754_finite s m e => near (if s then Zneg m else Zpos m) e N | _ => N = 0 end /\ goToT w (goModQ (pow2F w) x) = N mod 2 ^ w.
Proof. exact go_nearest. Qed.
Print Assumptions C65_Go_nearest.
Theorem C65_Go_agrees : forall w x N, w = 32 \/ w = 64 -> normalF x -> ~ is_tie x -> nearest_even x N -> goToT w (goModQ (pow2F w) x) = N mod 2 ^ w.
Proof. exact go_agrees. Qed.
Print Assumptions C65_Go_agrees.
(** FINDING: at a tie the two disagree.  For 0.5 the kernels give 0 (VROUNDPD rounds to even), the Go code gives 1 (math.Round
    rounds half away from zero). *)
Theorem C65_Go_tie_refuted : forall w, w = 32 \/ w = 64 -> exists x N, normalF x /\ nearest_even x N /\ goToT w (goModQ (pow2F w) x) <> N mod 2 ^ w.
Proof. intros w Hw. destruct (half_tie w Hw) as (A & B & C). exists (pow2F (-1)), 0. split; [exact A|]. split; [exact B|]. rewrite C. destruct Hw as [-> | ->]; discriminate. Qed.
Print Assumptions C65_Go_tie_refuted.

(** ** Concrete cases *)
Definition bF (z : Z) : f64 := match z with Z0 => S754_zero false | Zpos p => BN (Zpos p) (-1) false | Zneg p => BN (Zneg p) (-1) false end.
(** The halves 0.5, 1.5, -2.5, 3, 2^32 + 1, -7, 2^63 + 2^40, -1 in block 0; integers in block 1. *)
Definition fBlk : list f64 := map bF [1; 3; -5; 6; 2 ^ 33 + 2; -14; 2 ^ 64 + 2 ^ 41; -2].
Definition iBlk : list Z := [10; 11; 12; 13; 14; 15; 16; 2 ^ 32 - 1].
Definition getN {A} (l : list A) (i : Z) : option A := if i <? 0 then None else nth_error l (Z.to_nat i).
Definition fSt (e : Z) : state f64 := mkSt (fun _ => WI 0) (fun _ => YI []) None
  (mkMem (fun b => match b with 0%nat => 8 | _ => e end)
     (fun b i => match b with 0%nat => option_map WF (getN fBlk i) | 1%nat => option_map WI (getN iBlk i) | _ => None end)).
Definition dumpI (r : outcome f64) : list Z :=
  match r with OK s => map (fun i => match getm (mm s) 1%nat i with Some (WI z) => z | _ => -1 end) [0; 1; 2; 3; 4; 5; 6; 7] | _ => [] end.
Notation gF := (mkG 0 0 8 8).
Notation gI := (mkG 1 0 8 8).
Ltac cases8 i Hi := assert (i = 0 \/ i = 1 \/ i = 2 \/ i = 3 \/ i = 4 \/ i = 5 \/ i = 6 \/ i = 7) as D by (clear -Hi; cbn in Hi; lia); destruct D as [-> | [-> | [-> | [-> | [-> | [-> | [-> | ->]]]]]]].
Example C65_ex_hyp : forall e, e = 4 \/ e = 8 -> fold_call (fSt e) gF gI e /\ forall i, 0 <= i < gn gF -> normalF (fat (mm (fSt e)) gF i).
Proof.
  intros e He. split.
  - split; [|split; [|split; [reflexivity|split; [reflexivity|discriminate]]]].
    + split; [reflexivity|]. split; [cbn; lia|]. split; [cbn; lia|]. split; [cbn; lia|]. intros i Hi. cases8 i Hi; eexists; (split; [reflexivity|vm_compute; reflexivity]).
    + split; [destruct He as [-> | ->]; reflexivity|]. split; [cbn; lia|]. split; [cbn; lia|]. split; [cbn; lia|].
      intros i Hi. assert (2 ^ 32 <= 2 ^ (8 * e)) by (destruct He as [-> | ->]; cbn; lia). cases8 i Hi; eexists; (split; [reflexivity|lia]).
  - intros i Hi. cases8 i Hi; (split; [split; [apply Z.leb_le|apply Z.ltb_lt]|split; apply Z.leb_le]); vm_compute; reflexivity.
Qed.
Definition pipe (w : Z) (k : prog) : outcome f64 :=
  match run F64 (mkEnv (frameQ gF (pow2F w) (goInv (pow2F w))) foldData) 8 floatModQInPlaceAVX2 floatModQInPlaceAVX2 (fSt (w / 8)) with
  | OK s => run F64 (mkEnv (frameTU gI (w / 8) gF 8) foldData) 8 k k s
  | r => r
  end.
Example C65_ex_torus32 : dumpI (pipe 32 unfoldPolyToUint32AVX2) = [0; 2; 2 ^ 32 - 2; 3; 1; 2 ^ 32 - 7; 0; 2 ^ 32 - 1].
Proof. vm_compute. reflexivity. Qed.
Example C65_ex_add32 : dumpI (pipe 32 unfoldPolyAddToUint32AVX2) = [10; 13; 10; 16; 15; 8; 16; 2 ^ 32 - 2].
Proof. vm_compute. reflexivity. Qed.
Example C65_ex_sub64 : dumpI (pipe 64 unfoldPolySubToUint64AVX2) = [10; 9; 14; 10; 2 ^ 64 + 13 - 2 ^ 32; 22; 2 ^ 63 + 16 - 2 ^ 40; 2 ^ 32].
Proof. vm_compute. reflexivity. Qed.
Example C65_ex_go : goToT 32 (goModQ (pow2F 32) (bF (2 ^ 33 + 2))) = 1 /\ goToT 32 (goModQ (pow2F 32) (bF (-5))) = 2 ^ 32 - 3.
Proof. vm_compute. split; reflexivity. Qed.
