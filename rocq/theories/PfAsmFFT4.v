(** The inverse AVX2 transform: the bodies of the loops, a node, a level. *)
From Coq Require Import String Lia Ring_theory.
From Verif Require Import Base ModelNum ModelAsm ModelAsmInt ModelAsmFlt SpecAsm PfAsm PfAsmVec PfAsmVec2 ModelFFT ModelFused SpecAsmFlt PfAsmFlt PfAsmFlt2 PfAsmFFT PfAsmStep PfAsmFFT2.
Import ListNotations.
Open Scope Z_scope.

Lemma exJGE {T} (F : fops T) E r1 c l rest s x : rg s r1 = zn x -> Z.of_nat x < 2 ^ 62 -> 0 <= c < 2 ^ 62 ->
  ex F E (Ins CMPQ [R r1; I c] :: JGE l :: rest) s =
    let s' := setfl s (Some (Z.of_nat x, c)) in if Nat.leb (Z.to_nat c) x then Goto l s' else ex F E rest s'.
Proof.
  intros H1 B1 B2. cbn [ex exec1 src]. rewrite H1. cbn [Z.eqb Pos.eqb]. unfold branch. cbn [ModelAsm.fl setfl]. rewrite (wrap64_id c) by lia. rewrite !swrap64_id by lia.
  cbv zeta. rewrite Z.geb_leb. destruct (Z.leb_spec c (Z.of_nat x)), (Nat.leb_spec (Z.to_nat c) x); try lia; reflexivity.
Qed.

(** The last level multiplies the results of its butterflies. *)
Definition scaled {T} (post : T -> T) (bf : bfT T) (uR uI vR vI wR wI : T) : T * T * T * T :=
  let '(x, y, z, u) := bf uR uI vR vI wR wI in (post x, post y, post z, post u).

Section Inv.
Variable A : arith.
Notation T := (car A).
Variable F : fops T.
Variables bA bB : bfT T.
Hypothesis X : invOK A F bA bB.
Variable s0 : state T.
Notation m0 := (mm s0).
Variables o tw : gslice.
Variable sc : T.
Hypothesis So : fslice A m0 o.
Hypothesis St : cslice A m0 tw.
Hypothesis D : gb tw <> gb o \/ go tw + 2 * gn tw <= go o \/ go o + gn o <= go tw.
Notation N := (Z.to_nat (gn o)).
Notation M := (Z.to_nat (gn tw)).
Notation W i := (nth i (cvals A m0 tw) (a0 A, a0 A)).
Notation bec := (becomes A o).
Notation E := (mkEnv (frame2c o tw 8 (WF sc)) noData).
Notation p := invFFTInPlaceAVX2.
Ltac bfv := unfold scaled; rewrite ?(proj1 X), ?(proj2 X); reflexivity.
Notation L l := (lookup l p).
Notation go' := (goes F E p).

Definition ibody2 : list instr := Eval vm_compute in match L "first_loop_2_body" with (_, b) :: _ => b | [] => [] end.
Definition ibody1 : list instr := Eval vm_compute in match L "first_loop_1_body" with (_, b) :: _ => b | [] => [] end.
Definition ijbody : list instr := Eval vm_compute in match L "j_loop_body" with (_, b) :: _ => b | [] => [] end.
Definition ilast : list instr := Eval vm_compute in match L "last_loop_body" with (_, b) :: _ => b | [] => [] end.
Lemma inv_body s c j t w : rg s AX = WP (gb o) (8 * go o) -> rg s R9 = zn j -> rg s R11 = zn (j + t)%nat ->
  vr s 0%nat = YF [fst w; fst w; fst w; fst w] -> vr s 1%nat = YF [snd w; snd w; snd w; snd w] -> bec c m0 (mm s) -> (8 <= t)%nat -> (j + t + 8 <= N)%nat ->
  exists s', ex F E ijbody s = Next s' /\ rg s' R9 = zn (j + 8)%nat /\ rg s' R11 = zn (j + t + 8)%nat /\ keeps [R9; R11] s s' /\
    vr s' 0%nat = vr s 0%nat /\ vr s' 1%nat = vr s 1%nat /\ bec (block A bA w j t c) m0 (mm s').
Proof.
  intros Ra Rj Rt V0 V1 B Ht Hj. pose proof So as (_ & Sg & Sn & Sb & _). assert (Lc : length c = N) by apply B. unfold ijbody.
  repeat stp A (mm s0) o tw So St D. cbn [ex]. eexists. split; [reflexivity|]. split; [lk; f_equal; lia|]. split; [lk; f_equal; lia|]. split; [keep|]. split; [reflexivity|]. split; [reflexivity|]. lk.
  erewrite block_putl; [eassumption|exact Ht|lia|bfv..].
Qed.
Lemma inv_bodyL s c j t w : rg s AX = WP (gb o) (8 * go o) -> rg s R9 = zn j -> rg s R11 = zn (j + t)%nat -> vr s 0%nat = YF [sc; sc; sc; sc] ->
  vr s 1%nat = YF [fst w; fst w; fst w; fst w] -> vr s 6%nat = YF [snd w; snd w; snd w; snd w] -> bec c m0 (mm s) -> (8 <= t)%nat -> (j + t + 8 <= N)%nat ->
  exists s', ex F E ilast s = Next s' /\ rg s' R9 = zn (j + 8)%nat /\ rg s' R11 = zn (j + t + 8)%nat /\ keeps [R9; R11] s s' /\
    vr s' 0%nat = vr s 0%nat /\ vr s' 1%nat = vr s 1%nat /\ vr s' 6%nat = vr s 6%nat /\ bec (block A (scaled (fun x => fmul F x sc) bA) w j t c) m0 (mm s').
Proof.
  intros Ra Rj Rt V0 V1 V6 B Ht Hj. pose proof So as (_ & Sg & Sn & Sb & _). assert (Lc : length c = N) by apply B. unfold ilast.
  repeat stp A (mm s0) o tw So St D. cbn [ex]. eexists. split; [reflexivity|]. split; [lk; f_equal; lia|]. split; [lk; f_equal; lia|]. split; [keep|]. split; [reflexivity|]. split; [reflexivity|]. split; [reflexivity|]. lk.
  erewrite block_putl; [eassumption|exact Ht|lia|bfv..].
Qed.
Lemma inv_body2 s c j wi : rg s AX = WP (gb o) (8 * go o) -> rg s CX = WP (gb tw) (8 * go tw) -> rg s SI = zn j -> rg s BX = zn (2 * wi)%nat ->
  bec c m0 (mm s) -> (j + 8 <= N)%nat -> (wi < M)%nat ->
  exists s', ex F E ibody2 s = Next s' /\ rg s' SI = zn (j + 8)%nat /\ rg s' BX = zn (2 * wi + 2)%nat /\ keeps [SI; BX] s s' /\
    bec (half2 A bA (W wi) j c) m0 (mm s').
Proof.
  intros Ra Rc Rj Rb B Hj Hw. pose proof So as (_ & Sg & Sn & Sb & _). pose proof St as (_ & Tg & Tn & Tb & _). assert (Lc : length c = N) by apply B. unfold ibody2.
  repeat stp A (mm s0) o tw So St D. cbn [ex]. eexists. split; [reflexivity|]. split; [lk; f_equal; lia|]. split; [lk; f_equal; lia|]. split; [keep|]. lk.
  erewrite half2_putl; [eassumption|lia|bfv..].
Qed.
Lemma inv_body1 s c j wi : rg s AX = WP (gb o) (8 * go o) -> rg s CX = WP (gb tw) (8 * go tw) -> rg s SI = zn j -> rg s BX = zn (2 * wi)%nat ->
  bec c m0 (mm s) -> (j + 8 <= N)%nat -> (S wi < M)%nat ->
  exists s', ex F E ibody1 s = Next s' /\ rg s' SI = zn (j + 8)%nat /\ rg s' BX = zn (2 * wi + 4)%nat /\ keeps [SI; BX] s s' /\
    bec (half1 A bB (W wi) (W (wi + 1)%nat) j c) m0 (mm s').
Proof.
  intros Ra Rc Rj Rb B Hj Hw. pose proof So as (_ & Sg & Sn & Sb & _). pose proof St as (_ & Tg & Tn & Tb & _). assert (Lc : length c = N) by apply B. unfold ibody1.
  repeat stp A (mm s0) o tw So St D. cbn [ex]. eexists. split; [reflexivity|]. split; [lk; f_equal; lia|]. split; [lk; f_equal; lia|]. split; [keep|]. lk.
  erewrite half1_putl; [eassumption|lia|bfv..].
Qed.
End Inv.
