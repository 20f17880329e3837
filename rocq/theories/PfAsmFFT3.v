(** The forward AVX2 transform: the whole kernel. *)
From Coq Require Import String Lia Ring_theory.
From Verif Require Import Base ModelNum ModelAsm ModelAsmInt ModelAsmFlt SpecAsm PfAsm PfAsmVec PfAsmVec2 ModelFFT ModelFused SpecAsmFlt PfAsmFlt PfAsmFlt2 PfAsmFFT PfAsmStep PfAsmFFT2.
Import ListNotations.
Open Scope Z_scope.

Section Fwd3.
Variable A : arith.
Notation T := (car A).
Variable F : fops T.
Variables bA bB : bfT T.
Hypothesis X : fwdOK A F bA bB.
Variable s0 : state T.
Notation m0 := (mm s0).
Variables o tw : gslice.
Hypothesis So : fslice A m0 o.
Hypothesis St : cslice A m0 tw.
Hypothesis D : gb tw <> gb o \/ go tw + 2 * gn tw <= go o \/ go o + gn o <= go tw.
Notation N := (Z.to_nat (gn o)).
Notation M := (Z.to_nat (gn tw)).
Notation W i := (nth i (cvals A m0 tw) (a0 A, a0 A)).
Notation bec := (becomes A o).
Notation E := (mkEnv (frame2 o tw) noData).
Notation p := fwdFFTInPlaceAVX2.
Notation L l := (lookup l p).
Notation go' := (goes F E p).

Lemma fwd_all k : (4 <= k)%nat -> N = (2 ^ k)%nat -> (2 ^ (k - 1) - 1 <= M)%nat ->
  terminates F E p s0 (bec (fwdFFTB A bA bB (fvals A m0 o) (cvals A m0 tw)) m0).
Proof.
  intros Hk EN HM. pose proof So as (_ & Sg & Sn & Sb & _). pose proof St as (_ & Tg & Tn & Tb & _).
  set (h := (k - 4)%nat). assert (EN16 : N = (16 * 2 ^ h)%nat) by (rewrite EN; replace k with (4 + h)%nat by (unfold h; lia); rewrite Nat.pow_add_r; reflexivity).
  assert (EM : (2 ^ (k - 1) = 8 * 2 ^ h)%nat) by (replace (k - 1)%nat with (3 + h)%nat by (unfold h; lia); rewrite Nat.pow_add_r; reflexivity).
  assert (E3 : (2 ^ (k - 3) = 2 * 2 ^ h)%nat) by (replace (k - 3)%nat with (1 + h)%nat by (unfold h; lia); rewrite Nat.pow_add_r; reflexivity).
  assert (Ph : (1 <= 2 ^ h)%nat) by (pose proof (Nat.pow_nonzero 2 h); lia).
  assert (Hh : (N / 2 = 8 * 2 ^ h)%nat) by (symmetry; apply (Nat.div_unique _ _ _ 0); lia).
  assert (H8 : ((N + 7) / 8 = 2 * 2 ^ h)%nat) by (symmetry; apply (Nat.div_unique _ _ _ 7); lia).
  assert (H16 : (N / 16 = 2 ^ h)%nat) by (symmetry; apply (Nat.div_unique _ _ _ 0); lia).
  assert (N0 : gn o = Z.of_nat N) by lia.
  assert (NB : Z.of_nat N < 2 ^ 62) by lia.
  assert (MW : (8 * 2 ^ h - 1 <= M)%nat) by (rewrite <- EM; exact HM).
  assert (S1 : wrap (8 * 8) (Z.shiftr (gn o) (wrap 64 1)) = Z.of_nat (8 * 2 ^ h)).
  { replace (gn o) with (Z.of_nat N) by (rewrite Z2Nat.id; [reflexivity|exact Sn]). rewrite (shr_nat N 1 2 NB) by first [lia | reflexivity]. rewrite Hh. reflexivity. }
  set (v0 := fvals A m0 o). assert (Lv : length v0 = N) by apply fvals_length.
  pose proof (bec0 A m0 o So) as B0. fold v0 in B0.
  set (v1 := node A bA (W 0%nat) 0 (8 * 2 ^ h) v0).
  (* the first level *)
  assert (exists s1, go' p s0 (L "first_loop_end") s1 /\ K2 A o tw s1 /\ rg s1 BX = zn 2 /\ rg s1 SI = zn (0 + 8 * 2 ^ h)%nat /\ rg s1 DI = zn 0 /\ rg s1 R8 = zn (0 + 8 * 2 ^ h)%nat /\
    vr s1 0%nat = YF [fst (W 0%nat); fst (W 0%nat); fst (W 0%nat); fst (W 0%nat)] /\ vr s1 1%nat = YF [snd (W 0%nat); snd (W 0%nat); snd (W 0%nat); snd (W 0%nat)] /\ mm s1 = m0)
    as (s1 & G1 & (Ka & Kc & Kd) & Q1 & Q2 & Q3 & Q4 & Q5 & Q6 & Q7).
  { eexists. split.
    - eapply goes_goto. runs. cbn [frame]. change (frame2 o tw 0) with (Some (8, @WP T (gb o) (8 * go o))). change (frame2 o tw 24) with (Some (8, @WP T (gb tw) (8 * go tw))). change (frame2 o tw 8) with (Some (8, @WI T (gn o))).
      runs. rewrite (tw_ldr A m0 o tw St D v0 _ 0) by first [exact B0 | adr]. runs. rewrite (tw_ldi A m0 o tw St D v0 _ 0) by first [exact B0 | adr]. runs. reflexivity.
    - fcc. rewrite S1. split; [split; [reflexivity|split; [reflexivity|fcc; rewrite Z2Nat.id by lia; reflexivity]]|].
      do 5 (split; [first [reflexivity | f_equal; rewrite inc_eq by lia; reflexivity]|]). split; [reflexivity|]. split; reflexivity. }
  destruct (fwd_node A F bA bB X s0 o tw So D "first_loop_body" "first_loop_end" SI [Ins MOVQ [R DX; R SI]; Ins SHRQ [I 4; R SI]; Ins MOVQ [R DX; R R9]; Ins SHRQ [I 1; R R9]; Ins MOVQ [I 2; R R10]; JMP "m_loop_end"]
    (L "m_loop_body") eq_refl eq_refl eq_refl s1 v0 0 (8 * 2 ^ h) (2 ^ h) (W 0%nat) eq_refl Ka Q3 Q4 Q2 Q5 Q6) as (s2 & G2 & U1 & U2 & U3); [rewrite Q7; exact B0|lia|]. fold v1 in U3.
  (* the middle levels *)
  assert (exists s3, go' (L "first_loop_end") s2 (L "m_loop_end") s3 /\ P A s0 o tw s3 1 (k - 1) v1) as (s3 & G3 & P3).
  { assert (Qs : rg s2 SI = zn (0 + 8 * 2 ^ h)%nat) by (rewrite (U2 SI eq_refl); exact Q2).
    pose proof (U2 AX eq_refl) as Va. pose proof (U2 BX eq_refl) as Vb. pose proof (U2 CX eq_refl) as Vc. pose proof (U2 DX eq_refl) as Vd.
    rewrite Ka in Va. rewrite Q1 in Vb. rewrite Kc in Vc. rewrite Kd in Vd.
    eexists. split.
    - eapply goes_goto. rewrite (exJL F E DI SI _ _ s2 (0 + 8 * 2 ^ h) (0 + 8 * 2 ^ h) U1 Qs) by lia. cbv zeta. rewrite Nat.ltb_irrefl. runs. reflexivity.
    - unfold P. fcc. rewrite (shr_nat N 4 16 NB) by first [lia | reflexivity]. rewrite (shr_nat N 1 2 NB) by first [lia | reflexivity]. rewrite Hh, EM.
      split; [exact Va|]. split; [exact Vc|]. split; [exact Vd|]. split; [reflexivity|]. split; [reflexivity|]. split; [reflexivity|]. split; [exact Vb|]. exact U3. }
  destruct (fwd_mid A F bA bB X s0 o tw So St D k EN HM N (k - 1) 1 v1 s3) as (s4 & c4 & G4 & P4 & M4); [lia|lia| |exact P3|].
  { rewrite EN. pose proof (Nat.pow_gt_lin_r 2 k). lia. }
  destruct P4 as (Ra & Rc & Rd & Rs & R9' & R10' & Rb & Bc). rewrite E3 in R10', Rb. rewrite H16 in Rs.
  assert (exists s5, go' (L "m_loop_end") s4 (L "last_loop_2_end") s5 /\ K2 A o tw s5 /\ rg s5 DI = WI 0 /\ rg s5 BX = zn (2 * (2 * 2 ^ h - 1))%nat /\ mm s5 = mm s4) as (s5 & G5 & K5 & D5 & B5 & M5).
  { eexists. split.
    - eapply goes_goto. rewrite (exJLE F E R10 SI _ _ s4 (2 * 2 ^ h) (2 ^ h) R10' Rs) by lia. cbv zeta. destruct (Nat.leb_spec (2 * 2 ^ h) (2 ^ h)); [lia|]. runs. reflexivity.
    - split; [split; [exact Ra|split; [exact Rc|exact Rd]]|]. split; [reflexivity|]. split; [exact Rb|reflexivity]. }
  (* the last two levels *)
  destruct (fwd_last2 A F bA bB X s0 o tw So St D s5 c4 (2 * 2 ^ h - 1) (2 * 2 ^ h)) as (s6 & G6 & (Ka6 & Kc6 & Kd6) & D6 & B6 & C6); [lia|lia|exact K5|exact D5|exact B5|rewrite M5; exact Bc|].
  match type of C6 with bec ?c _ _ => set (c6 := c) in C6 end.
  assert (exists s7, go' (L "last_loop_2_end") s6 (L "last_loop_1_end") s7 /\ K2 A o tw s7 /\ rg s7 DI = WI 0 /\ rg s7 BX = zn (2 * (4 * 2 ^ h - 1))%nat /\ vr s7 0%nat = YI (repeat 0 8) /\ mm s7 = mm s6) as (s7 & G7 & K7 & D7 & B7 & V7 & M7).
  { eexists. split.
    - eapply goes_goto. rewrite (exJL F E DI DX _ _ s6 N N D6 Kd6) by lia. cbv zeta. rewrite Nat.ltb_irrefl. runs. reflexivity.
    - split; [split; [exact Ka6|split; [exact Kc6|exact Kd6]]|]. split; [reflexivity|]. split; [fcc; rewrite B6; do 2 f_equal; lia|]. split; reflexivity. }
  destruct (fwd_last1 A F bA bB X s0 o tw So St D s7 c6 (4 * 2 ^ h - 1) (2 * 2 ^ h)) as (s8 & G8 & (Ka8 & Kc8 & Kd8) & D8 & C8); [lia|lia|exact K7|exact D7|exact B7|exact V7|rewrite M7; exact C6|].
  apply (ends_terminates F E p s0 (setfl s8 (Some (Z.of_nat N, Z.of_nat N)))).
  - do 8 (eapply goes_ends; [eassumption|]). eapply ends_done. rewrite (exJL F E DI DX _ _ s8 N N D8 Kd8) by lia. cbv zeta. rewrite Nat.ltb_irrefl. reflexivity.
  - cbn [mm setfl].
    assert (EQ : fwdFFTB A bA bB v0 (cvals A m0 tw) = forN 0 (2 * 2 ^ h) (fun b v => half1 A bB (W (4 * 2 ^ h - 1 + 2 * b)%nat) (W (4 * 2 ^ h - 1 + 2 * b + 1)%nat) (8 * b) v) c6).
    { unfold fwdFFTB. rewrite Lv, H8, Hh. fold v1. cbv zeta. rewrite EM in M4. change (2 ^ 1)%nat with 2%nat in M4. change (2 - 1)%nat with 1%nat in M4. rewrite M4, E3.
      replace (2 * 2 ^ h - 1 + 2 * 2 ^ h)%nat with (4 * 2 ^ h - 1)%nat by lia. reflexivity. }
    rewrite EQ. exact C8.
Qed.
End Fwd3.
