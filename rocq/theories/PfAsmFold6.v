(** The unfold kernels, continued. *)
From Coq Require Import String Lia Floats.SpecFloat.
From Verif Require Import Base ModelNum ModelAsm ModelAsmInt SpecAsm PfAsm PfAsmStep ModelF64 ModelAsmFold SpecF64 SpecAsmFold PfAsmFold PfAsmFold2 PfF64 PfF64b PfF64c PfF64d PfAsmFold3 PfAsmFold4 PfAsmFold5.
Import ListNotations.
Open Scope Z_scope.

Lemma bits_range x : valid_binary 53 1024 x = true -> 0 <= bits64 x < 2 ^ 64.
Proof.
  intros V. destruct x as [s|s| |s m e]; [destruct s; cbn; lia|destruct s; cbn; lia|cbn; lia|].
  cbn [bits64]. change (2 ^ 64) with (2 ^ 63 + 2048 * 2 ^ 52). assert (0 <= signbit s <= 2 ^ 63) by (destruct s; cbn; lia).
  assert (P52 : 0 < 2 ^ 52) by reflexivity. change (2 ^ 53) with (2 * 2 ^ 52) in *.
  destruct (valid_cases s m e V) as [((N1 & N2) & N3 & N4)|(H1 & ->)]; destruct (Z.ltb_spec (Zpos m) (2 ^ 52)); lia.
Qed.
Definition KU (s : state f64) : Prop :=
  vr s 0 = YI (splitl (repeat 4503599627370495 4)) /\ vr s 1 = YI (splitl (repeat 4503599627370496 4)) /\ vr s 2 = YI (splitl (repeat 2047 4)) /\ vr s 3 = YI (splitl (repeat 1086 4)) /\ vr s 4 = YI (repeat 0 8).
Lemma KU_keep s s' : KU s -> (forall k, (k <= 4)%nat -> vr s' k = vr s k) -> KU s'.
Proof. intros (A & B & C & D & G) H. unfold KU. rewrite !H by lia. repeat split; assumption. Qed.
Ltac rv A7 B7 A8 B8 A0 A1 A2 A3 A4 := rewrite ?vr_setvr, ?A7, ?B7, ?A8, ?B8, ?A0, ?A1, ?A2, ?A3, ?A4, ?Nat.eqb_refl; cbn [Nat.eqb].
Lemma unf64_half E is s q a g : (a = 5 \/ a = 6)%nat -> KU s -> vr s a = YF (map g (four q)) -> (forall j, q <= j < q + 4 -> valid_binary 53 1024 (g j) = true) ->
  exists s' z, ex F64 E (Ins VANDPD [Y 0; Y a; Y 7] :: Ins VORPD [Y 1; Y 7; Y 7] :: Ins VPSRLQ [I 52; Y a; Y 8] :: Ins VANDPD [Y 2; Y 8; Y 8] :: Ins VPSRLQ [I 63; Y a; Y a] ::
      Ins VPSUBQ [Y a; Y 4; Y a] :: Ins VPSLLQ [I 11; Y 7; Y 7] :: Ins VPSUBQ [Y 8; Y 3; Y 8] :: Ins VPSRLVQ [Y 8; Y 7; Y 7] :: Ins VPSUBQ [Y 7; Y 4; Y 8] :: Ins VPBLENDVB [Y a; Y 8; Y 7; Y a] :: is) s
    = ex F64 E is s' /\ rg s' = rg s /\ mm s' = mm s /\ vr s' a = YI z /\ HQ F64 q (YI z) (fun j => int64part (g j)) /\ (forall k, k <> a -> k <> 7%nat -> k <> 8%nat -> vr s' k = vr s k).
Proof.
  intros Ha (K0 & K1 & K2 & K3 & K4) Va Hg.
  assert (Q0 : HQ F64 q (vr s 0) (fun _ => 4503599627370495)) by (rewrite K0; apply HQ_const).
  assert (Q1 : HQ F64 q (vr s 1) (fun _ => 4503599627370496)) by (rewrite K1; apply HQ_const).
  assert (Q2 : HQ F64 q (vr s 2) (fun _ => 2047)) by (rewrite K2; apply HQ_const).
  assert (Q3 : HQ F64 q (vr s 3) (fun _ => 1086)) by (rewrite K3; apply HQ_const).
  assert (Q4 : HQ F64 q (vr s 4) (fun _ => 0)) by (rewrite K4; apply HQ_zero).
  assert (Qa : HQ F64 q (vr s a) (fun j => bits64 (g j))) by (rewrite Va; apply HQ_F).
  assert (N1 : Nat.eqb a 7 = false /\ Nat.eqb 7 a = false /\ Nat.eqb a 8 = false /\ Nat.eqb 8 a = false) by (destruct Ha as [-> | ->]; repeat split; reflexivity).
  assert (N2 : Nat.eqb 0 a = false /\ Nat.eqb 1 a = false /\ Nat.eqb 2 a = false /\ Nat.eqb 3 a = false /\ Nat.eqb 4 a = false) by (destruct Ha as [-> | ->]; repeat split; reflexivity).
  destruct N1 as (A7 & B7 & A8 & B8). destruct N2 as (A0 & A1 & A2 & A3 & A4).
  set (M := fun j => Z.lor (Z.land (bits64 (g j)) 4503599627370495) 4503599627370496).
  set (X := fun j => Z.land (Z.shiftr (bits64 (g j)) 52) 2047).
  set (sh := fun j => wrap 64 (1086 - X j)).
  set (t := fun j => if sh j <? 64 then Z.shiftr (wrap 64 (Z.shiftl (M j) 11)) (sh j) else 0).
  edestruct (q_and F64 E q 0 a 7) as (z1 & H1 & ->); [rv A7 B7 A8 B8 A0 A1 A2 A3 A4; exact Q0|rv A7 B7 A8 B8 A0 A1 A2 A3 A4; exact Qa|].
  edestruct (q_or F64 E q 1 7 7) as (z2 & H2 & ->); [rv A7 B7 A8 B8 A0 A1 A2 A3 A4; exact Q1|rv A7 B7 A8 B8 A0 A1 A2 A3 A4; exact H1|].
  edestruct (q_sh F64 E q VPSRLQ 52 (fun x => Z.shiftr x 52) a 8) as (z3 & H3 & ->); [right; reflexivity|apply shop_r; lia|rv A7 B7 A8 B8 A0 A1 A2 A3 A4; exact Qa|].
  edestruct (q_and F64 E q 2 8 8) as (z4 & H4 & ->); [rv A7 B7 A8 B8 A0 A1 A2 A3 A4; exact Q2|rv A7 B7 A8 B8 A0 A1 A2 A3 A4; exact H3|].
  edestruct (q_sh F64 E q VPSRLQ 63 (fun x => Z.shiftr x 63) a a) as (z5 & H5 & ->); [right; reflexivity|apply shop_r; lia|rv A7 B7 A8 B8 A0 A1 A2 A3 A4; exact Qa|].
  edestruct (q_op F64 E q VPSUBQ (fun x y => wrap 64 (y - x)) a 4 a) as (z6 & H6 & ->); [right; left; reflexivity|reflexivity|rv A7 B7 A8 B8 A0 A1 A2 A3 A4; exact H5|rv A7 B7 A8 B8 A0 A1 A2 A3 A4; exact Q4|].
  edestruct (q_sh F64 E q VPSLLQ 11 (fun x => wrap 64 (Z.shiftl x 11)) 7 7) as (z7 & H7 & ->); [left; reflexivity|apply shop_l; lia|rv A7 B7 A8 B8 A0 A1 A2 A3 A4; exact H2|].
  edestruct (q_op F64 E q VPSUBQ (fun x y => wrap 64 (y - x)) 8 3 8) as (z8 & H8 & ->); [right; left; reflexivity|reflexivity|rv A7 B7 A8 B8 A0 A1 A2 A3 A4; exact H4|rv A7 B7 A8 B8 A0 A1 A2 A3 A4; exact Q3|].
  edestruct (q_op F64 E q VPSRLVQ (fun x y => if x <? 64 then Z.shiftr y x else 0) 8 7 7) as (z9 & H9 & ->); [right; right; reflexivity|reflexivity|rv A7 B7 A8 B8 A0 A1 A2 A3 A4; exact H8|rv A7 B7 A8 B8 A0 A1 A2 A3 A4; exact H7|].
  edestruct (q_op F64 E q VPSUBQ (fun x y => wrap 64 (y - x)) 7 4 8) as (z10 & H10 & ->); [right; left; reflexivity|reflexivity|rv A7 B7 A8 B8 A0 A1 A2 A3 A4; exact H9|rv A7 B7 A8 B8 A0 A1 A2 A3 A4; exact Q4|].
  assert (Ht : forall j, 0 <= t j < 2 ^ 64).
  { intros j. unfold t. destruct (Z.ltb_spec (sh j) 64); [|split; [lia|reflexivity]]. assert (0 <= sh j) by (apply Z.mod_pos_bound; reflexivity).
    rewrite Z.shiftr_div_pow2 by assumption. assert (W : 0 <= wrap 64 (Z.shiftl (M j) 11) < 2 ^ 64) by (apply Z.mod_pos_bound; reflexivity). pose proof (pow_pos2 (sh j) ltac:(lia)).
    split; [apply Z.div_pos; lia|]. apply Z.div_lt_upper_bound; [lia|]. nia. }
  edestruct (q_blendv F64 E q a 8 7 a (fun j => negb (Z.shiftr (bits64 (g j)) 63 =? 0)) (fun j => wrap 64 (0 - t j)) t) as (z11 & H11 & ->).
  { rv A7 B7 A8 B8 A0 A1 A2 A3 A4. eapply HQ_ext; [|exact H6]. intros j Hj. cbv beta. pose proof (bits_range (g j) (Hg j Hj)) as B. rewrite Z.shiftr_div_pow2 by lia.
    assert (S : 0 <= bits64 (g j) / 2 ^ 63 < 2) by (split; [apply Z.div_pos; lia|apply Z.div_lt_upper_bound; lia]). destruct (Z.eqb_spec (bits64 (g j) / 2 ^ 63) 0) as [-> | C]; [reflexivity|]. replace (bits64 (g j) / 2 ^ 63) with 1 by lia. reflexivity. }
  { rv A7 B7 A8 B8 A0 A1 A2 A3 A4. exact H10. }
  { rv A7 B7 A8 B8 A0 A1 A2 A3 A4. exact H9. }
  { intros j. apply Z.mod_pos_bound. reflexivity. }
  { exact Ht. }
  eexists. exists z11. split; [reflexivity|]. split; [reflexivity|]. split; [reflexivity|]. split; [rewrite vr_setvr, Nat.eqb_refl; reflexivity|]. split.
  - eapply HQ_ext; [|exact H11]. intros j Hj. cbv beta. rewrite int64part_truncW, <- unf_lane by (apply Hg; exact Hj). unfold unfLane. cbv zeta. destruct (Z.shiftr (bits64 (g j)) 63 =? 0); reflexivity.
  - intros k C1 C2 C3. apply Nat.eqb_neq in C1, C2, C3. rewrite !vr_setvr, ?C1, ?C2, ?C3. reflexivity.
Qed.

Lemma cvt32_range x : cvt32 x mod 2 ^ 32 = cvt32 x.
Proof.
  destruct x as [s|s| |s m e]; try reflexivity. cbn [cvt32]. cbv zeta. destruct (_ && _); [|reflexivity]. apply Z.mod_mod. discriminate.
Qed.
Lemma int64part_range x : int64part x mod 2 ^ 64 = int64part x.
Proof. destruct x as [s|s| |s m e]; try reflexivity. cbn [int64part]. cbv zeta. destruct (_ <? 2 ^ 64); [|reflexivity]. apply Z.mod_mod. discriminate. Qed.
(** The preamble of the 32-bit kernels. *)
Ltac pre32 s0 fp p HC E n := eexists; split;
  [rewrite (movFP F64 E 0 AX _ _ (WP (gb p) (4 * go p))) by reflexivity; rewrite (movFP F64 E 24 CX _ _ (WP (gb fp) (8 * go fp))) by reflexivity;
   rewrite (movFP F64 E 32 DX _ _ (WI n)) by reflexivity; rewrite (movRR F64 E DX BX _ _ n) by reflexivity; rewrite (shr1 F64 E BX _ _ n) by (try reflexivity; lia);
   rewrite !xorRR; reflexivity
  |apply (JU_start s0 fp p 4 HC); try reflexivity; exact Logic.I].
Lemma k_unfold32 : unfolds 4 unfoldPolyToUint32AVX2 cvt32 (fun _ y => y).
Proof.
  intros s0 fp p HC. set (E := mkEnv (frameTU p 4 fp 8) foldData). set (n := gn fp).
  pose proof (fp_bounds s0 fp p 4 HC) as (B1 & B2 & B3 & B4 & B5 & B6). fold n in B2, B3, B5, B6.
  set (J := JU s0 fp p 4 cvt32 (fun _ y => y) (fun _ => True)).
  unfold unfoldPolyToUint32AVX2. eapply (loopK F64 E _ _ SI DX 8 n s0 J); [lia|lia|exact B6|..].
  - intros s i x H. exact H.
  - intros s i (_ & _ & _ & Rd & _ & Rs & _). split; assumption.
  - pre32 s0 fp p HC E n.
  - intros s i Js H0 Hi Hn. pose proof Js as (_ & Ra & Rc & Rd & Rb & Rs & Ri & P). destruct (half_bound n i B6 Hi H0 Hn) as (G1 & G2 & G3 & G4).
    rewrite (ld_Y F64 E VMOVUPD 0 CX SI 8 0 _ s (gb fp) (8 * go fp) i _ (or_intror eq_refl) Rc Rs (uf_ld s0 fp p 4 HC cvt32 (fun _ y => y) (mm s) _ i (8 * go fp + swrap 64 i * 8 + 0) P H0 ltac:(unfold n in Hn; lia) ltac:(rewrite swrap64_id by lia; lia))).
    rewrite (ld_Y F64 E VMOVUPD 32 CX SI 8 1 _ (setvr s 0 _) (gb fp) (8 * go fp) i _ (or_intror eq_refl) Rc Rs (uf_ld s0 fp p 4 HC cvt32 (fun _ y => y) (mm s) _ (i + 4) (8 * go fp + swrap 64 i * 8 + 32) P ltac:(lia) ltac:(unfold n in Hn; lia) ltac:(rewrite swrap64_id by lia; lia))).
    rewrite (cvt_dq F64 E 0 0 _ _ (map (fat (mm s0) fp) (four i))) by reflexivity.
    rewrite (cvt_dq F64 E 1 1 _ _ (map (fat (mm s0) fp) (four (i + 4)))) by reflexivity.
    set (s1 := setvr _ 1 _).
    eapply (utail32 s0 fp p cvt32 (fun _ y => y) (fun _ => True)); try assumption; try (intros; exact Logic.I).
    + rewrite (ures_lo s0 fp p 4 _ _ i B6 Hi H0 Hn). unfold s1. lk. unfold four. cbn [map map2 F64 ftoint]. change (8 * 4) with 32. rewrite !cvt32_range. reflexivity.
    + rewrite (ures_hi s0 fp p 4 _ _ i B6 Hi H0 Hn). unfold s1. lk. unfold four. cbn [map map2 F64 ftoint]. change (8 * 4) with 32. rewrite !cvt32_range. reflexivity.
  - intros s Js. exact (JU_end s0 fp p 4 HC _ _ _ s Js).
Qed.

Section Acc32.
Variables (o : op) (f : Z -> Z -> Z) (acc : Z -> Z -> Z).
Hypothesis Ho : o = VPADDD \/ o = VPSUBD.
Hypothesis Hf : dop o = Some f.
Hypothesis Hacc : forall a b, f a b = acc b a mod 2 ^ 32.
Lemma k_acc32 : unfolds 4
  [(""%string, [Ins MOVQ [FP 0; R AX]; Ins MOVQ [FP 24; R CX]; Ins MOVQ [FP 32; R DX]; Ins MOVQ [R DX; R BX];
      Ins SHRQ [I 1; R BX]; Ins XORQ [R SI; R SI]; Ins XORQ [R DI; R DI]; JMP "loop_end"]);
   ("loop_body"%string,
     [Ins VMOVUPD [MI 0 CX SI 8; Y 0]; Ins VMOVUPD [MI 32 CX SI 8; Y 1]; Ins VCVTPD2DQY [Y 0; X 0];
      Ins VCVTPD2DQY [Y 1; X 1]; Ins VMOVDQU [MI 0 AX DI 4; X 2]; Ins VMOVDQU [MI 0 AX BX 4; X 3];
      Ins o [X 0; X 2; X 2]; Ins o [X 1; X 3; X 3]; Ins VMOVDQU [X 2; MI 0 AX DI 4];
      Ins VMOVDQU [X 3; MI 0 AX BX 4]; Ins ADDQ [I 8; R SI]; Ins ADDQ [I 4; R DI]; Ins ADDQ [I 4; R BX]]);
   ("loop_end"%string, [Ins CMPQ [R SI; R DX]; JL "loop_body"; RET])] cvt32 acc.
Proof.
  intros s0 fp p HC. set (E := mkEnv (frameTU p 4 fp 8) foldData). set (n := gn fp).
  pose proof (fp_bounds s0 fp p 4 HC) as (B1 & B2 & B3 & B4 & B5 & B6). fold n in B2, B3, B5, B6.
  set (J := JU s0 fp p 4 cvt32 acc (fun _ => True)).
  eapply (loopK F64 E _ _ SI DX 8 n s0 J); [lia|lia|exact B6|..].
  - intros s i x H. exact H.
  - intros s i (_ & _ & _ & Rd & _ & Rs & _). split; assumption.
  - pre32 s0 fp p HC E n.
  - intros s i Js H0 Hi Hn. pose proof Js as (_ & Ra & Rc & Rd & Rb & Rs & Ri & P). destruct (half_bound n i B6 Hi H0 Hn) as (G1 & G2 & G3 & G4).
    assert (OL : forall q, (q = i / 2 \/ q = n / 2 + i / 2) -> forall a, a = 4 * (go p + q) -> vld (mm s) 16 (gb p, a) = Some (YI (map (ival (mm s0) p) (four q)))).
    { intros q Hq a Ha. apply (vld_I4 (mm s) (gb p) (go p) q (ival (mm s0) p) a); [exact (up_esz s0 fp p 4 HC _ _ _ _ P)|exact Ha|].
      intros j Hj. apply (up_old s0 fp p 4 HC cvt32 acc (mm s) _ j P); [unfold n in *; destruct Hq; lia|]. destruct Hq as [Hq | Hq]; rewrite Hq in Hj; [apply DU_lo|apply DU_hi]; unfold n in *; lia. }
    rewrite (ld_Y F64 E VMOVUPD 0 CX SI 8 0 _ s (gb fp) (8 * go fp) i _ (or_intror eq_refl) Rc Rs (uf_ld s0 fp p 4 HC cvt32 acc (mm s) _ i (8 * go fp + swrap 64 i * 8 + 0) P H0 ltac:(unfold n in Hn; lia) ltac:(rewrite swrap64_id by lia; lia))).
    rewrite (ld_Y F64 E VMOVUPD 32 CX SI 8 1 _ (setvr s 0 _) (gb fp) (8 * go fp) i _ (or_intror eq_refl) Rc Rs (uf_ld s0 fp p 4 HC cvt32 acc (mm s) _ (i + 4) (8 * go fp + swrap 64 i * 8 + 32) P ltac:(lia) ltac:(unfold n in Hn; lia) ltac:(rewrite swrap64_id by lia; lia))).
    rewrite (cvt_dq F64 E 0 0 _ _ (map (fat (mm s0) fp) (four i))) by reflexivity.
    rewrite (cvt_dq F64 E 1 1 _ _ (map (fat (mm s0) fp) (four (i + 4)))) by reflexivity.
    rewrite (ld_X F64 E 0 AX DI 4 2 _ _ (gb p) (4 * go p) (i / 2) (map (ival (mm s0) p) (four (i / 2)))) by first [exact Ra | exact Ri | exact (OL (i / 2) (or_introl eq_refl) (4 * go p + swrap 64 (i / 2) * 4 + 0) ltac:(rewrite swrap64_id by lia; lia))].
    rewrite (ld_X F64 E 0 AX BX 4 3 _ _ (gb p) (4 * go p) (n / 2 + i / 2) (map (ival (mm s0) p) (four (n / 2 + i / 2)))) by first [exact Ra | exact Rb | exact (OL (n / 2 + i / 2) (or_intror eq_refl) (4 * go p + swrap 64 (n / 2 + i / 2) * 4 + 0) ltac:(rewrite swrap64_id by lia; lia))].
    rewrite (dd_X F64 E o f 0 2 2 _ _ (map cvt32 (map (fat (mm s0) fp) (four i))) (map (ival (mm s0) p) (four (i / 2))) Ho Hf) by reflexivity.
    rewrite (dd_X F64 E o f 1 3 3 _ _ (map cvt32 (map (fat (mm s0) fp) (four (i + 4)))) (map (ival (mm s0) p) (four (n / 2 + i / 2))) Ho Hf) by reflexivity.
    set (s1 := setvr _ 3 _).
    eapply (utail32 s0 fp p cvt32 acc (fun _ => True)); try assumption; try (intros; exact Logic.I).
    + rewrite (ures_lo s0 fp p 4 _ _ i B6 Hi H0 Hn). unfold s1. lk. unfold four. cbn [map map2]. change (8 * 4) with 32. rewrite !Hacc. reflexivity.
    + rewrite (ures_hi s0 fp p 4 _ _ i B6 Hi H0 Hn). unfold s1. lk. unfold four. cbn [map map2]. change (8 * 4) with 32. rewrite !Hacc. reflexivity.
  - intros s Js. exact (JU_end s0 fp p 4 HC _ _ _ s Js).
Qed.
End Acc32.
Lemma k_unfoldAdd32 : unfolds 4 unfoldPolyAddToUint32AVX2 cvt32 Z.add.
Proof. exact (k_acc32 VPADDD (fun a b => wrap 32 (b + a)) Z.add (or_introl eq_refl) eq_refl (fun a b => eq_refl)). Qed.
Lemma k_unfoldSub32 : unfolds 4 unfoldPolySubToUint32AVX2 cvt32 Z.sub.
Proof. exact (k_acc32 VPSUBD (fun a b => wrap 32 (b - a)) Z.sub (or_intror eq_refl) eq_refl (fun a b => eq_refl)). Qed.
