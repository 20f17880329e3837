(** The 64-bit unfold kernels. *)
From Coq Require Import String Lia Floats.SpecFloat.
From Verif Require Import Base ModelNum ModelAsm ModelAsmInt SpecAsm PfAsm PfAsmStep ModelF64 ModelAsmFold SpecF64 SpecAsmFold PfAsmFold PfAsmFold2 PfF64 PfF64b PfF64c PfF64d PfAsmFold3 PfAsmFold4 PfAsmFold5 PfAsmFold6.
Import ListNotations.
Open Scope Z_scope.

Definition half64 (a : nat) (is : list instr) : list instr :=
  Ins VANDPD [Y 0; Y a; Y 7] :: Ins VORPD [Y 1; Y 7; Y 7] :: Ins VPSRLQ [I 52; Y a; Y 8] :: Ins VANDPD [Y 2; Y 8; Y 8] :: Ins VPSRLQ [I 63; Y a; Y a] ::
  Ins VPSUBQ [Y a; Y 4; Y a] :: Ins VPSLLQ [I 11; Y 7; Y 7] :: Ins VPSUBQ [Y 8; Y 3; Y 8] :: Ins VPSRLVQ [Y 8; Y 7; Y 7] :: Ins VPSUBQ [Y 7; Y 4; Y 8] :: Ins VPBLENDVB [Y a; Y 8; Y 7; Y a] :: is.
Definition pre64 : list instr :=
  [Ins MOVQ [FP 0; R AX]; Ins MOVQ [FP 24; R CX]; Ins MOVQ [FP 32; R DX]; Ins MOVQ [R DX; R BX];
   Ins SHRQ [I 1; R BX]; Ins VBROADCASTSD [SB "MANT_MASK"; Y 0]; Ins VBROADCASTSD [SB "BIT_MANT_MASK"; Y 1];
   Ins VBROADCASTSD [SB "EXP_MASK"; Y 2]; Ins VBROADCASTSD [SB "EXP_SHIFT"; Y 3]; Ins VPXOR [Y 4; Y 4; Y 4];
   Ins XORQ [R SI; R SI]; Ins XORQ [R DI; R DI]; JMP "loop_end"].
Definition body64 (is : list instr) : list instr :=
  Ins VMOVUPD [MI 0 CX SI 8; Y 5] :: Ins VMOVUPD [MI 32 CX SI 8; Y 6] :: half64 5 (half64 6 is).
Definition cnt64 (a b : nat) : list instr :=
  [Ins VMOVDQU [Y a; MI 0 AX DI 8]; Ins VMOVDQU [Y b; MI 0 AX BX 8]; Ins ADDQ [I 8; R SI]; Ins ADDQ [I 4; R DI]; Ins ADDQ [I 4; R BX]].
Definition prog64 (is : list instr) : prog :=
  [(""%string, pre64); ("loop_body"%string, body64 is); ("loop_end"%string, [Ins CMPQ [R SI; R DX]; JL "loop_body"; RET])].

Section K64.
Variables (acc : Z -> Z -> Z) (rest : list instr).
(** The rest of the body, from registers 5 and 6 holding the integer parts. *)
Hypothesis Hrest : forall s0 fp p s i z1 z2, fold_call s0 fp p 8 -> JU s0 fp p 8 int64part acc KU s i -> 0 <= i -> i mod 8 = 0 -> i + 8 <= gn fp ->
  vr s 5 = YI z1 -> vr s 6 = YI z2 -> HQ F64 i (YI z1) (fun j => int64part (fat (mm s0) fp j)) -> HQ F64 (i + 4) (YI z2) (fun j => int64part (fat (mm s0) fp j)) ->
  exists s', ex F64 (mkEnv (frameTU p 8 fp 8) foldData) rest s = Next s' /\ JU s0 fp p 8 int64part acc KU s' (i + 8).
Lemma k_prog64 : unfolds 8 (prog64 rest) int64part acc.
Proof.
  intros s0 fp p HC. set (E := mkEnv (frameTU p 8 fp 8) foldData). set (n := gn fp).
  pose proof (fp_bounds s0 fp p 8 HC) as (B1 & B2 & B3 & B4 & B5 & B6). fold n in B2, B3, B5, B6.
  set (J := JU s0 fp p 8 int64part acc KU).
  unfold prog64. eapply (loopK F64 E _ _ SI DX 8 n s0 J); [lia|lia|exact B6|..].
  - intros s i x H. exact H.
  - intros s i (_ & _ & _ & Rd & _ & Rs & _). split; assumption.
  - eexists. split.
    + unfold pre64. rewrite (movFP F64 E 0 AX _ _ (WP (gb p) (8 * go p))) by reflexivity. rewrite (movFP F64 E 24 CX _ _ (WP (gb fp) (8 * go fp))) by reflexivity.
      rewrite (movFP F64 E 32 DX _ _ (WI n)) by reflexivity. rewrite (movRR F64 E DX BX _ _ n) by reflexivity. rewrite (shr1 F64 E BX _ _ n) by (try reflexivity; lia).
      rewrite (bcSB F64 E "MANT_MASK" 0 _ _ 4503599627370495) by (try reflexivity; lia). rewrite (bcSB F64 E "BIT_MANT_MASK" 1 _ _ 4503599627370496) by (try reflexivity; lia).
      rewrite (bcSB F64 E "EXP_MASK" 2 _ _ 2047) by (try reflexivity; lia). rewrite (bcSB F64 E "EXP_SHIFT" 3 _ _ 1086) by (try reflexivity; lia).
      rewrite xorYY, !xorRR. reflexivity.
    + apply (JU_start s0 fp p 8 HC); try reflexivity. repeat split; reflexivity.
  - intros s i Js H0 Hi Hn. pose proof Js as (Ks & Ra & Rc & Rd & Rb & Rs & Ri & P). destruct (half_bound n i B6 Hi H0 Hn) as (G1 & G2 & G3 & G4).
    unfold body64.
    rewrite (ld_Y F64 E VMOVUPD 0 CX SI 8 5 _ s (gb fp) (8 * go fp) i _ (or_intror eq_refl) Rc Rs (uf_ld s0 fp p 8 HC int64part acc (mm s) _ i (8 * go fp + swrap 64 i * 8 + 0) P H0 ltac:(unfold n in Hn; lia) ltac:(rewrite swrap64_id by lia; lia))).
    rewrite (ld_Y F64 E VMOVUPD 32 CX SI 8 6 _ (setvr s 5 _) (gb fp) (8 * go fp) i _ (or_intror eq_refl) Rc Rs (uf_ld s0 fp p 8 HC int64part acc (mm s) _ (i + 4) (8 * go fp + swrap 64 i * 8 + 32) P ltac:(lia) ltac:(unfold n in Hn; lia) ltac:(rewrite swrap64_id by lia; lia))).
    set (s1 := setvr (setvr s 5 _) 6 _).
    assert (V : forall j, 0 <= j < n -> valid_binary 53 1024 (fat (mm s0) fp j) = true) by (intros j Hj; apply (uf_get s0 fp p 8 HC int64part acc (mm s) _ j P Hj)).
    destruct (unf64_half E (half64 6 rest) s1 i 5 (fat (mm s0) fp)) as (s2 & z1 & X2 & R2 & M2 & V2 & Q2 & O2).
    { left; reflexivity. } { exact Ks. } { reflexivity. } { intros j Hj. apply V. lia. }
    unfold half64 at 1. rewrite X2. clear X2.
    destruct (unf64_half E rest s2 (i + 4) 6 (fat (mm s0) fp)) as (s3 & z2 & X3 & R3 & M3 & V3 & Q3 & O3).
    { right; reflexivity. } { apply (KU_keep s1); [exact Ks|]. intros k Hk. apply O2; lia. } { rewrite O2 by lia. reflexivity. } { intros j Hj. apply V. lia. }
    unfold half64. rewrite X3. clear X3.
    apply (Hrest s0 fp p s3 i z1 z2 HC); try assumption.
    + split; [apply (KU_keep s1); [exact Ks|]; intros k Hk; rewrite O3, O2 by lia; reflexivity|]. rewrite R3, R2, M3, M2. unfold s1. lk. do 6 (split; [assumption|]). exact P.
    + rewrite O3 by lia. exact V2.
  - intros s Js. exact (JU_end s0 fp p 8 HC _ _ _ s Js).
Qed.
End K64.

Lemma HQ_shift q q' y g g' : HQ F64 q y g -> (forall j, 0 <= j < 4 -> g (q + j) = g' (q' + j)) -> HQ F64 q' y g'.
Proof. unfold HQ. intros -> H. f_equal. apply four_map. exact H. Qed.
Lemma k_unfold64 : unfolds 8 unfoldPolyToUint64AVX2 int64part (fun _ y => y).
Proof.
  change unfoldPolyToUint64AVX2 with (prog64 (cnt64 5 6)). apply k_prog64. intros s0 fp p s i z1 z2 HC J H0 Hi Hn V1 V2 Q1 Q2.
  pose proof (fp_bounds s0 fp p 8 HC) as (B1 & B2 & B3 & B4 & B5 & B6).
  eapply (utail64 s0 fp p int64part (fun _ y => y) KU); try eassumption; try (intros; assumption).
  - apply (HQ_shift i _ _ _ _ Q1). intros j Hj. unfold ures. rewrite unf_lo by (try assumption; lia). change (8 * 8) with 64. rewrite int64part_range. reflexivity.
  - apply (HQ_shift (i + 4) _ _ _ _ Q2). intros j Hj. unfold ures. rewrite unf_hi by (try assumption; lia). change (8 * 8) with 64. rewrite int64part_range. reflexivity.
Qed.

Section Acc64.
Variables (o : op) (f : Z -> Z -> Z) (acc : Z -> Z -> Z).
Hypothesis Ho : o = VPADDQ \/ o = VPSUBQ.
Hypothesis Hf : qop o = Some f.
Hypothesis Hacc : forall a b, f a b = acc b a mod 2 ^ 64.
Lemma k_acc64 : unfolds 8 (prog64 (Ins VMOVDQU [MI 0 AX DI 8; Y 7] :: Ins VMOVDQU [MI 0 AX BX 8; Y 8] :: Ins o [Y 5; Y 7; Y 7] :: Ins o [Y 6; Y 8; Y 8] :: cnt64 7 8)) int64part acc.
Proof.
  apply k_prog64. intros s0 fp p s i z1 z2 HC J H0 Hi Hn V1 V2 Q1 Q2.
  pose proof (fp_bounds s0 fp p 8 HC) as (B1 & B2 & B3 & B4 & B5 & B6). set (E := mkEnv (frameTU p 8 fp 8) foldData). set (n := gn fp) in *. destruct (half_bound n i B6 Hi H0 Hn) as (G1 & G2 & G3 & G4).
  pose proof J as (Ks & Ra & Rc & Rd & Rb & Rs & Ri & P).
  assert (OL : forall q, (q = i / 2 \/ q = n / 2 + i / 2) -> forall a, a = 8 * (go p + q) -> vld (mm s) 32 (gb p, a) = Some (YI (splitl (map (ival (mm s0) p) (four q))))).
  { intros q Hq a Ha. apply (vld_I8 (mm s) (gb p) (go p) q (ival (mm s0) p) a); [exact (up_esz s0 fp p 8 HC _ _ _ _ P)|exact Ha|].
    intros j Hj. apply (up_old s0 fp p 8 HC int64part acc (mm s) _ j P); [unfold n in *; destruct Hq; lia|]. destruct Hq as [Hq | Hq]; rewrite Hq in Hj; [apply DU_lo|apply DU_hi]; unfold n in *; lia. }
  rewrite (ld_Y F64 E VMOVDQU 0 AX DI 8 7 _ s (gb p) (8 * go p) (i / 2) _ (or_introl eq_refl) Ra Ri (OL (i / 2) (or_introl eq_refl) (8 * go p + swrap 64 (i / 2) * 8 + 0) ltac:(rewrite swrap64_id by lia; lia))).
  rewrite (ld_Y F64 E VMOVDQU 0 AX BX 8 8 _ (setvr s 7 _) (gb p) (8 * go p) (n / 2 + i / 2) _ (or_introl eq_refl) Ra Rb (OL (n / 2 + i / 2) (or_intror eq_refl) (8 * go p + swrap 64 (n / 2 + i / 2) * 8 + 0) ltac:(rewrite swrap64_id by lia; lia))).
  set (s1 := setvr (setvr s 7 _) 8 _).
  assert (Ho' : o = VPADDQ \/ o = VPSUBQ \/ o = VPSRLVQ) by (destruct Ho; [left|right; left]; assumption).
  destruct (q_op F64 E (i / 2) o f 5 7 7 (fun j => int64part (fat (mm s0) fp (unfoldIdx n j))) (ival (mm s0) p) (Ins o [Y 6; Y 8; Y 8] :: cnt64 7 8) s1 Ho' Hf) as (z3 & H3 & ->).
  { unfold s1. rewrite !vr_setvr. cbn [Nat.eqb]. rewrite V1. apply (HQ_shift i _ _ _ _ Q1). intros j Hj. rewrite unf_lo by (try assumption; lia). reflexivity. }
  { unfold s1. rewrite !vr_setvr. cbn [Nat.eqb]. reflexivity. }
  destruct (q_op F64 E (n / 2 + i / 2) o f 6 8 8 (fun j => int64part (fat (mm s0) fp (unfoldIdx n j))) (ival (mm s0) p) (cnt64 7 8) (setvr s1 7 (YI z3)) Ho' Hf) as (z4 & H4 & ->).
  { unfold s1. rewrite !vr_setvr. cbn [Nat.eqb]. rewrite V2. apply (HQ_shift (i + 4) _ _ _ _ Q2). intros j Hj. rewrite unf_hi by (try assumption; lia). reflexivity. }
  { unfold s1. rewrite !vr_setvr. cbn [Nat.eqb]. reflexivity. }
  eapply (utail64 s0 fp p int64part acc KU) with (r1 := 7%nat) (r2 := 8%nat) (z1 := z3) (z2 := z4); try assumption; try (intros; assumption); try reflexivity.
  - eapply HQ_ext; [|exact H3]. intros j Hj. cbv beta. rewrite Hacc. reflexivity.
  - eapply HQ_ext; [|exact H4]. intros j Hj. cbv beta. rewrite Hacc. reflexivity.
Qed.
End Acc64.
Lemma k_unfoldAdd64 : unfolds 8 unfoldPolyAddToUint64AVX2 int64part Z.add.
Proof. exact (k_acc64 VPADDQ (fun a b => wrap 64 (b + a)) Z.add (or_introl eq_refl) eq_refl (fun a b => eq_refl)). Qed.
Lemma k_unfoldSub64 : unfolds 8 unfoldPolySubToUint64AVX2 int64part Z.sub.
Proof. exact (k_acc64 VPSUBQ (fun a b => wrap 64 (b - a)) Z.sub (or_intror eq_refl) eq_refl (fun a b => eq_refl)). Qed.
