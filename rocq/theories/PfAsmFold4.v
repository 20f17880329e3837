(** foldPolyToUint32AVX2, foldPolyToUint64AVX2, floatModQInPlaceAVX2. *)
From Coq Require Import String Lia Floats.SpecFloat.
From Verif Require Import Base ModelNum ModelAsm ModelAsmInt SpecAsm PfAsm PfAsmStep ModelF64 ModelAsmFold SpecF64 SpecAsmFold PfAsmFold PfAsmFold2 PfF64 PfF64b PfF64c PfF64d PfAsmFold3.
Import ListNotations.
Open Scope Z_scope.

Lemma k_fold32 : folds 4 foldPolyToUint32AVX2 (goOfInt 32).
Proof.
  intros s0 fp p HC. set (E := mkEnv (frameTU fp 8 p 4) foldData). set (n := gn fp).
  pose proof (fp_bounds s0 fp p 4 HC) as (B1 & B2 & B3 & B4 & B5 & B6). fold n in B2, B3, B5, B6.
  set (J := JF s0 fp p 4 (goOfInt 32) (fun _ => True)).
  unfold foldPolyToUint32AVX2. eapply (loopK F64 E _ _ SI DX 8 n s0 J); [lia|lia|exact B6|..].
  - intros s i x. apply JF_fl. intros; exact Logic.I.
  - intros s i (_ & _ & _ & Rd & _ & Rs & _). split; assumption.
  - eexists. split.
    + rewrite (movFP F64 E 0 AX _ _ (WP (gb fp) (8 * go fp))) by reflexivity. rewrite (movFP F64 E 24 CX _ _ (WP (gb p) (4 * go p))) by reflexivity.
      rewrite (movFP F64 E 8 DX _ _ (WI n)) by reflexivity. rewrite (movRR F64 E DX BX _ _ n) by reflexivity. rewrite (shr1 F64 E BX _ _ n) by (try reflexivity; lia).
      rewrite !xorRR. reflexivity.
    + split; [exact Logic.I|]. lk. change (0 / 2) with 0. rewrite Z.add_0_r. do 6 (split; [reflexivity|]).
      apply (part_ext fp (fun _ => false)); [|apply part0]. intros j Hj. symmetry. apply Z.ltb_ge. lia.
  - intros s i Js H0 Hi Hn. pose proof Js as (_ & Ra & Rc & Rd & Rb & Rs & Ri & P). destruct (half_bound n i B6 Hi H0 Hn) as (G1 & G2 & G3 & G4).
    assert (P4 : forall q, 0 <= q -> q + 4 <= n -> forall a, a = 4 * (go p + q) -> vld (mm s) 16 (gb p, a) = Some (YI (map (ival (mm s0) p) (four q)))).
    { intros q Hq Hq' a Ha. apply (vld_I4 (mm s) (gb p) (go p) q (ival (mm s0) p) a); [exact (p_esz s0 fp p 4 HC _ _ _ P)|exact Ha|].
      intros j Hj. destruct (p_get s0 fp p 4 HC (goOfInt 32) (mm s) _ j P ltac:(unfold n in *; lia)) as (G & _). exact G. }
    rewrite (ld_X F64 E 0 CX DI 4 0 _ s (gb p) (4 * go p) (i / 2) (map (ival (mm s0) p) (four (i / 2))) Rc Ri) by (rewrite swrap64_id by lia; apply P4; lia).
    rewrite (ld_X F64 E 0 CX BX 4 1 _ _ (gb p) (4 * go p) (n / 2 + i / 2) (map (ival (mm s0) p) (four (n / 2 + i / 2)))) by (try (lk; assumption); rewrite swrap64_id by lia; lk; apply P4; lia).
    rewrite (cvt_pd F64 E 0 0 _ _ (map (ival (mm s0) p) (four (i / 2)))) by reflexivity.
    rewrite (cvt_pd F64 E 1 1 _ _ (map (ival (mm s0) p) (four (n / 2 + i / 2)))) by reflexivity.
    set (s1 := setvr _ 1 _). 
    eapply (tail_ok s0 fp p 4 HC (goOfInt 32) (fun _ => True) s1 i); try assumption; try (intros; exact Logic.I); try reflexivity.
  - intros s Js. exact (J_end s0 fp p 4 _ _ s n Js eq_refl).
Qed.

Definition K64 (s : state f64) : Prop :=
  vr s 0 = YI (splitl (repeat 4841369599423283200 4)) /\ vr s 1 = YI (splitl (repeat 4985484789646622720 4)) /\ vr s 2 = YI (splitl (repeat 4985484789647671296 4)).
Lemma shop_r c : c < 64 -> shop VPSRLQ c = Some (fun l => splitl (map (fun x => Z.shiftr x c) (joinq l))).
Proof. intros H. cbn [shop]. destruct (Z.ltb_spec c 64); [reflexivity|lia]. Qed.
Lemma shop_l c : c < 64 -> shop VPSLLQ c = Some (fun l => splitl (map (fun x => wrap 64 (Z.shiftl x c)) (joinq l))).
Proof. intros H. cbn [shop]. destruct (Z.ltb_spec c 64); [reflexivity|lia]. Qed.
(** One half of the body of foldPolyToUint64AVX2. *)
Lemma fold64_half E is s q a g : (a = 3 \/ a = 4)%nat -> K64 s -> vr s a = YI (splitl (map g (four q))) -> (forall j, q <= j < q + 4 -> 0 <= g j < 2 ^ 64) ->
  exists s', ex F64 E (Ins VPBLENDD [I 85; Y a; Y 0; Y 5] :: Ins VPSRLQ [I 32; Y a; Y a] :: Ins VPXOR [Y 1; Y a; Y a] :: Ins VSUBPD [Y 2; Y a; Y a] :: Ins VADDPD [Y a; Y 5; Y a] :: is) s
    = ex F64 E is s' /\ rg s' = rg s /\ mm s' = mm s /\ vr s' a = YF (map (fun j => goOfInt 64 (g j)) (four q)) /\ (forall k, k <> a -> k <> 5%nat -> vr s' k = vr s k).
Proof.
  intros Ha (K0 & K1 & K2) Va Hg.
  assert (Q0 : HQ F64 q (vr s 0) (fun _ => 4841369599423283200)) by (rewrite K0; apply HQ_const).
  assert (Q1 : HQ F64 q (vr s 1) (fun _ => 4985484789646622720)) by (rewrite K1; apply HQ_const).
  assert (Q2 : HF F64 q (vr s 2) (fun _ => fofbits F64 4985484789647671296)) by (rewrite K2; apply (HQ_HF F64 q _ (fun _ => 4985484789647671296)); apply HQ_const).
  assert (Qa : HQ F64 q (vr s a) g) by (rewrite Va; reflexivity).
  assert (N1 : Nat.eqb 1 a = false) by (destruct Ha as [-> | ->]; reflexivity). assert (N5 : Nat.eqb 5 a = false) by (destruct Ha as [-> | ->]; reflexivity).
  assert (Na5 : Nat.eqb a 5 = false) by (destruct Ha as [-> | ->]; reflexivity). assert (N2 : Nat.eqb 2 a = false) by (destruct Ha as [-> | ->]; reflexivity).
  destruct (q_blendd F64 E q a 0 5 g _ (Ins VPSRLQ [I 32; Y a; Y a] :: Ins VPXOR [Y 1; Y a; Y a] :: Ins VSUBPD [Y 2; Y a; Y a] :: Ins VADDPD [Y a; Y 5; Y a] :: is) s Qa Q0) as (z5 & H5 & ->).
  destruct (q_sh F64 E q VPSRLQ 32 _ a a g (Ins VPXOR [Y 1; Y a; Y a] :: Ins VSUBPD [Y 2; Y a; Y a] :: Ins VADDPD [Y a; Y 5; Y a] :: is) (setvr s 5 (YI z5)) (or_intror eq_refl) (shop_r 32 ltac:(lia))) as (z6 & H6 & ->).
  { rewrite vr_setvr, Na5. exact Qa. }
  destruct (q_xor F64 E q 1 a a (fun _ => 4985484789646622720) (fun j => Z.shiftr (g j) 32) (Ins VSUBPD [Y 2; Y a; Y a] :: Ins VADDPD [Y a; Y 5; Y a] :: is) (setvr (setvr s 5 (YI z5)) a (YI z6)) N1) as (z7 & H7 & ->).
  { rewrite !vr_setvr, N1. exact Q1. }
  { rewrite !vr_setvr, Nat.eqb_refl. exact H6. }
  rewrite (f_op F64 E q VSUBPD _ 2 a a (fun _ => fofbits F64 4985484789647671296) (fun j => fofbits F64 (Z.lxor (Z.shiftr (g j) 32) 4985484789646622720)) _ _ eq_refl).
  2: { rewrite !vr_setvr, N2. exact Q2. }
  2: { rewrite !vr_setvr, Nat.eqb_refl. apply HQ_HF. exact H7. }
  rewrite (f_op F64 E q VADDPD _ a 5 a (fun j => fsub F64 (fofbits F64 (Z.lxor (Z.shiftr (g j) 32) 4985484789646622720)) (fofbits F64 4985484789647671296)) (fun j => fofbits F64 (g j mod 2 ^ 32 + 2 ^ 32 * (4841369599423283200 / 2 ^ 32))) _ _ eq_refl).
  2: { rewrite !vr_setvr, Nat.eqb_refl. apply HF_F. }
  2: { rewrite !vr_setvr, N5. cbn [Nat.eqb]. apply HQ_HF. exact H5. }
  eexists. split; [reflexivity|]. split; [reflexivity|]. split; [reflexivity|]. split.
  - rewrite vr_setvr, Nat.eqb_refl. f_equal. apply four_map. intros j Hj. rewrite <- fold_lane by (apply Hg; lia). unfold foldLane. cbn [F64 fadd fsub fofbits].
    rewrite Z.shiftr_div_pow2 by lia. change (4841369599423283200 / 2 ^ 32) with 1127219200.
    assert (XE : Z.lxor (g (q + j) / 2 ^ 32) 4985484789646622720 = Z.lxor (g (q + j) / 2 ^ 32) (2 ^ 31) + 2 ^ 32 * 1160773632).
    { pose proof (Hg (q + j) ltac:(lia)) as B. assert (HH : 0 <= g (q + j) / 2 ^ 32 < 2 ^ 32) by (split; [apply Z.div_pos; lia|apply Z.div_lt_upper_bound; lia]). set (h := g (q + j) / 2 ^ 32) in *. clearbody h.
      apply halves.
      - destruct (join_halves (Z.lxor h (2 ^ 31)) 1160773632) as (-> & _); [rewrite lxor31 by exact HH; apply Z.mod_pos_bound; reflexivity|].
        rewrite <- lxor_mod. rewrite (Z.mod_small h) by lia. reflexivity.
      - destruct (join_halves (Z.lxor h (2 ^ 31)) 1160773632) as (_ & ->); [rewrite lxor31 by exact HH; apply Z.mod_pos_bound; reflexivity|].
        rewrite <- lxor_div. rewrite (Z.div_small h) by lia. reflexivity. }
    rewrite XE. reflexivity.
  - intros k Hk Hk5. rewrite !vr_setvr. apply Nat.eqb_neq in Hk, Hk5. rewrite Hk, Hk5. reflexivity.
Qed.
Lemma K64_keep s s' : K64 s -> (forall k, (k <= 2)%nat -> vr s' k = vr s k) -> K64 s'.
Proof. intros (A & B & C) H. unfold K64. rewrite !H by lia. repeat split; assumption. Qed.
Lemma k_fold64 : folds 8 foldPolyToUint64AVX2 (goOfInt 64).
Proof.
  intros s0 fp p HC. set (E := mkEnv (frameTU fp 8 p 8) foldData). set (n := gn fp).
  pose proof (fp_bounds s0 fp p 8 HC) as (B1 & B2 & B3 & B4 & B5 & B6). fold n in B2, B3, B5, B6.
  set (J := JF s0 fp p 8 (goOfInt 64) K64).
  unfold foldPolyToUint64AVX2. eapply (loopK F64 E _ _ SI DX 8 n s0 J); [lia|lia|exact B6|..].
  - intros s i x. apply JF_fl. intros s1 y H. exact H.
  - intros s i (_ & _ & _ & Rd & _ & Rs & _). split; assumption.
  - eexists. split.
    + rewrite (movFP F64 E 0 AX _ _ (WP (gb fp) (8 * go fp))) by reflexivity. rewrite (movFP F64 E 24 CX _ _ (WP (gb p) (8 * go p))) by reflexivity.
      rewrite (movFP F64 E 8 DX _ _ (WI n)) by reflexivity. rewrite (movRR F64 E DX BX _ _ n) by reflexivity. rewrite (shr1 F64 E BX _ _ n) by (try reflexivity; lia).
      rewrite (bcSB F64 E "EXP2_52" 0 _ _ 4841369599423283200) by (try reflexivity; lia). rewrite (bcSB F64 E "EXP2_84_63" 1 _ _ 4985484789646622720) by (try reflexivity; lia).
      rewrite (bcSB F64 E "EXP2_84_63_52" 2 _ _ 4985484789647671296) by (try reflexivity; lia).
      rewrite !xorRR. reflexivity.
    + split; [split; [reflexivity|split; reflexivity]|]. lk. change (0 / 2) with 0. rewrite Z.add_0_r. do 6 (split; [reflexivity|]).
      apply (part_ext fp (fun _ => false)); [|apply part0]. intros j Hj. symmetry. apply Z.ltb_ge. lia.
  - intros s i Js H0 Hi Hn. pose proof Js as (Ks & Ra & Rc & Rd & Rb & Rs & Ri & P). destruct (half_bound n i B6 Hi H0 Hn) as (G1 & G2 & G3 & G4).
    assert (P8 : forall q, 0 <= q -> q + 4 <= n -> forall a, a = 8 * (go p + q) -> vld (mm s) 32 (gb p, a) = Some (YI (splitl (map (ival (mm s0) p) (four q))))).
    { intros q Hq Hq' a Ha. apply (vld_I8 (mm s) (gb p) (go p) q (ival (mm s0) p) a); [exact (p_esz s0 fp p 8 HC _ _ _ P)|exact Ha|].
      intros j Hj. destruct (p_get s0 fp p 8 HC (goOfInt 64) (mm s) _ j P ltac:(unfold n in *; lia)) as (G & _). exact G. }
    assert (PB : forall j, 0 <= j < n -> 0 <= ival (mm s0) p j < 2 ^ 64).
    { intros j Hj. destruct (p_get s0 fp p 8 HC (goOfInt 64) (mm s) _ j P ltac:(unfold n in *; lia)) as (_ & G). exact G. }
    rewrite (ld_Y F64 E VMOVDQU 0 CX DI 8 3 _ s (gb p) (8 * go p) (i / 2) _ (or_introl eq_refl) Rc Ri (P8 (i / 2) G1 ltac:(lia) (8 * go p + swrap 64 (i / 2) * 8 + 0) ltac:(rewrite swrap64_id by lia; lia))).
    rewrite (ld_Y F64 E VMOVDQU 0 CX BX 8 4 _ (setvr s 3 _) (gb p) (8 * go p) (n / 2 + i / 2) _ (or_introl eq_refl) Rc Rb (P8 (n / 2 + i / 2) ltac:(lia) ltac:(lia) (8 * go p + swrap 64 (n / 2 + i / 2) * 8 + 0) ltac:(rewrite swrap64_id by lia; lia))).
    set (s1 := setvr (setvr s 3 _) 4 _).
    destruct (fold64_half E (Ins VPBLENDD [I 85; Y 4; Y 0; Y 5] :: Ins VPSRLQ [I 32; Y 4; Y 4] :: Ins VPXOR [Y 1; Y 4; Y 4] :: Ins VSUBPD [Y 2; Y 4; Y 4] :: Ins VADDPD [Y 4; Y 5; Y 4]
       :: [Ins VMOVUPD [Y 3; MI 0 AX SI 8]; Ins VMOVUPD [Y 4; MI 32 AX SI 8]; Ins ADDQ [I 8; R SI]; Ins ADDQ [I 4; R DI]; Ins ADDQ [I 4; R BX]]) s1 (i / 2) 3 (ival (mm s0) p)) as (s2 & X2 & R2 & M2 & V2 & O2).
    { left; reflexivity. } { exact Ks. } { reflexivity. } { intros j Hj. apply PB. lia. }
    rewrite X2. clear X2.
    destruct (fold64_half E [Ins VMOVUPD [Y 3; MI 0 AX SI 8]; Ins VMOVUPD [Y 4; MI 32 AX SI 8]; Ins ADDQ [I 8; R SI]; Ins ADDQ [I 4; R DI]; Ins ADDQ [I 4; R BX]] s2 (n / 2 + i / 2) 4 (ival (mm s0) p)) as (s3 & X3 & R3 & M3 & V3 & O3).
    { right; reflexivity. } { apply (K64_keep s1); [exact Ks|]. intros k Hk. apply O2; lia. } { rewrite O2 by lia. reflexivity. } { intros j Hj. apply PB. lia. }
    rewrite X3. clear X3.
    eapply (tail_ok s0 fp p 8 HC (goOfInt 64) K64 s3 i _ _ 3 4); try assumption; try (intros; assumption).
    + split; [apply (K64_keep s1); [exact Ks|]; intros k Hk; rewrite O3, O2 by lia; reflexivity|]. rewrite R3, R2, M3, M2. unfold s1. lk. do 6 (split; [assumption|]). exact P.
    + rewrite O3 by lia. exact V2.
    + exact V3.
    + reflexivity.
    + reflexivity.
  - intros s Js. exact (J_end s0 fp p 8 _ _ s n Js eq_refl).
Qed.

(** floatModQInPlaceAVX2. *)
Definition modLane (q qi x : f64) : f64 := let y := fmul F64 x qi in fround F64 (fmul F64 (fsub F64 y (fround F64 y)) q).
Lemma bcFP {T} (F : fops T) E o n is s x : frame E o = Some (8, WF x) -> ex F E (Ins VBROADCASTSD [FP o; Y n] :: is) s = ex F E is (setvr s n (YF (repeat x 4))).
Proof. intros H. apply ex_cons. cbn [exec1 bsrc src]. rewrite H. reflexivity. Qed.
Lemma HF_const {T} (F : fops T) q x : HF F q (YF (repeat x 4)) (fun _ => x).
Proof. unfold HF, four. reflexivity. Qed.
Lemma k_modQ s0 c q qi : fslice64 (mm s0) c -> gn c mod 4 = 0 ->
  terminates F64 (mkEnv (frameQ c q qi) foldData) floatModQInPlaceAVX2 s0 (window c (fun i => WF (modLane q qi (fat (mm s0) c i))) (mm s0)).
Proof.
  intros (Hz & B1 & B2 & B3 & Hg) Hn4. set (E := mkEnv (frameQ c q qi) foldData). set (n := gn c). set (f := fun i => WF (modLane q qi (fat (mm s0) c i))).
  assert (Hf : forall j, 0 <= j < n -> getm (mm s0) (gb c) (go c + j) = Some (WF (fat (mm s0) c j))).
  { intros j Hj. destruct (Hg j Hj) as (x & Ex & _). unfold fat. rewrite Ex. reflexivity. }
  set (J := fun (s : state f64) (i : Z) => rg s AX = WP (gb c) (8 * go c) /\ rg s CX = WI n /\ rg s DX = WI i /\ vr s 0 = YF (repeat q 4) /\ vr s 1 = YF (repeat qi 4) /\
     part c (fun j => j <? i) f (mm s0) (mm s)).
  unfold floatModQInPlaceAVX2. eapply (loopK F64 E _ _ DX CX 4 n s0 J); [lia|unfold n; lia|exact Hn4|..].
  - intros s i x H. exact H.
  - intros s i (_ & H1 & H2 & _). split; assumption.
  - eexists. split.
    + rewrite (movFP F64 E 0 AX _ _ (WP (gb c) (8 * go c))) by reflexivity. rewrite (movFP F64 E 8 CX _ _ (WI n)) by reflexivity.
      rewrite (bcFP F64 E 24 0 _ _ q) by reflexivity. rewrite (bcFP F64 E 32 1 _ _ qi) by reflexivity. rewrite xorRR. reflexivity.
    + unfold J. lk. do 5 (split; [reflexivity|]). apply (part_ext c (fun _ => false)); [|apply part0]. intros j Hj. symmetry. apply Z.ltb_ge. lia.
  - intros s i (Ra & Rc & Rd & V0 & V1 & P) H0 Hi Hn.
    assert (LD : vld (mm s) 32 (gb c, 8 * go c + swrap 64 i * 8 + 0) = Some (YF (map (fat (mm s0) c) (four i)))).
    { apply (vld_F (mm s) (gb c) (go c) i (fat (mm s0) c)); [destruct P as (P & _); rewrite P; exact Hz|rewrite swrap64_id by lia; lia|].
      intros j Hj. rewrite (part_old c _ f (mm s0) (mm s) j P) by (apply Z.ltb_ge; lia). apply Hf. lia. }
    rewrite (ld_Y F64 E VMOVUPD 0 AX DX 8 2 _ s (gb c) (8 * go c) i _ (or_intror eq_refl) Ra Rd LD). clear LD.
    rewrite (f_op F64 E i VMULPD _ 1 2 2 (fun _ => qi) (fat (mm s0) c) _ _ eq_refl); [|rewrite vr_setvr; cbn [Nat.eqb]; rewrite V1; apply HF_const|rewrite vr_setvr; cbn [Nat.eqb]; apply HF_F].
    rewrite (f_round F64 E i 2 3 (fun j => fmul F64 (fat (mm s0) c j) qi)) by (rewrite vr_setvr; cbn [Nat.eqb]; apply HF_F).
    rewrite (f_op F64 E i VSUBPD _ 3 2 2 (fun j => fround F64 (fmul F64 (fat (mm s0) c j) qi)) (fun j => fmul F64 (fat (mm s0) c j) qi) _ _ eq_refl); [|rewrite !vr_setvr; cbn [Nat.eqb]; apply HF_F|rewrite !vr_setvr; cbn [Nat.eqb]; apply HF_F].
    rewrite (f_op F64 E i VMULPD _ 0 2 2 (fun _ => q) (fun j => fsub F64 (fmul F64 (fat (mm s0) c j) qi) (fround F64 (fmul F64 (fat (mm s0) c j) qi))) _ _ eq_refl); [|rewrite !vr_setvr; cbn [Nat.eqb]; rewrite V0; apply HF_const|rewrite !vr_setvr; cbn [Nat.eqb]; apply HF_F].
    rewrite (f_round F64 E i 2 2 (fun j => fmul F64 (fsub F64 (fmul F64 (fat (mm s0) c j) qi) (fround F64 (fmul F64 (fat (mm s0) c j) qi))) q)) by (rewrite vr_setvr; cbn [Nat.eqb]; apply HF_F).
    destruct (part_store c _ f (mm s0) (mm s) i (map WF (map (fun j => modLane q qi (fat (mm s0) c j)) (four i))) P H0 ltac:(lia)) as (m1 & E1 & P1).
    { rewrite map_map. reflexivity. } { intros j Hj. rewrite Hf by exact Hj. discriminate. }
    eexists. split.
    + rewrite (st_Y F64 E VMOVUPD 0 AX DX 8 2 _ _ (gb c) (8 * go c) i (YF (map (fun j => modLane q qi (fat (mm s0) c j)) (four i))) m1); [|right; reflexivity|exact Ra|exact Rd|reflexivity|].
      2: { rewrite swrap64_id by lia. lk. rewrite (vst_F F64 (mm s) (gb c) (go c + i)); [exact E1|reflexivity|destruct P as (P & _); rewrite P; exact Hz|lia]. }
      rewrite (ex_addI F64 E 4 DX _ _ i) by (try exact Rd; lia). reflexivity.
    + unfold J. lk. do 5 (split; [first [assumption | reflexivity]|]). apply (part_ext c _ (fun j => j <? i + 4) f (mm s0) m1) in P1; [exact P1|].
      intros j _. unfold add4. destruct (Z.ltb_spec j i), (Z.leb_spec i j), (Z.ltb_spec j (i + 4)); cbn [orb andb]; try reflexivity; lia.
  - intros s (_ & _ & _ & _ & _ & P). apply (part_window c _ f (mm s0) (mm s)) in P; [exact P|]. intros j Hj. apply Z.ltb_lt. exact (proj2 Hj).
Qed.
