(** The fold kernels. *)
From Coq Require Import String Lia Floats.SpecFloat.
From Verif Require Import Base ModelNum ModelAsm ModelAsmInt SpecAsm PfAsm PfAsmStep ModelF64 ModelAsmFold SpecF64 SpecAsmFold PfAsmFold PfAsmFold2 PfF64 PfF64b PfF64c PfF64d.
Import ListNotations.
Open Scope Z_scope.

Ltac list4 l H := destruct l as [|? [|? [|? [|? [|]]]]]; try discriminate H.
Section Steps.
Context {T : Type}.
Variable F : fops T.
Variable E : env T.
Notation ex := (ex F E).
Lemma ld_Y op d b i c n is s k p z v : (op = VMOVDQU \/ op = VMOVUPD) -> rg s b = WP k p -> rg s i = WI z -> vld (mm s) 32 (k, p + swrap 64 z * c + d) = Some v ->
  ex (Ins op [MI d b i c; Y n] :: is) s = ex is (setvr s n v).
Proof. intros Ho H1 H2 H3. apply ex_cons. destruct Ho as [-> | ->]; cbn [exec1 addr vwidth]; rewrite H1, H2, H3; reflexivity. Qed.
Lemma ld_X d b i c n is s k p z v : rg s b = WP k p -> rg s i = WI z -> vld (mm s) 16 (k, p + swrap 64 z * c + d) = Some (YI v) ->
  ex (Ins VMOVDQU [MI d b i c; X n] :: is) s = ex is (setvr s n (YI (v ++ repeat 0 4))).
Proof. intros H1 H2 H3. apply ex_cons. cbn [exec1 addr vwidth]; rewrite H1, H2, H3; reflexivity. Qed.
Lemma st_Y op d b i c n is s k p z y m' : (op = VMOVDQU \/ op = VMOVUPD) -> rg s b = WP k p -> rg s i = WI z -> vr s n = y -> vst F (mm s) 32 (k, p + swrap 64 z * c + d) y = Some m' ->
  ex (Ins op [Y n; MI d b i c] :: is) s = ex is (setmm s m').
Proof. intros Ho H1 H2 H3 H4. apply ex_cons. destruct Ho as [-> | ->]; cbn [exec1 addr vwidth vget]; rewrite H1, H2, H3, H4; reflexivity. Qed.
Lemma st_X d b i c n is s k p z l m' : rg s b = WP k p -> rg s i = WI z -> vr s n = YI (l ++ repeat 0 4) -> length l = 4%nat -> vst F (mm s) 16 (k, p + swrap 64 z * c + d) (YI l) = Some m' ->
  ex (Ins VMOVDQU [X n; MI d b i c] :: is) s = ex is (setmm s m').
Proof.
  intros H1 H2 H3 Hl H4. apply ex_cons. cbn [exec1 addr vwidth vget]; rewrite H1, H2, H3. list4 l Hl. cbn [app firstn]. rewrite H4. reflexivity.
Qed.
Lemma cvt_pd a n is s l : vr s a = YI (l ++ repeat 0 4) -> length l = 4%nat -> ex (Ins VCVTDQ2PD [X a; Y n] :: is) s = ex is (setvr s n (YF (map (fun z => fofint F (swrap 32 z)) l))).
Proof. intros H1 Hl. apply ex_cons. cbn [exec1 vget vset]. rewrite H1. list4 l Hl. reflexivity. Qed.
Lemma cvt_dq a n is s l : vr s a = YF l -> ex (Ins VCVTPD2DQY [Y a; X n] :: is) s = ex is (setvr s n (YI (map (ftoint F) l ++ repeat 0 4))).
Proof. intros H1. apply ex_cons. cbn [exec1 vget vset]. rewrite H1. reflexivity. Qed.
Lemma dd_X o f a b d is s x y : (o = VPADDD \/ o = VPSUBD) -> dop o = Some f -> vr s a = YI (x ++ repeat 0 4) -> vr s b = YI (y ++ repeat 0 4) -> length x = 4%nat -> length y = 4%nat ->
  ex (Ins o [X a; X b; X d] :: is) s = ex is (setvr s d (YI (map2 f x y ++ repeat 0 4))).
Proof.
  intros Ho Hf H1 H2 Lx Ly. apply ex_cons. destruct Ho as [-> | ->]; cbn [exec1]; rewrite Hf; cbn [vget vset]; rewrite H1, H2; list4 x Lx; list4 y Ly; reflexivity.
Qed.
Lemma bcSB x n is s z : data E x = Some z -> 0 <= z < 2 ^ 64 -> ex (Ins VBROADCASTSD [SB x; Y n] :: is) s = ex is (setvr s n (YI (splitl (repeat z 4)))).
Proof. intros H Hz. apply ex_cons. cbn [exec1 bsrc]. rewrite H. change (8 * 8) with 64. rewrite Z.mod_small by exact Hz. reflexivity. Qed.
Lemma movFP o r is s v : frame E o = Some (8, v) -> ex (Ins MOVQ [FP o; R r] :: is) s = ex is (setr s r v).
Proof. intros H. apply ex_cons. cbn [exec1 src]. rewrite H. reflexivity. Qed.
Lemma movRR a r is s z : rg s a = WI z -> ex (Ins MOVQ [R a; R r] :: is) s = ex is (setr s r (WI z)).
Proof. intros H. apply ex_cons. cbn [exec1 src]. rewrite H. reflexivity. Qed.
Lemma shr1 r is s z : rg s r = WI z -> 0 <= z < 2 ^ 60 -> ex (Ins SHRQ [I 1; R r] :: is) s = ex is (setfl (setr s r (WI (z / 2))) None).
Proof.
  intros H Hz. apply ex_cons. cbn [exec1]. unfold arith. cbn [src dst]. rewrite H. cbn [Z.eqb Pos.eqb]. change (wrap 64 1) with 1. rewrite Z.shiftr_div_pow2 by lia. change (2 ^ 1) with 2.
  change (8 * 8) with 64. rewrite wrap64_id; [reflexivity|]. split; [apply Z.div_pos; lia|]. apply Z.div_lt_upper_bound; lia.
Qed.
Lemma xorRR r is s : ex (Ins XORQ [R r; R r] :: is) s = ex is (setfl (setr s r (WI 0)) None).
Proof. apply ex_cons. cbn [exec1]. rewrite Nat.eqb_refl. reflexivity. Qed.
Lemma xorYY a is s : ex (Ins VPXOR [Y a; Y a; Y a] :: is) s = ex is (setvr s a (YI (repeat 0 8))).
Proof. apply ex_cons. cbn [exec1]. rewrite Nat.eqb_refl. reflexivity. Qed.
End Steps.

(** The preamble shared by the fold and unfold kernels; [q] is the slice of floats whose length is used. *)
Ltac fr := cbn [frame]; reflexivity.
Lemma four_map {B} (g f : Z -> B) h i : (forall j, 0 <= j < 4 -> g (h + j) = f (i + j)) -> map g (four h) = map f (four i).
Proof. intros H. unfold four. cbn [map]. pose proof (H 0 ltac:(lia)) as H0. rewrite !Z.add_0_r in H0. rewrite H0, (H 1), (H 2), (H 3) by lia. reflexivity. Qed.
Lemma fold_lo n i j : i mod 8 = 0 -> 0 <= j < 4 -> foldIdx n (i + j) = i / 2 + j.
Proof.
  intros Hi Hj. unfold foldIdx. pose proof (Z.div_mod i 8 ltac:(lia)) as D. rewrite Hi, Z.add_0_r in D. set (t := i / 8) in *. clearbody t. subst i.
  replace (8 * t + j) with (j + t * 8) at 1 by lia. rewrite Z.div_add, (Z.div_small j) by lia.
  replace (8 * t + j) with (j + (2 * t) * 4) at 1 by lia. rewrite Z.mod_add, (Z.mod_small j) by lia.
  replace (8 * t + j) with (j + t * 8) by lia. rewrite Z.mod_add, Z.mod_small by lia. destruct (Z.ltb_spec j 4); [|lia].
  replace (8 * t) with (4 * t * 2) by lia. rewrite Z.div_mul by lia. lia.
Qed.
Lemma fold_hi n i j : i mod 8 = 0 -> 0 <= j < 4 -> foldIdx n (i + 4 + j) = n / 2 + i / 2 + j.
Proof.
  intros Hi Hj. unfold foldIdx. pose proof (Z.div_mod i 8 ltac:(lia)) as D. rewrite Hi, Z.add_0_r in D. set (t := i / 8) in *. clearbody t. subst i.
  replace (8 * t + 4 + j) with (4 + j + t * 8) at 1 by lia. rewrite Z.div_add, (Z.div_small (4 + j)) by lia.
  replace (8 * t + 4 + j) with (j + (2 * t + 1) * 4) at 1 by lia. rewrite Z.mod_add, (Z.mod_small j) by lia.
  replace (8 * t + 4 + j) with (4 + j + t * 8) by lia. rewrite Z.mod_add, Z.mod_small by lia. destruct (Z.ltb_spec (4 + j) 4); [lia|].
  replace (8 * t) with (4 * t * 2) by lia. rewrite Z.div_mul by lia. lia.
Qed.
Lemma half_bound n i : n mod 8 = 0 -> i mod 8 = 0 -> 0 <= i -> i + 8 <= n -> 0 <= i / 2 /\ i / 2 + 4 <= n / 2 /\ n / 2 + i / 2 + 4 <= n /\ (i + 8) / 2 = i / 2 + 4.
Proof.
  intros Hn Hi H0 H. pose proof (Z.div_mod n 8 ltac:(lia)) as D. pose proof (Z.div_mod i 8 ltac:(lia)) as D'. rewrite Hn in D. rewrite Hi in D'.
  set (a := n / 8) in *. set (t := i / 8) in *. clearbody a t. subst n i.
  replace (8 * a + 0) with (4 * a * 2) by lia. replace (8 * t + 0) with (4 * t * 2) by lia. replace (4 * t * 2 + 8) with ((4 * t + 4) * 2) by lia. rewrite !Z.div_mul by lia. lia.
Qed.
Lemma add44 i : forall j, add4 (add4 (fun j => j <? i) i) (i + 4) j = (j <? i + 8).
Proof. intros j. unfold add4. destruct (Z.ltb_spec j i), (Z.leb_spec i j), (Z.ltb_spec j (i + 4)), (Z.leb_spec (i + 4) j), (Z.ltb_spec j (i + 4 + 4)), (Z.ltb_spec j (i + 8)); cbn [orb andb]; try reflexivity; lia. Qed.

Section Fold.
Variables (s0 : state f64) (fp p : gslice) (e : Z).
Hypothesis He : e = 4 \/ e = 8.
Hypothesis HC : fold_call s0 fp p e.
Notation n := (gn fp).
Notation m0 := (mm s0).
Notation E := (mkEnv (frameTU fp 8 p e) foldData).
Lemma fp_some j : 0 <= j < n -> getm m0 (gb fp) (go fp + j) <> None.
Proof. intros Hj. destruct HC as ((_ & _ & _ & _ & H) & _). destruct (H j Hj) as (x & -> & _). discriminate. Qed.
Lemma fp_bounds : 0 <= go fp /\ 0 <= n < 2 ^ 59 /\ go fp + n < 2 ^ 59 /\ 0 <= go p /\ go p + n < 2 ^ 59 /\ n mod 8 = 0.
Proof. destruct HC as ((_ & H1 & H2 & H3 & _) & (_ & H4 & _ & H5 & _) & H6 & H7 & _). rewrite H6 in H5. repeat split; try assumption; lia. Qed.
Variable conv : Z -> f64.
Notation f := (fun i => WF (conv (ival m0 p (foldIdx n i)))).
Lemma p_get m D j : part fp D f m0 m -> 0 <= j < n -> getm m (gb p) (go p + j) = Some (WI (ival m0 p j)) /\ 0 <= ival m0 p j < 2 ^ (8 * e).
Proof.
  intros P Hj. destruct HC as (_ & (_ & _ & _ & _ & H) & Hn & _ & Hb). rewrite (part_other fp D f m0 m (gb p) (go p + j) P Hb).
  destruct (H j ltac:(lia)) as (z & Ez & Bz). unfold ival. rewrite Ez. split; [reflexivity|exact Bz].
Qed.
Lemma p_esz m D : part fp D f m0 m -> esz m (gb p) = e.
Proof. intros (P & _). rewrite P. destruct HC as (_ & (H & _) & _). exact H. Qed.
Lemma fp_esz m D : part fp D f m0 m -> esz m (gb fp) = 8.
Proof. intros (P & _). rewrite P. destruct HC as ((H & _) & _). exact H. Qed.
Variable K : state f64 -> Prop.
Definition JF (s : state f64) (i : Z) : Prop :=
  K s /\ rg s AX = WP (gb fp) (8 * go fp) /\ rg s CX = WP (gb p) (e * go p) /\ rg s DX = WI n /\ rg s BX = WI (n / 2 + i / 2) /\ rg s SI = WI i /\ rg s DI = WI (i / 2) /\
  part fp (fun j => j <? i) f m0 (mm s).
Lemma J_end s i : JF s i -> i = n -> window fp f m0 (mm s).
Proof. intros (_ & _ & _ & _ & _ & _ & _ & P) ->. apply (part_window fp _ f m0 (mm s)) in P; [exact P|]. intros j Hj. apply Z.ltb_lt. lia. Qed.
Lemma JF_fl : (forall s x, K s -> K (setfl s x)) -> forall s i x, JF s i -> JF (setfl s x) i.
Proof. intros HK s i x (A & B). split; [apply HK; exact A|exact B]. Qed.
(** The tail of the body: two stores and the counters. *)
Lemma tail_ok s i l1 l2 r1 r2 : JF s i -> 0 <= i -> i mod 8 = 0 -> i + 8 <= n ->
  (forall s1 r v, K s1 -> K (setr s1 r v)) -> (forall s1 v, K s1 -> K (setfl s1 v)) -> (forall s1 v, K s1 -> K (setmm s1 v)) ->
  vr s r1 = YF l1 -> vr s r2 = YF l2 -> l1 = map (fun j => conv (ival m0 p j)) (four (i / 2)) -> l2 = map (fun j => conv (ival m0 p j)) (four (n / 2 + i / 2)) ->
  exists s', ex F64 E [Ins VMOVUPD [Y r1; MI 0 AX SI 8]; Ins VMOVUPD [Y r2; MI 32 AX SI 8]; Ins ADDQ [I 8; R SI]; Ins ADDQ [I 4; R DI]; Ins ADDQ [I 4; R BX]] s = Next s' /\ JF s' (i + 8).
Proof.
  intros J H0 Hi Hn Kr Kf Km V1 V2 -> ->. destruct J as (Ks & Ra & Rc & Rd & Rb & Rs & Ri & P).
  pose proof fp_bounds as (B1 & B2 & B3 & B4 & B5 & B6). destruct (half_bound n i B6 Hi H0 Hn) as (G1 & G2 & G3 & G4).
  destruct (part_store fp _ f m0 (mm s) i (map WF (map (fun j => conv (ival m0 p j)) (four (i / 2)))) P H0 ltac:(lia)) as (m1 & E1 & P1).
  { rewrite map_map. apply four_map. intros j Hj. rewrite (fold_lo n i j Hi Hj). reflexivity. }
  { exact fp_some. }
  destruct (part_store fp _ f m0 m1 (i + 4) (map WF (map (fun j => conv (ival m0 p j)) (four (n / 2 + i / 2)))) P1 ltac:(lia) ltac:(lia)) as (m2 & E2 & P2).
  { rewrite map_map. apply four_map. intros j Hj. rewrite (fold_hi n i j Hi Hj). reflexivity. }
  { exact fp_some. }
  eexists. split.
  - rewrite (st_Y F64 E VMOVUPD 0 AX SI 8 r1 _ s (gb fp) (8 * go fp) i (YF (map (fun j => conv (ival m0 p j)) (four (i / 2)))) m1);
      [|right; reflexivity|exact Ra|exact Rs|exact V1|].
    2: { rewrite swrap64_id by lia. rewrite (vst_F F64 (mm s) (gb fp) (go fp + i)); [exact E1|reflexivity|exact (fp_esz _ _ P)|lia]. }
    rewrite (st_Y F64 E VMOVUPD 32 AX SI 8 r2 _ (setmm s m1) (gb fp) (8 * go fp) i (YF (map (fun j => conv (ival m0 p j)) (four (n / 2 + i / 2)))) m2);
      [|right; reflexivity|exact Ra|exact Rs|exact V2|].
    2: { rewrite swrap64_id by lia. cbn [mm setmm]. rewrite (vst_F F64 m1 (gb fp) (go fp + (i + 4))); [exact E2|reflexivity|exact (fp_esz _ _ P1)|lia]. }
    rewrite (ex_addI F64 E 8 SI _ _ i) by (try exact Rs; lia).
    rewrite (ex_addI F64 E 4 DI _ _ (i / 2)) by (try (lk; exact Ri); lia).
    rewrite (ex_addI F64 E 4 BX _ _ (n / 2 + i / 2)) by (try (lk; exact Rb); lia).
    reflexivity.
  - split; [apply Kf, Kr, Kf, Kr, Kf, Kr, Km, Km; exact Ks|]. lk. rewrite G4.
    split; [exact Ra|]. split; [exact Rc|]. split; [exact Rd|]. split; [f_equal; lia|]. split; [reflexivity|]. split; [reflexivity|].
    apply (part_ext fp _ (fun j => j <? i + 8) f m0 m2) in P2; [exact P2|]. intros j _. apply add44.
Qed.
End Fold.
