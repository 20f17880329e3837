(** The unfold kernels. *)
From Coq Require Import String Lia Floats.SpecFloat.
From Verif Require Import Base ModelNum ModelAsm ModelAsmInt SpecAsm PfAsm PfAsmStep ModelF64 ModelAsmFold SpecF64 SpecAsmFold PfAsmFold PfAsmFold2 PfF64 PfF64b PfF64c PfF64d PfAsmFold3 PfAsmFold4.
Import ListNotations.
Open Scope Z_scope.

Lemma unf_lo n i j : n mod 8 = 0 -> i mod 8 = 0 -> 0 <= i -> i + 8 <= n -> 0 <= j < 4 -> unfoldIdx n (i / 2 + j) = i + j.
Proof.
  intros Hn Hi H0 H Hj. destruct (half_bound n i Hn Hi H0 H) as (G1 & G2 & G3 & G4). unfold unfoldIdx. destruct (Z.ltb_spec (i / 2 + j) (n / 2)); [|lia].
  pose proof (Z.div_mod i 8 ltac:(lia)) as D. rewrite Hi, Z.add_0_r in D. assert (E : i / 2 = 4 * (i / 8)) by (rewrite D at 1; replace (8 * (i / 8)) with (4 * (i / 8) * 2) by lia; apply Z.div_mul; lia).
  rewrite E. set (t := i / 8) in *. clearbody t. replace (4 * t + j) with (j + t * 4) by lia. rewrite Z.div_add, Z.mod_add, Z.div_small, Z.mod_small by lia. lia.
Qed.
Lemma unf_hi n i j : n mod 8 = 0 -> i mod 8 = 0 -> 0 <= i -> i + 8 <= n -> 0 <= j < 4 -> unfoldIdx n (n / 2 + i / 2 + j) = i + 4 + j.
Proof.
  intros Hn Hi H0 H Hj. destruct (half_bound n i Hn Hi H0 H) as (G1 & G2 & G3 & G4). unfold unfoldIdx. destruct (Z.ltb_spec (n / 2 + i / 2 + j) (n / 2)); [lia|].
  pose proof (Z.div_mod i 8 ltac:(lia)) as D. rewrite Hi, Z.add_0_r in D. assert (E : i / 2 = 4 * (i / 8)) by (rewrite D at 1; replace (8 * (i / 8)) with (4 * (i / 8) * 2) by lia; apply Z.div_mul; lia).
  rewrite E. set (t := i / 8) in *. clearbody t. replace (n / 2 + 4 * t + j - n / 2) with (j + t * 4) by lia. rewrite Z.div_add, Z.mod_add, Z.div_small, Z.mod_small by lia. lia.
Qed.
Lemma int64part_truncW x : int64part x = truncW x.
Proof. destruct x as [s|s| |s m e]; reflexivity. Qed.

Definition DU (fp : gslice) (i j : Z) : bool := (j <? i / 2) || ((gn fp / 2 <=? j) && (j <? gn fp / 2 + i / 2)).
Lemma DU_lo fp i j : 0 <= i / 2 -> i / 2 + 4 <= gn fp / 2 -> i / 2 <= j < i / 2 + 4 -> DU fp i j = false.
Proof. intros H1 H2 H. unfold DU. destruct (Z.ltb_spec j (i / 2)), (Z.leb_spec (gn fp / 2) j); cbn [orb andb]; try reflexivity; lia. Qed.
Lemma DU_hi fp i j : 0 <= i / 2 -> i / 2 + 4 <= gn fp / 2 -> gn fp / 2 + i / 2 <= j < gn fp / 2 + i / 2 + 4 -> DU fp i j = false.
Proof. intros H1 H2 H. unfold DU. destruct (Z.ltb_spec j (i / 2)), (Z.ltb_spec j (gn fp / 2 + i / 2)); rewrite ?Bool.andb_false_r; cbn [orb andb]; try reflexivity; lia. Qed.
Section Unfold.
Variables (s0 : state f64) (fp p : gslice) (e : Z).
Hypothesis HC : fold_call s0 fp p e.
Notation n := (gn fp).
Notation m0 := (mm s0).
Notation E := (mkEnv (frameTU p e fp 8) foldData).
Lemma p_some j : 0 <= j < gn p -> getm m0 (gb p) (go p + j) <> None.
Proof. intros Hj. destruct HC as (_ & (_ & _ & _ & _ & H) & _). destruct (H j Hj) as (x & -> & _). discriminate. Qed.
Lemma p_len : gn p = n. Proof. destruct HC as (_ & _ & H & _). exact H. Qed.
Variables (conv : f64 -> Z) (acc : Z -> Z -> Z).
Definition ures (j : Z) : Z := acc (ival m0 p j) (conv (fat m0 fp (unfoldIdx n j))) mod 2 ^ (8 * e).
Notation f := (fun j => WI (ures j)).
Lemma uf_get m D j : part p D f m0 m -> 0 <= j < n -> getm m (gb fp) (go fp + j) = Some (WF (fat m0 fp j)) /\ valid_binary 53 1024 (fat m0 fp j) = true.
Proof.
  intros P Hj. destruct HC as ((_ & _ & _ & _ & H) & _ & _ & _ & Hb). rewrite (part_other p D f m0 m (gb fp) (go fp + j) P) by (intros HH; apply Hb; symmetry; exact HH).
  destruct (H j Hj) as (x & Ex & V). unfold fat. rewrite Ex. split; [reflexivity|exact V].
Qed.
Lemma uf_esz m D : part p D f m0 m -> esz m (gb fp) = 8.
Proof. intros (P & _). rewrite P. destruct HC as ((H & _) & _). exact H. Qed.
Lemma up_esz m D : part p D f m0 m -> esz m (gb p) = e.
Proof. intros (P & _). rewrite P. destruct HC as (_ & (H & _) & _). exact H. Qed.
Lemma up_old m D j : part p D f m0 m -> 0 <= j < n -> D j = false -> getm m (gb p) (go p + j) = Some (WI (ival m0 p j)) /\ 0 <= ival m0 p j < 2 ^ (8 * e).
Proof.
  intros P Hj HD. rewrite (part_old p D f m0 m j P HD). destruct HC as (_ & (_ & _ & _ & _ & H) & Hn & _). destruct (H j ltac:(lia)) as (z & Ez & Bz). unfold ival. rewrite Ez. split; [reflexivity|exact Bz].
Qed.
Lemma uf_ld m D q a : part p D f m0 m -> 0 <= q -> q + 4 <= n -> a = 8 * (go fp + q) -> vld m 32 (gb fp, a) = Some (YF (map (fat m0 fp) (four q))).
Proof. intros P Hq Hn Ha. apply (vld_F m (gb fp) (go fp) q (fat m0 fp) a); [exact (uf_esz _ _ P)|exact Ha|]. intros j Hj. apply (uf_get m D j P). lia. Qed.
Lemma ures_lo i : n mod 8 = 0 -> i mod 8 = 0 -> 0 <= i -> i + 8 <= n ->
  map ures (four (i / 2)) = map2 (fun o x => acc o (conv x) mod 2 ^ (8 * e)) (map (ival m0 p) (four (i / 2))) (map (fat m0 fp) (four i)).
Proof.
  intros Hn Hi H0 H. unfold four. cbn [map map2]. unfold ures. pose proof (unf_lo n i 0 Hn Hi H0 H ltac:(lia)) as U0. rewrite !Z.add_0_r in U0.
  rewrite U0, !unf_lo by (try assumption; lia). reflexivity.
Qed.
Lemma ures_hi i : n mod 8 = 0 -> i mod 8 = 0 -> 0 <= i -> i + 8 <= n ->
  map ures (four (n / 2 + i / 2)) = map2 (fun o x => acc o (conv x) mod 2 ^ (8 * e)) (map (ival m0 p) (four (n / 2 + i / 2))) (map (fat m0 fp) (four (i + 4))).
Proof.
  intros Hn Hi H0 H. unfold four. cbn [map map2]. unfold ures. pose proof (unf_hi n i 0 Hn Hi H0 H ltac:(lia)) as U0. rewrite !Z.add_0_r in U0.
  rewrite U0, !unf_hi by (try assumption; lia). reflexivity.
Qed.
Lemma stores m i : part p (DU fp i) f m0 m -> 0 <= i -> i mod 8 = 0 -> i + 8 <= n ->
  exists m1 m2, stn m (gb p) (go p + i / 2) (map f (four (i / 2))) = Some m1 /\ stn m1 (gb p) (go p + (n / 2 + i / 2)) (map f (four (n / 2 + i / 2))) = Some m2 /\
    esz m1 (gb p) = e /\ part p (DU fp (i + 8)) f m0 m2.
Proof.
  intros P H0 Hi Hn. pose proof (fp_bounds s0 fp p e HC) as (B1 & B2 & B3 & B4 & B5 & B6). destruct (half_bound n i B6 Hi H0 Hn) as (G1 & G2 & G3 & G4). pose proof p_len as PL.
  destruct (part_store p _ f m0 m (i / 2) _ P G1 ltac:(lia) eq_refl p_some) as (m1 & E1 & P1).
  destruct (part_store p _ f m0 m1 (n / 2 + i / 2) _ P1 ltac:(lia) ltac:(lia) eq_refl p_some) as (m2 & E2 & P2).
  exists m1, m2. split; [exact E1|]. split; [exact E2|]. split; [exact (up_esz _ _ P1)|]. revert P2. apply part_ext. intros j Hj. unfold add4, DU. rewrite G4.
  set (h := n / 2) in *. set (t := i / 2) in *. clearbody h t. clear -G1 G2 Hj.
  destruct (Z.ltb_spec j t), (Z.leb_spec h j), (Z.ltb_spec j (h + t)), (Z.leb_spec t j), (Z.ltb_spec j (t + 4)), (Z.leb_spec (h + t) j), (Z.ltb_spec j (h + t + 4)), (Z.ltb_spec j (h + (t + 4))); cbn [orb andb]; try reflexivity; lia.
Qed.
Variable K : state f64 -> Prop.
Definition JU (s : state f64) (i : Z) : Prop :=
  K s /\ rg s AX = WP (gb p) (e * go p) /\ rg s CX = WP (gb fp) (8 * go fp) /\ rg s DX = WI n /\ rg s BX = WI (n / 2 + i / 2) /\ rg s SI = WI i /\ rg s DI = WI (i / 2) /\
  part p (DU fp i) f m0 (mm s).
Lemma JU_end s : JU s n -> window p f m0 (mm s).
Proof.
  intros (_ & _ & _ & _ & _ & _ & _ & P). apply (part_window p _ f m0 (mm s)) in P; [exact P|]. intros j Hj. rewrite p_len in Hj. unfold DU.
  pose proof (fp_bounds s0 fp p e HC) as (B1 & B2 & B3 & B4 & B5 & B6). assert (H2 : n / 2 + n / 2 = n). { pose proof (Z.div_mod n 8 ltac:(lia)) as D. rewrite B6 in D. replace n with (4 * (n / 8) * 2) at 1 2 by lia. rewrite Z.div_mul by lia. lia. }
  destruct (Z.ltb_spec j (n / 2)), (Z.leb_spec (n / 2) j), (Z.ltb_spec j (n / 2 + n / 2)); cbn [orb andb]; try reflexivity; lia.
Qed.
Lemma JU_start s : K s -> rg s AX = WP (gb p) (e * go p) -> rg s CX = WP (gb fp) (8 * go fp) -> rg s DX = WI n -> rg s BX = WI (n / 2) -> rg s SI = WI 0 -> rg s DI = WI 0 -> mm s = m0 -> JU s 0.
Proof.
  intros HK H1 H2 H3 H4 H5 H6 H7. split; [exact HK|]. change (0 / 2) with 0. rewrite Z.add_0_r. do 6 (split; [assumption|]). rewrite H7.
  pose proof (fp_bounds s0 fp p e HC) as (B1 & B2 & _). apply (part_ext p (fun _ => false)); [|apply part0]. intros j Hj. unfold DU. change (0 / 2) with 0. destruct (Z.ltb_spec j 0), (Z.leb_spec (n / 2) j), (Z.ltb_spec j (n / 2 + 0)); cbn [orb andb]; try reflexivity; lia.
Qed.
(** The counters. *)
Lemma ucnt s i m2 : JU s i -> 0 <= i -> i mod 8 = 0 -> i + 8 <= n ->
  (forall s1 r v, K s1 -> K (setr s1 r v)) -> (forall s1 v, K s1 -> K (setfl s1 v)) -> (forall s1 v, K s1 -> K (setmm s1 v)) ->
  part p (DU fp (i + 8)) f m0 m2 ->
  exists s', ex F64 E [Ins ADDQ [I 8; R SI]; Ins ADDQ [I 4; R DI]; Ins ADDQ [I 4; R BX]] (setmm s m2) = Next s' /\ JU s' (i + 8).
Proof.
  intros J H0 Hi Hn Kr Kf Km P2. destruct J as (Ks & Ra & Rc & Rd & Rb & Rs & Ri & P).
  pose proof (fp_bounds s0 fp p e HC) as (B1 & B2 & B3 & B4 & B5 & B6). destruct (half_bound n i B6 Hi H0 Hn) as (G1 & G2 & G3 & G4).
  eexists. split.
  - rewrite (ex_addI F64 E 8 SI _ _ i) by (try exact Rs; lia).
    rewrite (ex_addI F64 E 4 DI _ _ (i / 2)) by (try (lk; exact Ri); lia).
    rewrite (ex_addI F64 E 4 BX _ _ (n / 2 + i / 2)) by (try (lk; exact Rb); lia).
    reflexivity.
  - split; [apply Kf, Kr, Kf, Kr, Kf, Kr, Km; exact Ks|]. lk. rewrite G4.
    split; [exact Ra|]. split; [exact Rc|]. split; [exact Rd|]. split; [f_equal; lia|]. split; [reflexivity|]. split; [reflexivity|]. exact P2.
Qed.
End Unfold.

Section Tails.
Variables (s0 : state f64) (fp p : gslice) (conv : f64 -> Z) (acc : Z -> Z -> Z) (K : state f64 -> Prop).
Hypothesis (Kr : forall s1 r v, K s1 -> K (setr s1 r v)) (Kf : forall s1 v, K s1 -> K (setfl s1 v)) (Km : forall s1 v, K s1 -> K (setmm s1 v)).
Notation n := (gn fp).
Lemma utail32 (HC : fold_call s0 fp p 4) s i r1 r2 : JU s0 fp p 4 conv acc K s i -> 0 <= i -> i mod 8 = 0 -> i + 8 <= n ->
  vr s r1 = YI (map (ures s0 fp p 4 conv acc) (four (i / 2)) ++ repeat 0 4) -> vr s r2 = YI (map (ures s0 fp p 4 conv acc) (four (n / 2 + i / 2)) ++ repeat 0 4) ->
  exists s', ex F64 (mkEnv (frameTU p 4 fp 8) foldData) [Ins VMOVDQU [X r1; MI 0 AX DI 4]; Ins VMOVDQU [X r2; MI 0 AX BX 4]; Ins ADDQ [I 8; R SI]; Ins ADDQ [I 4; R DI]; Ins ADDQ [I 4; R BX]] s = Next s'
    /\ JU s0 fp p 4 conv acc K s' (i + 8).
Proof.
  intros J H0 Hi Hn V1 V2. pose proof J as (Ks & Ra & Rc & Rd & Rb & Rs & Ri & P).
  pose proof (fp_bounds s0 fp p 4 HC) as (B1 & B2 & B3 & B4 & B5 & B6). destruct (half_bound n i B6 Hi H0 Hn) as (G1 & G2 & G3 & G4).
  destruct (stores s0 fp p 4 HC conv acc (mm s) i P H0 Hi Hn) as (m1 & m2 & E1 & E2 & Z1 & P2).
  destruct (ucnt s0 fp p 4 HC conv acc K s i m2 J H0 Hi Hn Kr Kf Km P2) as (s' & X & J').
  exists s'. split; [|exact J']. rewrite <- X.
  rewrite (st_X F64 _ 0 AX DI 4 r1 _ s (gb p) (4 * go p) (i / 2) (map (ures s0 fp p 4 conv acc) (four (i / 2))) m1 Ra Ri V1 eq_refl).
  2: { rewrite swrap64_id by lia. rewrite (vst_I4 F64 (mm s) (gb p) (go p + i / 2)); [rewrite map_map; exact E1|reflexivity|exact (up_esz s0 fp p 4 HC conv acc _ _ P)|lia]. }
  rewrite (st_X F64 _ 0 AX BX 4 r2 _ (setmm s m1) (gb p) (4 * go p) (n / 2 + i / 2) (map (ures s0 fp p 4 conv acc) (four (n / 2 + i / 2))) m2 Ra Rb V2 eq_refl).
  2: { rewrite swrap64_id by lia. cbn [mm setmm]. rewrite (vst_I4 F64 m1 (gb p) (go p + (n / 2 + i / 2))); [rewrite map_map; exact E2|reflexivity|exact Z1|lia]. }
  reflexivity.
Qed.
Lemma utail64 (HC : fold_call s0 fp p 8) s i r1 r2 z1 z2 : JU s0 fp p 8 conv acc K s i -> 0 <= i -> i mod 8 = 0 -> i + 8 <= n ->
  vr s r1 = YI z1 -> vr s r2 = YI z2 -> HQ F64 (i / 2) (YI z1) (ures s0 fp p 8 conv acc) -> HQ F64 (n / 2 + i / 2) (YI z2) (ures s0 fp p 8 conv acc) ->
  exists s', ex F64 (mkEnv (frameTU p 8 fp 8) foldData) [Ins VMOVDQU [Y r1; MI 0 AX DI 8]; Ins VMOVDQU [Y r2; MI 0 AX BX 8]; Ins ADDQ [I 8; R SI]; Ins ADDQ [I 4; R DI]; Ins ADDQ [I 4; R BX]] s = Next s'
    /\ JU s0 fp p 8 conv acc K s' (i + 8).
Proof.
  intros J H0 Hi Hn V1 V2 Q1 Q2. pose proof J as (Ks & Ra & Rc & Rd & Rb & Rs & Ri & P).
  pose proof (fp_bounds s0 fp p 8 HC) as (B1 & B2 & B3 & B4 & B5 & B6). destruct (half_bound n i B6 Hi H0 Hn) as (G1 & G2 & G3 & G4).
  destruct (stores s0 fp p 8 HC conv acc (mm s) i P H0 Hi Hn) as (m1 & m2 & E1 & E2 & Z1 & P2).
  destruct (ucnt s0 fp p 8 HC conv acc K s i m2 J H0 Hi Hn Kr Kf Km P2) as (s' & X & J').
  exists s'. split; [|exact J']. rewrite <- X.
  rewrite (st_Y F64 _ VMOVDQU 0 AX DI 8 r1 _ s (gb p) (8 * go p) (i / 2) (YI z1) m1 (or_introl eq_refl) Ra Ri V1).
  2: { rewrite swrap64_id by lia. rewrite (vst_I8 F64 (mm s) (gb p) (go p + i / 2) _ (i / 2) (ures s0 fp p 8 conv acc) z1 Q1); [exact E1|exact (up_esz s0 fp p 8 HC conv acc _ _ P)|lia]. }
  rewrite (st_Y F64 _ VMOVDQU 0 AX BX 8 r2 _ (setmm s m1) (gb p) (8 * go p) (n / 2 + i / 2) (YI z2) m2 (or_introl eq_refl) Ra Rb V2).
  2: { rewrite swrap64_id by lia. cbn [mm setmm]. rewrite (vst_I8 F64 m1 (gb p) (go p + (n / 2 + i / 2)) _ (n / 2 + i / 2) (ures s0 fp p 8 conv acc) z2 Q2); [exact E2|exact Z1|lia]. }
  reflexivity.
Qed.
End Tails.
