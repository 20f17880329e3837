(** Lemmas for the kernels of asm_fold_amd64.s: lanes as functions of the index, partial writes. *)
From Coq Require Import String Lia.
From Verif Require Import Base ModelNum ModelAsm ModelAsmInt SpecAsm PfAsm PfAsmStep.
Import ListNotations.
Open Scope Z_scope.

(** ** Bitwise operations on the two halves of a quad word *)
Lemma halves x y : x mod 2 ^ 32 = y mod 2 ^ 32 -> x / 2 ^ 32 = y / 2 ^ 32 -> x = y.
Proof. intros H1 H2. rewrite (Z.div_mod x (2 ^ 32)), (Z.div_mod y (2 ^ 32)), H1, H2 by discriminate. reflexivity. Qed.
Lemma join_halves a b : 0 <= a < 2 ^ 32 -> (a + 2 ^ 32 * b) mod 2 ^ 32 = a /\ (a + 2 ^ 32 * b) / 2 ^ 32 = b.
Proof.
  intros H. rewrite (Z.mul_comm (2 ^ 32) b), Z.mod_add, Z.div_add by discriminate. rewrite Z.mod_small, Z.div_small by exact H. split; lia.
Qed.
Lemma land_mod a b : Z.land (a mod 2 ^ 32) (b mod 2 ^ 32) = Z.land a b mod 2 ^ 32.
Proof. rewrite <- !Z.land_ones by lia. apply Z.bits_inj'. intros n Hn. rewrite !Z.land_spec. destruct (Z.testbit a n), (Z.testbit b n), (Z.testbit (Z.ones 32) n); reflexivity. Qed.
Lemma lor_mod a b : Z.lor (a mod 2 ^ 32) (b mod 2 ^ 32) = Z.lor a b mod 2 ^ 32.
Proof. rewrite <- !Z.land_ones by lia. apply Z.bits_inj'. intros n Hn. rewrite !Z.land_spec, !Z.lor_spec, !Z.land_spec. destruct (Z.testbit a n), (Z.testbit b n), (Z.testbit (Z.ones 32) n); reflexivity. Qed.
Lemma lxor_mod a b : Z.lxor (a mod 2 ^ 32) (b mod 2 ^ 32) = Z.lxor a b mod 2 ^ 32.
Proof. rewrite <- !Z.land_ones by lia. apply Z.bits_inj'. intros n Hn. rewrite !Z.land_spec, !Z.lxor_spec, !Z.land_spec. destruct (Z.testbit a n), (Z.testbit b n), (Z.testbit (Z.ones 32) n); reflexivity. Qed.
Lemma land_div a b : Z.land (a / 2 ^ 32) (b / 2 ^ 32) = Z.land a b / 2 ^ 32.
Proof. rewrite <- !Z.shiftr_div_pow2 by lia. symmetry. apply Z.shiftr_land. Qed.
Lemma lor_div a b : Z.lor (a / 2 ^ 32) (b / 2 ^ 32) = Z.lor a b / 2 ^ 32.
Proof. rewrite <- !Z.shiftr_div_pow2 by lia. symmetry. apply Z.shiftr_lor. Qed.
Lemma lxor_div a b : Z.lxor (a / 2 ^ 32) (b / 2 ^ 32) = Z.lxor a b / 2 ^ 32.
Proof. rewrite <- !Z.shiftr_div_pow2 by lia. symmetry. apply Z.shiftr_lxor. Qed.
Lemma bytes a : 0 <= a < 2 ^ 32 -> (a / 1) mod 256 * 1 + ((a / 256) mod 256 * 256 + ((a / 65536) mod 256 * 65536 + ((a / 16777216) mod 256 * 16777216 + 0))) = a.
Proof.
  intros H. rewrite Z.div_1_r, Z.mul_1_r.
  replace (a / 65536) with (a / 256 / 256) by (rewrite Z.div_div by lia; reflexivity).
  replace (a / 16777216) with (a / 256 / 256 / 256) by (rewrite !Z.div_div by lia; reflexivity).
  pose proof (Z.div_mod a 256 ltac:(lia)). pose proof (Z.div_mod (a / 256) 256 ltac:(lia)). pose proof (Z.div_mod (a / 256 / 256) 256 ltac:(lia)).
  assert ((a / 256 / 256 / 256) mod 256 = a / 256 / 256 / 256).
  { apply Z.mod_small. rewrite !Z.div_div by lia. split; [apply Z.div_pos; lia|apply Z.div_lt_upper_bound; lia]. }
  lia.
Qed.
Lemma blendb_0 a b : 0 <= b < 2 ^ 32 -> blendb 0 a b = b.
Proof. intros H. unfold blendb. cbn [map fold_right]. rewrite !Z.bits_0. exact (bytes b H). Qed.
Lemma blendb_1 a b : 0 <= a < 2 ^ 32 -> blendb (2 ^ 32 - 1) a b = a.
Proof. intros H. unfold blendb. cbn [map fold_right]. change (2 ^ 32 - 1) with (Z.ones 32). rewrite !Z.ones_spec_low by (cbn; lia). exact (bytes a H). Qed.

Definition four (q : Z) : list Z := [q; q + 1; q + 2; q + 3].

(** ** Lanes *)
Section Lanes.
Context {T : Type}.
Variable F : fops T.
Variable E : env T.
Notation ex := (ex F E).
Variable q : Z.
Notation l := (four q).
(** The register holds the quad words g j, j = q .. q + 3. *)
Definition HQ (y : yval T) (g : Z -> Z) : Prop := asI F y = splitl (map g l).
Definition HF (y : yval T) (g : Z -> T) : Prop := asF F y = map g l.
Lemma HQ_ext y g g' : (forall j, q <= j < q + 4 -> g j = g' j) -> HQ y g -> HQ y g'.
Proof. intros H Hy. unfold HQ in *. rewrite Hy. f_equal. unfold four. cbn [map]. rewrite !H by lia. reflexivity. Qed.
Lemma HQ_F (h : Z -> T) : HQ (YF (map h l)) (fun j => fbits F (h j)). Proof. reflexivity. Qed.
Lemma HF_F (h : Z -> T) : HF (YF (map h l)) h. Proof. reflexivity. Qed.
Lemma HQ_HF z g : HQ (YI z) g -> HF (YI z) (fun j => fofbits F (g j)).
Proof. intros H. unfold HQ, HF in *. cbn [asF asI] in *. rewrite H, joinq_splitl, map_map. reflexivity. Qed.
Lemma HQ_const c : HQ (YI (splitl (repeat c 4))) (fun _ => c). Proof. reflexivity. Qed.
Lemma HQ_zero : HQ (YI (repeat 0 8)) (fun _ => 0). Proof. reflexivity. Qed.

Lemma q_and a b d ga gb is s : HQ (vr s a) ga -> HQ (vr s b) gb -> exists z, HQ (YI z) (fun j => Z.land (gb j) (ga j)) /\ ex (Ins VANDPD [Y a; Y b; Y d] :: is) s = ex is (setvr s d (YI z)).
Proof. intros Ha Hb; eexists; split; [|apply ex_cons; cbn [exec1 dop vget vset]; reflexivity]; unfold HQ in *; cbn [asI]; rewrite Ha, Hb; unfold four; cbn [map splitl flat_map splitq app map2]; rewrite !land_mod, !land_div; reflexivity. Qed.
Lemma q_or a b d ga gb is s : HQ (vr s a) ga -> HQ (vr s b) gb -> exists z, HQ (YI z) (fun j => Z.lor (gb j) (ga j)) /\ ex (Ins VORPD [Y a; Y b; Y d] :: is) s = ex is (setvr s d (YI z)).
Proof. intros Ha Hb; eexists; split; [|apply ex_cons; cbn [exec1 dop vget vset]; reflexivity]; unfold HQ in *; cbn [asI]; rewrite Ha, Hb; unfold four; cbn [map splitl flat_map splitq app map2]; rewrite !lor_mod, !lor_div; reflexivity. Qed.
Lemma q_xor a b d ga gb is s : Nat.eqb a b = false -> HQ (vr s a) ga -> HQ (vr s b) gb -> exists z, HQ (YI z) (fun j => Z.lxor (gb j) (ga j)) /\ ex (Ins VPXOR [Y a; Y b; Y d] :: is) s = ex is (setvr s d (YI z)).
Proof. intros Hn Ha Hb; eexists; split; [|apply ex_cons; cbn [exec1 dop vget vset]; rewrite Hn; reflexivity]; unfold HQ in *; cbn [asI]; rewrite Ha, Hb; unfold four; cbn [map splitl flat_map splitq app map2]; rewrite !lxor_mod, !lxor_div; reflexivity. Qed.
Lemma q_op o f a b d ga gb is s : (o = VPADDQ \/ o = VPSUBQ \/ o = VPSRLVQ) -> qop o = Some f -> HQ (vr s a) ga -> HQ (vr s b) gb ->
  exists z, HQ (YI z) (fun j => f (ga j) (gb j)) /\ ex (Ins o [Y a; Y b; Y d] :: is) s = ex is (setvr s d (YI z)).
Proof.
  intros Ho Hf Ha Hb. eexists. split; [|apply ex_cons; destruct Ho as [-> | [-> | ->]]; cbn [exec1]; rewrite Hf; cbn [vget vset]; reflexivity].
  unfold HQ in *. cbn [asI]. rewrite Ha, Hb, !joinq_splitl. unfold four. cbn [map map2]. reflexivity.
Qed.
Lemma q_sh o c f a d ga is s : (o = VPSLLQ \/ o = VPSRLQ) -> shop o c = Some (fun l => splitl (map f (joinq l))) -> HQ (vr s a) ga ->
  exists z, HQ (YI z) (fun j => f (ga j)) /\ ex (Ins o [I c; Y a; Y d] :: is) s = ex is (setvr s d (YI z)).
Proof.
  intros Ho Hf Ha. eexists. split; [|apply ex_cons; destruct Ho as [-> | ->]; cbn [exec1]; rewrite Hf; cbn [vget vset]; reflexivity].
  unfold HQ in *. cbn [asI]. rewrite Ha, joinq_splitl, map_map. reflexivity.
Qed.
Lemma q_blendv k a b d (c : Z -> bool) ga gb is s : HQ (vr s k) (fun j => if c j then 2 ^ 64 - 1 else 0) -> HQ (vr s a) ga -> HQ (vr s b) gb ->
  (forall j, 0 <= ga j < 2 ^ 64) -> (forall j, 0 <= gb j < 2 ^ 64) ->
  exists z, HQ (YI z) (fun j => if c j then ga j else gb j) /\ ex (Ins VPBLENDVB [Y k; Y a; Y b; Y d] :: is) s = ex is (setvr s d (YI z)).
Proof.
  intros Hk Ha Hb Ra Rb. eexists. split; [|apply ex_cons; cbn [exec1 vget vset]; reflexivity].
  unfold HQ in *. cbn [asI]. rewrite Hk, Ha, Hb. unfold four. cbn [map splitl flat_map splitq app map3].
  assert (L : forall j, blendb ((if c j then 2 ^ 64 - 1 else 0) mod 2 ^ 32) (ga j mod 2 ^ 32) (gb j mod 2 ^ 32) = (if c j then ga j else gb j) mod 2 ^ 32).
  { intros j. pose proof (Z.mod_pos_bound (ga j) (2 ^ 32) ltac:(reflexivity)). pose proof (Z.mod_pos_bound (gb j) (2 ^ 32) ltac:(reflexivity)).
    destruct (c j); [change ((2 ^ 64 - 1) mod 2 ^ 32) with (2 ^ 32 - 1); apply blendb_1; assumption|change (0 mod 2 ^ 32) with 0; apply blendb_0; assumption]. }
  assert (U : forall j, blendb ((if c j then 2 ^ 64 - 1 else 0) / 2 ^ 32) (ga j / 2 ^ 32) (gb j / 2 ^ 32) = (if c j then ga j else gb j) / 2 ^ 32).
  { intros j. assert (D : forall x, 0 <= x < 2 ^ 64 -> 0 <= x / 2 ^ 32 < 2 ^ 32) by (intros x Hx; split; [apply Z.div_pos; lia|apply Z.div_lt_upper_bound; lia]).
    destruct (c j); [change ((2 ^ 64 - 1) / 2 ^ 32) with (2 ^ 32 - 1); apply blendb_1, D, Ra|change (0 / 2 ^ 32) with 0; apply blendb_0, D, Rb]. }
  rewrite !L, !U. reflexivity.
Qed.
Lemma q_blendd a b d ga gb is s : HQ (vr s a) ga -> HQ (vr s b) gb ->
  exists z, HQ (YI z) (fun j => ga j mod 2 ^ 32 + 2 ^ 32 * (gb j / 2 ^ 32)) /\ ex (Ins VPBLENDD [I 85; Y a; Y b; Y d] :: is) s = ex is (setvr s d (YI z)).
Proof.
  intros Ha Hb. eexists. split; [|apply ex_cons; cbn [exec1 vget vset]; reflexivity]. unfold HQ in *. cbn [asI]. rewrite Ha, Hb. unfold four.
  cbn [map splitl flat_map splitq app pblendd combine seq fst snd]. unfold pblendd. cbn [map combine seq fst snd].
  change (bit 85 0) with true. change (bit 85 1) with false. change (bit 85 2) with true. change (bit 85 3) with false.
  change (bit 85 4) with true. change (bit 85 5) with false. change (bit 85 6) with true. change (bit 85 7) with false. cbv iota.
  assert (J : forall x y, [x mod 2 ^ 32; y / 2 ^ 32] = splitq (x mod 2 ^ 32 + 2 ^ 32 * (y / 2 ^ 32))).
  { intros x y. unfold splitq. destruct (join_halves (x mod 2 ^ 32) (y / 2 ^ 32) ltac:(apply Z.mod_pos_bound; reflexivity)) as (-> & ->). reflexivity. }
  pose proof (J (ga q) (gb q)) as J0. pose proof (J (ga (q + 1)) (gb (q + 1))) as J1. pose proof (J (ga (q + 2)) (gb (q + 2))) as J2. pose proof (J (ga (q + 3)) (gb (q + 3))) as J3.
  injection J0 as <- <-. injection J1 as <- <-. injection J2 as <- <-. injection J3 as <- <-. reflexivity.
Qed.
Lemma f_op o f a b d ga gb is s : fop2 F o = Some f -> HF (vr s a) ga -> HF (vr s b) gb ->
  ex (Ins o [Y a; Y b; Y d] :: is) s = ex is (setvr s d (YF (map (fun j => f (ga j) (gb j)) l))).
Proof.
  intros Hf Ha Hb. rewrite (ex_f2Y F E o f a b d is s (vr s a) (vr s b) Hf eq_refl eq_refl). unfold HF in *. rewrite Ha, Hb. unfold four. cbn [map map2]. reflexivity.
Qed.
Lemma f_round a d ga is s : HF (vr s a) ga -> ex (Ins VROUNDPD [I 0; Y a; Y d] :: is) s = ex is (setvr s d (YF (map (fun j => fround F (ga j)) l))).
Proof. intros Ha. apply ex_cons. cbn [exec1 vget vset]. unfold HF in Ha. rewrite Ha, map_map. reflexivity. Qed.
End Lanes.
