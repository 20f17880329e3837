(** The sixteen kernels of math/vec/asm_vec_amd64.s. *)
From Coq Require Import String Lia.
From Verif Require Import Base ModelNum ModelAsm ModelAsmInt SpecAsm PfAsm PfAsmVec.
Import ListNotations.
Open Scope Z_scope.

Ltac regs := repeat match goal with H : rg _ _ = _ |- _ => progress rewrite H | H : vr _ _ = _ |- _ => progress rewrite H end.
Ltac lists := cbn [map map2 seq firstn splitl flat_map splitq app joinq Z.to_nat Pos.to_nat Pos.iter_op Nat.add asI repeat].
Ltac modz := repeat (rewrite ?Zplus_mod_idemp_l, ?Zplus_mod_idemp_r, ?Zminus_mod_idemp_l, ?Zminus_mod_idemp_r, ?Zmult_mod_idemp_l, ?Zmult_mod_idemp_r, ?Z.mod_mod by discriminate).
Ltac small := repeat match goal with H : 0 <= ?x < 2 ^ (8 * _) |- context [?x mod ?q] => rewrite (Z.mod_small x q) by exact H end.
Ltac fin := unfold wrap; change (8 * 4) with 32; change (8 * 8) with 64; small; modz; f_equal; try ring.

Lemma lim_eq c n : 0 <= c < 64 -> 0 <= n < 2 ^ 59 -> wrap (8 * 8) (Z.shiftl (wrap (8 * 8) (Z.shiftr n (wrap 64 c))) (wrap 64 c)) = 2 ^ c * (n / 2 ^ c).
Proof.
  intros Hc Hn. change (8 * 8) with 64. rewrite (wrap64_id c) by lia. rewrite Z.shiftr_div_pow2, Z.shiftl_mul_pow2 by lia.
  pose proof (Z.pow_pos_nonneg 2 c ltac:(lia) ltac:(lia)) as P. pose proof (Z.mul_div_le n (2 ^ c) P). pose proof (Z.div_pos n (2 ^ c) ltac:(lia) P).
  rewrite (wrap64_id (n / 2 ^ c)) by nia. rewrite wrap64_id; [lia|]. nia.
Qed.
Ltac step1 := first [progress cc | progress regs | progress unfold arith].
Ltac lanes := lists; rewrite ?joinq_splitl; lists; repeat (f_equal; []); try reflexivity; repeat f_equal.

(** The two loop bodies; [L] rewrites the loads. *)
Ltac pre_tac := eexists; split; [cc; cbn; reflexivity|]; cc; repeat split; try reflexivity;
  try (cbn [Nat.eqb rid]; f_equal; refine (lim_eq _ _ _ _); lia).


Lemma inc_eq i c : 0 <= i -> i < 2 ^ 59 -> 0 <= c <= 8 -> wrap (8 * 8) (i + wrap 64 c) = i + c.
Proof. intros H1 H2 H3. change (8 * 8) with 64. rewrite (wrap64_id c) by lia. apply wrap64_id. lia. Qed.

(** [stv e k lane]: execute a vector body up to and past its store. *)
Ltac stv F s0 o So W Hi e k lane :=
  match goal with |- context [vst F (mm ?s) 32 (gb o, e * go o + swrap 64 ?i * e + 0) ?y] =>
    let m' := fresh "m'" in let Em := fresh "Em" in let Wm := fresh "Wm" in
    destruct (Wv F s0 o _ s i e ltac:(auto) W Hi So y k eq_refl ltac:(lia)) as (m' & Em & Wm);
    [cbn [Z.eqb Pos.eqb asI]; change (Z.to_nat 8) with 8%nat; change (Z.to_nat 4) with 4%nat; lists; rewrite ?joinq_splitl; lists; lane
    |intros; eexists; reflexivity
    |exact Logic.I
    |repeat first [step1 | rewrite Em]] end.
Ltac post_v := eexists; split; [reflexivity|]; split;
  [split; [repeat split; cc; assumption|]; split; [cc; assumption|]; split;
    [cc; f_equal; apply inc_eq; lia|cc; assumption]
  |cc; assumption].
Ltac sts F s0 o So W Hi e lane :=
  match goal with |- context [stw (mm ?s) e (gb o, e * go o + swrap 64 ?i * e + 0) ?x] =>
    let Em := fresh "Em" in let Wm := fresh "Wm" in
    destruct (Ws s0 o _ s i e ltac:(auto) W Hi So x ltac:(lia)) as (Em & Wm);
    [cbv beta; f_equal; lane|repeat first [step1 | rewrite Em]] end.
Ltac post_s := eexists; split; [reflexivity|];
  split; [repeat split; cc; assumption|]; split; [cc; assumption|]; split;
    [cc; f_equal; apply inc_eq; lia|cc; assumption].
Lemma jn q : q mod 2 ^ 32 + 2 ^ 32 * (q / 2 ^ 32) = q.
Proof. rewrite Z.add_comm. symmetry. apply Z.div_mod. discriminate. Qed.
Lemma pshufd_b1 a0 a1 a2 a3 a4 a5 a6 a7 : pshufd 177 [a0; a1; a2; a3; a4; a5; a6; a7] = [a1; a0; a3; a2; a5; a4; a7; a6].
Proof. reflexivity. Qed.
Ltac lane_v := rewrite ?jn; repeat apply (f_equal2 (@cons Z)); try reflexivity; fin.

Definition mul64_l x y := mul64_lane x y : wrap 64 (wrap 64 (2 ^ 32 * Z.land (wrap 32 (y / 2 ^ 32 * (x mod 2 ^ 32))) (2 ^ 32 - 1) + wrap 64 (Z.shiftl (wrap 32 (y mod 2 ^ 32 * (x / 2 ^ 32)) + 2 ^ 32 * wrap 32 (y / 2 ^ 32 * (x mod 2 ^ 32))) 32)) + (y mod 2 ^ 32) * (x mod 2 ^ 32)) = (y * x) mod 2 ^ 64.
Ltac lane_m := rewrite ?pshufd_b1; lists; rewrite ?jn;
  change (18446744069414584320 mod 2 ^ 32) with 0; change (18446744069414584320 / 2 ^ 32) with (2 ^ 32 - 1); change (32 <? 64) with true; cbv iota;
  rewrite ?Z.land_0_r, ?Z.add_0_l, ?mul64_l; repeat apply (f_equal2 (@cons Z)); try reflexivity; fin.

Section Bin.
Context {A : Type}.
Variable F : fops A.
Variable s0 : state A.
Notation m0 := (mm s0).
Variables o v0 v1 : gslice.
Notation n := (gn o).
Hypothesis Hn0 : gn v0 = n.
Hypothesis Hn1 : gn v1 = n.
Hypothesis Hf0 : no_fwd o v0.
Hypothesis Hf1 : no_fwd o v1.
Definition K3 (e : Z) (s : state A) := rg s AX = WP (gb o) (e * go o) /\ rg s CX = WP (gb v0) (e * go v0) /\ rg s DX = WP (gb v1) (e * go v1).

Definition K3m (e : Z) (s : state A) := rg s AX = WP (gb o) (e * go o) /\ rg s CX = WP (gb v0) (e * go v0) /\ rg s DX = WP (gb v1) (e * go v1) /\
  vr s 0%nat = YI (splitl (repeat 18446744069414584320 4)).

Section W.
Variable e : Z.
Hypothesis So : islice m0 e o.
Hypothesis S0 : islice m0 e v0.
Hypothesis S1 : islice m0 e v1.
Notation E := (mkEnv (frame3 o v0 v1 e) intData).

Ltac pat3 H := destruct H as (Ra & Rc & Rd).
Ltac pat3m H := destruct H as (Ra & Rc & Rd & Ym).
Ltac kernel KK pat e k lv ls :=
  pose proof So as (So1 & So2 & So3 & So4 & _);
  refine (shape F s0 o _ _ _ _ SI BX k KK _ _ _ _ _ _ _ _ _); try lia; try discriminate;
  [intros s x H; exact H
  |unfold K3, K3m; pre_tac
  |intros s i (HKK & Rb & Ri & W) Rs Hi Hk; pat HKK;
    pose proof (Lv s0 o _ s i v0 e ltac:(auto) W Hi S0 Hf0 k eq_refl ltac:(lia)) as L0;
    pose proof (Lv s0 o _ s i v1 e ltac:(auto) W Hi S1 Hf1 k eq_refl ltac:(lia)) as L1;
    pose proof (Lv s0 o _ s i o e ltac:(auto) W Hi So (no_fwd_refl o) k eq_refl ltac:(lia)) as Lo;
    repeat first [step1 | rewrite L0 | rewrite L1 | rewrite Lo];
    stv F s0 o So W Hi e k lv; post_v
  |intros s i (HKK & Rb & Ri & W) Hi Hk; pat HKK;
    pose proof (Ls s0 o _ s i v0 e ltac:(auto) W Hi S0 Hf0 ltac:(lia)) as L0;
    pose proof (Ls s0 o _ s i v1 e ltac:(auto) W Hi S1 Hf1 ltac:(lia)) as L1;
    pose proof (Ls s0 o _ s i o e ltac:(auto) W Hi So (no_fwd_refl o) ltac:(lia)) as Lo;
    pose proof (proj2 (islice_get m0 e v0 i S0 ltac:(lia))) as Q0;
    pose proof (proj2 (islice_get m0 e v1 i S1 ltac:(lia))) as Q1;
    pose proof (proj2 (islice_get m0 e o i So ltac:(lia))) as Qo;
    repeat first [step1 | rewrite L0 | rewrite L1 | rewrite Lo];
    sts F s0 o So W Hi e ls; post_s].

Lemma add32 : e = 4 -> terminates F E addToUint32AVX2 s0 (window o (fun i => WI ((ival m0 v0 i + ival m0 v1 i) mod 2 ^ 32)) m0).
Proof. intros ->. kernel (K3 4) pat3 4 8 lane_v fin. Qed.
Lemma sub32 : e = 4 -> terminates F E subToUint32AVX2 s0 (window o (fun i => WI ((ival m0 v0 i - ival m0 v1 i) mod 2 ^ 32)) m0).
Proof. intros ->. kernel (K3 4) pat3 4 8 lane_v fin. Qed.
Lemma mul32 : e = 4 -> terminates F E mulToUint32AVX2 s0 (window o (fun i => WI ((ival m0 v0 i * ival m0 v1 i) mod 2 ^ 32)) m0).
Proof. intros ->. kernel (K3 4) pat3 4 8 lane_v fin. Qed.
Lemma mulAdd32 : e = 4 -> terminates F E mulAddToUint32AVX2 s0 (window o (fun i => WI ((ival m0 o i + ival m0 v0 i * ival m0 v1 i) mod 2 ^ 32)) m0).
Proof. intros ->. kernel (K3 4) pat3 4 8 lane_v fin. Qed.
Lemma mulSub32 : e = 4 -> terminates F E mulSubToUint32AVX2 s0 (window o (fun i => WI ((ival m0 o i - ival m0 v0 i * ival m0 v1 i) mod 2 ^ 32)) m0).
Proof. intros ->. kernel (K3 4) pat3 4 8 lane_v fin. Qed.
Lemma add64 : e = 8 -> terminates F E addToUint64AVX2 s0 (window o (fun i => WI ((ival m0 v0 i + ival m0 v1 i) mod 2 ^ 64)) m0).
Proof. intros ->. kernel (K3 8) pat3 8 4 lane_v fin. Qed.
Lemma sub64 : e = 8 -> terminates F E subToUint64AVX2 s0 (window o (fun i => WI ((ival m0 v0 i - ival m0 v1 i) mod 2 ^ 64)) m0).
Proof. intros ->. kernel (K3 8) pat3 8 4 lane_v fin. Qed.
Lemma mul64 : e = 8 -> terminates F E mulToUint64AVX2 s0 (window o (fun i => WI ((ival m0 v0 i * ival m0 v1 i) mod 2 ^ 64)) m0).
Proof. intros ->. kernel (K3m 8) pat3m 8 4 lane_m fin. Qed.

Lemma mulAdd64 : e = 8 -> terminates F E mulAddToUint64AVX2 s0 (window o (fun i => WI ((ival m0 o i + ival m0 v0 i * ival m0 v1 i) mod 2 ^ 64)) m0).
Proof. intros ->. kernel (K3m 8) pat3m 8 4 lane_m fin. Qed.
Lemma mulSub64 : e = 8 -> terminates F E mulSubToUint64AVX2 s0 (window o (fun i => WI ((ival m0 o i - ival m0 v0 i * ival m0 v1 i) mod 2 ^ 64)) m0).
Proof. intros ->. kernel (K3m 8) pat3m 8 4 lane_m fin. Qed.
End W.
End Bin.

Section Sc.
Context {A : Type}.
Variable F : fops A.
Variable s0 : state A.
Notation m0 := (mm s0).
Variables o v : gslice.
Variable c : Z.
Notation n := (gn o).
Hypothesis Hn0 : gn v = n.
Hypothesis Hf0 : no_fwd o v.
Definition Ks (s : state A) := rg s AX = WP (gb o) (4 * go o) /\ rg s CX = WP (gb v) (4 * go v) /\ rg s SI = WI c /\ vr s 0%nat = YI (repeat c 8).
Definition Ksm (s : state A) := rg s AX = WP (gb o) (8 * go o) /\ rg s CX = WP (gb v) (8 * go v) /\ rg s SI = WI c /\
  vr s 0%nat = YI (splitl (repeat 18446744069414584320 4)) /\ vr s 1%nat = YI (splitl (repeat c 4)) /\ vr s 2%nat = YI (pshufd 177 (splitl (repeat c 4))).

Section W.
Variable e : Z.
Hypothesis So : islice m0 e o.
Hypothesis S0 : islice m0 e v.
Hypothesis Hc : 0 <= c < 2 ^ (8 * e).
Notation E := (mkEnv (frame2c o v e (WI c)) intData).
Ltac pats H := destruct H as (Ra & Rc & Rs' & Y0).
Ltac patsm H := destruct H as (Ra & Rc & Rs' & Y0 & Y1 & Y2).
Ltac kernel KK pat e k lv ls :=
  pose proof So as (So1 & So2 & So3 & So4 & _);
  refine (shape F s0 o _ _ _ _ BX DX k KK _ _ _ _ _ _ _ _ _); try lia; try discriminate;
  [intros s x H; exact H
  |unfold Ks, Ksm; pre_tac
  |intros s i (HKK & Rb & Ri & W) Rs Hi Hk; pat HKK;
    pose proof (Lv s0 o _ s i v e ltac:(auto) W Hi S0 Hf0 k eq_refl ltac:(lia)) as L0;
    pose proof (Lv s0 o _ s i o e ltac:(auto) W Hi So (no_fwd_refl o) k eq_refl ltac:(lia)) as Lo;
    repeat first [step1 | rewrite L0 | rewrite Lo];
    stv F s0 o So W Hi e k lv; post_v
  |intros s i (HKK & Rb & Ri & W) Hi Hk; pat HKK;
    pose proof (Ls s0 o _ s i v e ltac:(auto) W Hi S0 Hf0 ltac:(lia)) as L0;
    pose proof (Ls s0 o _ s i o e ltac:(auto) W Hi So (no_fwd_refl o) ltac:(lia)) as Lo;
    pose proof (proj2 (islice_get m0 e v i S0 ltac:(lia))) as Q0;
    pose proof (proj2 (islice_get m0 e o i So ltac:(lia))) as Qo;
    repeat first [step1 | rewrite L0 | rewrite Lo];
    sts F s0 o So W Hi e ls; post_s].

Lemma smul32 : e = 4 -> terminates F E scalarMulToUint32AVX2 s0 (window o (fun i => WI ((c * ival m0 v i) mod 2 ^ 32)) m0).
Proof. intros ->. kernel Ks pats 4 8 lane_v fin. Qed.
Lemma smulAdd32 : e = 4 -> terminates F E scalarMulAddToUint32AVX2 s0 (window o (fun i => WI ((ival m0 o i + c * ival m0 v i) mod 2 ^ 32)) m0).
Proof. intros ->. kernel Ks pats 4 8 lane_v fin. Qed.
Lemma smulSub32 : e = 4 -> terminates F E scalarMulSubToUint32AVX2 s0 (window o (fun i => WI ((ival m0 o i - c * ival m0 v i) mod 2 ^ 32)) m0).
Proof. intros ->. kernel Ks pats 4 8 lane_v fin. Qed.
Lemma smul64 : e = 8 -> terminates F E scalarMulToUint64AVX2 s0 (window o (fun i => WI ((c * ival m0 v i) mod 2 ^ 64)) m0).
Proof. intros ->. kernel Ksm patsm 8 4 lane_m fin. Qed.
Lemma smulAdd64 : e = 8 -> terminates F E scalarMulAddToUint64AVX2 s0 (window o (fun i => WI ((ival m0 o i + c * ival m0 v i) mod 2 ^ 64)) m0).
Proof. intros ->. kernel Ksm patsm 8 4 lane_m fin. Qed.
Lemma smulSub64 : e = 8 -> terminates F E scalarMulSubToUint64AVX2 s0 (window o (fun i => WI ((ival m0 o i - c * ival m0 v i) mod 2 ^ 64)) m0).
Proof. intros ->. kernel Ksm patsm 8 4 lane_m fin. Qed.
End W.
End Sc.
