(** Lemmas for the AVX2 transforms: the coefficients in memory as a list, blocks of butterflies as stores. *)
From Coq Require Import String Lia Ring_theory.
From Verif Require Import Base ModelNum ModelAsm ModelAsmInt ModelAsmFlt SpecAsm PfAsm PfAsmVec PfAsmVec2 ModelFFT SpecAsmFlt PfAsmFlt PfAsmFlt2.
Import ListNotations.
Open Scope Z_scope.

(** Storing a list of values from index q. *)
Fixpoint putl {B} (c : list B) (q : nat) (l : list B) : list B := match l with [] => c | x :: l => putl (upd c q x) (S q) l end.
Lemma putl_length {B} (l : list B) : forall c q, length (putl c q l) = length c.
Proof. induction l as [|x l IH]; intros c q; [reflexivity|]. cbn [putl]. rewrite IH. apply upd_length. Qed.
Lemma putl_nth {B} (d : B) l : forall c q i, (q + length l <= length c)%nat ->
  nth i (putl c q l) d = if Nat.leb q i && Nat.ltb i (q + length l) then nth (i - q) l d else nth i c d.
Proof.
  induction l as [|x l IH]; intros c q i H.
  - cbn [putl length]. destruct (Nat.leb_spec q i), (Nat.ltb_spec i (q + 0)); cbn [andb]; try reflexivity; lia.
  - cbn [putl length] in *. rewrite IH by (rewrite upd_length; lia). rewrite nth_upd_if by lia.
    destruct (Nat.leb_spec (S q) i), (Nat.leb_spec q i), (Nat.ltb_spec i (S q + length l)), (Nat.ltb_spec i (q + S (length l))), (Nat.eqb_spec i q); cbn [andb]; try lia; try reflexivity.
    + replace (i - q)%nat with (S (i - S q)) by lia. reflexivity.
    + subst i. rewrite Nat.sub_diag. reflexivity.
Qed.

Section Bfly.
Variable A : arith.
Notation T := (car A).
Notation get v i := (nth i v (a0 A)).
Variable bf : T -> T -> T -> T -> T -> T -> T * T * T * T.
Lemma bfly_upd w p q r s v x y z u : bf (get v p) (get v q) (get v r) (get v s) (fst w) (snd w) = (x, y, z, u) ->
  bfly A bf w p q r s v = upd (upd (upd (upd v p x) q y) r z) s u.
Proof. intros H. unfold bfly. rewrite H. reflexivity. Qed.
Ltac skip := rewrite ?nth_upd_other by lia.
Lemma nth_upd_eq (l : list T) i k v d : i = k -> (k < length l)%nat -> nth i (upd l k v) d = v.
Proof. intros -> H. now apply nth_upd_same. Qed.
Ltac lanes := first [rewrite nth_upd_other by lia | rewrite nth_upd_eq by (rewrite ?upd_length; lia)].
Lemma block_putl w j t v x0 y0 z0 u0 x1 y1 z1 u1 x2 y2 z2 u2 x3 y3 z3 u3 : (8 <= t)%nat -> (j + t + 8 <= length v)%nat ->
  bf (get v j) (get v (j + 4)%nat) (get v (j + t)%nat) (get v (j + t + 4)%nat) (fst w) (snd w) = (x0, y0, z0, u0) ->
  bf (get v (j + 1)%nat) (get v (j + 4 + 1)%nat) (get v (j + t + 1)%nat) (get v (j + t + 4 + 1)%nat) (fst w) (snd w) = (x1, y1, z1, u1) ->
  bf (get v (j + 2)%nat) (get v (j + 4 + 2)%nat) (get v (j + t + 2)%nat) (get v (j + t + 4 + 2)%nat) (fst w) (snd w) = (x2, y2, z2, u2) ->
  bf (get v (j + 3)%nat) (get v (j + 4 + 3)%nat) (get v (j + t + 3)%nat) (get v (j + t + 4 + 3)%nat) (fst w) (snd w) = (x3, y3, z3, u3) ->
  block A bf w j t v = putl (putl (putl (putl v j [x0; x1; x2; x3]) (j + 4) [y0; y1; y2; y3]) (j + t) [z0; z1; z2; z3]) (j + t + 4) [u0; u1; u2; u3].
Proof.
  intros Ht Hl H0 H1 H2 H3. unfold block. cbn [forN].
  replace (j + 0)%nat with j by lia. replace (j + t + 0)%nat with (j + t)%nat by lia.
  replace (j + 1 + 4)%nat with (j + 4 + 1)%nat by lia. replace (j + t + 1 + 4)%nat with (j + t + 4 + 1)%nat by lia.
  replace (j + 2 + 4)%nat with (j + 4 + 2)%nat by lia. replace (j + t + 2 + 4)%nat with (j + t + 4 + 2)%nat by lia.
  replace (j + 3 + 4)%nat with (j + 4 + 3)%nat by lia. replace (j + t + 3 + 4)%nat with (j + t + 4 + 3)%nat by lia.
  rewrite (bfly_upd w _ _ _ _ v _ _ _ _ H0).
  rewrite (bfly_upd w (j + 1) (j + 4 + 1) (j + t + 1) (j + t + 4 + 1) _ x1 y1 z1 u1) by (skip; exact H1).
  rewrite (bfly_upd w (j + 2) (j + 4 + 2) (j + t + 2) (j + t + 4 + 2) _ x2 y2 z2 u2) by (skip; exact H2).
  rewrite (bfly_upd w (j + 3) (j + 4 + 3) (j + t + 3) (j + t + 4 + 3) _ x3 y3 z3 u3) by (skip; exact H3).
  clear H0 H1 H2 H3. apply (nth_ext _ _ (a0 A) (a0 A)); [rewrite !putl_length, !upd_length; reflexivity|].
  intros i _. cbn [putl].
  assert (i = j \/ i = j + 1 \/ i = j + 2 \/ i = j + 3 \/ i = j + 4 \/ i = j + 4 + 1 \/ i = j + 4 + 2 \/ i = j + 4 + 3 \/
    i = j + t \/ i = j + t + 1 \/ i = j + t + 2 \/ i = j + t + 3 \/ i = j + t + 4 \/ i = j + t + 4 + 1 \/ i = j + t + 4 + 2 \/ i = j + t + 4 + 3 \/
    i < j \/ j + 8 <= i < j + t \/ j + t + 8 <= i)%nat as HC by lia.
  repeat match type of HC with _ \/ _ => destruct HC as [HC | HC] end; repeat lanes; reflexivity.
Qed.
Lemma half2_putl w j v x0 y0 z0 u0 x1 y1 z1 u1 : (j + 8 <= length v)%nat ->
  bf (get v j) (get v (j + 4)%nat) (get v (j + 2)%nat) (get v (j + 6)%nat) (fst w) (snd w) = (x0, y0, z0, u0) ->
  bf (get v (j + 1)%nat) (get v (j + 4 + 1)%nat) (get v (j + 2 + 1)%nat) (get v (j + 6 + 1)%nat) (fst w) (snd w) = (x1, y1, z1, u1) ->
  half2 A bf w j v = putl (putl (putl (putl v j [x0; x1]) (j + 2) [z0; z1]) (j + 4) [y0; y1]) (j + 6) [u0; u1].
Proof.
  intros Hl H0 H1. unfold half2. replace (j + 0)%nat with j by lia.
  replace (j + 5)%nat with (j + 4 + 1)%nat by lia. replace (j + 3)%nat with (j + 2 + 1)%nat by lia. replace (j + 7)%nat with (j + 6 + 1)%nat by lia.
  rewrite (bfly_upd w _ _ _ _ v _ _ _ _ H0).
  rewrite (bfly_upd w (j + 1) (j + 4 + 1) (j + 2 + 1) (j + 6 + 1) _ x1 y1 z1 u1) by (skip; exact H1).
  clear H0 H1. apply (nth_ext _ _ (a0 A) (a0 A)); [rewrite !putl_length, !upd_length; reflexivity|].
  intros i _. cbn [putl].
  assert (i = j \/ i = j + 1 \/ i = j + 2 \/ i = j + 3 \/ i = j + 4 \/ i = j + 4 + 1 \/ i = j + 4 + 2 \/ i = j + 4 + 3 \/ i < j \/ j + 8 <= i)%nat as HC by lia.
  repeat match type of HC with _ \/ _ => destruct HC as [HC | HC] end; repeat lanes; reflexivity.
Qed.
Lemma half1_putl w0 w1 j v x0 y0 z0 u0 x1 y1 z1 u1 : (j + 8 <= length v)%nat ->
  bf (get v j) (get v (j + 4)%nat) (get v (j + 1)%nat) (get v (j + 4 + 1)%nat) (fst w0) (snd w0) = (x0, y0, z0, u0) ->
  bf (get v (j + 2)%nat) (get v (j + 4 + 2)%nat) (get v (j + 3)%nat) (get v (j + 4 + 3)%nat) (fst w1) (snd w1) = (x1, y1, z1, u1) ->
  half1 A bf w0 w1 j v = putl (putl v j [x0; z0; x1; z1]) (j + 4) [y0; u0; y1; u1].
Proof.
  intros Hl H0 H1. unfold half1. replace (j + 0)%nat with j by lia.
  replace (j + 5)%nat with (j + 4 + 1)%nat by lia. replace (j + 6)%nat with (j + 4 + 2)%nat by lia. replace (j + 7)%nat with (j + 4 + 3)%nat by lia.
  rewrite (bfly_upd w0 _ _ _ _ v _ _ _ _ H0).
  rewrite (bfly_upd w1 (j + 2) (j + 4 + 2) (j + 3) (j + 4 + 3) _ x1 y1 z1 u1) by (skip; exact H1).
  clear H0 H1. apply (nth_ext _ _ (a0 A) (a0 A)); [rewrite !putl_length, !upd_length; reflexivity|].
  intros i _. cbn [putl].
  assert (i = j \/ i = j + 1 \/ i = j + 2 \/ i = j + 3 \/ i = j + 4 \/ i = j + 4 + 1 \/ i = j + 4 + 2 \/ i = j + 4 + 3 \/ i < j \/ j + 8 <= i)%nat as HC by lia.
  repeat match type of HC with _ \/ _ => destruct HC as [HC | HC] end; repeat lanes; reflexivity.
Qed.
End Bfly.

(** ** The coefficients and the table in memory *)
Section Mem.
Variable A : arith.
Notation T := (car A).
Notation get v i := (nth i v (a0 A)).
Variable F : fops T.
Variable m0 : mem T.
Variable o : gslice.
Hypothesis So : fslice A m0 o.
Notation N := (Z.to_nat (gn o)).

Lemma bec0 : becomes A o (fvals A m0 o) m0 m0.
Proof.
  split; [apply fvals_length|]. split; [reflexivity|]. intros b i.
  destruct (Nat.eqb_spec b (gb o)) as [-> |], (Z.leb_spec (go o) i), (Z.ltb_spec i (go o + gn o)); cbn [andb]; try reflexivity.
  replace i with (go o + (i - go o)) at 1 by lia. rewrite (floats_get A m0 o (gn o)) by (try exact So; lia). rewrite fvals_nth by lia. reflexivity.
Qed.
Lemma bec_get c m q : becomes A o c m0 m -> (q < N)%nat -> getm m (gb o) (go o + Z.of_nat q) = Some (WF (get c q)).
Proof.
  intros (L & _ & G) Hq. rewrite G, Nat.eqb_refl. destruct (Z.leb_spec (go o) (go o + Z.of_nat q)), (Z.ltb_spec (go o + Z.of_nat q) (go o + gn o)); cbn [andb]; try lia.
  do 2 f_equal. f_equal. lia.
Qed.
Lemma bec_esz c m b : becomes A o c m0 m -> esz m b = esz m0 b. Proof. intros (_ & G & _). apply G. Qed.
Lemma bec_ld4 c m q a : becomes A o c m0 m -> (q + 4 <= N)%nat -> a = 8 * (go o + Z.of_nat q) ->
  vld m 32 (gb o, a) = Some (YF [get c q; get c (q + 1)%nat; get c (q + 2)%nat; get c (q + 3)%nat]).
Proof.
  intros B Hq Ha. rewrite (vldF4 A m (gb o) (go o + Z.of_nat q) a (fun j => get c (q + Z.to_nat j)%nat)).
  - change (Z.to_nat 0) with 0%nat. rewrite Nat.add_0_r. reflexivity.
  - rewrite (bec_esz c m _ B). apply So.
  - exact Ha.
  - intros j Hj. rewrite <- (bec_get c m (q + Z.to_nat j) B) by lia. f_equal. lia.
Qed.
Lemma bec_ld2 c m q a : becomes A o c m0 m -> (q + 2 <= N)%nat -> a = 8 * (go o + Z.of_nat q) ->
  vld m 16 (gb o, a) = Some (YF [get c q; get c (q + 1)%nat]).
Proof.
  intros B Hq Ha. rewrite (vldF2 A m (gb o) (go o + Z.of_nat q) a (fun j => get c (q + Z.to_nat j)%nat)).
  - change (Z.to_nat 0) with 0%nat. rewrite Nat.add_0_r. reflexivity.
  - rewrite (bec_esz c m _ B). apply So.
  - exact Ha.
  - intros j Hj. rewrite <- (bec_get c m (q + Z.to_nat j) B) by lia. f_equal. lia.
Qed.
Lemma bec_stn c m q l : becomes A o c m0 m -> (q + length l <= N)%nat ->
  exists m', stn m (gb o) (go o + Z.of_nat q) (map WF l) = Some m' /\ becomes A o (putl c q l) m0 m'.
Proof.
  intros B Hq. destruct (stn_spec (gb o) (map WF l) m (go o + Z.of_nat q)) as (m' & E & Ez & Eg).
  { intros j Hj. rewrite map_length in Hj. replace (go o + Z.of_nat q + j) with (go o + Z.of_nat (q + Z.to_nat j)) by lia.
    rewrite (bec_get c m _ B) by lia. discriminate. }
  exists m'. split; [exact E|]. pose proof B as (L & G1 & G2). split; [rewrite putl_length; exact L|]. split.
  { intros b. rewrite Ez. apply G1. }
  intros b i. rewrite Eg, map_length. rewrite putl_nth by lia. rewrite G2.
  destruct (Nat.eqb b (gb o)) eqn:Eb; cbn [andb]; [|reflexivity].
  destruct (Z.leb_spec (go o + Z.of_nat q) i), (Z.ltb_spec i (go o + Z.of_nat q + Z.of_nat (length l))), (Z.leb_spec (go o) i), (Z.ltb_spec i (go o + gn o)),
    (Nat.leb_spec q (Z.to_nat (i - go o))), (Nat.ltb_spec (Z.to_nat (i - go o)) (q + length l)); cbn [andb]; try lia; try reflexivity.
  rewrite nth_error_map. rewrite (nth_error_nth' l (a0 A)) by lia. cbn [option_map]. do 3 f_equal. lia.
Qed.
Lemma bec_st4 c m q a x0 x1 x2 x3 : becomes A o c m0 m -> (q + 4 <= N)%nat -> a = 8 * (go o + Z.of_nat q) ->
  exists m', vst F m 32 (gb o, a) (YF [x0; x1; x2; x3]) = Some m' /\ becomes A o (putl c q [x0; x1; x2; x3]) m0 m'.
Proof.
  intros B Hq Ha. rewrite (vst_stn A F m 32 (gb o) (go o + Z.of_nat q) a); [|rewrite (bec_esz c m _ B); apply So|exact Ha|reflexivity].
  apply bec_stn; assumption.
Qed.
Lemma bec_st2 c m q a x0 x1 : becomes A o c m0 m -> (q + 2 <= N)%nat -> a = 8 * (go o + Z.of_nat q) ->
  exists m', vst F m 16 (gb o, a) (YF [x0; x1]) = Some m' /\ becomes A o (putl c q [x0; x1]) m0 m'.
Proof.
  intros B Hq Ha. rewrite (vst_stn A F m 16 (gb o) (go o + Z.of_nat q) a); [|rewrite (bec_esz c m _ B); apply So|exact Ha|reflexivity].
  apply bec_stn; assumption.
Qed.
Variable tw : gslice.
Hypothesis St : cslice A m0 tw.
Hypothesis D : gb tw <> gb o \/ go tw + 2 * gn tw <= go o \/ go o + gn o <= go tw.
Notation W i := (nth i (cvals A m0 tw) (a0 A, a0 A)).
Lemma W_fval i : (i < Z.to_nat (gn tw))%nat -> W i = (fval A m0 tw (2 * Z.of_nat i), fval A m0 tw (2 * Z.of_nat i + 1)).
Proof.
  intros Hi. unfold cvals. set (h := fun i : nat => (fval A m0 tw (2 * Z.of_nat i), fval A m0 tw (2 * Z.of_nat i + 1))).
  rewrite (nth_indep _ (a0 A, a0 A) (h 0%nat)) by (rewrite map_length, seq_length; lia).
  rewrite (map_nth h), seq_nth by lia. reflexivity.
Qed.
Lemma tw_get c m k : becomes A o c m0 m -> 0 <= k < 2 * gn tw -> getm m (gb tw) (go tw + k) = Some (WF (fval A m0 tw k)).
Proof.
  intros (_ & _ & G) Hk. rewrite G. destruct (Nat.eqb_spec (gb tw) (gb o)), (Z.leb_spec (go o) (go tw + k)), (Z.ltb_spec (go tw + k) (go o + gn o)); cbn [andb];
    try (apply (floats_get A m0 tw (2 * gn tw)); [exact St|lia]). lia.
Qed.
Lemma tw_ldr c m i a : becomes A o c m0 m -> (i < Z.to_nat (gn tw))%nat -> a = 8 * (go tw + 2 * Z.of_nat i) -> ldw m 8 (gb tw, a) = Some (WF (fst (W i))).
Proof.
  intros B Hi ->. apply ldw_spec; [lia|rewrite (bec_esz c m _ B); apply St|]. rewrite (tw_get c m _ B) by lia. rewrite W_fval by exact Hi. reflexivity.
Qed.
Lemma tw_ldi c m i a : becomes A o c m0 m -> (i < Z.to_nat (gn tw))%nat -> a = 8 * (go tw + 2 * Z.of_nat i) + 8 -> ldw m 8 (gb tw, a) = Some (WF (snd (W i))).
Proof.
  intros B Hi ->. replace (8 * (go tw + 2 * Z.of_nat i) + 8) with (8 * (go tw + (2 * Z.of_nat i + 1))) by lia.
  apply ldw_spec; [lia|rewrite (bec_esz c m _ B); apply St|]. rewrite (tw_get c m _ B) by lia. rewrite W_fval by exact Hi. reflexivity.
Qed.
Lemma tw_ld2 c m i a : becomes A o c m0 m -> (i < Z.to_nat (gn tw))%nat -> a = 8 * (go tw + 2 * Z.of_nat i) -> vld m 16 (gb tw, a) = Some (YF [fst (W i); snd (W i)]).
Proof.
  intros B Hi Ha. rewrite (vldF2 A m (gb tw) (go tw + 2 * Z.of_nat i) a (fun j => fval A m0 tw (2 * Z.of_nat i + j))).
  - rewrite W_fval by exact Hi. rewrite Z.add_0_r. reflexivity.
  - rewrite (bec_esz c m _ B). apply St.
  - exact Ha.
  - intros j Hj. rewrite <- Z.add_assoc. apply (tw_get c m _ B). lia.
Qed.
Lemma tw_ld4 c m i a : becomes A o c m0 m -> (S i < Z.to_nat (gn tw))%nat -> a = 8 * (go tw + 2 * Z.of_nat i) ->
  vld m 32 (gb tw, a) = Some (YF [fst (W i); snd (W i); fst (W (i + 1)%nat); snd (W (i + 1)%nat)]).
Proof.
  intros B Hi Ha. rewrite (vldF4 A m (gb tw) (go tw + 2 * Z.of_nat i) a (fun j => fval A m0 tw (2 * Z.of_nat i + j))).
  - rewrite !W_fval by lia. cbn [fst snd]. rewrite Z.add_0_r.
    replace (2 * Z.of_nat (i + 1)) with (2 * Z.of_nat i + 2) by lia. replace (2 * Z.of_nat i + 2 + 1) with (2 * Z.of_nat i + 3) by lia. reflexivity.
  - rewrite (bec_esz c m _ B). apply St.
  - exact Ha.
  - intros j Hj. rewrite <- Z.add_assoc. apply (tw_get c m _ B). lia.
Qed.
End Mem.

(** ** Control *)
Section Ctl.
Context {A : Type}.
Variable F : fops A.
Variable E : env A.
Variable p : prog.
Lemma loopN q (J : nat -> state A -> Prop) B : (forall b s, (b < B)%nat -> J b s -> exists s', goes F E p q s q s' /\ J (S b) s') ->
  forall s, J 0%nat s -> exists s', goes F E p q s q s' /\ J B s'.
Proof.
  intros H s J0. assert (forall b, (b <= B)%nat -> exists s', goes F E p q s q s' /\ J b s') as G; [|apply G; lia].
  induction b as [|b IH]; intros Hb; [exists s; split; [apply goes_refl|exact J0]|].
  destruct IH as (s1 & G1 & J1); [lia|]. destruct (H b s1 ltac:(lia) J1) as (s2 & G2 & J2). exists s2. split; [eapply goes_trans; eassumption|exact J2].
Qed.
(** Registers other than those of [l] are unchanged. *)
Definition keeps (l : list reg) (s s' : state A) : Prop := forall r, existsb (fun x => Nat.eqb (rid x) (rid r)) l = false -> rg s' r = rg s r.
Lemma keeps_refl l s : keeps l s s. Proof. intros r _. reflexivity. Qed.
Lemma keeps_trans l s s' s'' : keeps l s s' -> keeps l s' s'' -> keeps l s s''.
Proof. intros H1 H2 r Hr. rewrite (H2 r Hr). apply H1. exact Hr. Qed.
End Ctl.
