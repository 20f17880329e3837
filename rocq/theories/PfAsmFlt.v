(** Lemmas for the floating point kernels: memory, and the complex vector loops. *)
From Coq Require Import String Lia Ring_theory.
From Verif Require Import Base ModelNum ModelAsm ModelAsmInt ModelAsmFlt SpecAsm PfAsm PfAsmVec ModelFFT SpecAsmFlt.
Import ListNotations.
Open Scope Z_scope.

Section Loop.
Variable A : arith.
Notation T := (car A).
Notation C := (T * T)%type.
Notation get v i := (nth i v (a0 A)).
Lemma cmplxLoop_nth (f : C -> C -> C -> C) (o v0 v1 : list T) B : length o = (8 * B)%nat ->
  length (cmplxLoop A f o v0 v1) = length o /\
  forall b c, (b < B)%nat -> (c < 4)%nat ->
    let i := (8 * b + c)%nat in let at_ v := (get v i, get v (i + 4)%nat) in
    get (cmplxLoop A f o v0 v1) i = fst (f (at_ o) (at_ v0) (at_ v1)) /\
    get (cmplxLoop A f o v0 v1) (i + 4)%nat = snd (f (at_ o) (at_ v0) (at_ v1)).
Proof.
  intros Lo. unfold cmplxLoop. replace ((length o + 7) / 8)%nat with B by (rewrite Lo; apply (Nat.div_unique _ _ _ 7); lia).
  match goal with |- context [forN 0 B ?bd o] => set (body := bd) end.
  set (P := fun m (r : list T) => length r = length o /\ (forall i, (8 * m <= i)%nat -> get r i = get o i) /\
    forall b c, (b < m)%nat -> (c < 4)%nat ->
    let i := (8 * b + c)%nat in let at_ v := (get v i, get v (i + 4)%nat) in
    get r i = fst (f (at_ o) (at_ v0) (at_ v1)) /\ get r (i + 4)%nat = snd (f (at_ o) (at_ v0) (at_ v1))).
  assert (P B (forN 0 B body o)) as (H1 & _ & H2); [|split; [exact H1|exact H2]].
  apply (forN_ind P).
  - split; [reflexivity|]. split; [reflexivity|]. intros b c Hb. lia.
  - intros m r Hm (Lr & Hr & Hd). cbn [Nat.add].
    set (Q := fun k (q : list T) => length q = length o /\ (forall i, (forall c, (c < k)%nat -> i <> (8 * m + c)%nat /\ i <> (8 * m + c + 4)%nat) -> get q i = get r i) /\
      forall c, (c < k)%nat -> let i := (8 * m + c)%nat in let at_ v := (get v i, get v (i + 4)%nat) in
      get q i = fst (f (at_ o) (at_ v0) (at_ v1)) /\ get q (i + 4)%nat = snd (f (at_ o) (at_ v0) (at_ v1))).
    assert (Q 4%nat (body m r)) as (Q1 & Q2 & Q3).
    { unfold body. apply (forN_ind Q).
      - split; [exact Lr|]. split; [reflexivity|]. intros c Hc. lia.
      - intros k q Hk (A1 & A2 & A3). cbn [Nat.add].
        assert (E1 : get q (8 * m + k)%nat = get o (8 * m + k)%nat) by (rewrite A2 by (intros c Hc; lia); apply Hr; lia).
        assert (E2 : get q (8 * m + k + 4)%nat = get o (8 * m + k + 4)%nat) by (rewrite A2 by (intros c Hc; lia); apply Hr; lia).
        cbv zeta. rewrite E1, E2. destruct (f _ _ _) as (x, y) eqn:Ef.
        split; [now rewrite !upd_length|]. split.
        + intros i Hi. pose proof (Hi k ltac:(lia)). rewrite !nth_upd_other by lia. apply A2. intros c Hc. apply Hi. lia.
        + intros c Hc. cbv zeta. destruct (Nat.eq_dec c k) as [-> | Hn].
          * rewrite Ef. cbn [fst snd]. rewrite nth_upd_other by lia. rewrite nth_upd_same by lia. rewrite nth_upd_same by (rewrite upd_length; lia). split; reflexivity.
          * rewrite !nth_upd_other by lia. apply A3. lia. }
    split; [exact Q1|]. split.
    + intros i Hi. rewrite Q2 by (intros c Hc; lia). apply Hr. lia.
    + intros b c Hb Hc. destruct (Nat.eq_dec b m) as [-> | Hn]; [now apply Q3|].
      cbv zeta. rewrite !Q2 by (intros c' Hc'; lia). apply Hd; lia.
Qed.
End Loop.

Section Mem.
Variable A : arith.
Notation T := (car A).
Variable F : fops T.
Lemma floats_get (m : mem T) g k i : floats A m g k -> 0 <= i < k -> getm m (gb g) (go g + i) = Some (WF (fval A m g i)).
Proof. intros (_ & _ & _ & _ & H) Hi. unfold fval. destruct (H i Hi) as (z & ->). reflexivity. Qed.
Lemma fvals_nth (m : mem T) g i : 0 <= i < gn g -> nth (Z.to_nat i) (fvals A m g) (a0 A) = fval A m g i.
Proof.
  intros Hi. unfold fvals. rewrite (nth_indep _ (a0 A) (fval A m g (Z.of_nat 0))) by (rewrite map_length, seq_length; lia).
  rewrite (map_nth (fun i => fval A m g (Z.of_nat i)) _ 0%nat), seq_nth by lia. f_equal. lia.
Qed.
Lemma fvals_length (m : mem T) g : length (fvals A m g) = Z.to_nat (gn g).
Proof. unfold fvals. now rewrite map_length, seq_length. Qed.
(** Loads and stores of 4 and 2 floats. *)
Lemma vldF4 (m : mem T) b q a (f : Z -> T) : esz m b = 8 -> a = 8 * q -> (forall j, 0 <= j < 4 -> getm m b (q + j) = Some (WF (f j))) ->
  vld m 32 (b, a) = Some (YF [f 0; f 1; f 2; f 3]).
Proof. intros He -> H. rewrite (vld8F m b q 32 3 f He eq_refl); [reflexivity|]. exact H. Qed.
Lemma vldF2 (m : mem T) b q a (f : Z -> T) : esz m b = 8 -> a = 8 * q -> (forall j, 0 <= j < 2 -> getm m b (q + j) = Some (WF (f j))) ->
  vld m 16 (b, a) = Some (YF [f 0; f 1]).
Proof. intros He -> H. rewrite (vld8F m b q 16 1 f He eq_refl); [reflexivity|]. exact H. Qed.
Lemma vst_stn (m : mem T) n b q a l : esz m b = 8 -> a = 8 * q -> Z.to_nat (n / 8) = length l -> vst F m n (b, a) (YF l) = stn m b q (map WF l).
Proof.
  intros He -> Hl. unfold vst. rewrite He. rewrite (Z.mul_comm 8 q), Z.mod_mul, Z.div_mul by lia. cbn [Z.eqb Pos.eqb andb].
  rewrite Hl, firstn_all2 by (rewrite map_length; lia). reflexivity.
Qed.
End Mem.

Section Stage.
Variable A : arith.
Notation T := (car A).
Variable F : fops T.
Variable s0 : state T.
Notation m0 := (mm s0).
Variables o : gslice.
Notation n := (gn o).
Variable f : Z -> T.
Notation ff := (fun i => WF (f i)).
Hypothesis So : fslice A m0 o.

Lemma LF4 m i v q a : window (upto o i) ff m0 m -> fslice A m0 v -> no_fwd o v -> 0 <= i <= q -> q + 4 <= gn v -> a = 8 * (go v + q) ->
  vld m 32 (gb v, a) = Some (YF [fval A m0 v q; fval A m0 v (q + 1); fval A m0 v (q + 2); fval A m0 v (q + 3)]).
Proof.
  intros W Sv Fv Hi Hq Ha. pose proof Sv as (Se & Sg & Sn & Sb & _).
  rewrite (vldF4 A m (gb v) (go v + q) a (fun j => fval A m0 v (q + j))).
  - rewrite Z.add_0_r. reflexivity.
  - destruct W as [Wz _]. rewrite Wz. exact Se.
  - exact Ha.
  - intros j Hj. rewrite <- Z.add_assoc. rewrite (stg_read o v ff m0 m i (q + j) W Fv) by lia. apply (floats_get A m0 v (gn v)); [exact Sv|lia].
Qed.
Lemma SF4 m i a x0 x1 x2 x3 : window (upto o i) ff m0 m -> 0 <= i -> i + 4 <= n -> a = 8 * (go o + i) ->
  x0 = f i -> x1 = f (i + 1) -> x2 = f (i + 2) -> x3 = f (i + 3) ->
  exists m', vst F m 32 (gb o, a) (YF [x0; x1; x2; x3]) = Some m' /\ window (upto o (i + 4)) ff m0 m'.
Proof.
  intros W Hi Hn Ha -> -> -> ->. pose proof So as (Se & Sg & Sn & Sb & _).
  rewrite (vst_stn A F m 32 (gb o) (go o + i) a); [|destruct W as [Wz _]; rewrite Wz; exact Se|exact Ha|reflexivity].
  apply (stg_step o ff m0 m i _ 4 W Hi); [lia|reflexivity| |cbn; rewrite Z.add_0_r; reflexivity].
  intros j Hj. rewrite <- Z.add_assoc. rewrite (stg_read o o ff m0 m i (i + j) W (no_fwd_refl o)) by lia.
  rewrite (floats_get A m0 o n); [discriminate|exact So|lia].
Qed.

(** The shape of the kernels: one loop in steps of k. *)
Section Shape.
Variable E : env T.
Variables (pre vb : list instr) (ir nr : reg) (k : Z).
Variable K : state T -> Prop.
Hypothesis Hk : 0 < k.
Hypothesis Hnk : n mod k = 0.
Notation p := [(""%string, pre); ("loop_body"%string, vb);
  ("loop_end"%string, [Ins CMPQ [R ir; R nr]; JL "loop_body"; RET])].
Definition JF (s : state T) (i : Z) := K s /\ rg s nr = WI n /\ rg s ir = WI i /\ window (upto o i) ff m0 (mm s).
Hypothesis HK : forall s x, K s -> K (setfl s x).
Hypothesis Hpre : exists s1, ex F E pre s0 = Goto "loop_end" s1 /\ K s1 /\ rg s1 nr = WI n /\ rg s1 ir = WI 0 /\ mm s1 = mm s0.
Hypothesis Hvb : forall s i, JF s i -> 0 <= i -> i mod k = 0 -> i + k <= n -> exists s', ex F E vb s = Next s' /\ JF s' (i + k).
Lemma shapeF : terminates F E p s0 (window o ff m0).
Proof.
  pose proof So as (Se & Sg & Sn & Sb & _).
  destruct Hpre as (s1 & E1 & K1 & N1 & D1 & M1).
  assert (J1 : JF s1 0). { split; [exact K1|]. split; [exact N1|]. split; [exact D1|]. rewrite M1. apply stg0. }
  assert (CM : forall s i, JF s i -> 0 <= i <= n -> ex F E [Ins CMPQ [R ir; R nr]; JL "loop_body"; RET] s = if i <? n then Goto "loop_body" (setfl s (Some (i, n))) else Done (setfl s (Some (i, n)))).
  { intros s i (Ka & Kb & Kc & Kd) Hi. cbn [ex exec1 src]. rewrite Kc, Kb. cbn [Z.eqb Pos.eqb]. unfold branch. cbn [ModelAsm.fl setfl].
    rewrite !swrap64_id by lia. reflexivity. }
  assert (SF : forall s i x, JF s i -> JF (setfl s x) i). { intros s i x (Ka & Kb & Kc & Kd). split; [apply HK; exact Ka|]. split; [exact Kb|]. split; [exact Kc|exact Kd]. }
  pose proof (Z.div_mod n k ltac:(lia)) as En. rewrite Hnk, Z.add_0_r in En.
  destruct (loop F E p (lookup "loop_end" p) (fun i s => JF s i /\ i mod k = 0) k n) with (t := Z.to_nat (n / k)) (i := 0) (s := s1) as (s2 & G2 & J2 & _).
  - intros i s Hi Hin (J & Hm). destruct (Hvb (setfl s (Some (i, n))) i (SF s i _ J) Hi Hm Hin) as (s' & Ev & J').
    exists s'. split; [|split; [exact J'|]].
    + eapply goes_trans; [eapply goes_goto; rewrite (CM s i J ltac:(lia)); destruct (Z.ltb_spec i n); [reflexivity|lia]|]. apply goes_next. exact Ev.
    + rewrite <- Z.add_mod_idemp_r, Z.mod_same, Z.add_0_r by lia. exact Hm.
  - lia.
  - lia.
  - rewrite Z2Nat.id by (apply Z.div_pos; lia). lia.
  - split; [exact J1|apply Z.mod_0_l; lia].
  - apply (ends_terminates F E p s0 (setfl s2 (Some (n, n)))).
    + eapply goes_ends; [eapply goes_goto; exact E1|]. eapply goes_ends; [exact G2|]. eapply ends_done. rewrite (CM s2 n J2 ltac:(lia)). rewrite Z.ltb_irrefl. reflexivity.
    + destruct J2 as (_ & _ & _ & W). exact W.
Qed.
End Shape.
End Stage.
