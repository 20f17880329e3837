(** Partial writes of a slice, loads and stores of four elements, the loop of the fold kernels. *)
From Coq Require Import String Lia.
From Verif Require Import Base ModelNum ModelAsm ModelAsmInt SpecAsm PfAsm PfAsmStep PfAsmFold.
Import ListNotations.
Open Scope Z_scope.

Section Mem.
Context {T : Type}.
Variable F : fops T.
(** [m'] is [m] with f j at the positions j of the slice where D j. *)
Definition part (o : gslice) (D : Z -> bool) (f : Z -> word T) (m m' : mem T) : Prop :=
  (forall b, esz m' b = esz m b) /\
  forall b i, getm m' b i =
    if Nat.eqb b (gb o) && (go o <=? i) && (i <? go o + gn o) && D (i - go o) then Some (f (i - go o)) else getm m b i.
Lemma part0 o f m : part o (fun _ => false) f m m.
Proof. split; [reflexivity|]. intros b i. rewrite Bool.andb_false_r. reflexivity. Qed.
Lemma part_ext o D D' f m m' : (forall j, 0 <= j < gn o -> D j = D' j) -> part o D f m m' -> part o D' f m m'.
Proof.
  intros H (P1 & P2). split; [exact P1|]. intros b i. rewrite P2. destruct (Nat.eqb b (gb o)); cbn [andb]; [|reflexivity].
  destruct (Z.leb_spec (go o) i), (Z.ltb_spec i (go o + gn o)); cbn [andb]; try reflexivity. rewrite H by lia. reflexivity.
Qed.
Lemma part_window o D f m m' : (forall j, 0 <= j < gn o -> D j = true) -> part o D f m m' -> window o f m m'.
Proof.
  intros H P. apply (part_ext o D (fun _ => true) f m m' H) in P. destruct P as (P1 & P2). split; [exact P1|]. intros b i. rewrite P2, Bool.andb_true_r. reflexivity.
Qed.
Lemma part_other o D f m m' b i : part o D f m m' -> b <> gb o -> getm m' b i = getm m b i.
Proof. intros (_ & P) H. rewrite P. apply Nat.eqb_neq in H. rewrite H. reflexivity. Qed.
Lemma part_old o D f m m' j : part o D f m m' -> D j = false -> getm m' (gb o) (go o + j) = getm m (gb o) (go o + j).
Proof. intros (_ & P) H. rewrite P. replace (go o + j - go o) with j by lia. rewrite H, Bool.andb_false_r. reflexivity. Qed.
(** Four more positions. *)
Definition add4 (D : Z -> bool) (q : Z) (j : Z) : bool := D j || ((q <=? j) && (j <? q + 4)).
Lemma part_store o D f m m' q ws : part o D f m m' -> 0 <= q -> q + 4 <= gn o -> ws = map f (four q) ->
  (forall j, 0 <= j < gn o -> getm m (gb o) (go o + j) <> None) ->
  exists m'', stn m' (gb o) (go o + q) ws = Some m'' /\ part o (add4 D q) f m m''.
Proof.
  intros P Hq Hn -> Hm. destruct P as (P1 & P2). destruct (stn_spec (gb o) (map f (four q)) m' (go o + q)) as (m'' & E1 & E2 & E3).
  - intros j Hj. change (Z.of_nat (length (map f (four q)))) with 4 in Hj. rewrite P2. replace (go o + q + j) with (go o + (q + j)) by lia.
    destruct (_ && _ && _ && _); [discriminate|]. apply Hm. lia.
  - exists m''. split; [exact E1|]. split; [intros b; rewrite E2; apply P1|]. intros b i. rewrite E3, P2. change (Z.of_nat (length (map f (four q)))) with 4.
    unfold add4. destruct (Nat.eqb b (gb o)); cbn [andb]; [|reflexivity].
    destruct (Z.leb_spec (go o + q) i), (Z.ltb_spec i (go o + q + 4)); cbn [andb].
    + destruct (Z.leb_spec (go o) i); [|lia]. destruct (Z.ltb_spec i (go o + gn o)); [|lia]. destruct (Z.leb_spec q (i - go o)); [|lia]. destruct (Z.ltb_spec (i - go o) (q + 4)); [|lia].
      cbn [andb]. rewrite Bool.orb_true_r. unfold four. cbn [map].
      assert (C : i - go o = q \/ i - go o = q + 1 \/ i - go o = q + 2 \/ i - go o = q + 3) by lia.
      destruct C as [C | [C | [C | C]]]; rewrite C; [replace (i - (go o + q)) with 0 by lia|replace (i - (go o + q)) with 1 by lia|replace (i - (go o + q)) with 2 by lia|replace (i - (go o + q)) with 3 by lia]; reflexivity.
    + destruct (Z.ltb_spec (i - go o) (q + 4)); [lia|]. rewrite Bool.andb_false_r, Bool.orb_false_r. reflexivity.
    + destruct (Z.leb_spec q (i - go o)); [lia|]. cbn [andb]. rewrite Bool.orb_false_r. reflexivity.
    + lia.
Qed.

(** Loads. *)
Lemma vld_F (m : mem T) b p q (f : Z -> T) a : esz m b = 8 -> a = 8 * (p + q) -> (forall j, q <= j < q + 4 -> getm m b (p + j) = Some (WF (f j))) -> vld m 32 (b, a) = Some (YF (map f (four q))).
Proof.
  intros He -> H. rewrite (vld8F m b (p + q) 32 3 (fun j => f (q + j)) He eq_refl).
  - unfold four. cbn [map seq]. rewrite Z.add_0_r. reflexivity.
  - intros j Hj. rewrite <- Z.add_assoc. apply H. lia.
Qed.
Lemma vld_I8 (m : mem T) b p q (f : Z -> Z) a : esz m b = 8 -> a = 8 * (p + q) -> (forall j, q <= j < q + 4 -> getm m b (p + j) = Some (WI (f j))) -> vld m 32 (b, a) = Some (YI (splitl (map f (four q)))).
Proof.
  intros He -> H. rewrite (vld8 m b (p + q) 32 4 (fun j => f (q + j)) He eq_refl).
  - unfold four. cbn [map seq]. rewrite Z.add_0_r. reflexivity.
  - intros j Hj. rewrite <- Z.add_assoc. apply H. lia.
Qed.
Lemma vld_I4 (m : mem T) b p q (f : Z -> Z) a : esz m b = 4 -> a = 4 * (p + q) -> (forall j, q <= j < q + 4 -> getm m b (p + j) = Some (WI (f j))) -> vld m 16 (b, a) = Some (YI (map f (four q))).
Proof.
  intros He -> H. rewrite (vld4 m b (p + q) 16 4 (fun j => f (q + j)) He eq_refl).
  - unfold four. cbn [map seq]. rewrite Z.add_0_r. reflexivity.
  - intros j Hj. rewrite <- Z.add_assoc. apply H. lia.
Qed.
(** Stores. *)
Lemma vst_F (m : mem T) b p a (l : list T) : length l = 4%nat -> esz m b = 8 -> a = 8 * p -> vst F m 32 (b, a) (YF l) = stn m b p (map WF l).
Proof.
  intros Hl He ->. unfold vst. rewrite He, (Z.mul_comm 8 p), Z.mod_mul, Z.div_mul by lia. cbn [Z.eqb Pos.eqb andb].
  rewrite firstn_all2 by (rewrite map_length, Hl; cbn; lia). reflexivity.
Qed.
Lemma vst_I8 (m : mem T) b p a q g z : HQ F q (YI z) g -> esz m b = 8 -> a = 8 * p -> vst F m 32 (b, a) (YI z) = stn m b p (map (fun j => WI (g j)) (four q)).
Proof.
  intros Hz He ->. unfold vst. rewrite He, (Z.mul_comm 8 p), Z.mod_mul, Z.div_mul by lia. cbn [Z.eqb Pos.eqb andb].
  unfold HQ in Hz. cbn [asI] in Hz. rewrite Hz, joinq_splitl. reflexivity.
Qed.
Lemma vst_I4 (m : mem T) b p a (l : list Z) : length l = 4%nat -> esz m b = 4 -> a = 4 * p -> vst F m 16 (b, a) (YI l) = stn m b p (map WI l).
Proof.
  intros Hl He ->. unfold vst. rewrite He, (Z.mul_comm 4 p), Z.mod_mul, Z.div_mul by lia. cbn [Z.eqb Pos.eqb andb asI].
  rewrite firstn_all2 by (rewrite Hl; cbn; lia). reflexivity.
Qed.
End Mem.

(** One loop from 0 to n in steps of k. *)
Section Loop.
Context {T : Type}.
Variable F : fops T.
Variable E : env T.
Variables (pre vb : list instr) (ir nr : reg) (k n : Z) (s0 : state T) (J : state T -> Z -> Prop) (Q : mem T -> Prop).
Notation p := [(""%string, pre); ("loop_body"%string, vb); ("loop_end"%string, [Ins CMPQ [R ir; R nr]; JL "loop_body"; RET])].
Hypothesis Hk : 0 < k.
Hypothesis Hn : 0 <= n < 2 ^ 60.
Hypothesis Hnk : n mod k = 0.
Hypothesis HJf : forall s i x, J s i -> J (setfl s x) i.
Hypothesis HJr : forall s i, J s i -> rg s nr = WI n /\ rg s ir = WI i.
Hypothesis Hpre : exists s1, ex F E pre s0 = Goto "loop_end" s1 /\ J s1 0.
Hypothesis Hvb : forall s i, J s i -> 0 <= i -> i mod k = 0 -> i + k <= n -> exists s', ex F E vb s = Next s' /\ J s' (i + k).
Hypothesis HQ' : forall s, J s n -> Q (mm s).
Lemma loopK : terminates F E p s0 Q.
Proof.
  destruct Hpre as (s1 & E1 & J1).
  assert (CM : forall s i, J s i -> 0 <= i <= n -> ex F E [Ins CMPQ [R ir; R nr]; JL "loop_body"; RET] s = if i <? n then Goto "loop_body" (setfl s (Some (i, n))) else Done (setfl s (Some (i, n)))).
  { intros s i Js Hi. destruct (HJr s i Js) as (Kb & Kc). cbn [ex exec1 src]. rewrite Kc, Kb. cbn [Z.eqb Pos.eqb]. unfold branch. cbn [ModelAsm.fl setfl].
    rewrite !swrap64_id by lia. reflexivity. }
  pose proof (Z.div_mod n k ltac:(lia)) as En. rewrite Hnk, Z.add_0_r in En.
  destruct (loop F E p (lookup "loop_end" p) (fun i s => J s i /\ i mod k = 0) k n) with (t := Z.to_nat (n / k)) (i := 0) (s := s1) as (s2 & G2 & J2 & _).
  - intros i s Hi Hin (Js & Hm). destruct (Hvb (setfl s (Some (i, n))) i (HJf s i _ Js) Hi Hm Hin) as (s' & Ev & J').
    exists s'. split; [|split; [exact J'|]].
    + eapply goes_trans; [eapply goes_goto; rewrite (CM s i Js ltac:(lia)); destruct (Z.ltb_spec i n); [reflexivity|lia]|]. apply goes_next. exact Ev.
    + rewrite <- Z.add_mod_idemp_r, Z.mod_same, Z.add_0_r by lia. exact Hm.
  - lia.
  - lia.
  - rewrite Z2Nat.id by (apply Z.div_pos; lia). lia.
  - split; [exact J1|apply Z.mod_0_l; lia].
  - apply (ends_terminates F E p s0 (setfl s2 (Some (n, n)))).
    + eapply goes_ends; [eapply goes_goto; exact E1|]. eapply goes_ends; [exact G2|]. eapply ends_done. rewrite (CM s2 n J2 ltac:(lia)). rewrite Z.ltb_irrefl. reflexivity.
    + apply HQ'. apply HJf. exact J2.
Qed.
End Loop.
