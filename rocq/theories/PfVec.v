From Verif Require Import Base ModelNum ModelVec SpecVec PfNum.

(* ------------------------------------------------------------------ *)
(** ** Unrolled kernels *)

Lemma forN_blocks {S} (b : nat -> S -> S) q st :
  forN 0 q (fun k s => b (8*k+7)%nat (b (8*k+6)%nat (b (8*k+5)%nat (b (8*k+4)%nat
    (b (8*k+3)%nat (b (8*k+2)%nat (b (8*k+1)%nat (b (8*k+0)%nat s)))))))) st = forN 0 (q * 8) b st.
Proof.
  induction q as [|q IH]; [reflexivity|].
  rewrite forN_S_r, IH. replace (Datatypes.S q * 8)%nat with (q * 8 + 8)%nat by lia.
  rewrite forN_app. cbn [forN]. cbn [plus]. rewrite (Nat.mul_comm 8 q).
  repeat (f_equal; try lia).
Qed.

Lemma kernel_flat {A} (d : A) op vOut v0 v1 m :
  kernel d op vOut v0 v1 m = forN 0 (slen vOut) (kbody d op vOut v0 v1) m.
Proof.
  unfold kernel, kblock. cbn zeta. rewrite (forN_blocks (kbody d op vOut v0 v1)).
  pose proof (Nat.div_mod (slen vOut) 8 ltac:(lia)).
  pose proof (Nat.mod_upper_bound (slen vOut) 8 ltac:(lia)).
  pose proof (forN_app 0 (slen vOut / 8 * 8) (slen vOut - slen vOut / 8 * 8) (kbody d op vOut v0 v1) m) as E.
  rewrite Nat.add_0_l in E. replace (slen vOut / 8 * 8 + (slen vOut - slen vOut / 8 * 8))%nat with (slen vOut) in E by lia.
  rewrite E. reflexivity.
Qed.

Lemma kloop_spec {A} (d : A) op vOut v0 v1 m :
  valid m vOut -> slen v0 = slen vOut -> slen v1 = slen vOut ->
  no_forward_overlap vOut v0 -> no_forward_overlap vOut v1 ->
  pointwise d op vOut v0 v1 m (forN 0 (slen vOut) (kbody d op vOut v0 v1) m).
Proof.
  intros [Hv _] H0 H1 Ho0 Ho1.
  assert (HI : (fun n s => length s = length m /\
     (forall i, (i < n)%nat -> nth (soff vOut + i) s d =
        op (nth (soff vOut + i) m d) (nth (soff v0 + i) m d) (nth (soff v1 + i) m d)) /\
     (forall j, (j < soff vOut \/ soff vOut + n <= j)%nat -> nth j s d = nth j m d))
     (slen vOut) (forN 0 (slen vOut) (kbody d op vOut v0 v1) m)).
  { apply forN_ind.
    - split; [reflexivity|]. split; [lia|reflexivity].
    - intros n s Hn (Hl & Hlt & Hge). cbn [plus]. unfold kbody, wr, rd.
      split; [now rewrite upd_length|]. split.
      + intros i Hi. destruct (Nat.eq_dec i n) as [->|Hne].
        * rewrite nth_upd_same by lia. unfold no_forward_overlap in *.
          f_equal; apply Hge; lia.
        * rewrite nth_upd_other by lia. apply Hlt. lia.
      + intros j Hj. rewrite nth_upd_other by lia. apply Hge. lia. }
  exact HI.
Qed.

Lemma kernel2_spec {A} (d : A) op m vOut v0 v1 :
  valid m vOut -> valid m v0 -> valid m v1 ->
  no_forward_overlap vOut v0 -> no_forward_overlap vOut v1 ->
  slen v0 = slen vOut -> slen v1 = slen vOut -> (0 < slen vOut)%nat ->
  exists m', kernel2 d op m vOut v0 v1 = Some m' /\ pointwise d op vOut v0 v1 m m'.
Proof.
  intros [H1 H2] [H3 H4] [H5 H6] Ho0 Ho1 E0 E1 Hpos. unfold kernel2, sameLen3, firstOk.
  rewrite E0, E1, Nat.eqb_refl. 
  destruct (Nat.ltb_spec 0 (scap vOut)); [|lia]. destruct (Nat.ltb_spec 0 (scap v0)); [|lia].
  destruct (Nat.ltb_spec 0 (scap v1)); [|lia]. cbn [andb].
  eexists; split; [reflexivity|]. rewrite kernel_flat. apply kloop_spec; auto. split; auto.
Qed.

Lemma kernel1_spec {A} (d : A) op m vOut v0 :
  valid m vOut -> valid m v0 -> no_forward_overlap vOut v0 ->
  slen v0 = slen vOut -> (0 < slen vOut)%nat ->
  exists m', kernel1 d op m vOut v0 = Some m' /\ pointwise d (fun o a _ => op o a) vOut v0 v0 m m'.
Proof.
  intros [H1 H2] [H3 H4] Ho0 E0 Hpos. unfold kernel1, sameLen2, firstOk.
  rewrite E0, Nat.eqb_refl. 
  destruct (Nat.ltb_spec 0 (scap vOut)); [|lia]. destruct (Nat.ltb_spec 0 (scap v0)); [|lia]. cbn [andb].
  eexists; split; [reflexivity|]. rewrite kernel_flat. apply kloop_spec; auto. split; auto.
Qed.

Lemma kernel2_panics {A} (d : A) op m vOut v0 v1 :
  kernel2 d op m vOut v0 v1 = None <->
  (slen v0 <> slen vOut \/ slen v1 <> slen vOut \/ scap vOut = 0 \/ scap v0 = 0 \/ scap v1 = 0)%nat.
Proof.
  unfold kernel2, sameLen3, firstOk.
  destruct (Nat.eqb_spec (slen v0) (slen vOut)), (Nat.eqb_spec (slen v1) (slen vOut)),
    (Nat.ltb_spec 0 (scap vOut)), (Nat.ltb_spec 0 (scap v0)), (Nat.ltb_spec 0 (scap v1)); cbn [andb];
  split; intros; try discriminate; try reflexivity; lia.
Qed.

(** The concrete kernels satisfy the congruence specification modulo 2^w. *)
Lemma AddTo_spec w m vOut v0 v1 :
  valid m vOut -> valid m v0 -> valid m v1 -> no_forward_overlap vOut v0 -> no_forward_overlap vOut v1 ->
  slen v0 = slen vOut -> slen v1 = slen vOut -> (0 < slen vOut)%nat ->
  exists m', AddTo w m vOut v0 v1 = Some m' /\
    pointwise 0 (fun _ a b => (a + b) mod 2 ^ w) vOut v0 v1 m m'.
Proof. apply kernel2_spec. Qed.
Lemma SubTo_spec w m vOut v0 v1 :
  valid m vOut -> valid m v0 -> valid m v1 -> no_forward_overlap vOut v0 -> no_forward_overlap vOut v1 ->
  slen v0 = slen vOut -> slen v1 = slen vOut -> (0 < slen vOut)%nat ->
  exists m', SubTo w m vOut v0 v1 = Some m' /\
    pointwise 0 (fun _ a b => (a - b) mod 2 ^ w) vOut v0 v1 m m'.
Proof. apply kernel2_spec. Qed.
Lemma MulTo_spec w m vOut v0 v1 :
  valid m vOut -> valid m v0 -> valid m v1 -> no_forward_overlap vOut v0 -> no_forward_overlap vOut v1 ->
  slen v0 = slen vOut -> slen v1 = slen vOut -> (0 < slen vOut)%nat ->
  exists m', MulTo w m vOut v0 v1 = Some m' /\
    pointwise 0 (fun _ a b => (a * b) mod 2 ^ w) vOut v0 v1 m m'.
Proof. apply kernel2_spec. Qed.

Lemma pointwise_ext {A} (d : A) op op' vOut v0 v1 m m' :
  (forall a b c, op a b c = op' a b c) -> pointwise d op vOut v0 v1 m m' -> pointwise d op' vOut v0 v1 m m'.
Proof. intros E (H1 & H2 & H3). split; [auto|]. split; [|auto]. intros i Hi. rewrite <- E. auto. Qed.

Lemma wrap_add_r w a b : wrap w (a + wrap w b) = (a + b) mod 2 ^ w.
Proof. unfold wrap. apply Zplus_mod_idemp_r. Qed.
Lemma wrap_sub_r w a b : wrap w (a - wrap w b) = (a - b) mod 2 ^ w.
Proof. unfold wrap. apply Zminus_mod_idemp_r. Qed.

Lemma MulAddTo_spec w m vOut v0 v1 :
  valid m vOut -> valid m v0 -> valid m v1 -> no_forward_overlap vOut v0 -> no_forward_overlap vOut v1 ->
  slen v0 = slen vOut -> slen v1 = slen vOut -> (0 < slen vOut)%nat ->
  exists m', MulAddTo w m vOut v0 v1 = Some m' /\
    pointwise 0 (fun o a b => (o + a * b) mod 2 ^ w) vOut v0 v1 m m'.
Proof.
  intros. edestruct (kernel2_spec 0 (fun o a b => wrap w (o + wrap w (a * b))) m vOut v0 v1) as (m' & E & P); eauto.
  exists m'. split; [exact E|]. eapply pointwise_ext; [|exact P]. intros; apply wrap_add_r.
Qed.
Lemma MulSubTo_spec w m vOut v0 v1 :
  valid m vOut -> valid m v0 -> valid m v1 -> no_forward_overlap vOut v0 -> no_forward_overlap vOut v1 ->
  slen v0 = slen vOut -> slen v1 = slen vOut -> (0 < slen vOut)%nat ->
  exists m', MulSubTo w m vOut v0 v1 = Some m' /\
    pointwise 0 (fun o a b => (o - a * b) mod 2 ^ w) vOut v0 v1 m m'.
Proof.
  intros. edestruct (kernel2_spec 0 (fun o a b => wrap w (o - wrap w (a * b))) m vOut v0 v1) as (m' & E & P); eauto.
  exists m'. split; [exact E|]. eapply pointwise_ext; [|exact P]. intros; apply wrap_sub_r.
Qed.
Lemma ScalarMulTo_spec w m vOut v c :
  valid m vOut -> valid m v -> no_forward_overlap vOut v -> slen v = slen vOut -> (0 < slen vOut)%nat ->
  exists m', ScalarMulTo w m vOut v c = Some m' /\ pointwise 0 (fun _ a _ => (c * a) mod 2 ^ w) vOut v v m m'.
Proof. intros. apply kernel1_spec; auto. Qed.
Lemma ScalarMulAddTo_spec w m vOut v c :
  valid m vOut -> valid m v -> no_forward_overlap vOut v -> slen v = slen vOut -> (0 < slen vOut)%nat ->
  exists m', ScalarMulAddTo w m vOut v c = Some m' /\ pointwise 0 (fun o a _ => (o + c * a) mod 2 ^ w) vOut v v m m'.
Proof.
  intros. edestruct (kernel1_spec 0 (fun o a => wrap w (o + wrap w (c * a))) m vOut v) as (m' & E & P); eauto.
  exists m'. split; [exact E|]. eapply pointwise_ext; [|exact P]. intros; apply wrap_add_r.
Qed.
Lemma ScalarMulSubTo_spec w m vOut v c :
  valid m vOut -> valid m v -> no_forward_overlap vOut v -> slen v = slen vOut -> (0 < slen vOut)%nat ->
  exists m', ScalarMulSubTo w m vOut v c = Some m' /\ pointwise 0 (fun o a _ => (o - c * a) mod 2 ^ w) vOut v v m m'.
Proof.
  intros. edestruct (kernel1_spec 0 (fun o a => wrap w (o - wrap w (c * a))) m vOut v) as (m' & E & P); eauto.
  exists m'. split; [exact E|]. eapply pointwise_ext; [|exact P]. intros; apply wrap_sub_r.
Qed.
Lemma NegTo_spec w m vOut v :
  valid m vOut -> valid m v -> no_forward_overlap vOut v -> slen v = slen vOut ->
  exists m', NegTo w m vOut v = Some m' /\ pointwise 0 (fun _ a _ => (- a) mod 2 ^ w) vOut v v m m'.
Proof.
  intros Hv Hv' Ho E. unfold NegTo, sameLen2. rewrite E, Nat.eqb_refl.
  eexists; split; [reflexivity|]. now apply kloop_spec.
Qed.

Lemma Dot_spec w v0 v1 : length v1 = length v0 -> 0 <= w ->
  exists r, Dot w v0 v1 = Some r /\ r = zsum (length v0) (fun i => nthZ v0 i * nthZ v1 i) mod 2 ^ w.
Proof.
  intros E Hw. unfold Dot. rewrite E, Nat.eqb_refl. eexists; split; [reflexivity|].
  apply (forN_ind (fun n r => r = zsum n (fun i => nthZ v0 i * nthZ v1 i) mod 2 ^ w)).
  - cbn. rewrite Z.mod_0_l; [reflexivity|]. pose proof (pow2_pos w Hw). lia.
  - intros i s _ ->. cbn [plus zsum]. rewrite wrap_add_r, Zplus_mod_idemp_l. f_equal; lia.
Qed.
Lemma Dot_panics w v0 v1 : length v1 <> length v0 -> Dot w v0 v1 = None.
Proof. intros H. unfold Dot. apply Nat.eqb_neq in H. now rewrite H. Qed.

Lemma Equals_spec {A} (eqb : A -> A -> bool) : (forall a b, eqb a b = true <-> a = b) ->
  forall v0 v1, Equals eqb v0 v1 = true <-> v0 = v1.
Proof.
  intros H. induction v0 as [|a v0 IH]; intros [|b v1]; cbn; try (split; [discriminate|discriminate]); [tauto|].
  destruct (eqb a b) eqn:E.
  - apply H in E. subst. rewrite IH. split; [now intros ->|congruence].
  - split; [discriminate|]. intros [= -> _]. assert (eqb b b = true) by now apply H. congruence.
Qed.

Lemma Fill_spec {A} (v : list A) x : Fill v x = repeat x (length v).
Proof.
  unfold Fill. apply (list_ext x).
  - rewrite (forN_upd_length 0 (length v) (fun i => i) (fun _ _ => x)), repeat_length. reflexivity.
  - intros i Hi. rewrite (forN_upd_length 0 (length v) (fun i => i) (fun _ _ => x)) in Hi.
    rewrite (forN_upd_range x 0 (length v) (fun _ _ => x) v) by lia.
    rewrite nth_repeat_lt by lia.
    destruct ((0 <=? i)%nat && (i <? 0 + length v)%nat)%bool eqn:E; [reflexivity|lia].
Qed.

(* ------------------------------------------------------------------ *)
(** ** Rotation and reversal *)

Lemma nth_firstn {A} k (l : list A) i d : nth i (firstn k l) d = if (i <? k)%nat then nth i l d else d.
Proof.
  revert l i; induction k as [|k IH]; intros [|x l] [|i]; cbn [firstn nth]; try reflexivity.
  - destruct (_ <? _)%nat; reflexivity.
  - rewrite IH. reflexivity.
Qed.
Lemma nth_skipn {A} k (l : list A) i d : nth i (skipn k l) d = nth (k + i) l d.
Proof. revert l; induction k as [|k IH]; intros [|x l]; cbn; auto. destruct i; reflexivity. Qed.

Lemma go_copy_length {A} (dst src : list A) : length (go_copy dst src) = length dst.
Proof. unfold go_copy. rewrite app_length, firstn_length, skipn_length. lia. Qed.
Lemma nth_go_copy {A} (dst src : list A) i d : 
  nth i (go_copy dst src) d = if (i <? Nat.min (length dst) (length src))%nat then nth i src d else nth i dst d.
Proof.
  unfold go_copy. set (k := Nat.min _ _).
  destruct (Nat.ltb_spec i k).
  - rewrite app_nth1 by (rewrite firstn_length; lia). rewrite nth_firstn.
    destruct (Nat.ltb_spec i k); [reflexivity|lia].
  - rewrite app_nth2 by (rewrite firstn_length; lia). rewrite firstn_length, nth_skipn. f_equal. lia.
Qed.

Lemma rotAmount_spec n l : (0 < n)%nat ->
  (rotAmount n l <= n)%nat /\ (Z.of_nat (rotAmount n l)) mod Z.of_nat n = l mod Z.of_nat n.
Proof.
  intros Hn. unfold rotAmount. destruct (Z.ltb_spec l 0).
  - rewrite Z.rem_mod_nonneg by lia. pose proof (Z.mod_pos_bound (- l) (Z.of_nat n) ltac:(lia)).
    split; [lia|]. rewrite Z2Nat.id by lia.
    rewrite Zminus_mod_idemp_r. replace (Z.of_nat n - - l) with (l + 1 * Z.of_nat n) by lia.
    apply Z_mod_plus_full.
  - rewrite Z.rem_mod_nonneg by lia. pose proof (Z.mod_pos_bound l (Z.of_nat n) ltac:(lia)).
    split; [lia|]. rewrite Z2Nat.id by lia. apply Z.mod_mod. lia.
Qed.

(** The rotated index, without Z. *)
Lemma rot_index n k l i : (0 < n)%nat -> (k <= n)%nat -> (i < n)%nat ->
  (Z.of_nat k) mod Z.of_nat n = l mod Z.of_nat n ->
  Z.to_nat ((Z.of_nat i + l) mod Z.of_nat n) = if (i + k <? n)%nat then (i + k)%nat else (i + k - n)%nat.
Proof.
  intros Hn Hk Hi E. rewrite <- Zplus_mod_idemp_r, <- E, Zplus_mod_idemp_r.
  destruct (Nat.ltb_spec (i + k) n).
  - rewrite Z.mod_small by lia. lia.
  - replace (Z.of_nat i + Z.of_nat k) with (Z.of_nat (i + k - n) + 1 * Z.of_nat n) by lia.
    rewrite Z_mod_plus_full. destruct (Nat.eq_dec (i + k - n) n); [lia|].
    rewrite Z.mod_small by lia. lia.
Qed.

Lemma RotateTo_spec {A} (d : A) vOut v l : length vOut = length v -> (0 < length v)%nat ->
  exists v', RotateTo vOut v l = Some v' /\ rotated d l v v'.
Proof.
  intros E Hn. unfold RotateTo. rewrite E, Nat.eqb_refl. cbn [negb].
  destruct (Nat.eqb_spec (length v) 0); [lia|]. cbn zeta.
  destruct (rotAmount_spec (length v) l Hn) as [Hk Hm]. set (k := rotAmount (length v) l) in *.
  set (o1 := firstn k vOut ++ go_copy (skipn k vOut) v).
  assert (Hl1 : length o1 = length v).
  { unfold o1. rewrite app_length, firstn_length, go_copy_length, skipn_length. lia. }
  eexists; split; [reflexivity|]. split.
  - rewrite app_length, go_copy_length, firstn_length, skipn_length. lia.
  - intros i Hi. rewrite (rot_index (length v) k l i) by auto.
    destruct (Nat.ltb_spec (i + k) (length v)).
    + rewrite app_nth2 by (rewrite go_copy_length, firstn_length; lia).
      rewrite go_copy_length, firstn_length, nth_skipn, Hl1. unfold o1.
      rewrite app_nth2 by (rewrite firstn_length; lia). rewrite firstn_length, nth_go_copy, skipn_length, E.
      rewrite !(Nat.min_l k) by lia. replace (k + (i + k - k) - k)%nat with i by lia.
      destruct (Nat.ltb_spec i (Nat.min (length v - k) (length v))); [reflexivity|lia].
    + rewrite app_nth1 by (rewrite go_copy_length, firstn_length; lia).
      rewrite nth_go_copy, firstn_length, skipn_length, nth_skipn.
      destruct (Nat.ltb_spec (i + k - length v) (Nat.min (Nat.min k (length o1)) (length v - (length v - k)))); [f_equal; lia|lia].
Qed.

Lemma swap_length {A} (d : A) i j v : length (swap d i j v) = length v.
Proof. unfold swap. now rewrite !upd_length. Qed.

Lemma nth_swap {A} (d : A) i j v k : (i < length v)%nat -> (j < length v)%nat ->
  nth k (swap d i j v) d = if (k =? i)%nat then nth j v d else if (k =? j)%nat then nth i v d else nth k v d.
Proof.
  intros Hi Hj. unfold swap. cbn zeta.
  destruct (Nat.eqb_spec k i) as [->|].
  - destruct (Nat.eq_dec i j) as [->|].
    + rewrite nth_upd_same by (rewrite upd_length; lia). reflexivity.
    + rewrite nth_upd_other by lia. rewrite nth_upd_same by lia. reflexivity.
  - destruct (Nat.eqb_spec k j) as [->|].
    + rewrite nth_upd_same by (rewrite upd_length; lia). reflexivity.
    + rewrite !nth_upd_other by lia. reflexivity.
Qed.

Definition rev_go {A} (d : A) (lo : nat) := fix go (fuel i j : nat) (v : list A) : list A :=
     match fuel with
     | O => v
     | S f => if Nat.ltb i j then go f (S i) (j - 1)%nat (swap d (lo + i) (lo + j) v) else v
     end.

Lemma rev_go_spec {A} (d : A) lo n fuel : forall i j v0 v,
  (lo + n <= length v)%nat -> (i + j + 1 = n)%nat -> (j < fuel + i)%nat \/ (n <= i)%nat -> (i <= j + 1)%nat ->
  length v = length v0 ->
  (forall k, nth k v d = if ((lo <=? k)%nat && (k <? lo + i)%nat || (lo + j <? k)%nat && (k <? lo + n)%nat)%bool
      then nth (lo + (lo + n - 1) - k) v0 d else nth k v0 d) ->
  length (rev_go d lo fuel i j v) = length v0 /\
  forall k, nth k (rev_go d lo fuel i j v) d =
     if ((lo <=? k)%nat && (k <? lo + n)%nat)%bool then nth (lo + (lo + n - 1) - k) v0 d else nth k v0 d.
Proof.
  induction fuel as [|fuel IH]; intros i j v0 v Hlen Hij Hf Hle Hlv Hv; cbn [rev_go].
  - split; [auto|]. intros k. rewrite Hv.
    destruct ((lo <=? k)%nat && (k <? lo + i)%nat || (lo + j <? k)%nat && (k <? lo + n)%nat)%bool eqn:E1;
    destruct ((lo <=? k)%nat && (k <? lo + n)%nat)%bool eqn:E2; try reflexivity; lia.
  - destruct (Nat.ltb_spec i j) as [Hlt|Hge].
    + apply IH; rewrite ?swap_length; try lia; try assumption.
      intros k. rewrite nth_swap by lia. rewrite !Hv.
      destruct (Nat.eqb_spec k (lo + i)) as [->|Hk1].
      { destruct ((lo <=? lo + j)%nat && (lo + j <? lo + i)%nat || (lo + j <? lo + j)%nat && (lo + j <? lo + n)%nat)%bool eqn:E1; [lia|].
        destruct ((lo <=? lo + i)%nat && (lo + i <? lo + S i)%nat || (lo + (j - 1) <? lo + i)%nat && (lo + i <? lo + n)%nat)%bool eqn:E2; [|lia].
        f_equal; lia. }
      destruct (Nat.eqb_spec k (lo + j)) as [->|Hk2].
      { destruct ((lo <=? lo + i)%nat && (lo + i <? lo + i)%nat || (lo + j <? lo + i)%nat && (lo + i <? lo + n)%nat)%bool eqn:E1; [lia|].
        destruct ((lo <=? lo + j)%nat && (lo + j <? lo + S i)%nat || (lo + (j - 1) <? lo + j)%nat && (lo + j <? lo + n)%nat)%bool eqn:E2; [|lia].
        f_equal; lia. }
      destruct ((lo <=? k)%nat && (k <? lo + i)%nat || (lo + j <? k)%nat && (k <? lo + n)%nat)%bool eqn:E1;
      destruct ((lo <=? k)%nat && (k <? lo + S i)%nat || (lo + (j - 1) <? k)%nat && (k <? lo + n)%nat)%bool eqn:E2; try reflexivity; lia.
    + split; [auto|]. intros k. rewrite Hv.
      destruct ((lo <=? k)%nat && (k <? lo + i)%nat || (lo + j <? k)%nat && (k <? lo + n)%nat)%bool eqn:E1;
      destruct ((lo <=? k)%nat && (k <? lo + n)%nat)%bool eqn:E2; try reflexivity; try lia.
      f_equal. lia.
Qed.

Lemma ReverseWin_spec {A} (d : A) lo n v : (lo + n <= length v)%nat ->
  length (ReverseWin d lo n v) = length v /\
  forall k, nth k (ReverseWin d lo n v) d =
    if ((lo <=? k)%nat && (k <? lo + n)%nat)%bool then nth (lo + (lo + n - 1) - k) v d else nth k v d.
Proof.
  intros H. change (ReverseWin d lo n v) with (rev_go d lo n 0 (n - 1) v).
  destruct n as [|n].
  - cbn [rev_go]. split; [reflexivity|]. intros k.
    destruct ((lo <=? k)%nat && (k <? lo + 0)%nat)%bool eqn:E; [lia|reflexivity].
  - apply rev_go_spec; try lia. intros k.
    destruct ((lo <=? k)%nat && (k <? lo + 0)%nat || (lo + (S n - 1) <? k)%nat && (k <? lo + S n)%nat)%bool eqn:E1; [lia|reflexivity].
Qed.

Lemma ReverseInPlace_spec {A} (d : A) v : ReverseInPlace d v = rev v.
Proof.
  unfold ReverseInPlace. destruct (ReverseWin_spec d 0 (length v) v ltac:(lia)) as [Hl H].
  apply (list_ext d); [now rewrite rev_length|].
  intros i Hi. rewrite Hl in Hi. rewrite H, rev_nth by lia.
  destruct ((0 <=? i)%nat && (i <? 0 + length v)%nat)%bool eqn:E; [|lia]. f_equal. lia.
Qed.

Lemma ReverseTo_spec {A} (d : A) vOut v : length v = length vOut -> ReverseTo d vOut v = Some (rev v).
Proof.
  intros E. unfold ReverseTo. rewrite E, Nat.eqb_refl. f_equal.
  set (P := fun n s => length s = length vOut /\ forall j, (length vOut - n <= j < length vOut)%nat ->
     nth j s d = nth (length vOut - 1 - j) v d).
  assert (H : P (length vOut)
     (forN 0 (length vOut) (fun i o => upd o (length vOut - i - 1) (nth i v d)) vOut)).
  { apply (forN_ind P); unfold P; [split; [reflexivity|lia]|].
    intros i s Hi [Hl Hs]. cbn [plus]. split; [now rewrite upd_length|].
    intros j Hj. destruct (Nat.eq_dec j (length vOut - i - 1)) as [->|Hne].
    - rewrite nth_upd_same by lia. f_equal. lia.
    - rewrite nth_upd_other by lia. apply Hs. lia. }
  destruct H as [Hl H]. apply (list_ext d); [rewrite rev_length; lia|].
  intros i Hi. rewrite H by lia. rewrite rev_nth by lia. f_equal. lia.
Qed.

Lemma RotateInPlace_spec {A} (d : A) v l : (0 < length v)%nat ->
  exists v', RotateInPlace d v l = Some v' /\ rotated d l v v'.
Proof.
  intros Hn. unfold RotateInPlace. destruct (Nat.eqb_spec (length v) 0); [lia|]. cbn zeta.
  destruct (rotAmount_spec (length v) l Hn) as [Hk Hm]. set (k := rotAmount (length v) l) in *.
  eexists; split; [reflexivity|].
  rewrite ReverseInPlace_spec.
  destruct (ReverseWin_spec d 0 k (rev v)) as [L1 H1]; [rewrite rev_length; lia|].
  rewrite rev_length in L1.
  destruct (ReverseWin_spec d k (length v - k) (ReverseWin d 0 k (rev v))) as [L2 H2]; [lia|].
  split; [lia|]. intros i Hi. rewrite (rot_index (length v) k l i) by auto. rewrite H2.
  destruct (Nat.ltb_spec (i + k) (length v)).
  - destruct ((k <=? i + k)%nat && (i + k <? k + (length v - k))%nat)%bool eqn:E; [|lia].
    rewrite H1. destruct ((0 <=? k + (k + (length v - k) - 1) - (i + k))%nat && (k + (k + (length v - k) - 1) - (i + k) <? 0 + k)%nat)%bool eqn:E1; [lia|].
    rewrite rev_nth by lia. f_equal. lia.
  - destruct ((k <=? i + k - length v)%nat && (i + k - length v <? k + (length v - k))%nat)%bool eqn:E; [lia|].
    rewrite H1. destruct ((0 <=? i + k - length v)%nat && (i + k - length v <? 0 + k)%nat)%bool eqn:E1; [|lia].
    rewrite rev_nth by lia. f_equal. lia.
Qed.

Lemma rotated_unique {A} (d : A) l v v1 v2 : (0 < length v)%nat -> rotated d l v v1 -> rotated d l v v2 -> v1 = v2.
Proof.
  intros Hn [L1 H1] [L2 H2]. apply (list_ext d); [lia|]. intros j Hj.
  set (n := Z.of_nat (length v)). set (i := Z.to_nat ((Z.of_nat j - l) mod n)).
  pose proof (Z.mod_pos_bound (Z.of_nat j - l) n ltac:(lia)).
  assert (E : Z.to_nat ((Z.of_nat i + l) mod n) = j).
  { unfold i. rewrite Z2Nat.id by lia. rewrite Zplus_mod_idemp_l.
    replace (Z.of_nat j - l + l) with (Z.of_nat j) by lia. rewrite Z.mod_small by lia. lia. }
  rewrite <- E. unfold n. rewrite H1, H2 by lia. reflexivity.
Qed.

(* ------------------------------------------------------------------ *)
(** ** Bit reversal *)

Fixpoint bitrev (k i : nat) : nat :=
  match k with
  | O => O
  | S k' => (i mod 2 * 2 ^ k' + bitrev k' (i / 2))%nat
  end.

Lemma bitrev_lt k i : (bitrev k i < 2 ^ k)%nat.
Proof.
  revert i; induction k as [|k IH]; intros i; cbn [bitrev Nat.pow]; [lia|].
  pose proof (IH (i / 2)%nat). pose proof (Nat.mod_upper_bound i 2 ltac:(lia)). nia.
Qed.

Lemma pow2_nat_pos k : (0 < 2 ^ k)%nat.
Proof. induction k; cbn; lia. Qed.

Lemma testbit_add_pow2 k r b c : (r < 2 ^ k)%nat -> (c < 2)%nat ->
  Nat.testbit (c * 2 ^ k + r) b = if (b <? k)%nat then Nat.testbit r b else
     if (b =? k)%nat then (c =? 1)%nat else false.
Proof.
  intros Hr Hc. destruct (Nat.ltb_spec b k).
  - rewrite <- (Nat.mod_pow2_bits_low _ k b) by lia.
    rewrite Nat.add_comm, Nat.mod_add by (pose proof (pow2_nat_pos k); lia).
    rewrite Nat.mod_small by lia. reflexivity.
  - destruct (Nat.eqb_spec b k) as [->|].
    + rewrite Nat.testbit_eqb. rewrite Nat.add_comm, Nat.div_add by (pose proof (pow2_nat_pos k); lia).
      rewrite Nat.div_small by lia. rewrite Nat.add_0_l, Nat.mod_small by lia. reflexivity.
    + rewrite Nat.testbit_eqb. rewrite (Nat.div_small (c * 2 ^ k + r)); [reflexivity|].
      assert (2 ^ (k + 1) <= 2 ^ b)%nat by (apply Nat.pow_le_mono_r; lia).
      rewrite Nat.pow_add_r in H0. cbn in H0. nia.
Qed.

Lemma bitrev_spec k i : is_bitrev k i (bitrev k i).
Proof.
  split; [apply bitrev_lt|].
  revert i; induction k as [|k IH]; intros i b Hb; [lia|]. cbn [bitrev].
  rewrite testbit_add_pow2; [|apply bitrev_lt|apply Nat.mod_upper_bound; lia].
  destruct (Nat.ltb_spec b k).
  - rewrite IH by lia. rewrite Nat.div2_div, <- Nat.div2_div || idtac.
    replace (S k - 1 - b)%nat with (S (k - 1 - b)) by lia.
    rewrite Nat.testbit_eqb, (Nat.testbit_eqb i). f_equal. f_equal.
    rewrite Nat.pow_succ_r', Nat.div_div by (pose proof (pow2_nat_pos (k - 1 - b)); lia). reflexivity.
  - destruct (Nat.eqb_spec b k); [|lia]. subst. replace (S k - 1 - k)%nat with O by lia.
    rewrite Nat.testbit_eqb. cbn [Nat.pow]. rewrite Nat.div_1_r. reflexivity.
Qed.

Lemma is_bitrev_unique k i r r' : is_bitrev k i r -> is_bitrev k i r' -> r = r'.
Proof.
  intros [H1 H2] [H3 H4]. apply Nat.bits_inj. intros b.
  destruct (Nat.lt_ge_cases b k).
  - rewrite H2, H4 by lia. reflexivity.
  - rewrite !Nat.testbit_eqb.
    assert (2 ^ k <= 2 ^ b)%nat by (apply Nat.pow_le_mono_r; lia).
    rewrite !Nat.div_small by lia. reflexivity.
Qed.

Lemma bitrev_involutive k i : (i < 2 ^ k)%nat -> bitrev k (bitrev k i) = i.
Proof.
  intros Hi. apply (is_bitrev_unique k (bitrev k i)); [apply bitrev_spec|].
  split; [exact Hi|]. intros b Hb. destruct (bitrev_spec k i) as [_ H].
  rewrite H by lia. f_equal. lia.
Qed.

Lemma br_inner_spec : forall k fuel x, (k < fuel)%nat -> (x + 1 < 2 ^ S k)%nat ->
  br_inner fuel (bitrev (S k) x) (2 ^ k) = Ok (bitrev (S k) (x + 1)).
Proof.
  induction k as [|k IH]; intros fuel x Hf Hx; (destruct fuel as [|fuel]; [lia|]); cbn [br_inner].
  - cbn in Hx. assert (x = 0)%nat by lia. subst. reflexivity.
  - pose proof (Nat.div_mod x 2 ltac:(lia)) as E. pose proof (Nat.mod_upper_bound x 2 ltac:(lia)).
    set (K := S k) in *.
    assert (Hb : bitrev (S K) x = (x mod 2 * 2 ^ K + bitrev K (x / 2))%nat) by reflexivity.
    pose proof (bitrev_lt K (x / 2)).
    destruct (Nat.leb_spec (2 ^ K) (bitrev (S K) x)) as [Hge|Hlt].
    + assert (x mod 2 = 1)%nat by nia.
      replace (bitrev (S K) x - 2 ^ K)%nat with (bitrev K (x / 2)) by nia.
      replace (2 ^ K / 2)%nat with (2 ^ k)%nat.
      2:{ unfold K. rewrite Nat.pow_succ_r', Nat.mul_comm, Nat.div_mul by lia. reflexivity. }
      rewrite IH; [|lia|].
      * f_equal. replace (x + 1)%nat with ((x / 2 + 1) * 2)%nat by lia.
        change (bitrev K (x / 2 + 1) = ((x / 2 + 1) * 2) mod 2 * 2 ^ K + bitrev K ((x / 2 + 1) * 2 / 2))%nat.
        rewrite Nat.mod_mul, Nat.div_mul by lia. reflexivity.
      * rewrite Nat.pow_succ_r' in Hx. fold K. nia.
    + assert (x mod 2 = 0)%nat by nia. f_equal.
      change (bitrev (S K) x + 2 ^ K = (x + 1) mod 2 * 2 ^ K + bitrev K ((x + 1) / 2))%nat.
      replace (x + 1)%nat with (1 + (x / 2) * 2)%nat by lia.
      rewrite Nat.mod_add, Nat.div_add by lia. change (1 mod 2)%nat with 1%nat. change (1 / 2)%nat with 0%nat.
      rewrite Hb, Nat.add_0_l. nia.
Qed.

Lemma BitReverseInPlace_spec {A} (d : A) k v : length v = (2 ^ k)%nat ->
  exists v', BitReverseInPlace d v = Ok v' /\ length v' = length v /\
    forall i, (i < length v)%nat -> nth i v' d = nth (bitrev k i) v d.
Proof.
  intros Hlen. unfold BitReverseInPlace. cbn zeta.
  set (n := length v) in *.
  set (body := fun i st => _).
  assert (HI : (fun i st => exists v', st = Ok (v', bitrev k i) /\ length v' = n /\
      forall a, (a < n)%nat -> nth a v' d = if (Nat.min a (bitrev k a) <=? i)%nat then nth (bitrev k a) v d else nth a v d)
      (n - 1)%nat (forN 1 (n - 1) body (Ok (v, 0%nat)))).
  { apply forN_ind.
    - exists v. split; [|split; [reflexivity|]].
      + do 2 f_equal. clear. induction k as [|k IH]; cbn; [reflexivity|]. rewrite <- IH. reflexivity.
      + intros a Ha. destruct (Nat.leb_spec (Nat.min a (bitrev k a)) 0); [|reflexivity].
        assert (H0 : forall c, bitrev c 0 = 0%nat).
        { induction c; cbn; auto. }
        assert (a = 0 \/ bitrev k a = 0)%nat as [->|E] by lia.
        * rewrite H0. reflexivity.
        * pose proof (bitrev_involutive k a ltac:(lia)) as Hinv. rewrite E in *. rewrite H0 in Hinv. subst a. reflexivity.
    - intros i st Hi (v' & -> & Hl & Hv). unfold body.
      destruct k as [|k]. { cbn in Hlen. lia. }
      replace (n / 2)%nat with (2 ^ k)%nat.
      2:{ rewrite Hlen, Nat.pow_succ_r', Nat.mul_comm, Nat.div_mul by lia. reflexivity. }
      assert (Hkn : (k < n)%nat).
      { rewrite Hlen. clear. induction k; cbn in *; [lia|]. pose proof (pow2_nat_pos k). lia. }
      rewrite br_inner_spec; [|lia|lia].
      replace (i + 1)%nat with (S i) by lia. replace (1 + i)%nat with (S i) by lia.
      pose proof (bitrev_lt (S k) (S i)) as Hlt. 
      destruct (Nat.ltb_spec (S i) (bitrev (S k) (S i))) as [Hsw|Hns].
      + eexists. split; [reflexivity|]. split; [now rewrite swap_length|].
        intros a Ha. rewrite nth_swap by lia.
        assert (Hinv := bitrev_involutive (S k) (S i) ltac:(lia)).
        destruct (Nat.eqb_spec a (S i)) as [->|Ha1].
        { rewrite Hv by lia. rewrite Hinv.
          destruct (Nat.leb_spec (Nat.min (bitrev (S k) (S i)) (S i)) i); [lia|].
          destruct (Nat.leb_spec (Nat.min (S i) (bitrev (S k) (S i))) (S i)); [reflexivity|lia]. }
        destruct (Nat.eqb_spec a (bitrev (S k) (S i))) as [->|Ha2].
        { rewrite Hv by lia. rewrite Hinv.
          destruct (Nat.leb_spec (Nat.min (S i) (bitrev (S k) (S i))) i); [lia|].
          destruct (Nat.leb_spec (Nat.min (bitrev (S k) (S i)) (S i)) (S i)); [reflexivity|lia]. }
        rewrite Hv by lia.
        assert (bitrev (S k) a <> S i).
        { intros E. apply Ha2. rewrite <- E. symmetry. apply bitrev_involutive. lia. }
        destruct (Nat.leb_spec (Nat.min a (bitrev (S k) a)) i), (Nat.leb_spec (Nat.min a (bitrev (S k) a)) (S i)); try reflexivity; lia.
      + exists v'. split; [reflexivity|]. split; [auto|]. intros a Ha. rewrite Hv by lia.
        destruct (Nat.leb_spec (Nat.min a (bitrev (S k) a)) i), (Nat.leb_spec (Nat.min a (bitrev (S k) a)) (S i)); try reflexivity; [lia|].
        assert (Nat.min a (bitrev (S k) a) = S i) as Hmin by lia.
        f_equal. pose proof (bitrev_involutive (S k) a ltac:(lia)) as Hinv.
        destruct (Nat.min_spec a (bitrev (S k) a)) as [[Hlt' E]|[Hlt' E]]; rewrite E in Hmin.
        * subst a. lia.
        * rewrite Hmin in *. lia. }
  destruct HI as (v' & -> & Hl & Hv). exists v'. split; [reflexivity|]. split; [exact Hl|].
  intros i Hi. rewrite Hv by assumption.
  destruct (Nat.leb_spec (Nat.min i (bitrev k i)) (n - 1)); [reflexivity|lia].
Qed.

(** Lengths that are not powers of two can make the inner loop spin: j = bit = 0. *)
Lemma br_inner_diverges fuel : br_inner fuel 0 0 = OutOfFuel.
Proof. induction fuel; cbn; auto. Qed.

(* ------------------------------------------------------------------ *)
(** ** Float-4 layout *)

Lemma nth_upds8 {F} (o : list F) j x0 x1 x2 x3 x4 x5 x6 x7 d t : (j + 8 <= length o)%nat ->
  nth t (upd (upd (upd (upd (upd (upd (upd (upd o (j+0) x0) (j+1) x1) (j+2) x2) (j+3) x3) (j+4) x4) (j+5) x5) (j+6) x6) (j+7) x7) d =
  if ((j <=? t)%nat && (t <? j + 8)%nat)%bool then nth (t - j) [x0;x1;x2;x3;x4;x5;x6;x7] d else nth t o d.
Proof.
  intros H. repeat rewrite nth_upd. repeat rewrite upd_length.
  destruct ((j <=? t)%nat && (t <? j + 8)%nat)%bool eqn:E.
  - assert (exists u, t = j + u /\ u < 8)%nat as (u & -> & Hu) by (exists (t - j)%nat; lia).
    replace (j + u - j)%nat with u by lia.
    do 8 (destruct u as [|u]; [cbn [nth];
      repeat match goal with |- context [((?a =? ?b)%nat && (?c <? ?e)%nat)%bool] =>
        let Hb := fresh in destruct ((a =? b)%nat && (c <? e)%nat)%bool eqn:Hb; [try lia; reflexivity|try lia] end; lia|]).
    lia.
  - repeat match goal with |- context [((?a =? ?b)%nat && (?c <? ?e)%nat)%bool] =>
        let Hb := fresh in destruct ((a =? b)%nat && (c <? e)%nat)%bool eqn:Hb; [lia|clear Hb] end. reflexivity.
Qed.

Lemma nth_upds4 {F} (o : list F) j x0 x1 x2 x3 d t : (j + 4 <= length o)%nat ->
  nth t (upd (upd (upd (upd o (j+0) x0) (j+1) x1) (j+2) x2) (j+3) x3) d =
  if ((j <=? t)%nat && (t <? j + 4)%nat)%bool then nth (t - j) [x0;x1;x2;x3] d else nth t o d.
Proof.
  intros H. repeat rewrite nth_upd. repeat rewrite upd_length.
  destruct ((j <=? t)%nat && (t <? j + 4)%nat)%bool eqn:E.
  - assert (exists u, t = j + u /\ u < 4)%nat as (u & -> & Hu) by (exists (t - j)%nat; lia).
    replace (j + u - j)%nat with u by lia.
    do 4 (destruct u as [|u]; [cbn [nth];
      repeat match goal with |- context [((?a =? ?b)%nat && (?c <? ?e)%nat)%bool] =>
        let Hb := fresh in destruct ((a =? b)%nat && (c <? e)%nat)%bool eqn:Hb; [try lia; reflexivity|try lia] end; lia|]).
    lia.
  - repeat match goal with |- context [((?a =? ?b)%nat && (?c <? ?e)%nat)%bool] =>
        let Hb := fresh in destruct ((a =? b)%nat && (c <? e)%nat)%bool eqn:Hb; [lia|clear Hb] end. reflexivity.
Qed.

(** Position of the real part of element e is 8*(e/4) + e mod 4, of the imaginary part 4 more. *)
Lemma CmplxToFloat4To_spec {F} (f0 : F) vOut v : (length v mod 4 = 0)%nat -> length vOut = (2 * length v)%nat ->
  exists o, CmplxToFloat4To f0 vOut v = Some o /\ length o = (2 * length v)%nat /\
    forall e, (e < length v)%nat ->
      nth (8 * (e / 4) + e mod 4) o f0 = fst (nth e v (f0, f0)) /\
      nth (8 * (e / 4) + e mod 4 + 4) o f0 = snd (nth e v (f0, f0)).
Proof.
  intros H4 Hl. unfold CmplxToFloat4To. rewrite H4, Nat.eqb_refl, Hl, Nat.eqb_refl. cbn [negb].
  eexists; split; [reflexivity|].
  set (body := fun k o => _).
  pose proof (Nat.div_mod (length v) 4 ltac:(lia)) as Hd.
  assert (HI : (fun n o => length o = (2 * length v)%nat /\ forall e, (e < 4 * n)%nat ->
      nth (8 * (e / 4) + e mod 4) o f0 = fst (nth e v (f0, f0)) /\
      nth (8 * (e / 4) + e mod 4 + 4) o f0 = snd (nth e v (f0, f0))) (length v / 4)%nat
      (forN 0 (length v / 4) body vOut)).
  { apply forN_ind; [split; [exact Hl|lia]|].
    intros k o Hk [Ho He]. cbn [plus]. unfold body. cbn zeta. split; [now rewrite !upd_length|].
    intros e He'. pose proof (Nat.div_mod e 4 ltac:(lia)) as Hde.
    pose proof (Nat.mod_upper_bound e 4 ltac:(lia)).
    rewrite !nth_upds8 by lia.
    destruct (Nat.eq_dec (e / 4) k) as [Ek|Nk].
    - rewrite Ek in *. 
      destruct ((8 * k <=? 8 * k + e mod 4)%nat && (8 * k + e mod 4 <? 8 * k + 8)%nat)%bool eqn:E1; [|lia].
      destruct ((8 * k <=? 8 * k + e mod 4 + 4)%nat && (8 * k + e mod 4 + 4 <? 8 * k + 8)%nat)%bool eqn:E2; [|lia].
      replace (8 * k + e mod 4 - 8 * k)%nat with (e mod 4)%nat by lia.
      replace (8 * k + e mod 4 + 4 - 8 * k)%nat with (e mod 4 + 4)%nat by lia.
      rewrite Hde at 2 4. set (u := (e mod 4)%nat) in *. clearbody u.
      do 4 (destruct u as [|u]; [split; reflexivity|]). lia.
    - assert (e / 4 < k)%nat by (assert (e / 4 < S k)%nat by (apply Nat.div_lt_upper_bound; lia); lia).
      destruct ((8 * k <=? 8 * (e / 4) + e mod 4)%nat && (8 * (e / 4) + e mod 4 <? 8 * k + 8)%nat)%bool eqn:E1; [lia|].
      destruct ((8 * k <=? 8 * (e / 4) + e mod 4 + 4)%nat && (8 * (e / 4) + e mod 4 + 4 <? 8 * k + 8)%nat)%bool eqn:E2; [lia|].
      apply He. lia. }
  destruct HI as [Ho He]. split; [exact Ho|]. intros e He'. apply He. lia.
Qed.

Lemma Float4ToCmplxTo_spec {F} (f0 : F) vOut v : (length v mod 8 = 0)%nat -> (length vOut * 2 = length v)%nat ->
  exists o, Float4ToCmplxTo f0 vOut v = Some o /\ length o = length vOut /\
    forall e, (e < length vOut)%nat ->
      nth e o (f0, f0) = (nth (8 * (e / 4) + e mod 4) v f0, nth (8 * (e / 4) + e mod 4 + 4) v f0).
Proof.
  intros H8 Hl. unfold Float4ToCmplxTo. rewrite H8, Nat.eqb_refl, Hl, Nat.eqb_refl. cbn [negb].
  eexists; split; [reflexivity|].
  set (body := fun k o => _).
  pose proof (Nat.div_mod (length v) 8 ltac:(lia)) as Hd.
  assert (HI : (fun n o => length o = length vOut /\ forall e, (e < 4 * n)%nat ->
      nth e o (f0, f0) = (nth (8 * (e / 4) + e mod 4) v f0, nth (8 * (e / 4) + e mod 4 + 4) v f0)) (length v / 8)%nat
      (forN 0 (length v / 8) body vOut)).
  { apply forN_ind; [split; [reflexivity|lia]|].
    intros k o Hk [Ho He]. cbn [plus]. unfold body. cbn zeta. split; [now rewrite !upd_length|].
    intros e He'. pose proof (Nat.div_mod e 4 ltac:(lia)) as Hde.
    pose proof (Nat.mod_upper_bound e 4 ltac:(lia)).
    rewrite !nth_upds4 by lia.
    destruct (Nat.eq_dec (e / 4) k) as [Ek|Nk].
    - destruct ((4 * k <=? e)%nat && (e <? 4 * k + 4)%nat)%bool eqn:E1; [|lia].
      replace (e - 4 * k)%nat with (e mod 4)%nat by lia. rewrite Ek.
      set (u := (e mod 4)%nat) in *. clearbody u.
      do 4 (destruct u as [|u]; [reflexivity|]). lia.
    - assert (e / 4 < k)%nat by (assert (e / 4 < S k)%nat by (apply Nat.div_lt_upper_bound; lia); lia).
      destruct ((4 * k <=? e)%nat && (e <? 4 * k + 4)%nat)%bool eqn:E1; [lia|].
      apply He. lia. }
  destruct HI as [Ho He]. split; [exact Ho|]. intros e He'. apply He. lia.
Qed.

Lemma float4_roundtrip {F} (f0 : F) v vOut1 vOut2 : (length v mod 4 = 0)%nat ->
  length vOut1 = (2 * length v)%nat -> length vOut2 = length v ->
  exists o, CmplxToFloat4To f0 vOut1 v = Some o /\ Float4ToCmplxTo f0 vOut2 o = Some v.
Proof.
  intros H4 H1 H2. destruct (CmplxToFloat4To_spec f0 vOut1 v H4 H1) as (o & E & Lo & Ho).
  exists o. split; [exact E|].
  pose proof (Nat.div_mod (length v) 4 ltac:(lia)) as Hd.
  destruct (Float4ToCmplxTo_spec f0 vOut2 o) as (c & Ec & Lc & Hc).
  - rewrite Lo. replace (2 * length v)%nat with (0 + (length v / 4) * 8)%nat by lia. now rewrite Nat.mod_add by lia.
  - lia.
  - rewrite Ec. f_equal. apply (list_ext (f0, f0)); [lia|]. intros i Hi. rewrite Hc by lia.
    destruct (Ho i ltac:(lia)) as [-> ->]. now destruct (nth i v (f0, f0)).
Qed.

Lemma float4_roundtrip' {F} (f0 : F) v vOut1 vOut2 : (length v mod 8 = 0)%nat ->
  (length vOut1 * 2 = length v)%nat -> length vOut2 = length v ->
  exists o, Float4ToCmplxTo f0 vOut1 v = Some o /\ CmplxToFloat4To f0 vOut2 o = Some v.
Proof.
  intros H8 H1 H2. destruct (Float4ToCmplxTo_spec f0 vOut1 v H8 H1) as (c & E & Lc & Hc).
  exists c. split; [exact E|].
  pose proof (Nat.div_mod (length v) 8 ltac:(lia)) as Hd.
  destruct (CmplxToFloat4To_spec f0 vOut2 c) as (o & Eo & Lo & Ho).
  - rewrite Lc. replace (length vOut1) with (0 + (length v / 8) * 4)%nat by lia. now rewrite Nat.mod_add by lia.
  - lia.
  - rewrite Eo. f_equal. apply (list_ext f0); [lia|]. intros i Hi.
    set (q := (i / 8)%nat). set (r := (i mod 8)%nat).
    pose proof (Nat.div_mod i 8 ltac:(lia)) as Hi8. pose proof (Nat.mod_upper_bound i 8 ltac:(lia)) as Hr8.
    fold q r in Hi8, Hr8.
    destruct (Nat.lt_ge_cases r 4) as [Hr|Hr].
    + destruct (Ho (r + q * 4)%nat ltac:(lia)) as [A _]. rewrite Hc in A by lia.
      rewrite Nat.div_add, Nat.mod_add, (Nat.div_small r 4), (Nat.mod_small r 4) in A by lia.
      cbn [fst] in A. replace i with (8 * (0 + q) + r)%nat by lia. exact A.
    + destruct (Ho (r - 4 + q * 4)%nat ltac:(lia)) as [_ A]. rewrite Hc in A by lia.
      rewrite Nat.div_add, Nat.mod_add, (Nat.div_small (r - 4) 4), (Nat.mod_small (r - 4) 4) in A by lia.
      cbn [snd] in A. replace i with (8 * (0 + q) + (r - 4) + 4)%nat by lia. exact A.
Qed.
