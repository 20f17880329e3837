(** Execution lemmas for the assembly model. *)
From Coq Require Import String Lia.
From Verif Require Import Base ModelNum ModelAsm ModelAsmInt SpecAsm.
Import ListNotations.
Open Scope Z_scope.

Section P.
Context {A : Type}.
Variable F : fops A.
Variable E : env A.
Variable p : prog.

Definition goes (b : prog) (s : state A) (b' : prog) (s' : state A) : Prop :=
  exists k, forall fuel, run F E (k + fuel) p b s = run F E fuel p b' s'.
Definition ends (b : prog) (s s' : state A) : Prop := exists k, forall fuel, run F E (k + fuel) p b s = OK s'.

Lemma goes_refl b s : goes b s b s. Proof. exists 0%nat. reflexivity. Qed.
Lemma goes_trans b s b' s' b'' s'' : goes b s b' s' -> goes b' s' b'' s'' -> goes b s b'' s''.
Proof. intros [k H] [k' H']. exists (k + k')%nat. intros f. rewrite <- Nat.add_assoc, H. apply H'. Qed.
Lemma goes_next n b q s s' : ex F E b s = Next s' -> goes ((n, b) :: q) s q s'.
Proof. intros H. exists 1%nat. intros f. cbn. rewrite H. reflexivity. Qed.
Lemma goes_goto n b q s l s' : ex F E b s = Goto l s' -> goes ((n, b) :: q) s (lookup l p) s'.
Proof. intros H. exists 1%nat. intros f. cbn. rewrite H. reflexivity. Qed.
Lemma ends_done n b q s s' : ex F E b s = Done s' -> ends ((n, b) :: q) s s'.
Proof. intros H. exists 1%nat. intros f. cbn. rewrite H. reflexivity. Qed.
Lemma goes_ends b s b' s' s'' : goes b s b' s' -> ends b' s' s'' -> ends b s s''.
Proof. intros [k H] [k' H']. exists (k + k')%nat. intros f. rewrite <- Nat.add_assoc, H. apply H'. Qed.

(** A loop whose counter advances by k. *)
Lemma loop (b : prog) (J : Z -> state A -> Prop) (k n : Z) :
  (forall i s, 0 <= i -> i + k <= n -> J i s -> exists s', goes b s b s' /\ J (i + k) s') ->
  forall t i s, 0 <= i -> 0 <= k -> n = i + k * Z.of_nat t -> J i s -> exists s', goes b s b s' /\ J n s'.
Proof.
  intros H. induction t as [|t IH]; intros i s Hi Hk En Ji.
  - exists s. split; [apply goes_refl|]. replace n with i by lia. exact Ji.
  - destruct (H i s Hi ltac:(nia) Ji) as (s1 & G1 & J1).
    destruct (IH (i + k) s1 ltac:(lia) Hk ltac:(lia) J1) as (s2 & G2 & J2).
    exists s2. split; [eapply goes_trans; eassumption|exact J2].
Qed.
Lemma ends_terminates s s' (Q : mem A -> Prop) : ends p s s' -> Q (mm s') -> terminates F E p s Q.
Proof. intros [k H] HQ. exists s'. split; [exists (k + 0)%nat; apply H|exact HQ]. Qed.
End P.

(** ** Memory *)
Section Mem.
Context {A : Type}.
Lemma ldn_spec (m : mem A) b (f : Z -> word A) k : forall i,
  (forall j, 0 <= j < Z.of_nat k -> getm m b (i + j) = Some (f j)) -> ldn m b i k = Some (map (fun j => f (Z.of_nat j)) (seq 0 k)).
Proof.
  revert f. induction k as [|k IH]; intros f i H; [reflexivity|].
  cbn [ldn]. pose proof (H 0 ltac:(lia)) as H0. rewrite Z.add_0_r in H0. rewrite H0.
  rewrite (IH (fun j => f (j + 1)) (i + 1)).
  - cbn [seq map]. f_equal. f_equal. rewrite <- seq_shift, map_map. apply map_ext. intros a. f_equal. lia.
  - intros j Hj. rewrite <- (H (j + 1) ltac:(lia)). f_equal. lia.
Qed.
Lemma stn_spec b (l : list (word A)) : forall (m : mem A) i,
  (forall j, 0 <= j < Z.of_nat (length l) -> getm m b (i + j) <> None) ->
  exists m', stn m b i l = Some m' /\ (forall c, esz m' c = esz m c) /\
    forall c k, getm m' c k = if Nat.eqb c b && (i <=? k) && (k <? i + Z.of_nat (length l)) then nth_error l (Z.to_nat (k - i)) else getm m c k.
Proof.
  induction l as [|x l IH]; intros m i H.
  - exists m. repeat split. intros c k. cbn [length]. change (Z.of_nat 0) with 0.
    destruct (Nat.eqb c b), (Z.leb_spec i k), (Z.ltb_spec k (i + 0)); cbn [andb]; try reflexivity; lia.
  - cbn [stn]. pose proof (H 0 ltac:(cbn [length]; lia)) as H0. rewrite Z.add_0_r in H0.
    destruct (getm m b i) as [v|] eqn:Ev; [|contradiction].
    destruct (IH (putm m b i x) (i + 1)) as (m' & Es & Ez & Eg).
    { intros j Hj. cbn [getm putm]. replace (i + 1 + j) with (i + (j + 1)) by lia.
      destruct (Nat.eqb b b && (i + (j + 1) =? i)); [discriminate|]. apply H. cbn [length]. lia. }
    exists m'. split; [exact Es|]. split; [intros c; rewrite Ez; reflexivity|].
    intros c k. rewrite Eg. cbn [getm putm length].
    destruct (Nat.eqb c b) eqn:Ec; cbn [andb]; [|reflexivity].
    destruct (Z.leb_spec (i + 1) k), (Z.leb_spec i k), (Z.ltb_spec k (i + 1 + Z.of_nat (length l))), (Z.ltb_spec k (i + Z.of_nat (S (length l)))), (Z.eqb_spec k i);
      cbn [andb]; try lia; try reflexivity.
    + replace (Z.to_nat (k - i)) with (S (Z.to_nat (k - (i + 1)))) by lia. reflexivity.
    + subst k. rewrite Z.sub_diag. reflexivity.
Qed.
Lemma allI_map (f : nat -> Z) (l : list nat) : allI (map (fun j => @WI A (f j)) l) = Some (map f l).
Proof. induction l as [|x l IH]; [reflexivity|]. cbn. rewrite IH. reflexivity. Qed.
Lemma allF_map (f : nat -> A) (l : list nat) : allF (map (fun j => WF (f j)) l) = Some (map f l).
Proof. induction l as [|x l IH]; [reflexivity|]. cbn. rewrite IH. reflexivity. Qed.
Lemma allI_F (f : nat -> A) n l : allI (map (fun j => WF (f j)) (n :: l)) = None.
Proof. reflexivity. Qed.

Lemma vld4 (m : mem A) b q n k (f : Z -> Z) : esz m b = 4 -> Z.to_nat (n / 4) = k ->
  (forall j, 0 <= j < Z.of_nat k -> getm m b (q + j) = Some (WI (f j))) ->
  vld m n (b, 4 * q) = Some (YI (map (fun j => f (Z.of_nat j)) (seq 0 k))).
Proof.
  intros He Hk H. unfold vld. rewrite He. rewrite (Z.mul_comm 4 q), Z.mod_mul, Z.div_mul by lia. cbn [Z.eqb andb Pos.eqb].
  rewrite Hk, (ldn_spec m b (fun j => WI (f j)) k q H), allI_map. reflexivity.
Qed.
Lemma vld8 (m : mem A) b q n k (f : Z -> Z) : esz m b = 8 -> Z.to_nat (n / 8) = k ->
  (forall j, 0 <= j < Z.of_nat k -> getm m b (q + j) = Some (WI (f j))) ->
  vld m n (b, 8 * q) = Some (YI (splitl (map (fun j => f (Z.of_nat j)) (seq 0 k)))).
Proof.
  intros He Hk H. unfold vld. rewrite He. rewrite (Z.mul_comm 8 q), Z.mod_mul, Z.div_mul by lia. cbn [Z.eqb andb Pos.eqb].
  rewrite Hk, (ldn_spec m b (fun j => WI (f j)) k q H), allI_map. reflexivity.
Qed.
Lemma vld8F (m : mem A) b q n k (f : Z -> A) : esz m b = 8 -> Z.to_nat (n / 8) = S k ->
  (forall j, 0 <= j < Z.of_nat (S k) -> getm m b (q + j) = Some (WF (f j))) ->
  vld m n (b, 8 * q) = Some (YF (map (fun j => f (Z.of_nat j)) (seq 0 (S k)))).
Proof.
  intros He Hk H. unfold vld. rewrite He. rewrite (Z.mul_comm 8 q), Z.mod_mul, Z.div_mul by lia. cbn [Z.eqb andb Pos.eqb].
  rewrite Hk, (ldn_spec m b (fun j => WF (f j)) (S k) q H), allF_map. reflexivity.
Qed.
Lemma ldw_spec (m : mem A) e b q v : 0 < e -> esz m b = e -> getm m b q = Some v -> ldw m e (b, e * q) = Some v.
Proof. intros He Hb H. unfold ldw. rewrite Hb, (Z.mul_comm e q), Z.mod_mul, Z.div_mul, Z.eqb_refl by lia. exact H. Qed.
Lemma stw_spec (m : mem A) e b q v : 0 < e -> esz m b = e -> getm m b q <> None -> stw m e (b, e * q) v = Some (putm m b q v).
Proof.
  intros He Hb H. unfold stw. rewrite Hb, (Z.mul_comm e q), Z.mod_mul, Z.div_mul, Z.eqb_refl by lia. cbn [andb].
  rewrite Z.eqb_refl. destruct (getm m b q); [reflexivity|contradiction].
Qed.
Lemma joinq_splitl l : joinq (splitl l) = l.
Proof.
  induction l as [|x l IH]; [reflexivity|]. cbn [splitl flat_map splitq app joinq]. fold (splitl l). rewrite IH. f_equal.
  rewrite Z.add_comm. symmetry. apply Z.div_mod. discriminate.
Qed.
End Mem.

Lemma swrap64_id x : 0 <= x < 2 ^ 63 -> swrap 64 x = x.
Proof. intros H. unfold swrap. change (2 ^ (64 - 1)) with (2 ^ 63). change (2 ^ 64) with (2 ^ 63 + 2 ^ 63). rewrite Z.mod_small; lia. Qed.
Lemma wrap64_id x : 0 <= x < 2 ^ 64 -> wrap 64 x = x.
Proof. intros H. unfold wrap. apply Z.mod_small. exact H. Qed.
