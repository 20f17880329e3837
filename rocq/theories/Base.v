(** Foundations: modular equality, sums, list update, counted loops. *)
From Coq Require Export ZArith List Lia Bool Zpow_facts Znumtheory.
From Coq Require Export ZifyBool ZifyNat ZifyN.
From Coq Require Export Setoid Morphisms.
Export ListNotations.
Global Open Scope Z_scope.
Global Arguments Z.mul : simpl never.
Global Arguments Z.add : simpl never.
Global Arguments Z.sub : simpl never.
Global Arguments Z.opp : simpl never.
Global Arguments Z.pow : simpl never.
Global Arguments Z.div : simpl never.
Global Arguments Z.modulo : simpl never.
Global Arguments Z.of_nat : simpl never.
Global Arguments Z.to_nat : simpl never.
Global Arguments Z.shiftl : simpl never.
Global Arguments Z.shiftr : simpl never.
Global Arguments Z.land : simpl never.
Global Arguments Z.lor : simpl never.

(* ------------------------------------------------------------------ *)
(** ** Congruence modulo [Q] ([Q = 0] gives plain equality). *)

Definition eqm (Q a b : Z) : Prop := exists k, a - b = k * Q.

Lemma eqm_refl Q a : eqm Q a a.
Proof. exists 0; lia. Qed.
Lemma eqm_sym Q a b : eqm Q a b -> eqm Q b a.
Proof. intros [k H]; exists (- k); lia. Qed.
Lemma eqm_trans Q a b c : eqm Q a b -> eqm Q b c -> eqm Q a c.
Proof. intros [k H] [l H']; exists (k + l); lia. Qed.

Global Instance eqm_equiv Q : Equivalence (eqm Q).
Proof.
  split; [intro; apply eqm_refl | intros ? ?; apply eqm_sym | intros ? ? ?; apply eqm_trans].
Qed.

Global Instance eqm_add Q : Proper (eqm Q ==> eqm Q ==> eqm Q) Z.add.
Proof. intros a b [k H] c d [l H']; exists (k + l); lia. Qed.
Global Instance eqm_sub Q : Proper (eqm Q ==> eqm Q ==> eqm Q) Z.sub.
Proof. intros a b [k H] c d [l H']; exists (k - l); lia. Qed.
Global Instance eqm_opp Q : Proper (eqm Q ==> eqm Q) Z.opp.
Proof. intros a b [k H]; exists (- k); lia. Qed.
Global Instance eqm_mul Q : Proper (eqm Q ==> eqm Q ==> eqm Q) Z.mul.
Proof.
  intros a b [k H] c d [l H']; exists (k * c + b * l).
  replace (a * c - b * d) with ((a - b) * c + b * (c - d)) by ring.
  rewrite H, H'; ring.
Qed.

Lemma eqm_eq Q a b : a = b -> eqm Q a b.
Proof. intros ->; apply eqm_refl. Qed.

Lemma eqm0_eq a b : eqm 0 a b -> a = b.
Proof. intros [k H]; lia. Qed.

Lemma eqm_mod Q a : eqm Q (a mod Q) a.
Proof.
  exists (- (a / Q)). destruct (Z.eq_dec Q 0) as [->|HQ].
  - rewrite Zmod_0_r. lia.
  - pose proof (Z.div_mod a Q HQ). lia.
Qed.

Lemma eqm_mod_eq Q a b : eqm Q a b <-> a mod Q = b mod Q.
Proof.
  split.
  - intros [k H]. replace a with (b + k * Q) by lia.
    destruct (Z.eq_dec Q 0) as [->|HQ].
    + f_equal; lia.
    + apply Z_mod_plus_full.
  - intros H. rewrite <- (eqm_mod Q a), H. apply eqm_mod.
Qed.

Lemma eqm_0_mod Q a : eqm Q a 0 <-> a mod Q = 0.
Proof.
  rewrite eqm_mod_eq.
  destruct (Z.eq_dec Q 0) as [->|H]; [rewrite !Zmod_0_r | rewrite (Z.mod_0_l Q H)]; tauto.
Qed.

Lemma eqm_small Q a b : eqm Q a b -> 0 <= a < Q -> 0 <= b < Q -> a = b.
Proof.
  rewrite eqm_mod_eq; intros H Ha Hb.
  rewrite !Z.mod_small in H; auto.
Qed.

Lemma eqm_multiple Q k : eqm Q (k * Q) 0.
Proof. exists k; lia. Qed.

Lemma eqm_divide Q R a b : (R | Q) -> eqm Q a b -> eqm R a b.
Proof. intros [c ->] [k H]; exists (k * c); lia. Qed.

(** Rewriting [a mod Q] inside a congruence. *)
Lemma eqm_mod_l Q a b : eqm Q a b -> eqm Q (a mod Q) b.
Proof. intro H; rewrite eqm_mod; exact H. Qed.
Lemma eqm_mod_r Q a b : eqm Q a b -> eqm Q a (b mod Q).
Proof. intro H; rewrite eqm_mod; exact H. Qed.

(* ------------------------------------------------------------------ *)
(** ** Finite sums of integers over [0 .. n-1]. *)

Fixpoint zsum (n : nat) (f : nat -> Z) : Z :=
  match n with
  | O => 0
  | S n' => zsum n' f + f n'
  end.

Lemma zsum_ext n f g : (forall i, (i < n)%nat -> f i = g i) -> zsum n f = zsum n g.
Proof.
  induction n as [|n IH]; intros H; cbn; [reflexivity|].
  rewrite IH, H by (intros; try apply H; lia). reflexivity.
Qed.

Lemma zsum_eqm Q n f g :
  (forall i, (i < n)%nat -> eqm Q (f i) (g i)) -> eqm Q (zsum n f) (zsum n g).
Proof.
  induction n as [|n IH]; intros H; cbn; [reflexivity|].
  rewrite IH, H by (intros; try apply H; lia). reflexivity.
Qed.

Lemma zsum_zero n : zsum n (fun _ => 0) = 0.
Proof. induction n; cbn; lia. Qed.

Lemma zsum_const n c : zsum n (fun _ => c) = Z.of_nat n * c.
Proof. induction n; cbn [zsum]; lia. Qed.

Lemma zsum_add n f g : zsum n (fun i => f i + g i) = zsum n f + zsum n g.
Proof. induction n; cbn; lia. Qed.

Lemma zsum_sub n f g : zsum n (fun i => f i - g i) = zsum n f - zsum n g.
Proof. induction n; cbn; lia. Qed.

Lemma zsum_opp n f : zsum n (fun i => - f i) = - zsum n f.
Proof. induction n; cbn; lia. Qed.

Lemma zsum_scale_l n c f : zsum n (fun i => c * f i) = c * zsum n f.
Proof. induction n; cbn; lia. Qed.

Lemma zsum_scale_r n c f : zsum n (fun i => f i * c) = zsum n f * c.
Proof. induction n; cbn; lia. Qed.

Lemma zsum_swap n m (f : nat -> nat -> Z) :
  zsum n (fun i => zsum m (fun j => f i j)) = zsum m (fun j => zsum n (fun i => f i j)).
Proof.
  induction n as [|n IH]; cbn.
  - now rewrite zsum_zero.
  - rewrite IH, <- zsum_add. reflexivity.
Qed.

Lemma zsum_app n m f : zsum (n + m) f = zsum n f + zsum m (fun i => f (n + i)%nat).
Proof.
  induction m as [|m IH]; cbn.
  - rewrite Nat.add_0_r; lia.
  - rewrite Nat.add_succ_r; cbn. rewrite IH; lia.
Qed.

Lemma zsum_S_l n f : zsum (S n) f = f O + zsum n (fun i => f (S i)).
Proof.
  change (S n) with (1 + n)%nat. rewrite zsum_app. cbn. lia.
Qed.

Lemma zsum_rev n f : zsum n f = zsum n (fun i => f (n - 1 - i)%nat).
Proof.
  induction n as [|n IH]; [reflexivity|].
  rewrite zsum_S_l with (f := fun i => f (S n - 1 - i)%nat).
  cbn [zsum]. rewrite IH. replace (S n - 1 - 0)%nat with n by lia.
  rewrite (zsum_ext n (fun i => f (S n - 1 - S i)%nat) (fun i => f (n - 1 - i)%nat)).
  - lia.
  - intros i Hi; f_equal; lia.
Qed.

Lemma zsum_single n f j :
  (j < n)%nat -> (forall i, (i < n)%nat -> i <> j -> f i = 0) -> zsum n f = f j.
Proof.
  induction n as [|n IH]; intros Hj H; [lia|]. cbn.
  destruct (Nat.eq_dec j n) as [->|Hne].
  - rewrite (zsum_ext n f (fun _ => 0)), zsum_zero by (intros i Hi; apply H; lia). lia.
  - rewrite IH by (try lia; intros i Hi; apply H; lia). rewrite (H n) by lia. lia.
Qed.

Lemma zsum_abs_le n f b :
  (forall i, (i < n)%nat -> Z.abs (f i) <= b) -> Z.abs (zsum n f) <= Z.of_nat n * b.
Proof.
  induction n as [|n IH]; intros H; cbn [zsum]; [lia|].
  assert (Z.abs (zsum n f) <= Z.of_nat n * b) by (apply IH; intros; apply H; lia).
  specialize (H n). lia.
Qed.

Lemma zsum_le n f g : (forall i, (i < n)%nat -> f i <= g i) -> zsum n f <= zsum n g.
Proof.
  induction n as [|n IH]; intros H; cbn; [lia|].
  assert (zsum n f <= zsum n g) by (apply IH; intros; apply H; lia).
  specialize (H n). lia.
Qed.

Lemma zsum_nonneg n f : (forall i, (i < n)%nat -> 0 <= f i) -> 0 <= zsum n f.
Proof.
  intros H. rewrite <- (zsum_zero n). apply zsum_le; auto.
Qed.

Lemma zsum_abs n f : Z.abs (zsum n f) <= zsum n (fun i => Z.abs (f i)).
Proof. induction n; cbn [zsum]; lia. Qed.

Lemma zsum_mul n m (f : nat -> Z) (g : nat -> Z) :
  zsum n f * zsum m g = zsum n (fun i => zsum m (fun j => f i * g j)).
Proof.
  rewrite <- zsum_scale_r. apply zsum_ext; intros. now rewrite zsum_scale_l.
Qed.

Lemma zsum_concat n m (f : nat -> Z) :
  zsum (n * m) f = zsum n (fun i => zsum m (fun j => f (i * m + j)%nat)).
Proof.
  induction n as [|n IH]; cbn; [reflexivity|].
  rewrite Nat.add_comm, zsum_app, IH. reflexivity.
Qed.

(* ------------------------------------------------------------------ *)
(** ** Sequences as lists *)

Definition nthZ (l : list Z) (i : nat) : Z := nth i l 0.

Definition tab {A} (n : nat) (f : nat -> A) : list A := map f (seq 0 n).

Lemma tab_length {A} n (f : nat -> A) : length (tab n f) = n.
Proof. unfold tab; now rewrite map_length, seq_length. Qed.

Lemma nth_tab {A} n (f : nat -> A) d i : (i < n)%nat -> nth i (tab n f) d = f i.
Proof.
  intros Hi. unfold tab.
  rewrite nth_indep with (d' := f O) by (rewrite map_length, seq_length; lia).
  rewrite map_nth, seq_nth by lia. reflexivity.
Qed.

Lemma nth_tab_out {A} n (f : nat -> A) d i : (n <= i)%nat -> nth i (tab n f) d = d.
Proof. intros; apply nth_overflow; rewrite tab_length; lia. Qed.

Lemma nthZ_tab n f i : (i < n)%nat -> nthZ (tab n f) i = f i.
Proof. intros; unfold nthZ; now apply nth_tab. Qed.

Lemma nthZ_out l i : (length l <= i)%nat -> nthZ l i = 0.
Proof. intros; now apply nth_overflow. Qed.

Lemma list_ext {A} (d : A) (l1 l2 : list A) :
  length l1 = length l2 ->
  (forall i, (i < length l1)%nat -> nth i l1 d = nth i l2 d) -> l1 = l2.
Proof.
  revert l2; induction l1 as [|x l1 IH]; intros [|y l2]; cbn; intros Hl H; try lia; auto.
  f_equal.
  - apply (H O); lia.
  - apply IH; [lia|]. intros i Hi. apply (H (S i)); lia.
Qed.

Lemma nthZ_ext l1 l2 :
  length l1 = length l2 -> (forall i, (i < length l1)%nat -> nthZ l1 i = nthZ l2 i) -> l1 = l2.
Proof. apply list_ext. Qed.

Lemma tab_nth {A} (d : A) (l : list A) : tab (length l) (fun i => nth i l d) = l.
Proof.
  apply (list_ext d); [apply tab_length|].
  rewrite tab_length. intros i Hi; now rewrite nth_tab.
Qed.

Lemma tab_ext {A} n (f g : nat -> A) : (forall i, (i < n)%nat -> f i = g i) -> tab n f = tab n g.
Proof.
  intros H. unfold tab. apply map_ext_in. intros i Hi. apply in_seq in Hi. apply H; lia.
Qed.

Lemma tab_S {A} n (f : nat -> A) : tab (S n) f = tab n f ++ [f n].
Proof. unfold tab. rewrite seq_S, map_app. reflexivity. Qed.

Lemma tab_S_l {A} n (f : nat -> A) : tab (S n) f = f O :: tab n (fun i => f (S i)).
Proof. unfold tab. cbn. rewrite <- seq_shift, map_map. reflexivity. Qed.

Lemma In_tab {A} n (f : nat -> A) x : In x (tab n f) <-> exists i, (i < n)%nat /\ f i = x.
Proof.
  unfold tab. rewrite in_map_iff. split.
  - intros (i & H & Hi). apply in_seq in Hi. exists i; split; [lia|auto].
  - intros (i & Hi & H). exists i; split; auto. apply in_seq; lia.
Qed.

(** In-place write [l[i] = v]; out of range leaves the list unchanged
    (the model states separately where Go would panic). *)
Fixpoint upd {A} (l : list A) (i : nat) (v : A) : list A :=
  match l, i with
  | [], _ => []
  | _ :: l', O => v :: l'
  | x :: l', S i' => x :: upd l' i' v
  end.

Lemma upd_length {A} (l : list A) i v : length (upd l i v) = length l.
Proof. revert i; induction l; intros [|i]; cbn; auto. Qed.

Lemma nth_upd {A} (l : list A) i v j d :
  nth j (upd l i v) d = if ((j =? i)%nat && (i <? length l)%nat)%bool then v else nth j l d.
Proof.
  revert i j; induction l as [|x l IH]; intros i j.
  - cbn. rewrite andb_false_r. destruct i; reflexivity.
  - destruct i as [|i], j as [|j]; cbn [upd nth length]; try reflexivity.
    rewrite IH. reflexivity.
Qed.

Lemma nth_upd_same {A} (l : list A) i v d : (i < length l)%nat -> nth i (upd l i v) d = v.
Proof.
  intros H. rewrite nth_upd, Nat.eqb_refl.
  apply Nat.ltb_lt in H. rewrite H. reflexivity.
Qed.

Lemma nth_upd_other {A} (l : list A) i v j d : j <> i -> nth j (upd l i v) d = nth j l d.
Proof.
  intros H. rewrite nth_upd. apply Nat.eqb_neq in H. rewrite H. reflexivity.
Qed.

(** [for i := lo; i < lo + n; i++ { st = body i st }] *)
Fixpoint forN {S} (lo n : nat) (body : nat -> S -> S) (st : S) : S :=
  match n with
  | O => st
  | Datatypes.S n' => forN (Datatypes.S lo) n' body (body lo st)
  end.

Lemma forN_S_r {S} lo n (body : nat -> S -> S) st :
  forN lo (Datatypes.S n) body st = body (lo + n)%nat (forN lo n body st).
Proof.
  revert lo st; induction n as [|n IH]; intros lo st.
  - cbn. now rewrite Nat.add_0_r.
  - change (forN lo (Datatypes.S (Datatypes.S n)) body st)
      with (forN (Datatypes.S lo) (Datatypes.S n) body (body lo st)).
    rewrite IH. cbn [forN]. f_equal. lia.
Qed.

(** Loop rule. *)
Lemma forN_ind {S} (P : nat -> S -> Prop) lo n body st :
  P O st ->
  (forall i s, (i < n)%nat -> P i s -> P (Datatypes.S i) (body (lo + i)%nat s)) ->
  P n (forN lo n body st).
Proof.
  intros H0 HS.
  assert (forall m, (m <= n)%nat -> P m (forN lo m body st)) as H; [|apply H; lia].
  induction m as [|m IH]; intros Hm; [exact H0|].
  rewrite forN_S_r. apply HS; [lia|]. apply IH; lia.
Qed.

Lemma forN_ext {S} lo n (b1 b2 : nat -> S -> S) st :
  (forall i s, (lo <= i < lo + n)%nat -> b1 i s = b2 i s) -> forN lo n b1 st = forN lo n b2 st.
Proof.
  revert lo st; induction n as [|n IH]; intros lo st H; cbn; [reflexivity|].
  rewrite H by lia. apply IH. intros; apply H; lia.
Qed.

Lemma forN_app {S} lo n m (b : nat -> S -> S) st :
  forN lo (n + m) b st = forN (lo + n) m b (forN lo n b st).
Proof.
  revert lo st; induction n as [|n IH]; intros lo st; cbn.
  - now rewrite Nat.add_0_r.
  - rewrite IH. f_equal; lia.
Qed.

(** A loop writing one cell per iteration at pairwise distinct positions. *)
Lemma forN_upd_length {A} lo n (idx : nat -> nat) (val : nat -> list A -> A) l :
  length (forN lo n (fun i s => upd s (idx i) (val i s)) l) = length l.
Proof.
  apply (forN_ind (fun _ s => length s = length l)); [reflexivity|].
  intros i s _ H. now rewrite upd_length.
Qed.

(** Pointwise writing loop: every iteration writes position [lo+i] with a value that only
    depends on the old value there. *)
Lemma forN_upd_range {A} (d : A) lo n (val : nat -> A -> A) l j :
  (lo + n <= length l)%nat ->
  nth j (forN lo n (fun i s => upd s i (val i (nth i s d))) l) d =
  if ((lo <=? j)%nat && (j <? lo + n)%nat)%bool then val j (nth j l d) else nth j l d.
Proof.
  intros Hlen.
  assert (HI : (fun m s => length s = length l /\ forall j, nth j s d =
      if ((lo <=? j)%nat && (j <? lo + m)%nat)%bool then val j (nth j l d) else nth j l d)
      n (forN lo n (fun i s => upd s i (val i (nth i s d))) l)).
  { apply forN_ind.
    - split; [reflexivity|]. intros k.
      destruct ((lo <=? k)%nat && (k <? lo + 0)%nat)%bool eqn:E; [lia|reflexivity].
    - intros i s Hi [Hs H]. split; [now rewrite upd_length|].
      intros k. destruct (Nat.eq_dec k (lo + i)) as [->|Hne].
      + rewrite nth_upd_same by lia. rewrite H.
        destruct ((lo <=? lo + i)%nat && (lo + i <? lo + i)%nat)%bool eqn:E1; [lia|].
        destruct ((lo <=? lo + i)%nat && (lo + i <? lo + S i)%nat)%bool eqn:E2; [reflexivity|lia].
      + rewrite nth_upd_other by lia. rewrite H.
        destruct ((lo <=? k)%nat && (k <? lo + i)%nat)%bool eqn:E1;
        destruct ((lo <=? k)%nat && (k <? lo + S i)%nat)%bool eqn:E2; try reflexivity; lia. }
  apply HI.
Qed.

(** [map2] truncated to the shorter list. *)
Fixpoint map2 {A B C} (f : A -> B -> C) (l1 : list A) (l2 : list B) : list C :=
  match l1, l2 with
  | x :: l1', y :: l2' => f x y :: map2 f l1' l2'
  | _, _ => []
  end.

Lemma map2_length {A B C} (f : A -> B -> C) l1 l2 :
  length (map2 f l1 l2) = Nat.min (length l1) (length l2).
Proof. revert l2; induction l1; intros [|]; cbn; auto. Qed.

Lemma nth_map2 {A B C} (f : A -> B -> C) l1 l2 i da db dc :
  (i < length l1)%nat -> (i < length l2)%nat ->
  nth i (map2 f l1 l2) dc = f (nth i l1 da) (nth i l2 db).
Proof.
  revert l2 i; induction l1 as [|x l1 IH]; intros [|y l2] [|i]; cbn; intros; try lia; auto.
  apply IH; lia.
Qed.

Lemma nthZ_map f l i : (i < length l)%nat -> nthZ (map f l) i = f (nthZ l i).
Proof.
  intros H. unfold nthZ. rewrite nth_indep with (d' := f 0) by now rewrite map_length.
  apply map_nth.
Qed.

Lemma nthZ_map2 f l1 l2 i :
  (i < length l1)%nat -> (i < length l2)%nat -> nthZ (map2 f l1 l2) i = f (nthZ l1 i) (nthZ l2 i).
Proof. intros; unfold nthZ; now apply nth_map2. Qed.

Lemma nth_repeat_lt {A} (x d : A) n i : (i < n)%nat -> nth i (repeat x n) d = x.
Proof. revert i; induction n; intros [|i]; cbn; intros; try lia; auto. apply IHn; lia. Qed.

Lemma nthZ_repeat0 n i : nthZ (repeat 0 n) i = 0.
Proof. unfold nthZ. revert i; induction n; intros [|i]; cbn; auto. Qed.

Lemma Forall_nth_lt {A} (P : A -> Prop) l d i : Forall P l -> (i < length l)%nat -> P (nth i l d).
Proof. intros H Hi. eapply Forall_forall; [exact H|]. now apply nth_In. Qed.

Lemma Forall_tab {A} (P : A -> Prop) n f : (forall i, (i < n)%nat -> P (f i)) -> Forall P (tab n f).
Proof.
  intros H. apply Forall_forall. intros x Hx. apply In_tab in Hx as (i & Hi & <-). auto.
Qed.

Lemma nthZ_upd l n v i : (n < length l)%nat -> nthZ (upd l n v) i = if Nat.eqb i n then v else nthZ l i.
Proof.
  intros H. unfold nthZ. destruct (Nat.eqb_spec i n) as [->|Hn]; [now apply nth_upd_same|].
  apply nth_upd_other. congruence.
Qed.
Lemma nth_upd_if {A} (l : list A) d n v i : (n < length l)%nat -> nth i (upd l n v) d = if Nat.eqb i n then v else nth i l d.
Proof.
  intros H. destruct (Nat.eqb_spec i n) as [->|Hn]; [now apply nth_upd_same|].
  apply nth_upd_other. congruence.
Qed.
Lemma nthZ_app_l {l1 l2 : list Z} i : (i < length l1)%nat -> nthZ (l1 ++ l2) i = nthZ l1 i.
Proof. intros. unfold nthZ. now apply app_nth1. Qed.
Lemma nthZ_app_r {l1 l2 : list Z} i : (length l1 <= i)%nat -> nthZ (l1 ++ l2) i = nthZ l2 (i - length l1).
Proof. intros. unfold nthZ. now apply app_nth2. Qed.
Lemma nthZ_firstn (l : list Z) n i : (i < n)%nat -> nthZ (firstn n l) i = nthZ l i.
Proof. intros H. unfold nthZ. revert l i H. induction n; intros l i H; [lia|]. destruct l, i; cbn; auto. apply IHn. lia. Qed.
Lemma nthZ_skipn (l : list Z) n i : nthZ (skipn n l) i = nthZ l (n + i).
Proof.
  unfold nthZ. revert l. induction n as [|n IH]; intros [|a l]; cbn [skipn Nat.add nth]; try reflexivity.
  - now destruct i.
  - apply IH.
Qed.
