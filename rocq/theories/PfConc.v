(** Non-interference of goroutines with separate footprints; the worker pool. *)
From Verif Require Import Base ModelNum SpecNum PfNum ModelConc SpecConc.

Lemma nth_error_upd {A} (l : list A) i j (x : A) : (i < length l)%nat -> nth_error (upd l i x) j = if Nat.eqb j i then Some x else nth_error l j.
Proof.
  revert i j; induction l as [|a l IH]; intros [|i] [|j] H; cbn [upd nth_error length Nat.eqb] in *; try lia; try reflexivity. apply IH. lia.
Qed.

Section Run.
Variables (L V : Type) (leq : forall a b : L, {a = b} + {a <> b}).
Notation mem := (mem L V).
Variable A : Type.
Notation prog := (prog L V A).

Definition agree (S : L -> Prop) (m m' : mem) := forall l, S l -> m l = m' l.

Lemma mset_same (m : mem) l v : mset leq m l v l = v.
Proof. unfold mset. destruct (leq l l); congruence. Qed.
Lemma mset_other (m : mem) l v x : x <> l -> mset leq m l v x = m x.
Proof. unfold mset. intros H. destruct (leq x l); congruence. Qed.

(** The result of a program depends only on its footprint, and so does its number of steps. *)
Lemma solo_agree R W (p : prog) : fp R W p -> forall m m', agree (fun l => R l \/ W l) m m' ->
  fst (solo leq p m) = fst (solo leq p m') /\ agree W (snd (solo leq p m)) (snd (solo leq p m')) /\ steps leq p m = steps leq p m'.
Proof.
  induction p as [a|l k IH|l v k IH]; cbn [fp solo steps]; intros Hp m m' Hm.
  - split; [reflexivity|]. split; [|reflexivity]. intros l Hl. cbn. apply Hm. now right.
  - destruct Hp as (H1 & H2). rewrite (Hm l H1). destruct (IH (m' l) (H2 _) m m' Hm) as (A1 & A2 & A3). split; [exact A1|]. split; [exact A2|]. now f_equal.
  - destruct Hp as (H1 & H2). destruct (IH H2 (mset leq m l v) (mset leq m' l v)) as (A1 & A2 & A3).
    { intros x Hx. unfold mset. destruct (leq x l); [reflexivity|now apply Hm]. }
    split; [exact A1|]. split; [exact A2|]. now f_equal.
Qed.
Lemma solo_frame R W (p : prog) : fp R W p -> forall m l, ~ W l -> snd (solo leq p m) l = m l.
Proof.
  induction p as [a|x k IH|x v k IH]; cbn [fp solo]; intros Hp m l Hl; [reflexivity| |].
  - apply IH; [apply Hp|exact Hl].
  - destruct Hp as (H1 & H2). rewrite (IH H2) by exact Hl. apply mset_other. congruence.
Qed.
Lemma step_fp R W (p : prog) m : fp R W p -> fp R W (fst (step1 leq p m)).
Proof. destruct p; cbn; intros H; [exact I|apply H|apply H]. Qed.
Lemma step_frame R W (p : prog) m l : fp R W p -> ~ W l -> snd (step1 leq p m) l = m l.
Proof. destruct p; cbn; intros H Hl; [reflexivity|reflexivity|]. apply mset_other. intros ->. now apply Hl. Qed.
Lemma step_solo (p : prog) m : solo leq (fst (step1 leq p m)) (snd (step1 leq p m)) = solo leq p m.
Proof. destruct p; reflexivity. Qed.
Lemma step_steps (p : prog) m : steps leq (fst (step1 leq p m)) (snd (step1 leq p m)) = Nat.pred (steps leq p m).
Proof. destruct p; reflexivity. Qed.

Section Sep.
Variables (ps0 : list prog) (m0 : mem) (R W : nat -> L -> Prop).
Notation n := (length ps0).
Hypothesis Hfp : forall i p, nth_error ps0 i = Some p -> fp (R i) (W i) p.
Hypothesis Hsep : separate n R W.

(** The invariant: finishing alone from here gives what finishing alone from the start gives. *)
Definition inv (ps : list prog) (m : mem) (c : nat -> nat) : Prop :=
  length ps = n /\
  (forall i p p0, nth_error ps i = Some p -> nth_error ps0 i = Some p0 ->
    fp (R i) (W i) p /\ fst (solo leq p m) = fst (solo leq p0 m0) /\ agree (W i) (snd (solo leq p m)) (snd (solo leq p0 m0)) /\
    steps leq p m = (steps leq p0 m0 - c i)%nat) /\
  (forall l, (forall i, (i < n)%nat -> ~ W i l) -> m l = m0 l).

Lemma inv_init : inv ps0 m0 (fun _ => O).
Proof.
  split; [reflexivity|]. split; [|reflexivity]. intros i p p0 E E0. rewrite E in E0. injection E0 as <-. split; [now apply Hfp|]. split; [reflexivity|]. split; [intros l _; reflexivity|lia].
Qed.

Lemma inv_step ps m c i p : inv ps m c -> nth_error ps i = Some p ->
  inv (upd ps i (fst (step1 leq p m))) (snd (step1 leq p m)) (fun j => (c j + if Nat.eqb j i then 1 else 0)%nat).
Proof.
  intros (L1 & H & HF) E. pose proof (proj1 (nth_error_Some ps i) ltac:(congruence)) as Hi. rewrite L1 in Hi.
  destruct (nth_error ps0 i) as [p0|] eqn:E0; [|apply nth_error_None in E0; lia].
  destruct (H i p p0 E E0) as (A1 & A2 & A3 & A5).
  split; [now rewrite upd_length|]. split.
  - intros j q q0 Eq Eq0. rewrite nth_error_upd in Eq by lia. destruct (Nat.eqb_spec j i) as [->|Hne].
    + injection Eq as <-. rewrite E0 in Eq0. injection Eq0 as <-. rewrite step_solo, step_steps. split; [now apply step_fp|]. split; [exact A2|]. split; [exact A3|lia].
    + pose proof (proj1 (nth_error_Some ps j) ltac:(congruence)) as Hj. rewrite L1 in Hj.
      destruct (H j q q0 Eq Eq0) as (B1 & B2 & B3 & B5).
      assert (agree (fun l => R j l \/ W j l) (snd (step1 leq p m)) m) as Hag.
      { intros l Hl. apply (step_frame (R i) (W i) p m l A1). intros HW. destruct (Hsep i j l Hi Hj ltac:(congruence) HW) as (X & Y). now destruct Hl. }
      destruct (solo_agree (R j) (W j) q B1 _ _ Hag) as (C1 & C2 & C3). split; [exact B1|]. split; [congruence|]. split; [|rewrite C3; lia].
      intros l Hl. rewrite (C2 l Hl). now apply B3.
  - intros l Hl. rewrite (step_frame (R i) (W i) p m l A1) by (apply Hl; lia). now apply HF.
Qed.

Lemma inv_run s : forall ps m c, inv ps m c -> inv (fst (runS leq ps m s)) (snd (runS leq ps m s)) (fun j => (c j + turns j s)%nat).
Proof.
  assert (forall ps m c c', (forall j, c j = c' j) -> inv ps m c -> inv ps m c') as Hext.
  { intros ps m c c' Hc (X & Y & Z). split; [exact X|]. split; [|exact Z]. intros i p p0 E E0. rewrite <- (Hc i). now apply Y. }
  induction s as [|i s IH]; intros ps m c H; cbn [runS].
  - cbn [fst snd turns count_occ]. revert H. apply Hext. intros j. unfold turns. cbn. lia.
  - destruct (nth_error ps i) as [p|] eqn:E.
    + pose proof (inv_step ps m c i p H E) as H'. destruct (step1 leq p m) as (p', m') eqn:Es. cbn [fst snd] in H'. apply IH in H'. revert H'. apply Hext. intros j. unfold turns. cbn [count_occ].
      destruct (Nat.eq_dec i j), (Nat.eqb_spec j i); subst; try lia; congruence.
    + apply IH in H. destruct H as (X & Y & Z). split; [exact X|]. split; [|exact Z]. intros j p p0 Ep Ep0. specialize (Y j p p0 Ep Ep0).
      replace (c j + turns j (i :: s))%nat with (c j + turns j s)%nat; [exact Y|]. unfold turns. cbn [count_occ]. destruct (Nat.eq_dec i j) as [->|]; [|reflexivity].
      exfalso. apply nth_error_None in E. pose proof (proj1 (nth_error_Some _ j) ltac:(rewrite Ep0; discriminate)).
      assert (length (fst (runS leq ps m s)) = length ps) as LL.
      { clear. revert ps m. induction s as [|i s IH]; intros ps m; [reflexivity|]. cbn [runS]. destruct (nth_error ps i); [|apply IH]. destruct (step1 leq p m). rewrite IH. apply upd_length. }
      rewrite X in LL. lia.
Qed.

(** Under every schedule: a finished goroutine has the result of running alone, its cells hold what it alone would leave, the other cells are
    unchanged; a goroutine scheduled often enough has finished; and there is never a race. *)
Lemma interleave s : let '(ps, m) := runS leq ps0 m0 s in
  length ps = n /\
  (forall i a p0, nth_error ps i = Some (Ret a) -> nth_error ps0 i = Some p0 -> a = fst (solo leq p0 m0) /\ agree (W i) m (snd (solo leq p0 m0))) /\
  (forall l, (forall i, (i < n)%nat -> ~ W i l) -> m l = m0 l) /\
  (forall i p p0, nth_error ps i = Some p -> nth_error ps0 i = Some p0 -> (steps leq p0 m0 <= turns i s)%nat -> exists a, p = Ret a) /\
  ~ race ps.
Proof.
  pose proof (inv_run s ps0 m0 (fun _ => O) inv_init) as H. destruct (runS leq ps0 m0 s) as (ps, m). cbn [fst snd Nat.add] in H. destruct H as (X & Y & Z).
  assert (forall i p, nth_error ps i = Some p -> (i < n)%nat /\ exists p0, nth_error ps0 i = Some p0) as Hp0.
  { intros i p E. pose proof (proj1 (nth_error_Some ps i) ltac:(congruence)) as Hi. rewrite X in Hi. split; [exact Hi|]. destruct (nth_error ps0 i) eqn:E0; [eauto|]. apply nth_error_None in E0. lia. }
  split; [exact X|]. split; [|split; [exact Z|split]].
  - intros i a p0 E E0. destruct (Y i _ p0 E E0) as (_ & B & C & _). cbn [solo fst snd] in B, C. split; [exact B|exact C].
  - intros i p p0 E E0 Hs. destruct (Y i p p0 E E0) as (_ & _ & _ & D). destruct p as [a|l k|l v k]; [eauto| |]; cbn [steps] in D; lia.
  - intros (i & j & p & q & l & a & b & Hij & Ei & Ej & Ni & Nj & Hab).
    destruct (Hp0 i p Ei) as (Hi & p0 & E0). destruct (Hp0 j q Ej) as (Hj & q0 & F0).
    destruct (Y i p p0 Ei E0) as (Fp & _). destruct (Y j q q0 Ej F0) as (Fq & _).
    assert (forall i0 (r : prog) x c, fp (R i0) (W i0) r -> next r = Some (x, c) -> (R i0 x \/ W i0 x) /\ (c = true -> W i0 x)) as HN.
    { intros i0 r x c Hr Nr. destruct r; cbn in Nr; [discriminate| |]; injection Nr as <- <-; cbn in Hr.
      - split; [apply Hr|discriminate].
      - split; [right; apply Hr|intros _; apply Hr]. }
    destruct (HN i p l a Fp Ni) as (P1 & P2). destruct (HN j q l b Fq Nj) as (Q1 & Q2).
    destruct a.
    + destruct (Hsep i j l Hi Hj Hij (P2 eq_refl)). tauto.
    + destruct b; [|discriminate]. destruct (Hsep j i l Hj Hi ltac:(congruence) (Q2 eq_refl)). tauto.
Qed.
End Sep.
End Run.

(* ------------------------------------------------------------------ *)
(** ** The worker pool *)
From Coq Require Import Permutation.

Lemma flat_map_upd {A B} (f : A -> list B) l t x y : nth_error l t = Some y -> Permutation (f y ++ flat_map f (upd l t x)) (f x ++ flat_map f l).
Proof.
  revert t. induction l as [|a l IH]; intros [|t] E; cbn in E; try discriminate.
  - injection E as ->. cbn [upd flat_map]. rewrite !app_assoc. apply Permutation_app_tail. apply Permutation_app_comm.
  - cbn [upd flat_map]. specialize (IH t E). rewrite (Permutation_app_comm (f y)), <- app_assoc, (Permutation_app_comm _ (f y)), IH.
    rewrite !app_assoc. apply Permutation_app_tail. apply Permutation_app_comm.
Qed.
Lemma flat_map_upd_len {A B} (f : A -> list B) l t x y : nth_error l t = Some y -> (length (f y) + length (flat_map f (upd l t x)) = length (f x) + length (flat_map f l))%nat.
Proof. intros E. pose proof (Permutation_length (flat_map_upd f l t x y E)) as H. now rewrite !app_length in H. Qed.

Lemma jobsOf_In n m i j : In (i, j) (jobsOf n m) <-> (i < n)%nat /\ (j < m)%nat.
Proof.
  unfold jobsOf. rewrite in_flat_map. split.
  - intros (x & Hx & H). apply in_seq in Hx. apply in_map_iff in H. destruct H as (y & E & Hy). apply in_seq in Hy. injection E as -> ->. lia.
  - intros (Hi & Hj). exists i. split; [apply in_seq; lia|]. apply in_map_iff. exists j. split; [reflexivity|]. apply in_seq. lia.
Qed.
Lemma jobsOf_NoDup n m : NoDup (jobsOf n m).
Proof.
  unfold jobsOf. generalize (seq_NoDup n 0). generalize (seq 0 n). induction l as [|i l IH]; intros H; [constructor|]. inversion H; subst. cbn [flat_map].
  assert (forall a b : list (nat * nat), NoDup a -> NoDup b -> (forall x, In x a -> ~ In x b) -> NoDup (a ++ b)) as HA.
  { induction a as [|x a IHa]; intros b Ha Hb Hab; [exact Hb|]. inversion Ha; subst. cbn. constructor.
    - rewrite in_app_iff. intros [X|X]; [contradiction|]. apply (Hab x); [now left|exact X].
    - apply IHa; [assumption|assumption|]. intros y Hy. apply Hab. now right. }
  apply HA; [|now apply IH|].
  - apply FinFun.Injective_map_NoDup; [intros a b E; now injection E|apply seq_NoDup].
  - intros x Hx Hy. apply in_map_iff in Hx. destruct Hx as (y & <- & _). apply in_flat_map in Hy. destruct Hy as (z & Hz & Hy). apply in_map_iff in Hy. destruct Hy as (q & E & _). injection E as -> _. contradiction.
Qed.

Section Pool.
Variables (St R : Type) (r0 : R).
Variable work : nat -> nat -> nat -> St -> R -> R * St.
Variables (n m : nat) (ss : list St) (mem0 : list (list R)).
Notation pool := (pool St R).
Notation jobs := (jobsOf n m).
Notation start := (pinit n m ss mem0).

Definition busyOf (c : wst * St) : list (nat * nat) := match fst c with WBusy i j => [(i, j)] | _ => [] end.
Definition aliveOf (c : wst * St) : list unit := match fst c with WExit => [] | _ => [tt] end.
Definition measure (s : pool) : nat := (2 * length (p_todo s) + length (flat_map busyOf (p_ws s)) + length (flat_map aliveOf (p_ws s)) + if p_closed s then 0 else 1)%nat.

Lemma step_measure s e s' : pstep r0 work s e = Some s' -> measure s = S (measure s').
Proof.
  unfold pstep, measure. destruct e as [t|t| |t].
  - destruct (p_todo s) as [|(i, j) rest]; [discriminate|]. destruct (nth_error (p_ws s) t) as [([| |], c)|] eqn:E; try discriminate. intros H; injection H as <-. cbn [p_todo p_closed p_ws length].
    pose proof (flat_map_upd_len busyOf _ _ (WBusy i j, c) _ E) as A. pose proof (flat_map_upd_len aliveOf _ _ (WBusy i j, c) _ E) as B. cbn in A, B. lia.
  - destruct (nth_error (p_ws s) t) as [([|i j|], c)|] eqn:E; try discriminate. destruct (work t i j c _) as (r, c'). intros H; injection H as <-. cbn [p_todo p_closed p_ws].
    pose proof (flat_map_upd_len busyOf _ _ (WIdle, c') _ E) as A. pose proof (flat_map_upd_len aliveOf _ _ (WIdle, c') _ E) as B. cbn in A, B. lia.
  - destruct (p_todo s); [|discriminate]. destruct (p_closed s); [discriminate|]. intros H; injection H as <-. cbn. lia.
  - destruct (p_closed s) eqn:C; [|discriminate]. destruct (nth_error (p_ws s) t) as [([| |], c)|] eqn:E; try discriminate. intros H; injection H as <-. cbn [p_todo p_closed p_ws].
    pose proof (flat_map_upd_len busyOf _ _ (WExit, c) _ E) as A. pose proof (flat_map_upd_len aliveOf _ _ (WExit, c) _ E) as B. cbn in A, B. lia.
Qed.
Lemma run_measure es : forall s s', prun r0 work s es = Some s' -> measure s = (length es + measure s')%nat.
Proof.
  induction es as [|e es IH]; intros s s' H; cbn [prun] in H; [injection H as <-; reflexivity|]. destruct (pstep r0 work s e) as [s1|] eqn:E; [|discriminate].
  rewrite (step_measure _ _ _ E), (IH _ _ H). reflexivity.
Qed.
Lemma start_measure : measure start = (2 * (n * m) + length ss + 1)%nat.
Proof.
  unfold measure, pinit. cbn [p_todo p_closed p_ws].
  assert (length jobs = (n * m)%nat) as ->.
  { unfold jobsOf. rewrite <- (seq_length n 0) at 2. generalize (seq 0 n). induction l as [|a l IH]; [reflexivity|]. cbn [flat_map length]. rewrite app_length, map_length, seq_length, IH. lia. }
  assert (length (flat_map busyOf (map (fun s : St => (WIdle, s)) ss)) = 0%nat) as -> by (clear; induction ss as [|a l IH]; [reflexivity|exact IH]).
  assert (length (flat_map aliveOf (map (fun s : St => (WIdle, s)) ss)) = length ss) as -> by (clear; induction ss as [|a l IH]; [reflexivity|cbn; now rewrite IH]). lia.
Qed.

(** *** Every run is finite. *)
Lemma pool_bound es s : prun r0 work start es = Some s -> (length es <= 2 * (n * m) + length ss + 1)%nat.
Proof. intros H. apply run_measure in H. rewrite start_measure in H. lia. Qed.

Variables (Inv : nat -> St -> Prop) (Shape : nat -> nat -> R -> Prop) (Good : nat -> nat -> nat -> R -> Prop).
Hypothesis Hwork : forall t i j s r r' s', (t < length ss)%nat -> (i < n)%nat -> (j < m)%nat -> Inv t s -> Shape i j r -> work t i j s r = (r', s') -> Good t i j r' /\ Inv t s'.
Hypothesis Hinv : forall t s, nth_error ss t = Some s -> Inv t s.
Hypothesis Hmem : length mem0 = n /\ forall i, (i < n)%nat -> length (nth i mem0 []) = m /\ forall j, (j < m)%nat -> Shape i j (entry r0 mem0 i j).

Definition pinv (s : pool) : Prop :=
  length (p_ws s) = length ss /\ (p_closed s = true -> p_todo s = []) /\
  (forall t c, nth_error (p_ws s) t = Some c -> (fst c = WExit -> p_closed s = true) /\ Inv t (snd c)) /\
  Permutation (map fst (p_log s) ++ flat_map busyOf (p_ws s) ++ p_todo s) jobs /\
  (length (p_mem s) = n /\ forall i, (i < n)%nat -> length (nth i (p_mem s) []) = m) /\
  (forall i j, (i < n)%nat -> (j < m)%nat -> ~ In (i, j) (map fst (p_log s)) -> entry r0 (p_mem s) i j = entry r0 mem0 i j) /\
  (forall i j t, In (i, j, t) (p_log s) -> (t < length ss)%nat /\ Good t i j (entry r0 (p_mem s) i j)).

Lemma pinv_start : pinv start.
Proof.
  unfold pinv, pinit. cbn [p_todo p_closed p_ws p_mem p_log map app]. split; [now rewrite map_length|]. split; [discriminate|]. split; [|split; [|split; [|split]]].
  - intros t c E. rewrite nth_error_map in E. destruct (nth_error ss t) as [s|] eqn:Es; [|discriminate]. cbn in E. injection E as <-. cbn. split; [discriminate|]. now apply Hinv.
  - assert (flat_map busyOf (map (fun s : St => (WIdle, s)) ss) = []) as -> by (clear; induction ss as [|a l IH]; [reflexivity|exact IH]). reflexivity.
  - split; [apply Hmem|]. intros i Hi. apply (proj2 Hmem i Hi).
  - reflexivity.
  - intros i j t [].
Qed.

Lemma entry_store M i j i' j' r : (i < length M)%nat -> (j < length (nth i M []))%nat -> entry r0 (store M i j r) i' j' = if Nat.eqb i' i && Nat.eqb j' j then r else entry r0 M i' j'.
Proof.
  intros Hi Hj. unfold entry, store. rewrite nth_upd_if by exact Hi. destruct (Nat.eqb_spec i' i) as [->|]; [|reflexivity]. rewrite nth_upd_if by exact Hj. destruct (Nat.eqb_spec j' j); reflexivity.
Qed.
Lemma nth_error_in {A} (l : list A) t x : nth_error l t = Some x -> (t < length l)%nat.
Proof. intros E. apply nth_error_Some. congruence. Qed.

Lemma pinv_step s e s' : pinv s -> pstep r0 work s e = Some s' -> pinv s'.
Proof.
  intros (A & B & C & D & (E1 & E2) & F & G) H. unfold pstep in H. destruct e as [t|t| |t].
  - destruct (p_todo s) as [|(i, j) rest] eqn:Et; [discriminate|]. destruct (nth_error (p_ws s) t) as [([| |], c)|] eqn:En; try discriminate. injection H as <-.
    unfold pinv. cbn [p_todo p_closed p_ws p_mem p_log]. pose proof (nth_error_in _ _ _ En) as Ht. split; [now rewrite upd_length|]. split; [intros X; specialize (B X); discriminate|]. split; [|split; [|split; [|split]]]; try assumption; [| |now split].
    + intros t' c' E'. rewrite nth_error_upd in E' by exact Ht. destruct (Nat.eqb_spec t' t) as [->|]; [|now apply C]. injection E' as <-. cbn. split; [discriminate|]. apply (C t _ En).
    + rewrite <- D. pose proof (flat_map_upd busyOf _ _ (WBusy i j, c) _ En) as P. cbn [busyOf fst app] in P. apply Permutation_app_head. rewrite P. cbn [app]. apply Permutation_middle.
  - destruct (nth_error (p_ws s) t) as [([|i j|], c)|] eqn:En; try discriminate. destruct (work t i j c (entry r0 (p_mem s) i j)) as (r, c') eqn:Ew. injection H as <-.
    pose proof (nth_error_in _ _ _ En) as Ht. pose proof (flat_map_upd busyOf _ _ (WIdle, c') _ En) as P. cbn [busyOf fst app] in P.
    assert (Permutation (map fst (p_log s) ++ (i, j) :: flat_map busyOf (upd (p_ws s) t (WIdle, c')) ++ p_todo s) jobs) as D' by (rewrite <- D; apply Permutation_app_head; rewrite <- P; reflexivity).
    assert (In (i, j) jobs) as Hin by (apply (Permutation_in _ D'), in_or_app; right; now left). apply jobsOf_In in Hin. destruct Hin as (Hi & Hj).
    assert (~ In (i, j) (map fst (p_log s))) as Hnin.
    { intros X. pose proof (Permutation_NoDup (Permutation_sym D') (jobsOf_NoDup n m)) as ND. apply NoDup_remove_2 in ND. apply ND, in_or_app. now left. }
    destruct (Hwork t i j c (entry r0 (p_mem s) i j) r c') as (W1 & W2); [lia|assumption|assumption|apply (C t _ En)|rewrite F by assumption; apply (proj2 Hmem i Hi); exact Hj|exact Ew|].
    assert (length (nth i (p_mem s) []) = m) as Lm by (now apply E2).
    unfold pinv. cbn [p_todo p_closed p_ws p_mem p_log]. split; [now rewrite upd_length|]. split; [exact B|]. split; [|split; [|split; [|split]]].
    + intros t' c2 E'. rewrite nth_error_upd in E' by exact Ht. destruct (Nat.eqb_spec t' t) as [->|]; [|now apply C]. injection E' as <-. cbn. split; [discriminate|exact W2].
    + rewrite map_app. cbn [map fst]. rewrite <- app_assoc. exact D'.
    + unfold store. split; [now rewrite upd_length|]. intros i' Hi'. rewrite nth_upd_if by lia. destruct (Nat.eqb i' i); [now rewrite upd_length|now apply E2].
    + intros i' j' Hi' Hj' Hn. rewrite map_app, in_app_iff in Hn. rewrite entry_store by lia. destruct (Nat.eqb_spec i' i) as [->|]; [destruct (Nat.eqb_spec j' j) as [->|]|]; cbn [andb].
      * exfalso. apply Hn. right. now left.
      * apply F; [assumption..|]. tauto.
      * apply F; [assumption..|]. tauto.
    + intros i' j' t' Hl. apply in_app_or in Hl. rewrite entry_store by lia. destruct Hl as [Hl|[Hl|[]]].
      * destruct (Nat.eqb_spec i' i) as [->|]; [destruct (Nat.eqb_spec j' j) as [->|]|]; cbn [andb]; try (now apply G). exfalso. apply Hnin. apply in_map_iff. exists (i, j, t'). split; [reflexivity|exact Hl].
      * injection Hl as <- <- <-. rewrite !Nat.eqb_refl. cbn [andb]. split; [lia|exact W1].
  - destruct (p_todo s) eqn:Et; [|discriminate]. destruct (p_closed s) eqn:Ec; [discriminate|]. injection H as <-. unfold pinv. cbn [p_todo p_closed p_ws p_mem p_log].
    split; [exact A|]. split; [reflexivity|]. split; [intros t c E'; split; [reflexivity|apply (C t c E')]|]. split; [exact D|]. split; [now split|]. now split.
  - destruct (p_closed s) eqn:Ec; [|discriminate]. destruct (nth_error (p_ws s) t) as [([| |], c)|] eqn:En; try discriminate. injection H as <-. unfold pinv. cbn [p_todo p_closed p_ws p_mem p_log].
    pose proof (nth_error_in _ _ _ En) as Ht. split; [now rewrite upd_length|]. split; [exact B|]. split; [|split; [|split; [now split|now split]]].
    + intros t' c2 E'. rewrite nth_error_upd in E' by exact Ht. destruct (Nat.eqb_spec t' t) as [->|]; [|split; [reflexivity|apply (C t' c2 E')]]. injection E' as <-. cbn. split; [reflexivity|apply (C t _ En)].
    + rewrite <- D. pose proof (flat_map_upd busyOf _ _ (WExit, c) _ En) as P. cbn [busyOf fst app] in P. apply Permutation_app_head. now rewrite P.
Qed.
Lemma pinv_run es : forall s s', pinv s -> prun r0 work s es = Some s' -> pinv s'.
Proof.
  induction es as [|e es IH]; intros s s' I H; cbn [prun] in H; [injection H as <-; exact I|]. destruct (pstep r0 work s e) as [s1|] eqn:E; [|discriminate]. apply (IH s1); [|exact H]. now apply (pinv_step s e).
Qed.

(** *** No deadlock: until every worker is gone, something can happen. *)
Lemma pool_progress es s : prun r0 work start es = Some s -> pfinal s \/ exists e s', pstep r0 work s e = Some s'.
Proof.
  intros H. apply (pinv_run es start s pinv_start) in H. destruct H as (A & B & C & D & _).
  assert ((exists t i j c, nth_error (p_ws s) t = Some (WBusy i j, c)) \/ (exists t c, nth_error (p_ws s) t = Some (WIdle, c)) \/ pfinal s) as [(t & i & j & c & E)|[(t & c & E)|E]].
  { unfold pfinal. clear. generalize (p_ws s) as l. induction l as [|(a, c) l IH].
    - right; right. intros t c E. destruct t; discriminate.
    - destruct IH as [(t & i & j & c' & E)|[(t & c' & E)|E]].
      + left. exists (S t), i, j, c'. exact E.
      + right; left. exists (S t), c'. exact E.
      + destruct a as [|i j|]; [right; left; exists O, c; reflexivity|left; exists O, i, j, c; reflexivity|]. right; right. intros [|t] x Ex; cbn in Ex; [now injection Ex as <-|now apply (E t)]. }
  - right. destruct (work t i j c (entry r0 (p_mem s) i j)) as (r, c') eqn:Ew. eexists (EDone t), _. unfold pstep. rewrite E, Ew. reflexivity.
  - right. destruct (p_todo s) as [|(i, j) rest] eqn:Et.
    + destruct (p_closed s) eqn:Ec; [eexists (EExit t), _; unfold pstep; rewrite Ec, E; reflexivity|eexists EClose, _; unfold pstep; rewrite Et, Ec; reflexivity].
    + eexists (EHand t), _. unfold pstep. rewrite Et, E. reflexivity.
  - now left.
Qed.

(** *** When wg.Wait returns, every job was done exactly once, by some worker, and every entry is good. *)
Lemma pool_final es s : prun r0 work start es = Some s -> pfinal s -> ss <> [] ->
  Permutation (map fst (p_log s)) jobs /\ NoDup (map fst (p_log s)) /\
  (length (p_mem s) = n /\ forall i, (i < n)%nat -> length (nth i (p_mem s) []) = m) /\
  forall i j, (i < n)%nat -> (j < m)%nat -> exists t, (t < length ss)%nat /\ In (i, j, t) (p_log s) /\ Good t i j (entry r0 (p_mem s) i j).
Proof.
  intros H Hf Hss. apply (pinv_run es start s pinv_start) in H. destruct H as (A & B & C & D & E & F & G).
  assert (p_todo s = []) as Et.
  { destruct (p_ws s) as [|c l] eqn:El; [destruct ss; [congruence|discriminate]|]. apply B. apply (C O c); [reflexivity|]. apply (Hf O). now rewrite El. }
  assert (flat_map busyOf (p_ws s) = []) as Eb.
  { unfold pfinal in Hf. clear - Hf. revert Hf. generalize (p_ws s) as l. induction l as [|(a, c) l IH]; intros Hf; [reflexivity|]. cbn [flat_map]. rewrite IH by (intros t x Ex; now apply (Hf (S t))).
    specialize (Hf O _ eq_refl). cbn in Hf. subst a. reflexivity. }
  rewrite Et, Eb, !app_nil_r in D. split; [exact D|]. split; [apply (Permutation_NoDup (Permutation_sym D)), jobsOf_NoDup|]. split; [exact E|].
  intros i j Hi Hj. assert (In (i, j) (map fst (p_log s))) as X by (apply (Permutation_in _ (Permutation_sym D)); now apply jobsOf_In).
  apply in_map_iff in X. destruct X as (((a, b), t) & X1 & X2). cbn in X1. injection X1 as -> ->. exists t. destruct (G i j t X2). now split.
Qed.
End Pool.

(** The number of workers is at least one when there is work. *)
Lemma chunkCount_pos ncpu ws c : 1 <= ncpu -> 1 <= ws < 2 ^ 64 -> chunkCount ncpu ws = Ok c -> 1 <= c <= ncpu.
Proof.
  unfold chunkCount. intros H1 H2. destruct (Sqrt_spec ws ltac:(lia)) as (r & -> & H3). intros H; injection H as <-. unfold is_floor_sqrt in H3. nia.
Qed.
