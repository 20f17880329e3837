(** Lemmas: butterfly levels of the transforms act on complex vectors. *)
From Coq Require Import Ring_theory Ring.
From Verif Require Import Base NegaRing ModelNum ModelVec ModelFFT SpecVec SpecFFT PfVec.

Section Cplx.
Variable A : arith.
Notation F := (car A).
Notation C := (F * F)%type.
Variable rth : ring_theory (a0 A) (a1 A) (aadd A) (amul A) (asub A) (aopp A) eq.
Add Ring Fring : rth.

Definition csub (x y : C) : C := (asub A (fst x) (fst y), asub A (snd x) (snd y)).
Definition copp (x : C) : C := (aopp A (fst x), aopp A (snd x)).

Lemma c_ring : ring_theory (c0 A) (c1 A) (cadd A) (cmul A) csub copp eq.
Proof.
  constructor; intros; repeat match goal with x : C |- _ => destruct x end; unfold cadd, cmul, csub, copp, SpecFFT.c0, SpecFFT.c1; cbn [fst snd];
  f_equal; ring.
Qed.
Add Ring Cring : c_ring.

Lemma conj_add x y : conj A (cadd A x y) = cadd A (conj A x) (conj A y).
Proof. unfold conj, cadd; cbn [fst snd]; f_equal; ring. Qed.
Lemma conj_mul x y : conj A (cmul A x y) = cmul A (conj A x) (conj A y).
Proof. unfold conj, cmul; cbn [fst snd]; f_equal; ring. Qed.
Lemma conj_of x : conj A (cofF A x) = cofF A x.
Proof. unfold conj, cofF; cbn [fst snd]; f_equal; ring. Qed.
Lemma conj_conj x : conj A (conj A x) = x.
Proof. destruct x; unfold conj; cbn [fst snd]; f_equal; ring. Qed.

Lemma csum_ext n f g : (forall i, (i < n)%nat -> f i = g i) -> csum A n f = csum A n g.
Proof. induction n as [|n IH]; intros H; cbn [csum]; [reflexivity|]. rewrite IH, H by (intros; try apply H; lia). reflexivity. Qed.
Lemma csum_add n f g : csum A n (fun i => cadd A (f i) (g i)) = cadd A (csum A n f) (csum A n g).
Proof. induction n as [|n IH]; cbn [csum]; [unfold cadd, c0; cbn [fst snd]; f_equal; ring|]. rewrite IH. ring. Qed.
Lemma csum_mul_l n c f : csum A n (fun i => cmul A c (f i)) = cmul A c (csum A n f).
Proof. induction n as [|n IH]; cbn [csum]; [ring|]. rewrite IH. ring. Qed.
Lemma csum_mul_r n c f : csum A n (fun i => cmul A (f i) c) = cmul A (csum A n f) c.
Proof. induction n as [|n IH]; cbn [csum]; [ring|]. rewrite IH. ring. Qed.
Lemma csum_zero n : csum A n (fun _ => c0 A) = c0 A.
Proof. induction n as [|n IH]; cbn [csum]; [reflexivity|]. rewrite IH. ring. Qed.
Lemma csum_swap n m (f : nat -> nat -> C) :
  csum A n (fun i => csum A m (fun j => f i j)) = csum A m (fun j => csum A n (fun i => f i j)).
Proof.
  induction n as [|n IH]; cbn [csum]; [now rewrite csum_zero|]. rewrite IH. symmetry.
  rewrite <- csum_add. reflexivity.
Qed.
Lemma csum_app n m f : csum A (n + m) f = cadd A (csum A n f) (csum A m (fun i => f (n + i)%nat)).
Proof.
  induction m as [|m IH]; cbn [csum].
  - rewrite Nat.add_0_r. ring.
  - rewrite Nat.add_succ_r. cbn [csum]. rewrite IH. ring.
Qed.
Lemma csum_S_l n f : csum A (S n) f = cadd A (f 0%nat) (csum A n (fun i => f (S i))).
Proof. induction n as [|n IH]; [cbn [csum]; ring|]. cbn [csum] in IH |- *. rewrite IH. ring. Qed.
Lemma csum_even_odd n f : csum A (2 * n) f = csum A n (fun q => cadd A (f (2 * q)%nat) (f (2 * q + 1)%nat)).
Proof.
  induction n as [|n IH]; [reflexivity|]. replace (2 * S n)%nat with (S (S (2 * n))) by lia. cbn [csum].
  rewrite IH. replace (2 * n + 1)%nat with (S (2 * n)) by lia. ring.
Qed.
Lemma csum_single n f j : (j < n)%nat -> (forall i, (i < n)%nat -> i <> j -> f i = c0 A) -> csum A n f = f j.
Proof.
  revert j; induction n as [|n IH]; intros j Hj H; [lia|]. cbn [csum]. destruct (Nat.eq_dec j n) as [->|].
  - rewrite (csum_ext n f (fun _ => c0 A)) by (intros; apply H; lia). rewrite csum_zero. ring.
  - rewrite (IH j) by (try lia; intros; apply H; lia). rewrite (H n) by lia. ring.
Qed.
Lemma csum_shift_nat (N : nat) (g : Z -> C) (c : nat) :
  (forall k, g (k + Z.of_nat N) = g k) ->
  csum A N (fun i => g (Z.of_nat i + Z.of_nat c)) = csum A N (fun i => g (Z.of_nat i)).
Proof.
  intros Hg. induction c as [|c IH].
  - apply csum_ext; intros; f_equal; lia.
  - rewrite <- IH. destruct N as [|n]; [reflexivity|].
    symmetry. rewrite csum_S_l. cbn [csum].
    rewrite (csum_ext n (fun i => g (Z.of_nat (S i) + Z.of_nat c))
                        (fun i => g (Z.of_nat i + Z.of_nat (S c)))) by (intros; f_equal; lia).
    assert (g (Z.of_nat n + Z.of_nat (S c)) = g (Z.of_nat 0 + Z.of_nat c)) as ->.
    { rewrite <- (Hg (Z.of_nat 0 + Z.of_nat c)). f_equal; lia. }
    ring.
Qed.
Lemma csum_shift (N : nat) (g : Z -> C) (c : Z) :
  (forall k, g (k + Z.of_nat N) = g k) ->
  csum A N (fun i => g (Z.of_nat i + c)) = csum A N (fun i => g (Z.of_nat i)).
Proof.
  intros Hg. destruct (Z_le_gt_dec 0 c) as [Hc|Hc].
  - rewrite <- (csum_shift_nat N g (Z.to_nat c) Hg).
    apply csum_ext; intros; f_equal; lia.
  - rewrite <- (csum_shift_nat N (fun k => g (k + c)) (Z.to_nat (- c))).
    + apply csum_ext; intros; f_equal; lia.
    + intros k. rewrite <- (Hg (k + c)). f_equal; lia.
Qed.
Lemma csum_conj n f : conj A (csum A n f) = csum A n (fun i => conj A (f i)).
Proof. induction n as [|n IH]; cbn [csum]; [unfold conj, c0; cbn [fst snd]; f_equal; ring|]. rewrite conj_add, IH. reflexivity. Qed.

(* ------------------------------------------------------------------ *)
(** ** Layout *)

Definition L (c : nat) : nat := (8 * (c / 4) + c mod 4)%nat.
Lemma L_block b c : (c < 4)%nat -> L (4 * b + c) = (8 * b + c)%nat.
Proof.
  intros H. unfold L.
  replace ((4 * b + c) / 4)%nat with b by (apply (Nat.div_unique _ _ _ c); lia).
  replace ((4 * b + c) mod 4)%nat with c by (apply (Nat.mod_unique _ _ b); lia). reflexivity.
Qed.
Lemma L_repr c : exists b l, (l < 4)%nat /\ c = (4 * b + l)%nat /\ L c = (8 * b + l)%nat.
Proof.
  exists (c / 4)%nat, (c mod 4)%nat. pose proof (Nat.div_mod c 4 ltac:(lia)). pose proof (Nat.mod_upper_bound c 4 ltac:(lia)).
  repeat split; [lia|lia].
Qed.
Lemma L_inj c d : L c = L d -> c = d.
Proof. destruct (L_repr c) as (b & l & H1 & H2 & H3), (L_repr d) as (b' & l' & H1' & H2' & H3'). lia. Qed.
Lemma L_4 c d : L c <> (L d + 4)%nat.
Proof. destruct (L_repr c) as (b & l & H1 & H2 & H3), (L_repr d) as (b' & l' & H1' & H2' & H3'). lia. Qed.
Lemma L_lt M c : (M mod 4 = 0)%nat -> (c < M)%nat -> (L c + 4 < 2 * M)%nat.
Proof.
  intros HM H. destruct (L_repr c) as (b & l & H1 & H2 & H3). pose proof (Nat.div_mod M 4 ltac:(lia)). lia.
Qed.
Lemma L_surj M i : (M mod 4 = 0)%nat -> (i < 2 * M)%nat -> exists c, (c < M)%nat /\ (i = L c \/ i = L c + 4)%nat.
Proof.
  intros HM H. pose proof (Nat.div_mod M 4 ltac:(lia)).
  pose proof (Nat.div_mod i 8 ltac:(lia)). pose proof (Nat.mod_upper_bound i 8 ltac:(lia)).
  set (b := (i / 8)%nat) in *. set (l := (i mod 8)%nat) in *. clearbody b l.
  destruct (Nat.lt_ge_cases l 4).
  - exists (4 * b + l)%nat. rewrite L_block by lia. lia.
  - exists (4 * b + (l - 4))%nat. rewrite L_block by lia. lia.
Qed.
Lemma cplx_eq (v v' : list F) M : (M mod 4 = 0)%nat -> length v = (2 * M)%nat -> length v' = (2 * M)%nat ->
  (forall k, (k < M)%nat -> cplx A v k = cplx A v' k) -> v = v'.
Proof.
  intros HM H1 H2 H. apply (list_ext (a0 A)); [lia|]. intros i Hi. rewrite H1 in Hi.
  destruct (L_surj M i HM Hi) as (c & Hc & [->| ->]); specialize (H c Hc); unfold cplx in H; injection H; auto.
Qed.
Lemma cplx_upd (v : list F) M c x y k : (M mod 4 = 0)%nat -> length v = (2 * M)%nat -> (c < M)%nat ->
  cplx A (upd (upd v (L c) x) (L c + 4) y) k = if Nat.eqb k c then (x, y) else cplx A v k.
Proof.
  intros HM Hl Hc. pose proof (L_lt M c HM Hc). unfold cplx. change (8 * (k / 4) + k mod 4)%nat with (L k).
  rewrite !nth_upd_if by (rewrite ?upd_length; lia).
  pose proof (L_4 c k). pose proof (L_4 k c).
  destruct (Nat.eqb_spec (L k) (L c + 4)); [lia|]. destruct (Nat.eqb_spec (L k + 4) (L c)); [lia|].
  destruct (Nat.eqb_spec k c) as [->|Hne].
  - rewrite !Nat.eqb_refl. reflexivity.
  - destruct (Nat.eqb_spec (L k) (L c)) as [E|]; [apply L_inj in E; lia|].
    destruct (Nat.eqb_spec (L k + 4) (L c + 4)) as [E|]; [assert (L k = L c) as E' by lia; apply L_inj in E'; lia|].
    reflexivity.
Qed.

(* ------------------------------------------------------------------ *)
(** ** Butterflies *)

Definition bfT := F -> F -> F -> F -> F -> F -> F * F * F * F.
Definition bfC (bf : bfT) (w u v : C) : C * C :=
  let '(x, y, z, t) := bf (fst u) (snd u) (fst v) (snd v) (fst w) (snd w) in ((x, y), (z, t)).
Lemma bfC_fwd w u v : bfC (fwdButterfly A) w u v = (cadd A u (cmul A v w), csub u (cmul A v w)).
Proof. reflexivity. Qed.
Lemma bfC_inv w u v : bfC (invButterfly A) w u v = (cadd A u v, cmul A (csub u v) w).
Proof. reflexivity. Qed.

Variable M : nat.
Hypothesis HM : (M mod 4 = 0)%nat.

Lemma upd_comm {X} (l : list X) i j a b : i <> j -> upd (upd l i a) j b = upd (upd l j b) i a.
Proof.
  revert i j; induction l as [|x l IH]; intros [|i] [|j] H; cbn [upd]; try reflexivity; try lia. f_equal. apply IH. lia.
Qed.

Lemma bfly_cplx bf w c d (v : list F) : length v = (2 * M)%nat -> (c < M)%nat -> (d < M)%nat -> c <> d ->
  length (bfly A bf w (L c) (L c + 4) (L d) (L d + 4) v) = (2 * M)%nat /\
  forall k, cplx A (bfly A bf w (L c) (L c + 4) (L d) (L d + 4) v) k =
    if Nat.eqb k c then fst (bfC bf w (cplx A v c) (cplx A v d))
    else if Nat.eqb k d then snd (bfC bf w (cplx A v c) (cplx A v d)) else cplx A v k.
Proof.
  intros Hl Hc Hd Hne. unfold bfly, bfC. 
  change (fst (cplx A v c)) with (nth (L c) v (a0 A)). change (snd (cplx A v c)) with (nth (L c + 4) v (a0 A)).
  change (fst (cplx A v d)) with (nth (L d) v (a0 A)). change (snd (cplx A v d)) with (nth (L d + 4) v (a0 A)).
  destruct (bf (nth (L c) v (a0 A)) (nth (L c + 4) v (a0 A)) (nth (L d) v (a0 A)) (nth (L d + 4) v (a0 A)) (fst w) (snd w)) as [[[x y] s] t].
  cbn [fst snd]. split; [now rewrite !upd_length|]. intros k.
  rewrite (cplx_upd _ M d s t k HM) by (rewrite ?upd_length; lia).
  rewrite (cplx_upd _ M c x y k HM) by (rewrite ?upd_length; lia).
  destruct (Nat.eqb_spec k d), (Nat.eqb_spec k c); try reflexivity. lia.
Qed.

(** One level: h = half size of a node, W the factor of each node. *)
Definition T (bf : bfT) (h : nat) (W : nat -> C) (a : nat -> C) (k : nat) : C :=
  let i := (k / (2 * h))%nat in
  if Nat.ltb (k mod (2 * h)) h then fst (bfC bf (W i) (a k) (a (k + h)%nat))
  else snd (bfC bf (W i) (a (k - h)%nat) (a k)).

(** [f] applies [G] on the entries of [U] and keeps the others. *)
Definition acts (G : (nat -> C) -> nat -> C) (U : nat -> bool) (f : list F -> list F) : Prop :=
  forall v, length v = (2 * M)%nat -> length (f v) = (2 * M)%nat /\
    forall k, (k < M)%nat -> cplx A (f v) k = if U k then G (cplx A v) k else cplx A v k.

(** [G] on an entry of U only looks at entries of U. *)
Definition local (G : (nat -> C) -> nat -> C) (U : nat -> bool) : Prop :=
  forall a a' k, (k < M)%nat -> U k = true -> (forall j, (j < M)%nat -> U j = true -> a j = a' j) -> G a k = G a' k.

Lemma acts_loop G lo n (body : nat -> list F -> list F) (U : nat -> nat -> bool) (V : nat -> bool) :
  (forall i, (lo <= i < lo + n)%nat -> acts G (U i) (body i)) ->
  (forall i, (lo <= i < lo + n)%nat -> local G (U i)) ->
  (forall i j k, (lo <= i < lo + n)%nat -> (lo <= j < lo + n)%nat -> (k < M)%nat -> U i k = true -> U j k = true -> i = j) ->
  (forall k, (k < M)%nat -> V k = true <-> exists i, (lo <= i < lo + n)%nat /\ U i k = true) ->
  acts G V (forN lo n body).
Proof.
  intros Ha Hloc Hd HV v Hv.
  assert (HP : (fun m s => length s = (2 * M)%nat /\ forall k, (k < M)%nat ->
     ((exists i, (lo <= i < lo + m)%nat /\ U i k = true) -> cplx A s k = G (cplx A v) k) /\
     ((forall i, (lo <= i < lo + m)%nat -> U i k = false) -> cplx A s k = cplx A v k)) n (forN lo n body v)).
  { apply forN_ind.
    - split; [exact Hv|]. intros k Hk. split; [intros (i & Hi & _); lia|reflexivity].
    - intros m s Hm [Hl H]. destruct (Ha (lo + m)%nat ltac:(lia) s Hl) as [Hl' H']. split; [exact Hl'|].
      intros k Hk. rewrite H' by exact Hk. destruct (U (lo + m)%nat k) eqn:E.
      + split.
        * intros _. apply (Hloc (lo + m)%nat ltac:(lia)); [exact Hk|exact E|].
          intros j Hj Ej. apply H; [exact Hj|]. intros i Hi. destruct (U i j) eqn:E'; [|reflexivity].
          assert (i = lo + m)%nat by (apply (Hd i (lo + m)%nat j); auto; lia). lia.
        * intros Hf. rewrite Hf in E by lia. discriminate.
      + split.
        * intros (i & Hi & Ei). apply H; [exact Hk|]. exists i. split; [|exact Ei].
          destruct (Nat.eq_dec i (lo + m)) as [->|]; [congruence|lia].
        * intros Hf. apply H; [exact Hk|]. intros i Hi. apply Hf. lia. }
  destruct HP as [Hl HP]. split; [exact Hl|]. intros k Hk. destruct (HP k Hk) as [H1 H2].
  destruct (V k) eqn:E.
  - apply H1. now apply HV.
  - apply H2. intros i Hi. destruct (U i k) eqn:E'; [|reflexivity].
    assert (V k = true) by (apply HV; eauto). congruence.
Qed.

Lemma acts_comp G1 G2 (f1 f2 : list F -> list F) :
  acts G1 (fun _ => true) f1 -> acts G2 (fun _ => true) f2 ->
  (forall a a' k, (k < M)%nat -> (forall j, (j < M)%nat -> a j = a' j) -> G2 a k = G2 a' k) ->
  acts (fun a => G2 (G1 a)) (fun _ => true) (fun v => f2 (f1 v)).
Proof.
  intros H1 H2 HL v Hv. destruct (H1 v Hv) as [L1 E1]. destruct (H2 _ L1) as [L2 E2].
  split; [exact L2|]. intros k Hk. rewrite E2 by exact Hk. apply HL; [exact Hk|]. intros j Hj. now rewrite E1.
Qed.

(** A pair of positions at distance h inside a node. *)
Lemma bfly_acts bf h W c w : (0 < h)%nat -> (c mod (2 * h) < h)%nat -> (c + h < M)%nat -> w = W (c / (2 * h))%nat ->
  acts (T bf h W) (fun k => Nat.eqb k c || Nat.eqb k (c + h)) (bfly A bf w (L c) (L c + 4) (L (c + h)) (L (c + h) + 4)).
Proof.
  intros Hh Hc HcM -> v Hv.
  destruct (bfly_cplx bf (W (c / (2 * h))%nat) c (c + h) v Hv ltac:(lia) HcM ltac:(lia)) as [Hl H].
  split; [exact Hl|]. intros k Hk. rewrite H. unfold T.
  pose proof (Nat.div_mod c (2 * h) ltac:(lia)) as Ec.
  destruct (Nat.eqb_spec k c) as [->|]; cbn [orb].
  - destruct (Nat.ltb_spec (c mod (2 * h)) h); [reflexivity|lia].
  - destruct (Nat.eqb_spec k (c + h)) as [->|]; [|reflexivity].
    assert (E1 : ((c + h) / (2 * h) = c / (2 * h))%nat).
    { symmetry. apply (Nat.div_unique _ _ _ (c mod (2 * h) + h)); lia. }
    assert (E2 : ((c + h) mod (2 * h) = c mod (2 * h) + h)%nat).
    { symmetry. apply (Nat.mod_unique _ _ (c / (2 * h))); lia. }
    rewrite E1, E2. destruct (Nat.ltb_spec (c mod (2 * h) + h) h); [lia|].
    rewrite Nat.add_sub. reflexivity.
Qed.

Lemma T_ext bf h W W' a a' k : (0 < h)%nat -> (k < M)%nat -> (M mod (2 * h) = 0)%nat ->
  (forall i, (i < M / (2 * h))%nat -> W i = W' i) -> (forall j, (j < M)%nat -> a j = a' j) -> T bf h W a k = T bf h W' a' k.
Proof.
  intros Hh Hk HMh HW H. unfold T.
  pose proof (Nat.div_mod k (2 * h) ltac:(lia)). pose proof (Nat.mod_upper_bound k (2 * h) ltac:(lia)).
  pose proof (Nat.div_mod M (2 * h) ltac:(lia)).
  assert (k / (2 * h) < M / (2 * h))%nat by nia.
  rewrite HW by lia. destruct (Nat.ltb_spec (k mod (2 * h)) h).
  - rewrite (H k), (H (k + h)%nat); [reflexivity| |lia]. nia.
  - rewrite (H k), (H (k - h)%nat); [reflexivity|lia|lia].
Qed.

Lemma T_local bf h W U : (0 < h)%nat -> (M mod (2 * h) = 0)%nat ->
  (forall k, (k < M)%nat -> U k = true -> (k mod (2 * h) < h)%nat -> U (k + h)%nat = true) ->
  (forall k, (k < M)%nat -> U k = true -> (h <= k mod (2 * h))%nat -> U (k - h)%nat = true) ->
  local (T bf h W) U.
Proof.
  intros Hh HMh H1 H2 a a' k Hk HU H. unfold T.
  pose proof (Nat.div_mod k (2 * h) ltac:(lia)). pose proof (Nat.mod_upper_bound k (2 * h) ltac:(lia)).
  pose proof (Nat.div_mod M (2 * h) ltac:(lia)).
  assert (k / (2 * h) < M / (2 * h))%nat by nia.
  destruct (Nat.ltb_spec (k mod (2 * h)) h).
  - rewrite (H k Hk HU), (H (k + h)%nat); [reflexivity| |now apply H1]. nia.
  - rewrite (H k Hk HU), (H (k - h)%nat); [reflexivity|lia|now apply H2].
Qed.

(** A node: all pairs of one node, h a multiple of 4. *)
Lemma node_acts bf h W i w : (0 < h)%nat -> (h mod 4 = 0)%nat -> (M mod (2 * h) = 0)%nat -> (2 * h * i + 2 * h <= M)%nat -> w = W i ->
  acts (T bf h W) (fun k => Nat.eqb (k / (2 * h)) i) (node A bf w (2 * i * (2 * h)) (2 * h)).
Proof.
  intros Hh H4 HMh Hi Hw. unfold node.
  pose proof (Nat.div_mod h 4 ltac:(lia)) as Eh. set (g := (h / 4)%nat) in *. clearbody g.
  replace ((2 * h + 7) / 8)%nat with g.
  2:{ apply (Nat.div_unique _ _ _ 7); lia. }
  assert (Hpair : forall b c, (b < g)%nat -> (c < 4)%nat ->
     ((2 * h * i + (4 * b + c)) mod (2 * h) = 4 * b + c /\ (2 * h * i + (4 * b + c)) / (2 * h) = i)%nat).
  { intros b c Hb Hc. split; symmetry; [apply (Nat.mod_unique _ _ i)|apply (Nat.div_unique _ _ _ (4 * b + c))]; lia. }
  assert (Hpair' : forall b c, (b < g)%nat -> (c < 4)%nat ->
     ((2 * h * i + (4 * b + c) + h) mod (2 * h) = 4 * b + c + h /\ (2 * h * i + (4 * b + c) + h) / (2 * h) = i)%nat).
  { intros b c Hb Hc. split; symmetry; [apply (Nat.mod_unique _ _ i)|apply (Nat.div_unique _ _ _ (4 * b + c + h))]; lia. }
  apply (acts_loop _ _ _ _ (fun b k => Nat.eqb (k / (2 * h)) i && Nat.eqb ((k mod h) / 4) b)%bool).
  - intros b Hb. unfold block.
    apply (acts_loop _ _ _ _ (fun c k => Nat.eqb k (2 * h * i + (4 * b + c)) || Nat.eqb k (2 * h * i + (4 * b + c) + h))%bool).
    + intros c Hc.
      pose proof (Hpair b c ltac:(lia) ltac:(lia)) as [P1 P2].
      pose proof (bfly_acts bf h W (2 * h * i + (4 * b + c)) w Hh ltac:(lia) ltac:(lia) ltac:(congruence)) as HB.
      assert (E1 : L (2 * h * i + (4 * b + c)) = (2 * i * (2 * h) + 8 * b + c)%nat).
      { replace (2 * h * i + (4 * b + c))%nat with (4 * (2 * g * i + b) + c)%nat by lia. rewrite L_block by lia. lia. }
      assert (E2 : L (2 * h * i + (4 * b + c) + h) = (2 * i * (2 * h) + 8 * b + 2 * h + c)%nat).
      { replace (2 * h * i + (4 * b + c) + h)%nat with (4 * (2 * g * i + b + g) + c)%nat by lia. rewrite L_block by lia. lia. }
      rewrite E1, E2 in HB. exact HB.
    + intros c Hc. apply T_local; [exact Hh|exact HMh| |]; intros k Hk HU Hm; apply orb_true_iff in HU;
      rewrite !Nat.eqb_eq in HU; pose proof (Hpair b c ltac:(lia) ltac:(lia)) as [P1 P2];
      pose proof (Hpair' b c ltac:(lia) ltac:(lia)) as [P3 P4]; apply orb_true_iff; rewrite !Nat.eqb_eq;
      destruct HU as [->| ->]; lia.
    + intros c c' k Hc Hc' Hk H1 H2. apply orb_true_iff in H1, H2. rewrite !Nat.eqb_eq in H1, H2. lia.
    + intros k Hk. rewrite andb_true_iff, !Nat.eqb_eq. split.
      * intros [E1 E2]. pose proof (Nat.div_mod k (2 * h) ltac:(lia)). pose proof (Nat.mod_upper_bound k (2 * h) ltac:(lia)).
        rewrite E1 in *. pose proof (Nat.div_mod (k mod h) 4 ltac:(lia)). pose proof (Nat.mod_upper_bound (k mod h) 4 ltac:(lia)).
        rewrite E2 in *. exists ((k mod h) mod 4)%nat. split; [lia|]. rewrite orb_true_iff, !Nat.eqb_eq.
        destruct (Nat.lt_ge_cases (k mod (2 * h)) h).
        -- assert (k mod h = k mod (2 * h))%nat by (symmetry; apply (Nat.mod_unique _ _ (2 * i)); lia). lia.
        -- assert (k mod h = k mod (2 * h) - h)%nat by (symmetry; apply (Nat.mod_unique _ _ (2 * i + 1)); lia). lia.
      * intros (c & Hc & HU). apply orb_true_iff in HU. rewrite !Nat.eqb_eq in HU.
        pose proof (Hpair b c ltac:(lia) ltac:(lia)) as [P1 P2]. pose proof (Hpair' b c ltac:(lia) ltac:(lia)) as [P3 P4].
        destruct HU as [->| ->]; (split; [lia|]).
        -- replace ((2 * h * i + (4 * b + c)) mod h)%nat with (4 * b + c)%nat by (apply (Nat.mod_unique _ _ (2 * i)); lia).
           symmetry; apply (Nat.div_unique _ _ _ c); lia.
        -- replace ((2 * h * i + (4 * b + c) + h) mod h)%nat with (4 * b + c)%nat by (apply (Nat.mod_unique _ _ (2 * i + 1)); lia).
           symmetry; apply (Nat.div_unique _ _ _ c); lia.
  - intros b Hb. apply T_local; [exact Hh|exact HMh| |]; intros k Hk HU Hm; apply andb_true_iff in HU;
      rewrite !Nat.eqb_eq in HU; apply andb_true_iff; rewrite !Nat.eqb_eq; destruct HU as [E1 E2];
      pose proof (Nat.div_mod k (2 * h) ltac:(lia)); pose proof (Nat.mod_upper_bound k (2 * h) ltac:(lia)).
    + split; [symmetry; apply (Nat.div_unique _ _ _ (k mod (2 * h) + h)); lia|].
      rewrite <- E2. f_equal. replace (k + h)%nat with (k + 1 * h)%nat by lia. apply Nat.mod_add. lia.
    + split; [symmetry; apply (Nat.div_unique _ _ _ (k mod (2 * h) - h)); lia|].
      rewrite <- E2. f_equal. replace k with (k - h + 1 * h)%nat at 2 by lia. now rewrite Nat.mod_add by lia.
  - intros b b' k _ _ _ H1 H2. apply andb_true_iff in H1, H2. rewrite !Nat.eqb_eq in H1, H2. lia.
  - intros k Hk. rewrite Nat.eqb_eq. split.
    + intros E. exists ((k mod h) / 4)%nat. rewrite andb_true_iff, !Nat.eqb_eq. split; [|split; [exact E|reflexivity]].
      pose proof (Nat.mod_upper_bound k h ltac:(lia)). split; [apply Nat.le_0_l|]. rewrite Nat.add_0_l. apply Nat.div_lt_upper_bound; lia.
    + intros (b & _ & H). apply andb_true_iff in H. rewrite !Nat.eqb_eq in H. tauto.
Qed.

Lemma level_acts bf h m tw off : (0 < h)%nat -> (h mod 4 = 0)%nat -> (2 * h * m = M)%nat ->
  acts (T bf h (fun i => nth (off + i) tw (c0 A))) (fun _ => true) (level A bf tw off m (2 * h)).
Proof.
  intros Hh H4 Hm. unfold level.
  assert (HMh : (M mod (2 * h) = 0)%nat) by (rewrite <- Hm, Nat.mul_comm; apply Nat.mod_mul; lia).
  apply (acts_loop _ _ _ _ (fun i k => Nat.eqb (k / (2 * h)) i)).
  - intros i Hi. apply node_acts; [exact Hh|exact H4|exact HMh|nia|reflexivity].
  - intros i Hi. apply T_local; [exact Hh|exact HMh| |]; intros k Hk HU Hmm; rewrite Nat.eqb_eq in *;
    pose proof (Nat.div_mod k (2 * h) ltac:(lia)); pose proof (Nat.mod_upper_bound k (2 * h) ltac:(lia)); rewrite <- HU; symmetry.
    + apply (Nat.div_unique _ _ _ (k mod (2 * h) + h)); lia.
    + apply (Nat.div_unique _ _ _ (k mod (2 * h) - h)); lia.
  - intros i j k _ _ _ H1 H2. rewrite Nat.eqb_eq in H1, H2. lia.
  - intros k Hk. split; [|reflexivity]. intros _. exists (k / (2 * h))%nat. rewrite Nat.eqb_refl. split; [|reflexivity].
    split; [apply Nat.le_0_l|]. rewrite Nat.add_0_l. apply Nat.div_lt_upper_bound; lia.
Qed.

Lemma half2_acts bf W : (M mod 4 = 0)%nat ->
  acts (T bf 2 W) (fun _ => true) (forN 0 (M / 4) (fun b v => half2 A bf (W b) (8 * b) v)).
Proof.
  intros HM4. pose proof (Nat.div_mod M 4 ltac:(lia)) as EM.
  apply (acts_loop _ _ _ _ (fun b k => Nat.eqb (k / 4) b)).
  - intros b Hb v Hv. unfold half2.
    pose proof (bfly_acts bf 2 W (4 * b + 0) (W b) ltac:(lia)) as H1.
    assert (E1 : ((4 * b + 0) mod (2 * 2) = 0)%nat) by (symmetry; apply (Nat.mod_unique _ _ b); lia).
    assert (E2 : ((4 * b + 0) / (2 * 2) = b)%nat) by (symmetry; apply (Nat.div_unique _ _ _ 0); lia).
    specialize (H1 ltac:(lia) ltac:(lia) ltac:(congruence)).
    pose proof (bfly_acts bf 2 W (4 * b + 1) (W b) ltac:(lia)) as H2.
    assert (E3 : ((4 * b + 1) mod (2 * 2) = 1)%nat) by (symmetry; apply (Nat.mod_unique _ _ b); lia).
    assert (E4 : ((4 * b + 1) / (2 * 2) = b)%nat) by (symmetry; apply (Nat.div_unique _ _ _ 1); lia).
    specialize (H2 ltac:(lia) ltac:(lia) ltac:(congruence)).
    replace (4 * b + 0 + 2)%nat with (4 * b + 2)%nat in H1 by lia. replace (4 * b + 1 + 2)%nat with (4 * b + 3)%nat in H2 by lia.
    rewrite !L_block in H1, H2 by lia.
    replace (8 * b + 0 + 4)%nat with (8 * b + 4)%nat in H1 by lia. replace (8 * b + 2 + 4)%nat with (8 * b + 6)%nat in H1 by lia.
    replace (8 * b + 1 + 4)%nat with (8 * b + 5)%nat in H2 by lia. replace (8 * b + 3 + 4)%nat with (8 * b + 7)%nat in H2 by lia.
    destruct (H1 v Hv) as [L1 F1]. destruct (H2 _ L1) as [L2 F2]. split; [exact L2|].
    intros k Hk. rewrite F2 by exact Hk.
    assert (Hd : (k / 4 = b <-> 4 * b <= k < 4 * b + 4)%nat).
    { split; [intros <-; pose proof (Nat.div_mod k 4 ltac:(lia)); pose proof (Nat.mod_upper_bound k 4 ltac:(lia)); lia|].
      intros. symmetry. apply (Nat.div_unique _ _ _ (k - 4 * b)); lia. }
    assert (HT : forall j, (j = 4 * b + 1 \/ j = 4 * b + 3)%nat ->
       T bf 2 W (cplx A (bfly A bf (W b) (8 * b + 0) (8 * b + 4) (8 * b + 2) (8 * b + 6) v)) j = T bf 2 W (cplx A v) j).
    { intros j Hj. assert (HMM : (M mod (2 * 2) = 0)%nat) by exact HM4. apply (T_local bf 2 W (fun k => Nat.eqb k (4 * b + 1) || Nat.eqb k (4 * b + 3))%bool); [lia|exact HMM| | |lia| |].
      - intros q Hq HU Hm. apply orb_true_iff in HU. rewrite !Nat.eqb_eq in HU. apply orb_true_iff; rewrite !Nat.eqb_eq.
        destruct HU as [->| ->]; [lia|]. replace ((4 * b + 3) mod (2 * 2))%nat with 3%nat in Hm by (apply (Nat.mod_unique _ _ b); lia). lia.
      - intros q Hq HU Hm. apply orb_true_iff in HU. rewrite !Nat.eqb_eq in HU. apply orb_true_iff; rewrite !Nat.eqb_eq.
        destruct HU as [->| ->]; lia.
      - destruct Hj as [->| ->]; rewrite ?Nat.eqb_refl, ?orb_true_r; reflexivity.
      - intros q Hq HU. apply orb_true_iff in HU. rewrite !Nat.eqb_eq in HU. rewrite F1 by lia.
        destruct (Nat.eqb_spec q (4 * b + 0)); [lia|]. destruct (Nat.eqb_spec q (4 * b + 2)); [lia|]. reflexivity. }
    destruct (Nat.eqb_spec k (4 * b + 1)); [cbn [orb]; destruct (Nat.eqb_spec (k / 4) b); [apply HT; lia|lia]|].
    destruct (Nat.eqb_spec k (4 * b + 3)); [cbn [orb]; destruct (Nat.eqb_spec (k / 4) b); [apply HT; lia|lia]|].
    cbn [orb]. rewrite F1 by exact Hk.
    destruct (Nat.eqb_spec k (4 * b + 0)); [cbn [orb]; destruct (Nat.eqb_spec (k / 4) b); [reflexivity|lia]|].
    destruct (Nat.eqb_spec k (4 * b + 2)); [cbn [orb]; destruct (Nat.eqb_spec (k / 4) b); [reflexivity|lia]|].
    cbn [orb]. destruct (Nat.eqb_spec (k / 4) b); [lia|reflexivity].
  - intros i Hi. apply T_local; [lia|exact HM4| |]; intros k Hk HU Hmm; rewrite Nat.eqb_eq in *;
    change (2 * 2)%nat with 4%nat in *;
    pose proof (Nat.div_mod k 4 ltac:(lia)); pose proof (Nat.mod_upper_bound k 4 ltac:(lia)); rewrite <- HU; symmetry.
    + apply (Nat.div_unique _ _ _ (k mod 4 + 2)); lia.
    + apply (Nat.div_unique _ _ _ (k mod 4 - 2)); lia.
  - intros i j k _ _ _ H1 H2. rewrite Nat.eqb_eq in H1, H2. lia.
  - intros k Hk. split; [|reflexivity]. intros _. exists (k / 4)%nat. rewrite Nat.eqb_refl. split; [|reflexivity].
    split; [apply Nat.le_0_l|]. rewrite Nat.add_0_l. apply Nat.div_lt_upper_bound; lia.
Qed.

Lemma half1_acts bf W : (M mod 4 = 0)%nat ->
  acts (T bf 1 W) (fun _ => true) (forN 0 (M / 4) (fun b v => half1 A bf (W (2 * b)%nat) (W (2 * b + 1)%nat) (8 * b) v)).
Proof.
  intros HM4. pose proof (Nat.div_mod M 4 ltac:(lia)) as EM.
  assert (HMM : (M mod (2 * 1) = 0)%nat).
  { rewrite EM, HM4. replace (4 * (M / 4) + 0)%nat with (2 * (M / 4) * (2 * 1))%nat by lia. apply Nat.mod_mul. lia. }
  apply (acts_loop _ _ _ _ (fun b k => Nat.eqb (k / 4) b)).
  - intros b Hb v Hv. unfold half1.
    pose proof (bfly_acts bf 1 W (4 * b + 0) (W (2 * b)%nat) ltac:(lia)) as H1.
    assert (E1 : ((4 * b + 0) mod (2 * 1) = 0)%nat) by (symmetry; apply (Nat.mod_unique _ _ (2 * b)); lia).
    assert (E2 : ((4 * b + 0) / (2 * 1) = 2 * b)%nat) by (symmetry; apply (Nat.div_unique _ _ _ 0); lia).
    specialize (H1 ltac:(lia) ltac:(lia) ltac:(congruence)).
    pose proof (bfly_acts bf 1 W (4 * b + 2) (W (2 * b + 1)%nat) ltac:(lia)) as H2.
    assert (E3 : ((4 * b + 2) mod (2 * 1) = 0)%nat) by (symmetry; apply (Nat.mod_unique _ _ (2 * b + 1)); lia).
    assert (E4 : ((4 * b + 2) / (2 * 1) = 2 * b + 1)%nat) by (symmetry; apply (Nat.div_unique _ _ _ 0); lia).
    specialize (H2 ltac:(lia) ltac:(lia) ltac:(congruence)).
    replace (4 * b + 0 + 1)%nat with (4 * b + 1)%nat in H1 by lia. replace (4 * b + 2 + 1)%nat with (4 * b + 3)%nat in H2 by lia.
    rewrite !L_block in H1, H2 by lia.
    replace (8 * b + 0 + 4)%nat with (8 * b + 4)%nat in H1 by lia. replace (8 * b + 1 + 4)%nat with (8 * b + 5)%nat in H1 by lia.
    replace (8 * b + 2 + 4)%nat with (8 * b + 6)%nat in H2 by lia. replace (8 * b + 3 + 4)%nat with (8 * b + 7)%nat in H2 by lia.
    destruct (H1 v Hv) as [L1 F1]. destruct (H2 _ L1) as [L2 F2]. split; [exact L2|].
    intros k Hk. rewrite F2 by exact Hk.
    assert (Hd : (k / 4 = b <-> 4 * b <= k < 4 * b + 4)%nat).
    { split; [intros <-; pose proof (Nat.div_mod k 4 ltac:(lia)); pose proof (Nat.mod_upper_bound k 4 ltac:(lia)); lia|].
      intros. symmetry. apply (Nat.div_unique _ _ _ (k - 4 * b)); lia. }
    assert (HT : forall j, (j = 4 * b + 2 \/ j = 4 * b + 3)%nat ->
       T bf 1 W (cplx A (bfly A bf (W (2 * b)%nat) (8 * b + 0) (8 * b + 4) (8 * b + 1) (8 * b + 5) v)) j = T bf 1 W (cplx A v) j).
    { intros j Hj. apply (T_local bf 1 W (fun k => Nat.eqb k (4 * b + 2) || Nat.eqb k (4 * b + 3))%bool); [lia|exact HMM| | |lia| |].
      - intros q Hq HU Hm. apply orb_true_iff in HU. rewrite !Nat.eqb_eq in HU. apply orb_true_iff; rewrite !Nat.eqb_eq.
        destruct HU as [->| ->]; [lia|]. replace ((4 * b + 3) mod (2 * 1))%nat with 1%nat in Hm by (apply (Nat.mod_unique _ _ (2 * b + 1)); lia). lia.
      - intros q Hq HU Hm. apply orb_true_iff in HU. rewrite !Nat.eqb_eq in HU. apply orb_true_iff; rewrite !Nat.eqb_eq.
        destruct HU as [->| ->]; lia.
      - destruct Hj as [->| ->]; rewrite ?Nat.eqb_refl, ?orb_true_r; reflexivity.
      - intros q Hq HU. apply orb_true_iff in HU. rewrite !Nat.eqb_eq in HU. rewrite F1 by lia.
        destruct (Nat.eqb_spec q (4 * b + 0)); [lia|]. destruct (Nat.eqb_spec q (4 * b + 1)); [lia|]. reflexivity. }
    destruct (Nat.eqb_spec k (4 * b + 2)); [cbn [orb]; destruct (Nat.eqb_spec (k / 4) b); [apply HT; lia|lia]|].
    destruct (Nat.eqb_spec k (4 * b + 3)); [cbn [orb]; destruct (Nat.eqb_spec (k / 4) b); [apply HT; lia|lia]|].
    cbn [orb]. rewrite F1 by exact Hk.
    destruct (Nat.eqb_spec k (4 * b + 0)); [cbn [orb]; destruct (Nat.eqb_spec (k / 4) b); [reflexivity|lia]|].
    destruct (Nat.eqb_spec k (4 * b + 1)); [cbn [orb]; destruct (Nat.eqb_spec (k / 4) b); [reflexivity|lia]|].
    cbn [orb]. destruct (Nat.eqb_spec (k / 4) b); [lia|reflexivity].
  - intros i Hi. apply T_local; [lia|exact HMM| |]; intros k Hk HU Hmm; rewrite Nat.eqb_eq in *;
    change (2 * 1)%nat with 2%nat in *;
    pose proof (Nat.div_mod k 2 ltac:(lia)); pose proof (Nat.mod_upper_bound k 2 ltac:(lia));
    pose proof (Nat.div_mod k 4 ltac:(lia)); pose proof (Nat.mod_upper_bound k 4 ltac:(lia)); rewrite <- HU; symmetry.
    + apply (Nat.div_unique _ _ _ (k mod 4 + 1)); lia.
    + apply (Nat.div_unique _ _ _ (k mod 4 - 1)); lia.
  - intros i j k _ _ _ H1 H2. rewrite Nat.eqb_eq in H1, H2. lia.
  - intros k Hk. split; [|reflexivity]. intros _. exists (k / 4)%nat. rewrite Nat.eqb_refl. split; [|reflexivity].
    split; [apply Nat.le_0_l|]. rewrite Nat.add_0_l. apply Nat.div_lt_upper_bound; lia.
Qed.
End Cplx.
