(** Parallel multi-key blind rotation. *)
From Verif Require Import Base NegaRing SpecNum ModelNum PfNum ModelVec SpecVec PfVec ModelPoly SpecPoly PfPoly PfPerm PfSplit ModelGadget SpecGadget PfGadget ModelParams ModelEncoder PfEncoder ModelLWE SpecLWE PfLWE PfLWE2 PfKS PfKS2 ModelGLWE SpecGLWE PfGLWE PfGLWE2 PfGLWE3 PfGLWE4 ModelBoot SpecBoot PfBoot PfBoot2 PfBoot4 PfBoot5 ModelPub SpecPub PfPub PfPub2 ModelMK SpecMK PfMK PfMK2 PfMK3 PfMK4 PfMK5 PfMK6 ModelConc SpecConc PfConc.

(* ------------------------------------------------------------------ *)
(** ** Reasoning about programs running alone *)
Section Solo.
Variables (L V : Type) (leq : forall a b : L, {a = b} + {a <> b}).

Lemma solo_bind {A B} (p : prog L V A) (f : A -> prog L V B) : forall m, solo leq (bind p f) m = solo leq (f (fst (solo leq p m))) (snd (solo leq p m)).
Proof. induction p as [a|l k IH|l v k IH]; intros m; cbn [bind solo fst snd]; [reflexivity|apply IH|apply IH]. Qed.
Lemma fp_bind {A B} R W (p : prog L V A) (f : A -> prog L V B) : fp R W p -> (forall a, fp R W (f a)) -> fp R W (bind p f).
Proof. induction p as [a|l k IH|l v k IH]; cbn [bind fp]; intros H Hf; [apply Hf| |]; (split; [apply H|]); [intros v|]; apply IH; try assumption; apply H. Qed.
Lemma fp_seqFrom R W n (f : nat -> prog L V unit) : forall lo, (forall i, (lo <= i < lo + n)%nat -> fp R W (f i)) -> fp R W (seqFrom lo n f).
Proof. induction n as [|n IH]; intros lo H; cbn [seqFrom]; [exact I|]. apply fp_bind; [apply H; lia|]. intros _. apply IH. intros i Hi. apply H. lia. Qed.
Lemma fp_rdFrom {A} R W n (f : nat -> prog L V A) : forall lo, (forall i, (lo <= i < lo + n)%nat -> fp R W (f i)) -> fp R W (rdFrom lo n f).
Proof. induction n as [|n IH]; intros lo H; cbn [rdFrom]; [exact I|]. apply fp_bind; [apply H; lia|]. intros a. apply fp_bind; [apply IH; intros i Hi; apply H; lia|]. intros r. exact I. Qed.

Lemma solo_rdFrom {A} n (f : nat -> prog L V A) g m : forall lo, (forall i, (lo <= i < lo + n)%nat -> solo leq (f i) m = (g i, m)) -> solo leq (rdFrom lo n f) m = (map g (seq lo n), m).
Proof.
  induction n as [|n IH]; intros lo H; cbn [rdFrom seq map]; [reflexivity|]. rewrite solo_bind, H by lia. cbn [fst snd]. rewrite solo_bind, IH by (intros i Hi; apply H; lia). reflexivity.
Qed.
Lemma tab_map {A} n (g : nat -> A) : tab n g = map g (seq 0 n).
Proof. reflexivity. Qed.
Lemma solo_rdList {A} n (f : nat -> prog L V A) g m : (forall i, (i < n)%nat -> solo leq (f i) m = (g i, m)) -> solo leq (rdList n f) m = (tab n g, m).
Proof. intros H. unfold rdList. rewrite tab_map. apply solo_rdFrom. intros i Hi. apply H. lia. Qed.
Lemma solo_rdVec n (f : nat -> L) (m : mem L V) : solo leq (rdVec f n) m = (tab n (fun t => m (f t)), m).
Proof. apply solo_rdList. reflexivity. Qed.
Lemma solo_rdMat r n (f : nat -> nat -> L) (m : mem L V) : solo leq (rdMat f r n) m = (tab r (fun c => tab n (fun t => m (f c t))), m).
Proof. apply solo_rdList. intros i _. apply solo_rdVec. Qed.
(** Loops of writes by an invariant. *)
Lemma solo_seqFrom (J : nat -> mem L V -> Prop) n (f : nat -> prog L V unit) : forall lo m, J lo m -> (forall i m, (lo <= i < lo + n)%nat -> J i m -> J (S i) (snd (solo leq (f i) m))) -> J (lo + n)%nat (snd (solo leq (seqFrom lo n f) m)).
Proof.
  induction n as [|n IH]; intros lo m H0 Hs; cbn [seqFrom]; [now rewrite Nat.add_0_r|]. rewrite solo_bind. replace (lo + S n)%nat with (S lo + n)%nat by lia. apply IH.
  - destruct (fst (solo leq (f lo) m)). apply Hs; [lia|exact H0].
  - intros i m' Hi. apply Hs. lia.
Qed.
Lemma solo_seqN (J : nat -> mem L V -> Prop) n (f : nat -> prog L V unit) m : J O m -> (forall i m, (i < n)%nat -> J i m -> J (S i) (snd (solo leq (f i) m))) -> J n (snd (solo leq (seqN n f) m)).
Proof. intros H0 Hs. apply (solo_seqFrom J n f 0 m H0). intros i m' Hi. apply Hs. lia. Qed.
End Solo.

Section Wr.
Variables (L : Type) (leq : forall a b : L, {a = b} + {a <> b}).
(** A vector write sets its cells and no others. *)
Lemma solo_wrVec (f : nat -> L) n v m : (forall a b, f a = f b -> a = b) ->
  let m' := snd (solo leq (wrVec f n v) m) in (forall t, (t < n)%nat -> m' (f t) = nthZ v t) /\ (forall l, (forall t, (t < n)%nat -> l <> f t) -> m' l = m l).
Proof.
  intros Hf m'. pose proof (solo_seqN L Z leq (fun q mm => (forall t, (t < q)%nat -> mm (f t) = nthZ v t) /\ (forall l, (forall t, (t < q)%nat -> l <> f t) -> mm l = m l)) n (fun t => wr1 (f t) (nthZ v t)) m) as H.
  apply H; clear H m'.
  - split; [intros; lia|reflexivity].
  - intros i mm Hi (A & B). cbn [wr1 solo snd]. split.
    + intros t Ht. unfold mset. destruct (leq (f t) (f i)) as [E|E]; [apply Hf in E; now subst|]. apply A. assert (t <> i) by congruence. lia.
    + intros l Hl. unfold mset. destruct (leq l (f i)) as [->|]; [exfalso; apply (Hl i); [lia|reflexivity]|]. apply B. intros t Ht. apply Hl. lia.
Qed.
Lemma solo_wrMat (f : nat -> nat -> L) r n v m : (forall a b c d, f a b = f c d -> a = c /\ b = d) ->
  let m' := snd (solo leq (wrMat f r n v) m) in (forall c t, (c < r)%nat -> (t < n)%nat -> m' (f c t) = nthZ (nth c v []) t) /\ (forall l, (forall c t, (c < r)%nat -> (t < n)%nat -> l <> f c t) -> m' l = m l).
Proof.
  intros Hf m'.
  pose proof (solo_seqN L Z leq (fun q mm => (forall c t, (c < q)%nat -> (t < n)%nat -> mm (f c t) = nthZ (nth c v []) t) /\ (forall l, (forall c t, (c < q)%nat -> (t < n)%nat -> l <> f c t) -> mm l = m l)) r (fun c => wrVec (f c) n (nth c v [])) m) as H.
  apply H; clear H m'.
  - split; [intros; lia|reflexivity].
  - intros i mm Hi (A & B). destruct (solo_wrVec (f i) n (nth i v []) mm) as (X & Y); [intros a b E; now apply Hf in E|]. split.
    + intros c t Hc Ht. destruct (Nat.eq_dec c i) as [->|Hne]; [now apply X|]. rewrite Y; [apply A; lia|]. intros t' _ E. apply Hf in E. lia.
    + intros l Hl. rewrite Y; [apply B; intros c t Hc Ht; apply Hl; lia|]. intros t Ht. apply Hl; lia.
Qed.
Lemma solo_cpVec (dst src : nat -> L) n (m : mem L Z) : (forall a b, dst a = dst b -> a = b) -> (forall a b, dst a <> src b) ->
  let m' := snd (solo leq (cpVec dst src n) m) in (forall t, (t < n)%nat -> m' (dst t) = m (src t)) /\ (forall l, (forall t, (t < n)%nat -> l <> dst t) -> m' l = m l).
Proof.
  intros Hf Hd m'. pose proof (solo_seqN L Z leq (fun q mm => (forall t, (t < q)%nat -> mm (dst t) = m (src t)) /\ (forall l, (forall t, (t < q)%nat -> l <> dst t) -> mm l = m l)) n (fun t => Rd (src t) (fun v : Z => wr1 (dst t) v)) m) as H.
  apply H; clear H m'.
  - split; [intros; lia|reflexivity].
  - intros i mm Hi (A & B). cbn [wr1 solo snd]. split.
    + intros t Ht. unfold mset. destruct (leq (dst t) (dst i)) as [E|E]; [apply Hf in E; subst; apply B; intros t' _ E'; now apply (Hd t' i)|]. apply A. assert (t <> i) by congruence. lia.
    + intros l Hl. unfold mset. destruct (leq l (dst i)) as [->|]; [exfalso; apply (Hl i); [lia|reflexivity]|]. apply B. intros t Ht. apply Hl. lia.
Qed.
End Wr.

(* ------------------------------------------------------------------ *)
(** ** The goroutines *)
Lemma own_separate n : separate n (fun _ => sharedC) ownC.
Proof. intros i j l _ _ Hij H. destruct l; cbn in *; try contradiction; (split; [tauto|congruence]). Qed.

Section W.
Variable w : Z.
Hypothesis Hw : 0 < w.
Notation Q := (2 ^ w).
Variable N : nat.
Hypothesis HN : (0 < N)%nat.
Variables (P n : nat) (pa pr pBR pKS : gadget) (bm : list bool) (keys : list (list Z)) (eks : list evalKey) (bs bc : nat) (Ebr Ek Eks : Z).
Hypothesis HK : mk_keys w N P n pa pr pBR pKS bm keys (map ek_brk eks) (map ek_ksk eks) (map ek_crs eks) (map ek_u0 eks) (map ek_u1 eks) bs bc Ebr Ek Eks.
Variable ms : Z -> Z.
Hypothesis Hms0 : ms 0 = 0.

(** The accumulator does not depend on what was in it. *)
Lemma rotInit_old lut0 d a b : gshape N 1 a -> gshape N 1 b -> wpoly w N lut0 -> rotInit w N 1 lut0 d a = rotInit w N 1 lut0 d b.
Proof.
  intros (La & Ha) (Lb & Hb) Wl. pose proof (mk_rank _ _ _ _ _ _ _ _ _ _ _ _ _ _ _ _ _ _ _ _ HK) as (n0 & Hn0 & HNn).
  destruct a as [|a0 [|a1 [|]]]; cbn in La; try lia. destruct b as [|b0 [|b1 [|]]]; cbn in Lb; try lia.
  pose proof (Ha O ltac:(lia)) as A0. pose proof (Ha 1%nat ltac:(lia)) as A1. pose proof (Hb O ltac:(lia)) as B0. pose proof (Hb 1%nat ltac:(lia)) as B1. cbn [nth] in *.
  unfold rotInit. cbn [upd forN nth]. rewrite A1, B1. f_equal.
  destruct (MonomialMulPolyTo_spec N HN w n0 a0 lut0 d Hn0 ltac:(lia) HNn A0 Wl) as (X1 & X2). destruct (MonomialMulPolyTo_spec N HN w n0 b0 lut0 d Hn0 ltac:(lia) HNn B0 Wl) as (Y1 & Y2).
  apply (pol_inj N HN w); [exact X1|exact Y1|]. rewrite X2, Y2. reflexivity.
Qed.
Lemma lut_word j : (j < g_level pa)%nat -> wpoly w N (nth 0 (gadgetLUT w N pa j) []).
Proof.
  intros Hj. destruct (mk_gadgets _ _ _ _ _ _ _ _ _ _ _ _ _ _ _ _ _ _ _ _ HK) as (Hoka & _). pose proof (BaseQ_spec w pa Hoka j Hj) as EB.
  cbn [gadgetLUT nth]. split; [now rewrite upd_length, repeat_length|]. apply Forall_nthZ. rewrite upd_length, repeat_length. intros t Ht. rewrite nthZ_upd by (rewrite repeat_length; lia).
  destruct (Nat.eqb_spec t 0); [|rewrite nthZ_repeat0; split; [lia|apply pow2_pos; lia]]. rewrite EB. destruct Hoka as (O1 & _ & O3 & _ & _ & O6). split; [apply Z.pow_nonneg; lia|]. apply Z.pow_lt_mono_r; nia.
Qed.
Notation BR i acc0 acc c j := (BlindRotateTo w N 1 1 ms pBR (ek_brk (nth i eks noKey)) bs bc n acc0 acc c (gadgetLUT w N pa j)).
Lemma BR_old i acc0 a b c j : (j < g_level pa)%nat -> gshape N 1 a -> gshape N 1 b -> BR i acc0 a c j = BR i acc0 b c j.
Proof.
  intros Hj Ha Hb. unfold BlindRotateTo. rewrite Nat.mul_1_l, Nat.ltb_irrefl. destruct (Nat.ltb 1 bs).
  - unfold blindRotateBlockTo. rewrite (rotInit_old _ _ a b Ha Hb (lut_word j Hj)). reflexivity.
  - unfold blindRotateOriginalTo. rewrite (rotInit_old _ _ a b Ha Hb (lut_word j Hj)). reflexivity.
Qed.
Lemma BR_shape i acc0 a c j : nth i bm false = true -> (j < g_level pa)%nat -> gshape N 1 a -> gshape N 1 (BR i acc0 a c j).
Proof.
  intros Hi Hj Hacc. pose proof (active_lt w N HN P n pa pr pBR pKS bm keys eks bs bc Ebr Ek Eks HK i Hi) as HiP. pose proof (lut_word j Hj) as Wl.
  pose proof (small_len w N HN P n pa pr pBR pKS bm keys eks bs bc Ebr Ek Eks HK i HiP) as Ls.
  pose proof (key_bound w N HN P n pa pr pBR pKS bm keys eks bs bc Ebr Ek Eks HK i Hi) as Hkb.
  destruct HK as [(n0 & Hn0 & HNn) (Lbm & (Lk & Hk) & Hn) (Hoka & Hokr & HokB & HokK) (Hbs & Hbc & Hlen) (B1 & B2 & B3) Hbin Hbrk _ _].
  destruct (Hbin i Hi) as (_ & Hblk). destruct (Hbrk i Hi) as (e0 & He1 & He2). rewrite (ek_nth eks ek_brk i eq_refl) in He1.
  set (s := firstn n (nth i keys [])) in *.
  assert (forall q, (q < 1)%nat -> pbound 1 (pol N (nth q [nth i keys []] []))) as Hskb by (intros q Hq; assert (q = O) as -> by lia; exact Hkb).
  rewrite <- Ls in He2. match goal with |- gshape N 1 ?r => assert (glwe_ct w N 1 r) as (X & Y) end.
  { unfold BlindRotateTo. rewrite Nat.mul_1_l, Nat.ltb_irrefl. destruct (Nat.ltb_spec 1 bs) as [C2|C2].
    - apply (blindRotateBlock_spec w Hw N HN n0 Hn0 HNn 1 [nth i keys []] Hskb pBR HokB ms s _ e0 Ebr He1 B1 He2 bs bc); try assumption. now rewrite Ls.
    - assert (bs = 1%nat) as Eb by lia.
      pose proof (blindRotateOriginal_spec w Hw N HN n0 Hn0 HNn 1 [nth i keys []] Hskb pBR HokB ms s (ek_brk (nth i eks noKey)) e0 Ebr a c (nth 0 (gadgetLUT w N pa j) []) He1 B1 He2 (proj1 Hblk) ltac:(lia) Hacc Wl) as X.
      cbv zeta in X. rewrite Ls in X. apply X. }
  split; [exact X|]. intros q Hq. apply (Y q Hq).
Qed.

(** What party i's accumulators end up with. *)
Definition accsOf (i : nat) (acc0 accb : list (list Z)) (ct : list Z) : list (list (list Z)) :=
  tab (g_level pa) (fun j => map (fwdFFT w) (BR i acc0 accb (0 :: partyMask n i ct) j)).
Lemma partyAccs_eq i rin acc0 accb faccb ct : nth i bm false = true -> length ct = S (P * n) -> length rin = S n -> gshape N 1 accb ->
  length faccb = g_level pa -> (forall j, (j < g_level pa)%nat -> gshape N 1 (nth j faccb [])) ->
  partyAccs w N ms pa pBR (ek_brk (nth i eks noKey)) bs bc n i rin acc0 accb faccb ct = accsOf i acc0 accb ct.
Proof.
  intros Hi Lc Lr Hacc Lf Hf. pose proof (active_lt w N HN P n pa pr pBR pKS bm keys eks bs bc Ebr Ek Eks HK i Hi) as HiP. unfold partyAccs. rewrite (rotateIn_spec n i P rin ct HiP Lc Lr).
  pose (J := fun (q : nat) (f : list (list (list Z))) => length f = g_level pa /\ (forall j, (q <= j < g_level pa)%nat -> gshape N 1 (nth j f [])) /\
    forall j, (j < q)%nat -> nth j f [] = map (fwdFFT w) (BR i acc0 accb (0 :: partyMask n i ct) j)).
  match goal with |- ?f = _ => assert (J (g_level pa) f) as (J1 & _ & J3) end.
  { apply (forN_ind J).
    - split; [exact Lf|]. split; [intros j Hj; apply Hf; lia|]. intros j Hj; lia.
    - intros q f Hq (X1 & X2 & X3). cbn [Nat.add]. pose proof (BR_shape i acc0 accb (0 :: partyMask n i ct) q Hi Hq Hacc) as Gr.
      rewrite (FwdFFT_eq w N HN 1 (fun _ => 0) (fun _ => 0) (nth q f [])) by (apply Gr || apply (X2 q); lia).
      split; [now rewrite upd_length|]. split.
      + intros j Hj. rewrite nth_upd_other by lia. apply X2. lia.
      + intros j Hj. destruct (Nat.eq_dec j q) as [->|]; [now rewrite nth_upd_same by lia|]. rewrite nth_upd_other by lia. apply X3. lia. }
  apply (list_ext []); [unfold accsOf; rewrite tab_length; exact J1|]. intros j Hj. rewrite J1 in Hj. rewrite J3 by exact Hj. unfold accsOf. now rewrite nth_tab by exact Hj.
Qed.

Lemma tab_self (l : list Z) k : length l = k -> tab k (fun t => nthZ l t) = l.
Proof. intros L. apply (list_ext 0); [now rewrite tab_length|]. intros i Hi. rewrite tab_length in Hi. now rewrite nth_tab. Qed.
Lemma tab_selfl {A} (d : A) (l : list A) k : length l = k -> tab k (fun t => nth t l d) = l.
Proof. intros L. apply (list_ext d); [now rewrite tab_length|]. intros i Hi. rewrite tab_length in Hi. now rewrite nth_tab. Qed.
Lemma tab_ext {A} k (f g : nat -> A) : (forall i, (i < k)%nat -> f i = g i) -> tab k f = tab k g.
Proof. intros H. rewrite !tab_map. apply map_ext_in. intros i Hi. apply in_seq in Hi. apply H. lia. Qed.
Lemma mat_self (c : list (list Z)) : gshape N 1 c -> tab 2 (fun d => tab N (fun t => nthZ (nth d c []) t)) = c.
Proof. intros (L & H). rewrite (tab_ext 2 _ (fun d => nth d c [])); [now apply tab_selfl|]. intros d Hd. apply tab_self. apply H. lia. Qed.

Variable ct : list Z.
Hypothesis Lct : length ct = S (P * n).
Notation pmem := (parMem w N P n pa pBR bm eks ct).

Lemma read_brk i m : nth i bm false = true -> pmem m ->
  solo loc_dec (rdList n (fun a => rdList 2 (fun b => rdList (g_level pBR) (fun c => rdMat (LBrk i a b c) 2 N)))) m = (ek_brk (nth i eks noKey), m).
Proof.
  intros Hi (_ & _ & Hm). pose proof (active_lt w N HN P n pa pr pBR pKS bm keys eks bs bc Ebr Ek Eks HK i Hi) as HiP. pose proof (small_len w N HN P n pa pr pBR pKS bm keys eks bs bc Ebr Ek Eks HK i HiP) as Ls.
  destruct (mk_brk _ _ _ _ _ _ _ _ _ _ _ _ _ _ _ _ _ _ _ _ HK i Hi) as (e0 & (He0 & He1) & _). rewrite (ek_nth eks ek_brk i eq_refl) in He0, He1. rewrite Ls in He0, He1.
  set (brk := ek_brk (nth i eks noKey)) in *.
  rewrite (solo_rdList _ _ loc_dec n _ (fun a => tab 2 (fun b => tab (g_level pBR) (fun c => tab 2 (fun d => tab N (fun t => m (LBrk i a b c d t))))))).
  2:{ intros a Ha. apply solo_rdList. intros b Hb. apply solo_rdList. intros c Hc. apply solo_rdMat. }
  f_equal. rewrite (tab_ext n _ (fun a => nth a brk [])); [now apply tab_selfl|]. intros a Ha. destruct (He1 a Ha) as (G1 & G2 & G3).
  rewrite (tab_ext 2 _ (fun b => nth b (nth a brk []) [])); [now apply tab_selfl|]. intros b Hb.
  assert (length (nth b (nth a brk []) []) = g_level pBR /\ forall c, (c < g_level pBR)%nat -> gshape N 1 (nth c (nth b (nth a brk []) []) [])) as (G4 & G5).
  { destruct b as [|[|]]; [| |lia]. - split; [apply G2|]. intros c Hc. apply (proj2 G2 c Hc). - specialize (G3 O ltac:(lia)). split; [apply G3|]. intros c Hc. apply (proj2 G3 c Hc). }
  rewrite (tab_ext (g_level pBR) _ (fun c => nth c (nth b (nth a brk []) []) [])); [now apply tab_selfl|]. intros c Hc.
  rewrite <- (mat_self _ (G5 c Hc)). apply tab_ext. intros d Hd. apply tab_ext. intros t Ht. now apply Hm.
Qed.

(** A goroutine of party i: stays within its cells, and alone computes party i's accumulators. *)
Definition party_prog (acc0 : list (list Z)) (i : nat) (p : prog loc Z unit) : Prop :=
  fp sharedC (ownC i) p /\ forall m, pmem m -> memAccs N pa (snd (solo loc_dec p m)) i = accsOf i acc0 (repeat (repeat 0 N) 2) ct.

Lemma fp_wrVec (R W : loc -> Prop) (f : nat -> loc) k v : (forall t, W (f t)) -> fp R W (wrVec f k v).
Proof. intros H. apply fp_seqFrom. intros i _. cbn. split; [apply H|exact I]. Qed.
Lemma fp_wrMat (R W : loc -> Prop) (f : nat -> nat -> loc) r k v : (forall c t, W (f c t)) -> fp R W (wrMat f r k v).
Proof. intros H. apply fp_seqFrom. intros i _. apply fp_wrVec. intros t. apply H. Qed.
Lemma fp_rdVec (R W : loc -> Prop) (f : nat -> loc) k : (forall t, R (f t) \/ W (f t)) -> fp R W (@rdVec loc Z f k).
Proof. intros H. apply fp_rdFrom. intros i _. cbn. split; [apply H|intros; exact I]. Qed.
Lemma fp_rdMat (R W : loc -> Prop) (f : nat -> nat -> loc) r k : (forall c t, R (f c t) \/ W (f c t)) -> fp R W (@rdMat loc Z f r k).
Proof. intros H. apply fp_rdFrom. intros i _. apply fp_rdVec. intros t. apply H. Qed.

Lemma goParty_fp acc0 i : fp sharedC (ownC i) (goParty w N ms pa pBR bs bc n acc0 i).
Proof.
  unfold goParty. apply fp_bind; [cbn; now split|]. intros _. apply fp_bind.
  { apply fp_seqFrom. intros t _. cbn. split; [now left|]. intros v. now split. }
  intros _. apply fp_seqFrom. intros j _.
  apply fp_bind; [apply fp_rdVec; intros t; right; reflexivity|]. intros c.
  apply fp_bind; [apply fp_rdVec; intros t; left; exact I|]. intros lut.
  apply fp_bind; [apply fp_rdFrom; intros a _; apply fp_rdFrom; intros b _; apply fp_rdFrom; intros d _; apply fp_rdMat; intros e t; left; exact I|]. intros brk.
  apply fp_bind; [apply fp_rdMat; intros e t; right; reflexivity|]. intros acc.
  apply fp_bind; [apply fp_wrMat; intros e t; reflexivity|]. intros _.
  apply fp_bind; [apply fp_rdMat; intros e t; right; reflexivity|]. intros f.
  apply fp_bind; [apply fp_rdMat; intros e t; right; reflexivity|]. intros a.
  apply fp_wrMat. intros e t; reflexivity.
Qed.

Lemma pmem_own i m m' : pmem m -> (forall l, ~ ownC i l -> m' l = m l) -> pmem m'.
Proof. intros (A & B & C) H. split; [|split]; intros; rewrite H by (cbn; tauto); auto. Qed.
Lemma zero2 : gshape N 1 (repeat (repeat 0 N) 2).
Proof. split; [reflexivity|]. intros i Hi. rewrite nth_repeat_lt by lia. apply repeat_length. Qed.
Lemma fft_shape c : gshape N 1 c -> gshape N 1 (map (fwdFFT w) c).
Proof. apply gshape_fwd. Qed.
Lemma tab_gshape m (f : nat -> nat -> loc) : gshape N 1 (tab 2 (fun c => tab N (fun t => m (f c t)))).
Proof. split; [apply tab_length|]. intros i Hi. rewrite nth_tab by lia. apply tab_length. Qed.

Lemma goParty_party acc0 i : nth i bm false = true -> party_prog acc0 i (goParty w N ms pa pBR bs bc n acc0 i).
Proof.
  intros Hi. split; [apply goParty_fp|]. intros m Hm. pose proof (active_lt w N HN P n pa pr pBR pKS bm keys eks bs bc Ebr Ek Eks HK i Hi) as HiP.
  unfold goParty. rewrite solo_bind. cbn [wr1 solo fst snd]. rewrite solo_bind. set (m1 := mset loc_dec m (LRin i 0) 0).
  destruct (solo_cpVec loc loc_dec (fun t => LRin i (S t)) (fun t => LCt (1 + i * n + t)) n m1) as (C1 & C2); [intros a b E; now injection E|discriminate|].
  set (m2 := snd (solo loc_dec (cpVec (fun t => LRin i (S t)) (fun t => LCt (1 + i * n + t)) n) m1)) in *.
  set (cc := 0 :: partyMask n i ct).
  assert (forall l, ~ ownC i l -> m2 l = m l) as Hfr.
  { intros l Hl. rewrite C2 by (intros t _ ->; apply Hl; reflexivity). unfold m1. apply mset_other. intros ->. apply Hl. reflexivity. }
  assert (tab (S n) (fun t => m2 (LRin i t)) = cc) as Hrin.
  { unfold cc. apply (list_ext 0); [rewrite tab_length; cbn [length]; now rewrite (partyMask_length n i P ct HiP Lct)|]. intros t Ht. rewrite tab_length in Ht. rewrite nth_tab by exact Ht. destruct t as [|t].
    - rewrite C2 by (intros t _; discriminate). unfold m1. apply mset_same.
    - rewrite C1 by lia. unfold m1. rewrite mset_other by discriminate. cbn [nth]. change (nth t (partyMask n i ct) 0) with (nthZ (partyMask n i ct) t). rewrite partyMask_nth by lia. rewrite (proj1 Hm); [reflexivity|]. nia. }
  pose (J := fun (q : nat) (mm : mem loc Z) => (forall l, ~ ownC i l -> mm l = m l) /\ tab (S n) (fun t => mm (LRin i t)) = cc /\
    forall j, (j < q)%nat -> memMat mm (LFacc i j) 2 N = map (fwdFFT w) (BR i acc0 (repeat (repeat 0 N) 2) cc j)).
  match goal with |- memAccs N pa ?mf i = _ => assert (J (g_level pa) mf) as (_ & _ & J3) end.
  2:{ unfold memAccs, accsOf. fold cc. apply tab_ext. exact J3. }
  apply (solo_seqN loc Z loc_dec J).
  - split; [exact Hfr|]. split; [exact Hrin|]. intros j Hj. lia.
  - intros j mm Hj (X1 & X2 & X3). pose proof (pmem_own i m mm Hm X1) as Hmm.
    rewrite solo_bind, solo_rdVec. cbn [fst snd]. rewrite X2. rewrite solo_bind, solo_rdVec. cbn [fst snd].
    assert (tab N (fun t => mm (LLut j t)) = nth 0 (gadgetLUT w N pa j) []) as ->.
    { rewrite (tab_ext N _ (fun t => nthZ (nth 0 (gadgetLUT w N pa j) []) t)) by (intros t Ht; now apply Hmm). apply tab_self. apply (lut_word j Hj). }
    change [nth 0 (gadgetLUT w N pa j) []] with (gadgetLUT w N pa j).
    rewrite solo_bind, (read_brk i mm Hi Hmm). cbn [fst snd]. rewrite solo_bind, solo_rdMat. cbn [fst snd].
    rewrite (BR_old i acc0 _ (repeat (repeat 0 N) 2) cc j Hj (tab_gshape mm (LAcc i)) zero2).
    pose proof (BR_shape i acc0 (repeat (repeat 0 N) 2) cc j Hi Hj zero2) as Gr. set (r := BR i acc0 (repeat (repeat 0 N) 2) cc j) in *.
    rewrite solo_bind. destruct (solo_wrMat loc loc_dec (LAcc i) 2 N r mm) as (W1 & W2); [intros a b c d E; now injection E|].
    set (m3 := snd (solo loc_dec (wrMat (LAcc i) 2 N r) mm)) in *.
    rewrite solo_bind, solo_rdMat. cbn [fst snd]. rewrite solo_bind, solo_rdMat. cbn [fst snd].
    assert (tab 2 (fun c => tab N (fun t => m3 (LAcc i c t))) = r) as ->.
    { rewrite <- (mat_self r Gr). apply tab_ext. intros c Hc. apply tab_ext. intros t Ht. now apply W1. }
    rewrite (FwdFFT_eq w N HN 1 (fun _ => 0) (fun _ => 0) _ r) by (apply tab_length || apply Gr).
    destruct (solo_wrMat loc loc_dec (LFacc i j) 2 N (map (fwdFFT w) r) m3) as (V1 & V2); [intros a b c d E; now injection E|].
    set (m4 := snd (solo loc_dec (wrMat (LFacc i j) 2 N (map (fwdFFT w) r)) m3)) in *. split; [|split].
    + intros l Hl. rewrite V2 by (intros c t _ _ ->; apply Hl; reflexivity). rewrite W2 by (intros c t _ _ ->; apply Hl; reflexivity). now apply X1.
    + rewrite <- X2. apply tab_ext. intros t Ht. rewrite V2 by (intros; discriminate). apply W2. intros; discriminate.
    + intros j' Hj'. unfold memMat, memVec. destruct (Nat.eq_dec j' j) as [->|Hne].
      * fold r. pose proof (fft_shape r Gr) as Gf. rewrite <- (mat_self _ Gf). apply tab_ext. intros c Hc. apply tab_ext. intros t Ht. rewrite V1 by assumption. reflexivity.
      * rewrite <- X3 by lia. unfold memMat, memVec. apply tab_ext. intros c Hc. apply tab_ext. intros t Ht. rewrite V2 by (intros; congruence). apply W2. intros; discriminate.
Qed.

(** ** All schedules *)
Variables (rins : list (list Z)) (acc0s accbs : list (list (list Z))) (faccbs : list (list (list (list Z)))) (buf rbuf ctOut : list (list Z)).
Hypothesis Hbufs : mk_bufs N P n pa bm rins accbs faccbs buf rbuf.
Variable gs : list (prog loc Z unit).
Hypothesis Lgs : length gs = P.
Hypothesis Hgs : forall i p, nth_error gs i = Some p -> if nth i bm false then party_prog (nth i acc0s []) i p else p = Ret tt.

Lemma parallel_eq lut0 m sched : pmem m ->
  (forall r, BlindRotateParallelTo w N P gs ms pa pr bm eks buf rbuf ctOut ct lut0 m sched = Some r ->
    r = MKBlindRotateTo w N P ms pa pr pBR bm eks bs bc n rins acc0s accbs faccbs buf rbuf ctOut ct lut0) /\
  ((forall i p, nth_error gs i = Some p -> (steps loc_dec p m <= turns i sched)%nat) ->
    exists r, BlindRotateParallelTo w N P gs ms pa pr bm eks buf rbuf ctOut ct lut0 m sched = Some r) /\
  ~ race (fst (runS loc_dec gs m sched)).
Proof.
  intros Hm. unfold BlindRotateParallelTo.
  assert (forall i p, nth_error gs i = Some p -> fp sharedC (ownC i) p) as Hfp.
  { intros i p E. specialize (Hgs i p E). destruct (nth i bm false); [apply Hgs|subst p; exact I]. }
  pose proof (interleave loc Z loc_dec unit gs m (fun _ => sharedC) ownC Hfp (own_separate _) sched) as H.
  destruct (runS loc_dec gs m sched) as (ps, m') eqn:Er. destruct H as (H1 & H2 & _ & H4 & H5). cbn [fst]. split; [|split; [|exact H5]].
  - intros r. destruct (forallb finished ps) eqn:Ef; [|discriminate]. intros E; injection E as <-. unfold MKBlindRotateTo.
    apply forN_ext. intros i out Hi. change (active bm i) with (nth i bm false). destruct (nth i bm false) eqn:Eb; [|reflexivity]. f_equal.
    destruct Hbufs as (Hb & _). destruct (Hb i Eb) as (Y1 & Y2 & Y3 & Y4). rewrite (partyAccs_eq i _ _ _ _ _ Eb Lct Y1 Y2 Y3 Y4).
    destruct (nth_error gs i) as [p0|] eqn:E0; [|apply nth_error_None in E0; lia].
    destruct (nth_error ps i) as [p|] eqn:Ep; [|apply nth_error_None in Ep; lia].
    rewrite forallb_forall in Ef. pose proof (Ef p (nth_error_In _ _ Ep)) as Fp. destruct p as [a| |]; try discriminate.
    destruct (H2 i a p0 Ep E0) as (_ & Ha). specialize (Hgs i p0 E0). rewrite Eb in Hgs. destruct Hgs as (_ & Hs).
    transitivity (memAccs N pa (snd (solo loc_dec p0 m)) i).
    + unfold memAccs, memMat, memVec. apply tab_ext. intros j Hj. apply tab_ext. intros c Hc. apply tab_ext. intros t Ht. apply Ha. reflexivity.
    + rewrite (Hs m Hm). unfold accsOf. apply tab_ext. intros j Hj. f_equal. apply BR_old; [exact Hj|apply zero2|exact Y2].
  - intros Ht. assert (forallb finished ps = true) as ->; [|eauto]. apply forallb_forall. intros p Hp. apply In_nth_error in Hp. destruct Hp as (i & Ep).
    assert (i < length gs)%nat as Hi by (rewrite <- H1; apply nth_error_Some; congruence). destruct (nth_error gs i) as [p0|] eqn:E0; [|apply nth_error_None in E0; lia].
    destruct (H4 i p p0 Ep E0 (Ht i p0 E0)) as (a & ->). reflexivity.
Qed.
End W.
