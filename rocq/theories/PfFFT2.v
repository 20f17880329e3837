(** Lemmas: twiddle tables, the butterfly networks, their values and their inverses. *)
From Coq Require Import Ring_theory Ring.
From Verif Require Import Base NegaRing ModelNum ModelVec ModelFFT SpecVec SpecFFT PfVec PfFFT.

Lemma bitrev_low s e i : (i < 2 ^ s)%nat -> bitrev (s + e) i = (bitrev s i * 2 ^ e)%nat.
Proof.
  revert i; induction s as [|s IH]; intros i Hi.
  - cbn [Nat.pow] in Hi. assert (i = 0)%nat as -> by lia. clear Hi. cbn [Nat.add bitrev]. induction e as [|e IHe]; [reflexivity|].
    cbn [bitrev]. change (0 mod 2)%nat with 0%nat. change (0 / 2)%nat with 0%nat. rewrite IHe. lia.
  - cbn [Nat.add bitrev]. rewrite IH.
    + rewrite Nat.pow_add_r. lia.
    + apply Nat.div_lt_upper_bound; [lia|]. cbn [Nat.pow] in Hi. lia.
Qed.
Lemma bitrev_2i s i b : (b < 2)%nat -> bitrev (S s) (2 * i + b) = (b * 2 ^ s + bitrev s i)%nat.
Proof.
  intros Hb. cbn [bitrev].
  replace ((2 * i + b) mod 2)%nat with b by (apply (Nat.mod_unique _ _ i); lia).
  replace ((2 * i + b) / 2)%nat with i by (apply (Nat.div_unique _ _ _ b); lia). reflexivity.
Qed.
Lemma forN_app_tab {X} lo n (g : nat -> X) l : forN lo n (fun i l => l ++ [g i]) l = l ++ tab n (fun i => g (lo + i)%nat).
Proof.
  induction n as [|n IH]; [cbn; now rewrite app_nil_r|]. rewrite forN_S_r, IH, tab_S, app_assoc. reflexivity.
Qed.
Lemma pow2_half n : (2 ^ S n / 2 = 2 ^ n)%nat.
Proof. cbn [Nat.pow]. symmetry. apply (Nat.div_unique _ _ _ 0); lia. Qed.
Lemma pow2_S n : (2 ^ S n = 2 * 2 ^ n)%nat.
Proof. reflexivity. Qed.
Lemma pow2_split a b c : (a + b = c)%nat -> (2 ^ c = 2 ^ a * 2 ^ b)%nat.
Proof. intros <-. apply Nat.pow_add_r. Qed.

Section Net.
Variable A : arith.
Notation F := (car A).
Notation C := (F * F)%type.
Variables (N lm : nat) (z : Z -> C).
Hypothesis Hex : exact A N z.
Hypothesis Hlm : (3 <= lm)%nat.
Hypothesis HN : N = (2 ^ S lm)%nat.
Let rth := ex_ring A N z Hex.
Add Ring Fring2 : rth.
Let crth := c_ring A rth.
Add Ring Cring2 : crth.
Notation M := (2 ^ lm)%nat.
Notation cadd := (cadd A).
Notation cmul := (cmul A).
Notation csub := (csub A).
Notation copp := (copp A).
Notation csum := (csum A).
Notation cplx := (cplx A).

Lemma NM : N = (2 * M)%nat. Proof. rewrite HN. reflexivity. Qed.
Lemma Mpos : (0 < M)%nat. Proof. apply pow2_nat_pos. Qed.
Lemma M8 : exists g, M = (8 * g)%nat /\ (0 < g)%nat /\ g = (2 ^ (lm - 3))%nat.
Proof. exists (2 ^ (lm - 3))%nat. rewrite (pow2_split 3 (lm - 3) lm) by lia. pose proof (pow2_nat_pos (lm - 3)). cbn [Nat.pow Nat.mul] in *. lia. Qed.
Lemma M4 : (M mod 4 = 0)%nat.
Proof. destruct M8 as (g & -> & _ & _). replace (8 * g)%nat with (2 * g * 4)%nat by lia. apply Nat.mod_mul. lia. Qed.
Lemma NhalfM : (N / 2 = M)%nat. Proof. rewrite HN. apply pow2_half. Qed.
Lemma Zhalf : Z.of_nat N / 2 = Z.of_nat M.
Proof. rewrite NM. symmetry. apply (Z.div_unique _ _ _ 0); lia. Qed.

(* ------------------------------------------------------------------ *)
(** ** Roots of unity *)
Lemma zM : z (Z.of_nat M) = cI A.
Proof. rewrite <- Zhalf. apply (ex_zI A N z Hex). Qed.
Lemma zN : z (Z.of_nat N) = copp (c1 A).
Proof.
  replace (Z.of_nat N) with (Z.of_nat M + Z.of_nat M) by (rewrite NM; lia). rewrite (ex_zadd A N z Hex), zM.
  unfold SpecFFT.cmul, cI, c1, PfFFT.copp. cbn [fst snd]. f_equal; ring.
Qed.
Lemma z2N : z (2 * Z.of_nat N) = c1 A.
Proof. replace (2 * Z.of_nat N) with (Z.of_nat N + Z.of_nat N) by lia. rewrite (ex_zadd A N z Hex), zN. ring. Qed.
Lemma z_inv a : cmul (z (- a)) (z a) = c1 A.
Proof. rewrite <- (ex_zadd A N z Hex). replace (- a + a) with 0 by lia. apply (ex_z0 A N z Hex). Qed.
Lemma z_per_nat a (k : nat) : z (a + Z.of_nat k * (2 * Z.of_nat N)) = z a.
Proof.
  induction k as [|k IH]; [f_equal; lia|].
  replace (a + Z.of_nat (S k) * (2 * Z.of_nat N)) with (a + Z.of_nat k * (2 * Z.of_nat N) + 2 * Z.of_nat N) by lia.
  rewrite (ex_zadd A N z Hex), IH, z2N. ring.
Qed.
Lemma z_per a k : z (a + k * (2 * Z.of_nat N)) = z a.
Proof.
  destruct (Z_le_gt_dec 0 k).
  - rewrite <- (z_per_nat a (Z.to_nat k)). f_equal. rewrite Z2Nat.id by lia. reflexivity.
  - rewrite <- (z_per_nat (a + k * (2 * Z.of_nat N)) (Z.to_nat (- k))). f_equal. rewrite Z2Nat.id by lia. lia.
Qed.
Lemma z_eqm a b : eqm (2 * Z.of_nat N) a b -> z a = z b.
Proof. intros [k E]. rewrite <- (z_per b k). f_equal. lia. Qed.
Lemma z_odd a k : z (a + (2 * k + 1) * Z.of_nat N) = copp (z a).
Proof.
  replace (a + (2 * k + 1) * Z.of_nat N) with (a + Z.of_nat N + k * (2 * Z.of_nat N)) by lia.
  rewrite z_per, (ex_zadd A N z Hex), zN. ring.
Qed.

(* ------------------------------------------------------------------ *)
(** ** Twiddle tables *)
Definition E (s i : nat) : Z := Z.of_nat (2 ^ (lm - 1 - s)) * (1 - 4 * Z.of_nat (bitrev s i)).

Definition TWF (s : nat) (tw : list C) : Prop :=
  (length tw + 1 = 2 ^ s)%nat /\ forall s' i, (s' < s)%nat -> (i < 2 ^ s')%nat -> nth (2 ^ s' - 1 + i) tw (c0 A) = z (E s' i).
Definition TWI (s : nat) (tw : list C) : Prop :=
  (length tw + 2 ^ s = 2 ^ lm)%nat /\ forall s' i, (s <= s' < lm)%nat -> (i < 2 ^ s')%nat ->
    nth (2 ^ lm - 2 ^ S s' + i) tw (c0 A) = z (- E s' i).

Lemma fold_entry (sg : Z) (tf : list C) s i : (s < lm)%nat -> (i < 2 ^ s)%nat ->
  (forall i, (i < 2 ^ (lm - 1))%nat -> nth i tf (c0 A) = z (sg * (-4) * Z.of_nat (bitrev (lm - 1) i))) ->
  cmulG A (nth i tf (c0 A)) (acexp A (sg * Z.of_nat (2 ^ (lm - 1 - s))) (4 * Z.of_nat M)) = z (sg * E s i).
Proof.
  intros Hs Hi Htf. change cmulG with SpecFFT.cmul. rewrite Htf.
  2:{ apply (Nat.lt_le_trans _ _ _ Hi). apply Nat.pow_le_mono_r; lia. }
  rewrite (ex_exp A N z Hex _ (4 * Z.of_nat M) 1); [|pose proof Mpos; lia|rewrite NM; lia].
  rewrite <- (ex_zadd A N z Hex). f_equal. unfold E.
  replace (lm - 1)%nat with (s + (lm - 1 - s))%nat at 1 by lia. rewrite bitrev_low by exact Hi.
  rewrite Nat2Z.inj_mul. ring.
Qed.

Lemma TWF_step s tw (tf : list C) : (s < lm)%nat -> TWF s tw ->
  (forall i, (i < 2 ^ (lm - 1))%nat -> nth i tf (c0 A) = z (-4 * Z.of_nat (bitrev (lm - 1) i))) ->
  TWF (S s) (tw ++ tab (2 ^ s) (fun i => cmulG A (nth i tf (c0 A)) (acexp A (Z.of_nat (2 ^ (lm - 1 - s))) (4 * Z.of_nat M)))).
Proof.
  intros Hs [Hl Ht] Htf. pose proof (pow2_nat_pos s). split.
  - rewrite app_length, tab_length, pow2_S. lia.
  - intros s' i Hs' Hi. destruct (Nat.eq_dec s' s) as [->|].
    + rewrite app_nth2 by lia. replace (2 ^ s - 1 + i - length tw)%nat with i by lia.
      rewrite nth_tab by exact Hi.
      pose proof (fold_entry 1 tf s i Hs Hi) as HF. replace (1 * (-4)) with (-4) in HF by lia.
      rewrite !Z.mul_1_l in HF. apply HF. exact Htf.
    + rewrite app_nth1. { apply Ht; [lia|exact Hi]. }
      assert (2 ^ S s' <= 2 ^ s)%nat by (apply Nat.pow_le_mono_r; lia). rewrite pow2_S in *. lia.
Qed.

Lemma half_le s : (s < lm)%nat -> (2 ^ s <= M / 2)%nat.
Proof.
  intros Hs. replace lm with (S (lm - 1)) by lia. rewrite pow2_half. apply Nat.pow_le_mono_r; lia.
Qed.

Lemma twLoop_spec (tf : list C) :
  (forall i, (i < 2 ^ (lm - 1))%nat -> nth i tf (c0 A) = z (-4 * Z.of_nat (bitrev (lm - 1) i))) ->
  forall e s t fuel tw, (s + e = lm)%nat -> (e < fuel)%nat -> (0 < e -> t = 2 ^ (lm - 1 - s))%nat -> TWF s tw ->
  TWF lm (twLoop A fuel M (2 ^ s) t tf tw).
Proof.
  intros Htf. induction e as [|e IH]; intros s t fuel tw Hs Hf Ht HT.
  - assert (s = lm) as -> by lia. destruct fuel as [|fuel]; [lia|]. cbn [twLoop].
    destruct (Nat.leb_spec (2 ^ lm) (2 ^ lm / 2)) as [Hle|]; [|exact HT].
    pose proof Mpos. assert (M / 2 < M)%nat by (apply Nat.div_lt; lia). lia.
  - destruct fuel as [|fuel]; [lia|]. cbn [twLoop].
    destruct (Nat.leb_spec (2 ^ s) (M / 2)) as [_|Hle]; [|pose proof (half_le s ltac:(lia)); lia].
    rewrite (Ht ltac:(lia)). rewrite forN_app_tab. rewrite <- pow2_S. apply IH; try lia.
    + intros He. replace (lm - 1 - s)%nat with (S (lm - 1 - S s)) by lia. apply pow2_half.
    + apply (TWF_step s tw tf ltac:(lia) HT Htf).
Qed.

Lemma TWI_step s tw (tf : list C) : (s < lm)%nat -> TWI (S s) tw ->
  (forall i, (i < 2 ^ (lm - 1))%nat -> nth i tf (c0 A) = z (4 * Z.of_nat (bitrev (lm - 1) i))) ->
  TWI s (tw ++ tab (2 ^ s) (fun i => cmulG A (nth i tf (c0 A)) (acexp A (- Z.of_nat (2 ^ (lm - 1 - s))) (4 * Z.of_nat M)))).
Proof.
  intros Hs [Hl Ht] Htf. pose proof (pow2_nat_pos s). rewrite pow2_S in Hl. split.
  - rewrite app_length, tab_length. lia.
  - intros s' i Hs' Hi. destruct (Nat.eq_dec s' s) as [->|].
    + rewrite app_nth2 by (rewrite pow2_S; lia). rewrite pow2_S. replace (2 ^ lm - 2 * 2 ^ s + i - length tw)%nat with i by lia.
      rewrite nth_tab by exact Hi.
      pose proof (fold_entry (-1) tf s i Hs Hi) as HF. replace (-1 * (-4)) with 4 in HF by lia.
      replace (-1 * Z.of_nat (2 ^ (lm - 1 - s))) with (- Z.of_nat (2 ^ (lm - 1 - s))) in HF by lia.
      replace (-1 * E s i) with (- E s i) in HF by lia. apply HF. exact Htf.
    + rewrite app_nth1. { apply Ht; [lia|exact Hi]. }
      assert (2 ^ S s <= 2 ^ s')%nat by (apply Nat.pow_le_mono_r; lia).
      assert (2 ^ S s' <= 2 ^ lm)%nat by (apply Nat.pow_le_mono_r; lia). rewrite pow2_S in *. lia.
Qed.

Lemma twInvLoop_spec (tf : list C) :
  (forall i, (i < 2 ^ (lm - 1))%nat -> nth i tf (c0 A) = z (4 * Z.of_nat (bitrev (lm - 1) i))) ->
  forall s fuel tw, (s < lm)%nat -> (S s < fuel)%nat -> TWI (S s) tw ->
  TWI 0 (twInvLoop A fuel M (2 ^ s) (2 ^ (lm - 1 - s)) tf tw).
Proof.
  intros Htf. induction s as [|s IH]; intros fuel tw Hs Hf HT.
  - destruct fuel as [|[|fuel]]; [lia|lia|]. cbn [twInvLoop]. cbn [Nat.pow]. cbn [Nat.leb].
    change (1 / 2)%nat with 0%nat. cbn [Nat.leb]. rewrite forN_app_tab.
    pose proof (TWI_step 0 tw tf Hs HT Htf) as H1. cbn [Nat.pow] in H1. exact H1.
  - destruct fuel as [|fuel]; [lia|]. cbn [twInvLoop].
    destruct (Nat.leb_spec 1 (2 ^ S s)) as [_|Hle]; [|pose proof (pow2_nat_pos (S s)); lia].
    rewrite forN_app_tab. rewrite pow2_half. replace (2 * 2 ^ (lm - 1 - S s))%nat with (2 ^ (lm - 1 - s))%nat.
    + apply IH; try lia. apply (TWI_step (S s) tw tf Hs HT Htf).
    + replace (lm - 1 - s)%nat with (S (lm - 1 - S s)) by lia. reflexivity.
Qed.

Lemma fuel_ok : (S lm < M)%nat.
Proof.
  destruct lm as [|[|[|n]]]; [lia|lia|lia|].
  clear. induction n as [|n IH]; [cbn; lia|]. replace (2 ^ S (S (S (S n))))%nat with (2 * 2 ^ S (S (S n)))%nat by reflexivity. lia.
Qed.

Lemma genTwiddle_spec : exists tw twInv, genTwiddleFactors A M = Ok (tw, twInv) /\ TWF lm tw /\ TWI 0 twInv.
Proof.
  unfold genTwiddleFactors.
  assert (EM : (M / 2 = 2 ^ (lm - 1))%nat) by (replace lm with (S (lm - 1)) at 1 by lia; apply pow2_half).
  rewrite EM.
  destruct (BitReverseInPlace_spec (a0 A, a0 A) (lm - 1) (tab (2 ^ (lm - 1)) (fun i => acexp A (- Z.of_nat i) (Z.of_nat M))) (tab_length _ _))
    as (tf & -> & Hl & Hf).
  destruct (BitReverseInPlace_spec (a0 A, a0 A) (lm - 1) (tab (2 ^ (lm - 1)) (fun i => acexp A (Z.of_nat i) (Z.of_nat M))) (tab_length _ _))
    as (ti & -> & Hl' & Hi).
  rewrite tab_length in *.
  eexists; eexists; split; [reflexivity|]. pose proof fuel_ok as HF. split.
  - apply (twLoop_spec tf) with (e := lm) (s := 0%nat).
    + intros i H. change (c0 A) with (a0 A, a0 A). rewrite Hf by exact H. rewrite nth_tab by apply bitrev_lt.
      rewrite (ex_exp A N z Hex _ (Z.of_nat M) 4); [f_equal; lia|pose proof Mpos; lia|rewrite NM; lia].
    + reflexivity.
    + lia.
    + intros _. f_equal. lia.
    + split; [reflexivity|]. intros; lia.
  - pose proof (twInvLoop_spec ti) as HT. assert (E1 : (2 ^ (lm - 1 - (lm - 1)) = 1)%nat) by (rewrite Nat.sub_diag; reflexivity).
    specialize (fun H1 => HT H1 (lm - 1)%nat M []). rewrite E1 in HT. apply HT; clear HT.
    + intros i H. change (c0 A) with (a0 A, a0 A). rewrite Hi by exact H. rewrite nth_tab by apply bitrev_lt.
      rewrite (ex_exp A N z Hex _ (Z.of_nat M) 4); [f_equal; lia|pose proof Mpos; lia|rewrite NM; lia].
    + lia.
    + lia.
    + replace (S (lm - 1)) with lm by lia. split; [reflexivity|]. intros; lia.
Qed.

(* ------------------------------------------------------------------ *)
(** ** The networks *)
Definition WF (s i : nat) : C := z (E s i).
Definition WI (s i : nat) : C := z (- E s i).
Fixpoint fwdN (s : nat) (a : nat -> C) : nat -> C :=
  match s with O => a | S s => T A (fwdButterfly A) (2 ^ (lm - 1 - s)) (WF s) (fwdN s a) end.
Fixpoint invN (e : nat) (a : nat -> C) : nat -> C :=
  match e with O => a | S e => T A (invButterfly A) (2 ^ e) (WI (lm - 1 - e)) (invN e a) end.

Definition computes (f : list F -> list F) (G : (nat -> C) -> nat -> C) : Prop :=
  forall v, length v = N -> length (f v) = N /\ forall k, (k < M)%nat -> cplx (f v) k = G (cplx v) k.

Lemma acts_computes G f : acts A M G (fun _ => true) f -> computes f G.
Proof. intros H v Hv. rewrite NM in *. destruct (H v Hv) as [H1 H2]. split; [exact H1|]. intros k Hk. rewrite H2 by exact Hk. reflexivity. Qed.

Lemma T_ext' bf h W W' a a' k : (0 < h)%nat -> (M mod (2 * h) = 0)%nat -> (k < M)%nat ->
  (forall i, (i < M / (2 * h))%nat -> W i = W' i) -> (forall j, (j < M)%nat -> a j = a' j) -> T A bf h W a k = T A bf h W' a' k.
Proof. intros. apply (T_ext A M M4); assumption. Qed.

(** A loop computing one level with a table. *)
Lemma level_step bf h W f (G : nat -> C) (v : list F) : acts A M (T A bf h W) (fun _ => true) f ->
  (0 < h)%nat -> (M mod (2 * h) = 0)%nat -> length v = N -> forall W',
  (forall i, (i < M / (2 * h))%nat -> W i = W' i) ->
  (forall k, (k < M)%nat -> cplx v k = G k) ->
  length (f v) = N /\ forall k, (k < M)%nat -> cplx (f v) k = T A bf h W' G k.
Proof.
  intros Ha Hh Hm Hv W' HW Hc. rewrite NM in Hv |- *. destruct (Ha v Hv) as [H1 H2]. split; [exact H1|].
  intros k Hk. rewrite H2 by exact Hk. apply T_ext'; assumption.
Qed.

Lemma hdiv e : (e < lm)%nat -> (M mod (2 * 2 ^ e) = 0 /\ M / (2 * 2 ^ e) = 2 ^ (lm - 1 - e))%nat.
Proof.
  intros He. rewrite <- pow2_S. rewrite (pow2_split (lm - 1 - e) (S e) lm) by lia.
  pose proof (pow2_nat_pos (S e)). split; [apply Nat.mod_mul; lia|apply Nat.div_mul; lia].
Qed.
Lemma h4 e : (2 <= e)%nat -> (2 ^ e mod 4 = 0)%nat.
Proof. intros H. rewrite (pow2_split (e - 2) 2 e) by lia. apply Nat.mod_mul. cbn; lia. Qed.

Section Fwd.
Variable tw : list C.
Hypothesis Htw : TWF lm tw.

Lemma twF s i : (s < lm)%nat -> (i < 2 ^ s)%nat -> nth (2 ^ s - 1 + i) tw (c0 A) = WF s i.
Proof. intros. now apply Htw. Qed.

Lemma fwdMid_spec a : forall e s fuel v, (s + e = lm - 2)%nat -> (1 <= s)%nat -> (e < fuel)%nat -> length v = N ->
  (forall k, (k < M)%nat -> cplx v k = fwdN s a k) ->
  let '(v', wi) := fwdMid A fuel N (2 ^ s) (2 ^ (S lm - s)) (2 ^ s - 1) tw v in
  wi = (2 ^ (lm - 2) - 1)%nat /\ length v' = N /\ forall k, (k < M)%nat -> cplx v' k = fwdN (lm - 2) a k.
Proof.
  assert (N16 : (N / 16 = 2 ^ (lm - 3))%nat).
  { rewrite HN, (pow2_split (lm - 3) 4 (S lm)) by lia. apply Nat.div_mul. cbn; lia. }
  induction e as [|e IH]; intros s fuel v Hs H1 Hf Hv Hc; (destruct fuel as [|fuel]; [lia|]); cbn [fwdMid]; rewrite N16.
  - assert (s = lm - 2)%nat as -> by lia.
    destruct (Nat.leb_spec (2 ^ (lm - 2)) (2 ^ (lm - 3))) as [Hle|].
    + apply Nat.pow_le_mono_r_iff in Hle; lia.
    + auto.
  - destruct (Nat.leb_spec (2 ^ s) (2 ^ (lm - 3))) as [_|Hgt].
    2:{ assert (2 ^ s <= 2 ^ (lm - 3))%nat by (apply Nat.pow_le_mono_r; lia). lia. }
    replace (S lm - s)%nat with (S (lm - s)) by lia. rewrite pow2_half.
    replace (lm - s)%nat with (S lm - S s)%nat by lia.
    replace (2 ^ s - 1 + 2 ^ s)%nat with (2 ^ S s - 1)%nat by (pose proof (pow2_nat_pos s); rewrite pow2_S; lia).
    rewrite <- pow2_S.
    assert (Eh : (2 ^ (S lm - S s) = 2 * 2 ^ (lm - 1 - s))%nat) by (replace (S lm - S s)%nat with (S (lm - 1 - s)) by lia; reflexivity).
    destruct (hdiv (lm - 1 - s) ltac:(lia)) as [D1 D2]. replace (lm - 1 - (lm - 1 - s))%nat with s in D2 by lia.
    pose proof (pow2_nat_pos (lm - 1 - s)) as P1.
    destruct (level_step (fwdButterfly A) (2 ^ (lm - 1 - s)) (fun i => nth (2 ^ s - 1 + i) tw (c0 A))
       (level A (fwdButterfly A) tw (2 ^ s - 1) (2 ^ s) (2 * 2 ^ (lm - 1 - s))) (fwdN s a) v) with (W' := WF s) as [Hl' Hc'];
      [apply (level_acts A M M4); [exact P1|apply h4; lia|rewrite <- pow2_S, <- Nat.pow_add_r; f_equal; lia]|exact P1|exact D1|exact Hv| |exact Hc|].
    { intros i Hi. apply twF; [lia|]. rewrite D2 in Hi. exact Hi. }
    rewrite <- Eh in Hl', Hc'. apply (IH (S s)); [lia|lia|lia|exact Hl'|exact Hc'].
Qed.

Lemma fwdFFT_computes : computes (fun v => fwdFFTInPlace A v tw) (fwdN lm).
Proof.
  intros v Hv. unfold fwdFFTInPlace. rewrite Hv.
  destruct M8 as (g & EM & Hg & Eg).
  assert (EN8 : ((N + 7) / 8 = M / 4)%nat).
  { rewrite NM, EM. replace (8 * g / 4)%nat with (2 * g)%nat by (apply (Nat.div_unique _ _ _ 0); lia). symmetry. apply (Nat.div_unique _ _ _ 7); lia. }
  rewrite EN8, NhalfM. 
  (* first level *)
  assert (E1 : M = (2 * 2 ^ (lm - 1 - 0))%nat) by (rewrite <- pow2_S; f_equal; lia).
  assert (H1 : length (node A (fwdButterfly A) (nth 0 tw (a0 A, a0 A)) 0 M v) = N /\
     forall k, (k < M)%nat -> cplx (node A (fwdButterfly A) (nth 0 tw (a0 A, a0 A)) 0 M v) k = fwdN 1 (cplx v) k).
  { pose proof (level_acts A M M4 (fwdButterfly A) (2 ^ (lm - 1 - 0)) 1 tw 0) as HA.
    specialize (HA (pow2_nat_pos _) (h4 (lm - 1 - 0) ltac:(lia)) ltac:(lia)).
    unfold level in HA. cbn [forN] in HA.
    destruct (hdiv (lm - 1 - 0) ltac:(lia)) as [D1 D2].
    destruct (level_step _ _ _ _ (cplx v) v HA (pow2_nat_pos _) D1 Hv (WF 0)) as [Hl' Hc'].
    - intros i Hi. rewrite D2 in Hi. replace (lm - 1 - (lm - 1 - 0))%nat with 0%nat in Hi by lia.
      cbn [Nat.pow] in Hi. assert (i = 0)%nat as -> by lia. apply (twF 0 0); [lia|cbn; lia].
    - reflexivity.
    - rewrite <- E1 in Hl', Hc'. cbn [Nat.mul Nat.add] in Hl', Hc'. split; [exact Hl'|exact Hc']. }
  destruct H1 as [Hl1 Hc1]. set (v1 := node A (fwdButterfly A) (nth 0 tw (a0 A, a0 A)) 0 M v) in *. clearbody v1.
  (* middle *)
  pose proof (fwdMid_spec (cplx v) (lm - 3) 1 N v1 ltac:(lia) ltac:(lia)) as HM.
  pose proof fuel_ok as HF. specialize (HM ltac:(rewrite NM; lia) Hl1 Hc1).
  replace (S lm - 1)%nat with lm in HM by lia. change (2 ^ 1)%nat with 2%nat in HM. change (2 - 1)%nat with 1%nat in HM.
  destruct (fwdMid A N N 2 M 1 tw v1) as [v2 wi]. destruct HM as (-> & Hl2 & Hc2).
  (* last two levels *)
  assert (Eq4 : (M / 4 = 2 ^ (lm - 2))%nat).
  { rewrite (pow2_split (lm - 2) 2 lm) by lia. apply Nat.div_mul. cbn; lia. }
  pose proof (half2_acts A M M4 (fwdButterfly A) (fun b => nth (2 ^ (lm - 2) - 1 + b) tw (a0 A, a0 A)) M4) as A2.
  destruct (hdiv 1 ltac:(lia)) as [D1 D2]. change (2 ^ 1)%nat with 2%nat in D1, D2.
  destruct (level_step _ _ _ _ (fwdN (lm - 2) (cplx v)) v2 A2 ltac:(lia) D1 Hl2 (WF (lm - 2))) as [Hl3 Hc3].
  { intros i Hi. rewrite D2 in Hi. replace (lm - 1 - 1)%nat with (lm - 2)%nat in Hi by lia. apply twF; [lia|exact Hi]. }
  { exact Hc2. }
  cbv beta in Hl3, Hc3. set (v3 := forN 0 (M / 4) (fun b v => half2 A _ _ _ v) v2) in *. clearbody v3.
  assert (Hc3' : forall k, (k < M)%nat -> cplx v3 k = fwdN (S (lm - 2)) (cplx v) k).
  { intros k Hk. rewrite Hc3 by exact Hk. cbn [fwdN]. replace (lm - 1 - (lm - 2))%nat with 1%nat by lia. reflexivity. }
  pose proof (half1_acts A M M4 (fwdButterfly A) (fun b => nth (2 ^ (lm - 1) - 1 + b) tw (a0 A, a0 A)) M4) as A1.
  destruct (hdiv 0 ltac:(lia)) as [D3 D4]. change (2 ^ 0)%nat with 1%nat in D3, D4.
  destruct (level_step _ _ _ _ (fwdN (S (lm - 2)) (cplx v)) v3 A1 ltac:(lia) D3 Hl3 (WF (lm - 1))) as [Hl4 Hc4].
  { intros i Hi. rewrite D4 in Hi. replace (lm - 1 - 0)%nat with (lm - 1)%nat in Hi by lia. apply twF; [lia|exact Hi]. }
  { exact Hc3'. }
  assert (EW : (2 ^ (lm - 2) - 1 + M / 4 = 2 ^ (lm - 1) - 1)%nat).
  { rewrite Eq4. replace (lm - 1)%nat with (S (lm - 2)) by lia. rewrite pow2_S. pose proof (pow2_nat_pos (lm - 2)). lia. }
  rewrite EW.
  assert (EX : forN 0 (M / 4) (fun b v => half1 A (fwdButterfly A) (nth (2 ^ (lm - 1) - 1 + 2 * b) tw (a0 A, a0 A)) (nth (2 ^ (lm - 1) - 1 + 2 * b + 1) tw (a0 A, a0 A)) (8 * b) v) v3 =
    forN 0 (M / 4) (fun b v => half1 A (fwdButterfly A) (nth (2 ^ (lm - 1) - 1 + 2 * b) tw (a0 A, a0 A)) (nth (2 ^ (lm - 1) - 1 + (2 * b + 1)) tw (a0 A, a0 A)) (8 * b) v) v3).
  { apply forN_ext. intros. do 2 f_equal. lia. }
  rewrite EX. split; [exact Hl4|]. intros k Hk. rewrite Hc4 by exact Hk.
  assert (EE : fwdN lm (cplx v) = T A (fwdButterfly A) 1 (WF (lm - 1)) (fwdN (S (lm - 2)) (cplx v))).
  { replace (S (lm - 2)) with (lm - 1)%nat by lia. replace lm with (S (lm - 1)) at 1 by lia. cbn [fwdN]. rewrite Nat.sub_diag. reflexivity. }
  rewrite EE. reflexivity.
Qed.
End Fwd.

Section Inv.
Variable tw : list C.
Hypothesis Htw : TWI 0 tw.

Lemma twI s i : (s < lm)%nat -> (i < 2 ^ s)%nat -> nth (2 ^ lm - 2 ^ S s + i) tw (c0 A) = WI s i.
Proof. intros. apply Htw; [lia|assumption]. Qed.

Lemma invMid_spec a : forall e s fuel v, (s = e)%nat -> (s <= lm - 3)%nat -> (e < fuel)%nat -> length v = N ->
  (forall k, (k < M)%nat -> cplx v k = invN (lm - 1 - s) a k) ->
  let '(v', wi) := invMid A fuel (2 ^ s) (2 ^ (lm - s)) (2 ^ lm - 2 ^ S s) tw v in
  wi = (2 ^ lm - 2)%nat /\ length v' = N /\ forall k, (k < M)%nat -> cplx v' k = invN (lm - 1) a k.
Proof.
  induction e as [|e IH]; intros s fuel v Hs H1 Hf Hv Hc; (destruct fuel as [|fuel]; [lia|]); cbn [invMid].
  - subst s. cbn [Nat.pow Nat.leb]. rewrite Nat.sub_0_r in Hc. auto.
  - subst s. destruct (Nat.leb_spec 2 (2 ^ S e)) as [_|Hgt]; [|rewrite pow2_S in Hgt; pose proof (pow2_nat_pos e); lia].
    rewrite pow2_half.
    assert (Eh : (2 ^ (lm - S e) = 2 * 2 ^ (lm - 1 - S e))%nat) by (replace (lm - S e)%nat with (S (lm - 1 - S e)) by lia; reflexivity).
    replace (2 * 2 ^ (lm - S e))%nat with (2 ^ (lm - e))%nat by (replace (lm - e)%nat with (S (lm - S e)) by lia; reflexivity).
    assert (Hle : (2 ^ S (S e) <= 2 ^ lm)%nat) by (apply Nat.pow_le_mono_r; lia).
    replace (2 ^ lm - 2 ^ S (S e) + 2 ^ S e)%nat with (2 ^ lm - 2 ^ S e)%nat by (rewrite (pow2_S (S e)) in *; lia).
    destruct (hdiv (lm - 1 - S e) ltac:(lia)) as [D1 D2]. replace (lm - 1 - (lm - 1 - S e))%nat with (S e) in D2 by lia.
    pose proof (pow2_nat_pos (lm - 1 - S e)) as P1.
    destruct (level_step (invButterfly A) (2 ^ (lm - 1 - S e)) (fun i => nth (2 ^ lm - 2 ^ S (S e) + i) tw (c0 A))
       (level A (invButterfly A) tw (2 ^ lm - 2 ^ S (S e)) (2 ^ S e) (2 * 2 ^ (lm - 1 - S e))) (invN (lm - 1 - S e) a) v) with (W' := WI (S e)) as [Hl' Hc'];
      [apply (level_acts A M M4); [exact P1|apply h4; lia|rewrite <- pow2_S, <- Nat.pow_add_r; f_equal; lia]|exact P1|exact D1|exact Hv| |exact Hc|].
    { intros i Hi. apply twI; [lia|]. rewrite D2 in Hi. exact Hi. }
    rewrite Eh. apply (IH e fuel); [reflexivity|lia|lia|exact Hl'|].
    intros k Hk. rewrite Hc' by exact Hk.
    replace (lm - 1 - e)%nat with (S (lm - 1 - S e)) by lia. cbn [invN].
    replace (lm - 1 - (lm - 1 - S e))%nat with (S e) by lia. reflexivity.
Qed.

Lemma invFFT_computes v : length v = N -> exists v', invFFTInPlace A v tw = map (fun x => adivn A x (Z.of_nat M)) v' /\
  length v' = N /\ forall k, (k < M)%nat -> cplx v' k = invN lm (cplx v) k.
Proof.
  intros Hv. unfold invFFTInPlace. rewrite Hv.
  destruct M8 as (g & EM & Hg & Eg).
  assert (EN8 : ((N + 7) / 8 = M / 4)%nat).
  { rewrite NM, EM. replace (8 * g / 4)%nat with (2 * g)%nat by (apply (Nat.div_unique _ _ _ 0); lia). symmetry. apply (Nat.div_unique _ _ _ 7); lia. }
  rewrite EN8, NhalfM.
  assert (Eq4 : (M / 4 = 2 ^ (lm - 2))%nat).
  { rewrite (pow2_split (lm - 2) 2 lm) by lia. apply Nat.div_mul. cbn; lia. }
  assert (N16 : (N / 16 = 2 ^ (lm - 3))%nat).
  { rewrite HN, (pow2_split (lm - 3) 4 (S lm)) by lia. apply Nat.div_mul. cbn; lia. }
  (* first two levels *)
  pose proof (half1_acts A M M4 (invButterfly A) (fun b => nth b tw (a0 A, a0 A)) M4) as A1.
  destruct (hdiv 0 ltac:(lia)) as [D3 D4]. change (2 ^ 0)%nat with 1%nat in D3, D4.
  destruct (level_step _ _ _ _ (cplx v) v A1 ltac:(lia) D3 Hv (WI (lm - 1))) as [Hl1 Hc1].
  { intros i Hi. rewrite D4 in Hi. replace (lm - 1 - 0)%nat with (lm - 1)%nat in Hi by lia.
    pose proof (twI (lm - 1) i ltac:(lia) Hi) as HT. replace (S (lm - 1)) with lm in HT by lia. rewrite Nat.sub_diag in HT. exact HT. }
  { reflexivity. }
  cbv beta in Hl1, Hc1.
  set (v1 := forN 0 (M / 4) _ v) in *. clearbody v1.
  assert (Hc1' : forall k, (k < M)%nat -> cplx v1 k = invN 1 (cplx v) k).
  { intros k Hk. rewrite Hc1 by exact Hk. cbn [invN Nat.pow]. replace (lm - 1 - 0)%nat with (lm - 1)%nat by lia. reflexivity. }
  pose proof (half2_acts A M M4 (invButterfly A) (fun b => nth (2 * (M / 4) + b) tw (a0 A, a0 A)) M4) as A2.
  destruct (hdiv 1 ltac:(lia)) as [D1 D2]. change (2 ^ 1)%nat with 2%nat in D1, D2.
  destruct (level_step _ _ _ _ (invN 1 (cplx v)) v1 A2 ltac:(lia) D1 Hl1 (WI (lm - 2))) as [Hl2 Hc2].
  { intros i Hi. rewrite D2 in Hi. replace (lm - 1 - 1)%nat with (lm - 2)%nat in Hi by lia.
    pose proof (twI (lm - 2) i ltac:(lia) Hi) as HT.
    replace (2 ^ lm - 2 ^ S (lm - 2))%nat with (2 * (M / 4))%nat in HT; [exact HT|].
    rewrite Eq4, pow2_S. rewrite (pow2_split 2 (lm - 2) lm) by lia. cbn [Nat.pow Nat.mul]. lia. }
  { exact Hc1'. }
  cbv beta in Hl2, Hc2. set (v2 := forN 0 (M / 4) (fun b v => half2 A _ _ _ v) v1) in *. clearbody v2.
  assert (Hc2' : forall k, (k < M)%nat -> cplx v2 k = invN (lm - 1 - (lm - 3)) (cplx v) k).
  { intros k Hk. rewrite Hc2 by exact Hk. replace (lm - 1 - (lm - 3))%nat with 2%nat by lia. cbn [invN]. cbn [Nat.pow Nat.mul Nat.add].
    replace (lm - 1 - 1)%nat with (lm - 2)%nat by lia. reflexivity. }
  (* middle *)
  pose proof (invMid_spec (cplx v) (lm - 3) (lm - 3) N v2 eq_refl ltac:(lia)) as HMid.
  pose proof fuel_ok as HF. specialize (HMid ltac:(rewrite NM; lia) Hl2 Hc2').
  replace (lm - (lm - 3))%nat with 3%nat in HMid by lia. change (2 ^ 3)%nat with 8%nat in HMid.
  replace (2 ^ lm - 2 ^ S (lm - 3))%nat with (2 * (M / 4) + M / 4)%nat in HMid.
  2:{ rewrite Eq4. replace (S (lm - 3)) with (lm - 2)%nat by lia. rewrite (pow2_split 2 (lm - 2) lm) by lia. cbn [Nat.pow Nat.mul]. lia. }
  rewrite N16. destruct (invMid A N (2 ^ (lm - 3)) 8 (2 * (M / 4) + M / 4) tw v2) as [v3 wi]. destruct HMid as (-> & Hl3 & Hc3).
  (* last level *)
  eexists; split; [reflexivity|].
  assert (E1 : M = (2 * 2 ^ (lm - 1))%nat) by (rewrite <- pow2_S; f_equal; lia).
  pose proof (level_acts A M M4 (invButterfly A) (2 ^ (lm - 1)) 1 tw (2 ^ lm - 2)) as HA.
  specialize (HA (pow2_nat_pos _) (h4 (lm - 1) ltac:(lia)) ltac:(lia)).
  unfold level in HA. cbn [forN] in HA. rewrite Nat.add_0_r in HA.
  destruct (hdiv (lm - 1) ltac:(lia)) as [D5 D6].
  destruct (level_step _ _ _ _ (invN (lm - 1) (cplx v)) v3 HA (pow2_nat_pos _) D5 Hl3 (WI 0)) as [Hl4 Hc4].
  { intros i Hi. rewrite D6 in Hi. rewrite Nat.sub_diag in Hi. cbn [Nat.pow] in Hi. assert (i = 0)%nat as -> by lia.
    apply (twI 0 0); [lia|cbn; lia]. }
  { exact Hc3. }
  rewrite <- E1 in Hl4, Hc4. cbn [Nat.mul Nat.add] in Hl4, Hc4. split; [exact Hl4|].
  intros k Hk. rewrite Hc4 by exact Hk. replace lm with (S (lm - 1)) at 3 by lia. cbn [invN]. rewrite Nat.sub_diag. reflexivity.
Qed.
End Inv.

(* ------------------------------------------------------------------ *)
(** ** Values *)
Lemma fwdN_value a : forall s, (s <= lm)%nat -> forall i r, (i < 2 ^ s)%nat -> (r < 2 ^ (lm - s))%nat ->
  fwdN s a (2 ^ (lm - s) * i + r) = csum (2 ^ s) (fun q => cmul (a (r + 2 ^ (lm - s) * q)%nat)
     (z (Z.of_nat q * (Z.of_nat (2 ^ (lm - s)) * (1 - 4 * Z.of_nat (bitrev s i)))))).
Proof.
  induction s as [|s IH]; intros Hs i r Hi Hr.
  - cbn [Nat.pow] in Hi. assert (i = 0)%nat as -> by lia. cbn [fwdN Nat.pow SpecFFT.csum]. rewrite !Nat.mul_0_r, Nat.add_0_l, Nat.add_0_r.
    rewrite Z.mul_0_l, (ex_z0 A N z Hex). ring.
  - cbn [fwdN]. replace (lm - 1 - s)%nat with (lm - S s)%nat by lia. set (h := (2 ^ (lm - S s))%nat) in *.
    assert (E2h : (2 ^ (lm - s) = 2 * h)%nat) by (unfold h; rewrite <- pow2_S; f_equal; lia).
    assert (Hh : (0 < h)%nat) by apply pow2_nat_pos.
    assert (Eh2 : (2 ^ s * h * 4 = N)%nat).
    { unfold h. rewrite <- Nat.pow_add_r. change 4%nat with (2 ^ 2)%nat. rewrite <- Nat.pow_add_r, HN. f_equal. lia. }
    pose proof (Nat.div_mod i 2 ltac:(lia)) as Ei. pose proof (Nat.mod_upper_bound i 2 ltac:(lia)) as Hb.
    set (j := (i / 2)%nat) in *. set (b := (i mod 2)%nat) in *. clearbody j b. subst i.
    rewrite pow2_S in Hi. rewrite bitrev_2i by exact Hb. rewrite pow2_S, (csum_even_odd A rth).
    unfold T.
    replace (h * (2 * j + b) + r)%nat with (2 * h * j + (b * h + r))%nat by lia.
    assert (Ed : ((2 * h * j + (b * h + r)) / (2 * h) = j)%nat) by (symmetry; apply (Nat.div_unique _ _ _ (b * h + r)); [|lia]; destruct b as [|[|]]; lia).
    assert (Em : ((2 * h * j + (b * h + r)) mod (2 * h) = b * h + r)%nat) by (symmetry; apply (Nat.mod_unique _ _ j); [|lia]; destruct b as [|[|]]; lia).
    rewrite Ed, Em, bfC_fwd, bfC_fwd. cbn [fst snd].
    assert (EW : WF s j = z (Z.of_nat h * (1 - 4 * Z.of_nat (bitrev s j)))) by (unfold WF, E, h; do 4 f_equal; lia).
    destruct b as [|[|b]]; [| |lia].
    + rewrite Nat.mul_0_l, Nat.add_0_l. destruct (Nat.ltb_spec r h); [|lia].
      replace (2 * h * j + r + h)%nat with (2 ^ (lm - s) * j + (r + h))%nat by lia.
      replace (2 * h * j + r)%nat with (2 ^ (lm - s) * j + r)%nat by lia.
      rewrite (IH ltac:(lia) j r), (IH ltac:(lia) j (r + h)%nat) by lia.
      rewrite <- (csum_mul_r A rth), <- (csum_add A rth). apply csum_ext. intros q Hq.
      rewrite EW, E2h. rewrite !Nat.mul_0_l, !Nat.add_0_l. f_equal.
      * f_equal; [f_equal; lia|f_equal; lia].
      * replace (r + h + 2 * h * q)%nat with (r + h * (2 * q + 1))%nat by lia.
        replace (Z.of_nat (2 * q + 1) * (Z.of_nat h * (1 - 4 * Z.of_nat (bitrev s j)))) with
          (Z.of_nat q * (Z.of_nat (2 * h) * (1 - 4 * Z.of_nat (bitrev s j))) + Z.of_nat h * (1 - 4 * Z.of_nat (bitrev s j))) by lia.
        rewrite (ex_zadd A N z Hex). ring.
    + rewrite Nat.mul_1_l. destruct (Nat.ltb_spec (h + r) h); [lia|].
      replace (2 * h * j + (h + r) - h)%nat with (2 ^ (lm - s) * j + r)%nat by lia.
      replace (2 * h * j + (h + r))%nat with (2 ^ (lm - s) * j + (r + h))%nat by lia.
      rewrite (IH ltac:(lia) j r), (IH ltac:(lia) j (r + h)%nat) by lia.
      rewrite <- (csum_mul_r A rth).
      match goal with |- csub ?X ?Y = _ => transitivity (cadd X (cmul (copp (c1 A)) Y)); [ring|] end.
      rewrite <- (csum_mul_l A rth), <- (csum_add A rth). apply csum_ext. intros q Hq.
      rewrite EW, E2h. rewrite !Nat.mul_1_l. f_equal.
      * f_equal; [f_equal; lia|].
        symmetry. rewrite <- (z_per _ (Z.of_nat q)). f_equal. rewrite <- Eh2. rewrite !Nat2Z.inj_mul, Nat2Z.inj_add. lia.
      * replace (r + h + 2 * h * q)%nat with (r + h * (2 * q + 1))%nat by lia.
        replace (Z.of_nat (2 * q + 1) * (Z.of_nat h * (1 - 4 * Z.of_nat (2 ^ s + bitrev s j)))) with
          (Z.of_nat q * (Z.of_nat (2 * h) * (1 - 4 * Z.of_nat (bitrev s j))) + Z.of_nat h * (1 - 4 * Z.of_nat (bitrev s j))
           + (2 * (- Z.of_nat q - 1) + 1) * Z.of_nat N).
        2:{ rewrite <- Eh2. rewrite !Nat2Z.inj_mul, !Nat2Z.inj_add, Nat2Z.inj_mul. lia. }
        rewrite z_odd, (ex_zadd A N z Hex). ring.
Qed.

Lemma fwdN_final a k : (k < M)%nat ->
  fwdN lm a k = csum M (fun q => cmul (a q) (z (Z.of_nat q * (1 - 4 * Z.of_nat (bitrev lm k))))).
Proof.
  intros Hk. pose proof (fwdN_value a lm (le_n _) k 0 Hk) as H. rewrite Nat.sub_diag in H. cbn [Nat.pow] in H.
  specialize (H ltac:(lia)). rewrite !Nat.mul_1_l, Nat.add_0_r in H. rewrite H. apply csum_ext. intros q Hq.
  rewrite Nat.add_0_l, Nat.mul_1_l. do 2 f_equal. lia.
Qed.

(* ------------------------------------------------------------------ *)
(** ** Inverses *)
Definition two : C := cadd (c1 A) (c1 A).
Fixpoint pw2 (e : nat) : C := match e with O => c1 A | S e => cmul two (pw2 e) end.

Lemma T_scale bf h W a c k : (bf = fwdButterfly A \/ bf = invButterfly A) ->
  T A bf h W (fun j => cmul c (a j)) k = cmul c (T A bf h W a k).
Proof. intros [->| ->]; unfold T; rewrite ?bfC_fwd, ?bfC_inv; cbn [fst snd]; destruct (_ <? _)%nat; ring. Qed.

Lemma T_inv_fwd h W W' a k : (0 < h)%nat -> cmul (W' (k / (2 * h))%nat) (W (k / (2 * h))%nat) = c1 A ->
  T A (invButterfly A) h W' (T A (fwdButterfly A) h W a) k = cmul two (a k).
Proof.
  intros Hh HW. unfold T at 1.
  pose proof (Nat.div_mod k (2 * h) ltac:(lia)) as Ek. pose proof (Nat.mod_upper_bound k (2 * h) ltac:(lia)) as Hm.
  set (i := (k / (2 * h))%nat) in *. set (r := (k mod (2 * h))%nat) in *.
  unfold T. rewrite !bfC_inv, !bfC_fwd. cbn [fst snd].
  destruct (Nat.ltb_spec r h).
  - fold i. assert (E1 : ((k + h) / (2 * h) = i)%nat) by (symmetry; apply (Nat.div_unique _ _ _ (r + h)); lia).
    assert (E2 : ((k + h) mod (2 * h) = r + h)%nat) by (symmetry; apply (Nat.mod_unique _ _ i); lia).
    fold r. rewrite E1, E2. destruct (Nat.ltb_spec r h); [|lia]. destruct (Nat.ltb_spec (r + h) h); [lia|].
    rewrite Nat.add_sub. unfold two. ring.
  - fold i. assert (E1 : ((k - h) / (2 * h) = i)%nat) by (symmetry; apply (Nat.div_unique _ _ _ (r - h)); lia).
    assert (E2 : ((k - h) mod (2 * h) = r - h)%nat) by (symmetry; apply (Nat.mod_unique _ _ i); lia).
    fold r. rewrite E1, E2. destruct (Nat.ltb_spec r h); [lia|]. destruct (Nat.ltb_spec (r - h) h); [|lia].
    replace (k - h + h)%nat with k by lia. unfold two.
    transitivity (cmul (cmul (W' i) (W i)) (cadd (a k) (a k))); [ring|]. rewrite HW. ring.
Qed.
Lemma T_fwd_inv h W W' a k : (0 < h)%nat -> cmul (W' (k / (2 * h))%nat) (W (k / (2 * h))%nat) = c1 A ->
  T A (fwdButterfly A) h W (T A (invButterfly A) h W' a) k = cmul two (a k).
Proof.
  intros Hh HW. unfold T at 1.
  pose proof (Nat.div_mod k (2 * h) ltac:(lia)) as Ek. pose proof (Nat.mod_upper_bound k (2 * h) ltac:(lia)) as Hm.
  set (i := (k / (2 * h))%nat) in *. set (r := (k mod (2 * h))%nat) in *.
  unfold T. rewrite !bfC_inv, !bfC_fwd. cbn [fst snd].
  destruct (Nat.ltb_spec r h).
  - fold i. assert (E1 : ((k + h) / (2 * h) = i)%nat) by (symmetry; apply (Nat.div_unique _ _ _ (r + h)); lia).
    assert (E2 : ((k + h) mod (2 * h) = r + h)%nat) by (symmetry; apply (Nat.mod_unique _ _ i); lia).
    fold r. rewrite E1, E2. destruct (Nat.ltb_spec r h); [|lia]. destruct (Nat.ltb_spec (r + h) h); [lia|].
    rewrite Nat.add_sub. unfold two.
    transitivity (cadd (cadd (a k) (a (k + h)%nat)) (cmul (csub (a k) (a (k + h)%nat)) (cmul (W' i) (W i)))); [ring|]. rewrite HW. ring.
  - fold i. assert (E1 : ((k - h) / (2 * h) = i)%nat) by (symmetry; apply (Nat.div_unique _ _ _ (r - h)); lia).
    assert (E2 : ((k - h) mod (2 * h) = r - h)%nat) by (symmetry; apply (Nat.mod_unique _ _ i); lia).
    fold r. rewrite E1, E2. destruct (Nat.ltb_spec r h); [lia|]. destruct (Nat.ltb_spec (r - h) h); [|lia].
    replace (k - h + h)%nat with k by lia. unfold two.
    transitivity (csub (cadd (a (k - h)%nat) (a k)) (cmul (csub (a (k - h)%nat) (a k)) (cmul (W' i) (W i)))); [ring|]. rewrite HW. ring.
Qed.

Lemma W_inv s i : cmul (WI s i) (WF s i) = c1 A.
Proof. apply z_inv. Qed.

Lemma inv_fwd a : forall e, (e <= lm)%nat -> forall k, (k < M)%nat -> invN e (fwdN lm a) k = cmul (pw2 e) (fwdN (lm - e) a k).
Proof.
  induction e as [|e IH]; intros He k Hk; [cbn [invN pw2]; rewrite Nat.sub_0_r; ring|].
  cbn [invN pw2]. destruct (hdiv e ltac:(lia)) as [D1 D2].
  rewrite (T_ext' _ _ _ (WI (lm - 1 - e)) _ (fun j => cmul (pw2 e) (fwdN (lm - e) a j)) k (pow2_nat_pos e) D1 Hk).
  2:{ reflexivity. } 2:{ intros j Hj. apply IH; [lia|exact Hj]. }
  rewrite (T_scale _ _ _ (fwdN (lm - e) a)) by auto. replace (lm - e)%nat with (S (lm - S e)) by lia. cbn [fwdN].
  replace (lm - 1 - (lm - S e))%nat with e by lia. replace (lm - 1 - e)%nat with (lm - S e)%nat by lia.
  rewrite T_inv_fwd; [ring|apply pow2_nat_pos|apply W_inv].
Qed.
Lemma fwd_inv a : forall s, (s <= lm)%nat -> forall k, (k < M)%nat -> fwdN s (invN lm a) k = cmul (pw2 s) (invN (lm - s) a k).
Proof.
  induction s as [|s IH]; intros Hs k Hk; [cbn [fwdN pw2]; rewrite Nat.sub_0_r; ring|].
  cbn [fwdN pw2]. destruct (hdiv (lm - 1 - s) ltac:(lia)) as [D1 D2].
  rewrite (T_ext' _ _ _ (WF s) _ (fun j => cmul (pw2 s) (invN (lm - s) a j)) k (pow2_nat_pos _) D1 Hk).
  2:{ reflexivity. } 2:{ intros j Hj. apply IH; [lia|exact Hj]. }
  rewrite (T_scale _ _ _ (invN (lm - s) a)) by auto. replace (lm - s)%nat with (S (lm - S s)) by lia. cbn [invN].
  replace (lm - 1 - s)%nat with (lm - S s)%nat by lia. replace (lm - 1 - (lm - S s))%nat with s by lia.
  rewrite T_fwd_inv; [ring|apply pow2_nat_pos|apply W_inv].
Qed.

Lemma pw2_of e : pw2 e = cofF A (aofZ A (Z.of_nat (2 ^ e))).
Proof.
  induction e as [|e IH]; cbn [pw2].
  - change (Z.of_nat (2 ^ 0)) with 1. rewrite (ex_of1 A N z Hex). reflexivity.
  - rewrite IH, pow2_S, Nat2Z.inj_mul, (ex_ofmul A N z Hex). change (Z.of_nat 2) with (1 + 1).
    rewrite (ex_ofadd A N z Hex), !(ex_of1 A N z Hex). unfold two, cofF, SpecFFT.cmul, SpecFFT.cadd, c1; cbn [fst snd]. f_equal; ring.
Qed.

Lemma cplx_map f (v : list F) k : length v = N -> (k < M)%nat -> cplx (map f v) k = (f (fst (cplx v k)), f (snd (cplx v k))).
Proof.
  intros Hv Hk. unfold SpecFFT.cplx. pose proof (L_lt M k M4 Hk) as HL. unfold L in HL. cbn [fst snd].
  rewrite (nth_indep (map f v) (a0 A) (f (a0 A))) by (rewrite map_length, Hv, NM; lia). rewrite map_nth. f_equal.
  rewrite (nth_indep (map f v) (a0 A) (f (a0 A))) by (rewrite map_length, Hv, NM; lia). rewrite map_nth. reflexivity.
Qed.

Lemma div_scaled x : adivn A (fst (cmul (pw2 lm) x)) (Z.of_nat M) = fst x /\ adivn A (snd (cmul (pw2 lm) x)) (Z.of_nat M) = snd x.
Proof.
  rewrite pw2_of. pose proof (ex_div A N z Hex) as HD. rewrite NhalfM in HD.
  unfold SpecFFT.cmul, cofF; cbn [fst snd].
  replace (asub A (amul A (aofZ A (Z.of_nat M)) (fst x)) (amul A (a0 A) (snd x))) with (amul A (aofZ A (Z.of_nat M)) (fst x)) by ring.
  replace (aadd A (amul A (aofZ A (Z.of_nat M)) (snd x)) (amul A (a0 A) (fst x))) with (amul A (aofZ A (Z.of_nat M)) (snd x)) by ring.
  now rewrite !HD.
Qed.

(** Both compositions of the networks are the identity. *)
Lemma net_inverse tw twInv v : TWF lm tw -> TWI 0 twInv -> length v = N ->
  invFFTInPlace A (fwdFFTInPlace A v tw) twInv = v.
Proof.
  intros HF HI Hv. destruct (fwdFFT_computes tw HF v Hv) as [L1 C1].
  destruct (invFFT_computes twInv HI _ L1) as (v' & -> & L2 & C2).
  apply (cplx_eq A _ _ M M4); [rewrite map_length, L2; exact NM|rewrite Hv; exact NM|].
  intros k Hk. rewrite cplx_map by assumption. rewrite C2 by exact Hk.
  assert (EQ : invN lm (cplx (fwdFFTInPlace A v tw)) k = cmul (pw2 lm) (cplx v k)).
  { assert (HX : forall e, (e <= lm)%nat -> forall j, (j < M)%nat -> invN e (cplx (fwdFFTInPlace A v tw)) j = invN e (fwdN lm (cplx v)) j).
    { induction e as [|e IH]; intros He j Hj; [apply C1; exact Hj|]. cbn [invN]. destruct (hdiv e ltac:(lia)) as [D1 D2].
      apply T_ext'; [apply pow2_nat_pos|exact D1|exact Hj|reflexivity|]. intros; apply IH; [lia|assumption]. }
    rewrite HX by (try exact Hk; lia). rewrite inv_fwd by (try exact Hk; lia). rewrite Nat.sub_diag. reflexivity. }
  rewrite EQ. destruct (div_scaled (cplx v k)) as [-> ->]. now destruct (cplx v k).
Qed.

Lemma adivn_cofF x : forall y, x = amul A (aofZ A (Z.of_nat M)) y -> adivn A x (Z.of_nat M) = y.
Proof. intros y ->. pose proof (ex_div A N z Hex) as HD. rewrite NhalfM in HD. apply HD. Qed.
Lemma fwdN_scale c a : forall s, (s <= lm)%nat -> forall k, (k < M)%nat -> fwdN s (fun j => cmul c (a j)) k = cmul c (fwdN s a k).
Proof.
  induction s as [|s IH]; intros Hs k Hk; [reflexivity|]. cbn [fwdN]. destruct (hdiv (lm - 1 - s) ltac:(lia)) as [D1 D2].
  rewrite (T_ext' _ _ _ (WF s) _ (fun j => cmul c (fwdN s a j)) k (pow2_nat_pos _) D1 Hk).
  2:{ reflexivity. } 2:{ intros j Hj. apply IH; [lia|exact Hj]. }
  rewrite (T_scale _ _ _ (fwdN s a)) by auto. reflexivity.
Qed.
Lemma net_inverse_right tw twInv v : TWF lm tw -> TWI 0 twInv -> length v = N ->
  (forall x, amul A (aofZ A (Z.of_nat M)) (adivn A x (Z.of_nat M)) = x) ->
  fwdFFTInPlace A (invFFTInPlace A v twInv) tw = v.
Proof.
  intros HF HI Hv HD. destruct (invFFT_computes twInv HI _ Hv) as (v' & -> & L2 & C2).
  set (u := map (fun x => adivn A x (Z.of_nat M)) v').
  assert (Lu : length u = N) by (unfold u; now rewrite map_length).
  destruct (fwdFFT_computes tw HF u Lu) as [L1 C1].
  apply (cplx_eq A _ _ M M4); [rewrite L1; exact NM|rewrite Hv; exact NM|].
  intros k Hk. rewrite C1 by exact Hk.
  assert (EQ : cmul (pw2 lm) (fwdN lm (cplx u) k) = cmul (pw2 lm) (cplx v k)).
  { rewrite <- fwdN_scale by (try exact Hk; lia).
    transitivity (fwdN lm (invN lm (cplx v)) k).
    - assert (HX : forall e, (e <= lm)%nat -> forall j, (j < M)%nat -> fwdN e (fun j => cmul (pw2 lm) (cplx u j)) j = fwdN e (invN lm (cplx v)) j).
      { induction e as [|e IH]; intros He j Hj.
        - cbn [fwdN]. rewrite <- C2 by exact Hj. unfold u. rewrite cplx_map by assumption. rewrite pw2_of.
          destruct (cplx v' j) as [x y]. unfold cofF, SpecFFT.cmul; cbn [fst snd]. rewrite !HD. f_equal; ring.
        - cbn [fwdN]. destruct (hdiv (lm - 1 - e) ltac:(lia)) as [D1 D2].
          apply T_ext'; [apply pow2_nat_pos|exact D1|exact Hj|reflexivity|]. intros; apply IH; [lia|assumption]. }
      apply HX; [lia|exact Hk].
    - rewrite fwd_inv by (try exact Hk; lia). rewrite Nat.sub_diag. reflexivity. }
  destruct (div_scaled (fwdN lm (cplx u) k)) as [E1 E2]. destruct (div_scaled (cplx v k)) as [E3 E4].
  rewrite EQ in E1, E2. rewrite E3 in E1. rewrite E4 in E2. destruct (fwdN lm (cplx u) k), (cplx v k); cbn [fst snd] in *. congruence.
Qed.
End Net.
