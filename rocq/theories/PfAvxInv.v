(** Lemmas: the inverse transform in memory with the AVX2 kernels. *)
From Coq Require Import Floats.SpecFloat Lia.
From Verif Require Import Base ModelNum ModelVec ModelAsm ModelAsmInt ModelAsmFlt ModelF64 ModelAsmFold SpecAsm SpecF64 SpecAsmFold PfAsmFold4 ModelFFT ModelF64Arith ModelFused ModelFusedMul SpecFFT SpecAsmFlt SpecFused
  PfVec PfFFT PfFFT2 PfNetGen PfNetGen2 PfAsm PfAsmFlt PfAsmFFT2 PfAsmFFT6 PfAsmFused PfAvxKern PfAvxMem PfValid PfAsmFold6 PfAsmFold7 PfAsmFold8 SpecAvx.
Import ListNotations.
Open Scope Z_scope.

(** A property of floats that the butterflies keep is kept by the networks. *)
Section Keep.
Variable A : arith.
Notation T := (car A).
Variable P : T -> Prop.
Hypothesis P0 : P (a0 A).
Notation bfT := (T -> T -> T -> T -> T -> T -> T * T * T * T).
Definition keeps (bf : bfT) : Prop := forall a b c d e f, P a -> P b -> P c -> P d -> P e -> P f ->
  let '(x, y, z, t) := bf a b c d e f in P x /\ P y /\ P z /\ P t.
Definition pairP (w : T * T) : Prop := P (fst w) /\ P (snd w).
Lemma upd_keep v i x : Forall P v -> P x -> Forall P (upd v i x).
Proof. revert i. induction v as [|a v IH]; intros i H Hx; [destruct i; constructor|]. inversion H; subst. destruct i; cbn [upd]; constructor; auto. Qed.
Lemma nth_keep v i : Forall P v -> P (nth i v (a0 A)).
Proof. intros H. destruct (Nat.lt_ge_cases i (length v)) as [C|C]; [rewrite Forall_forall in H; apply H, nth_In, C|rewrite nth_overflow by exact C; exact P0]. Qed.
Lemma tw_keep tw i : Forall pairP tw -> pairP (nth i tw (a0 A, a0 A)).
Proof. intros H. destruct (Nat.lt_ge_cases i (length tw)) as [C|C]; [rewrite Forall_forall in H; apply H, nth_In, C|rewrite nth_overflow by exact C; split; exact P0]. Qed.
Lemma bfly_keep bf w p q r s v : keeps bf -> pairP w -> Forall P v -> Forall P (bfly A bf w p q r s v).
Proof.
  intros K [W1 W2] H. unfold bfly. specialize (K _ _ _ _ _ _ (nth_keep v p H) (nth_keep v q H) (nth_keep v r H) (nth_keep v s H) W1 W2).
  destruct (bf _ _ _ _ _ _) as [[[x y] z] t]. destruct K as (K1 & K2 & K3 & K4). auto using upd_keep.
Qed.
Lemma forN_keep (body : nat -> list T -> list T) lo n v : (forall i u, Forall P u -> Forall P (body i u)) -> Forall P v -> Forall P (forN lo n body v).
Proof. intros H Hv. apply (forN_ind (fun _ u => Forall P u)); auto. Qed.
Lemma node_keep bf w j t v : keeps bf -> pairP w -> Forall P v -> Forall P (node A bf w j t v).
Proof. intros K W H. apply forN_keep; [|exact H]. intros b u Hu. apply forN_keep; [|exact Hu]. intros c u' Hu'. now apply bfly_keep. Qed.
Lemma level_keep bf tw wi m t v : keeps bf -> Forall pairP tw -> Forall P v -> Forall P (level A bf tw wi m t v).
Proof. intros K W H. apply forN_keep; [|exact H]. intros i u Hu. apply node_keep; auto using tw_keep. Qed.
Lemma half2_keep bf w j v : keeps bf -> pairP w -> Forall P v -> Forall P (half2 A bf w j v).
Proof. intros K W H. unfold half2. auto using bfly_keep. Qed.
Lemma half1_keep bf w0 w1 j v : keeps bf -> pairP w0 -> pairP w1 -> Forall P v -> Forall P (half1 A bf w0 w1 j v).
Proof. intros K W W' H. unfold half1. auto using bfly_keep. Qed.
Lemma invMidB_keep bA tw fuel : forall m t wi v, keeps bA -> Forall pairP tw -> Forall P v -> Forall P (fst (invMidB A bA fuel m t wi tw v)).
Proof. induction fuel as [|f IH]; intros m t wi v K W H; [exact H|]. cbn [invMidB]. destruct (Nat.leb 2 m); [|exact H]. apply IH; auto using level_keep. Qed.
Lemma invFFTB_keep bA bB post v tw : keeps bA -> keeps bB -> (forall x, P x -> P (post x)) -> Forall pairP tw -> Forall P v -> Forall P (invFFTB A bA bB post v tw).
Proof.
  intros KA KB KP W H. unfold invFFTB. set (W1 := fun i => nth i tw (a0 A, a0 A)). assert (HW : forall i, pairP (W1 i)) by (intros i; apply tw_keep, W).
  match goal with |- context [invMidB A bA ?f ?m ?t ?wi tw ?u] => assert (Q : Forall P (fst (invMidB A bA f m t wi tw u))); [|destruct (invMidB A bA f m t wi tw u) as [u' wi']] end.
  { apply invMidB_keep; [exact KA|exact W|]. apply forN_keep; [intros; apply half2_keep; auto using tw_keep|]. apply forN_keep; [intros; apply half1_keep; auto using tw_keep|]. exact H. }
  cbn [fst] in Q. apply Forall_forall. intros x Hx. apply in_map_iff in Hx as (y & <- & Hy). apply KP.
  assert (Q2 : Forall P (node A bA (nth wi' tw (a0 A, a0 A)) 0 (length v / 2) u')) by (apply node_keep; auto using tw_keep). rewrite Forall_forall in Q2. exact (Q2 y Hy).
Qed.
End Keep.

Section F64Keep.
Variable cexp : Z -> Z -> f64 * f64.
Notation A := (f64Arith cexp).
Notation V := (fun x : f64 => vb x = true).
Ltac vsolve := repeat (first [assumption | reflexivity | apply fma_valid | apply add_valid | apply sub_valid | apply mul_valid | rewrite opp_valid]).
Lemma invA_keeps : keeps A V (invA F64).
Proof. intros a b c d e f Ha Hb Hc Hd He Hf. cbn. repeat split; vsolve. Qed.
Lemma invB_keeps : keeps A V (invB F64).
Proof. intros a b c d e f Ha Hb Hc Hd He Hf. cbn. repeat split; vsolve. Qed.
Lemma invF_valid sc v tw : vb sc = true -> Forall (pairP A V) tw -> Forall V v -> Forall V (invFFTFused A F64 sc v tw).
Proof. intros Hs W H. apply (invFFTB_keep A V); [reflexivity|exact invA_keeps|exact invB_keeps| |exact W|exact H]. intros x Hx. now apply mul_valid. Qed.
End F64Keep.
Lemma pow2F_valid w : 0 < w <= 64 -> vb (pow2F w) = true /\ vb (goInv (pow2F w)) = true.
Proof.
  intros H. assert (In w (map Z.of_nat (seq 1 64))). { apply in_map_iff. exists (Z.to_nat w). split; [lia|]. apply in_seq. lia. }
  revert H0. apply (Forall_forall (fun w => vb (pow2F w) = true /\ vb (goInv (pow2F w)) = true)). repeat constructor.
Qed.
Lemma avxModQ_valid w x : 0 < w <= 64 -> vb x = true -> vb (avxModQ w x) = true.
Proof. intros Hw Hx. destruct (pow2F_valid w Hw). unfold avxModQ. cbv zeta. apply rnd_valid, mul_valid; [|assumption]. apply sub_valid; [|apply rnd_valid]; now apply mul_valid. Qed.
Lemma scale_valid k : 4 <= k < 59 -> vb (avxScale (Z.to_nat (2 ^ k))) = true.
Proof.
  intros H. unfold avxScale. rewrite Z2Nat.id by (apply Z.pow_nonneg; lia).
  assert (In k (map Z.of_nat (seq 4 55))). { apply in_map_iff. exists (Z.to_nat k). split; [lia|]. apply in_seq. lia. }
  revert H0. apply (Forall_forall (fun k => vb (SFdiv 53 1024 (BN 2 0 false) (BN (2 ^ k) 0 false)) = true)). repeat constructor.
Qed.

Section Inv.
Variable cexp : Z -> Z -> f64 * f64.
Notation A := (f64Arith cexp).
Notation V := (fun x : f64 => vb x = true).
Lemma win_get {T} (g : gslice) (f : Z -> word T) m m' i : window g f m m' -> 0 <= i < gn g -> getm m' (gb g) (go g + i) = Some (f i).
Proof.
  intros [_ W] Hi. rewrite W, Nat.eqb_refl. destruct (Z.leb_spec (go g) (go g + i)), (Z.ltb_spec (go g + i) (go g + gn g)); cbn [andb]; try lia. do 2 f_equal. lia.
Qed.
Lemma win_other {T} (g : gslice) (f : Z -> word T) m m' b i : window g f m m' -> b <> gb g -> getm m' b i = getm m b i.
Proof. intros [_ W] Hb. rewrite W. destruct (Nat.eqb_spec b (gb g)); [contradiction|reflexivity]. Qed.
Lemma bec64 (fp : gslice) (v : list f64) m m' : becomes A fp v m m' -> Forall V v -> fslice64 m fp ->
  fslice64 m' fp /\ forall i, 0 <= i < gn fp -> fat m' fp i = nth (Z.to_nat i) v (S754_zero false).
Proof.
  intros [L W] Hv (S1 & S2 & S3 & S4 & _). assert (G : forall i, 0 <= i < gn fp -> getm m' (gb fp) (go fp + i) = Some (ModelAsm.WF (nth (Z.to_nat i) v (S754_zero false)))) by (intros i Hi; exact (win_get fp _ m m' i W Hi)).
  split.
  - split; [rewrite (proj1 W); exact S1|]. do 3 (split; [assumption|]). intros i Hi. eexists. split; [apply G, Hi|]. rewrite Forall_forall in Hv. apply Hv, nth_In.
    change (@length f64 v) with (@length (car A) v). rewrite L. lia.
  - intros i Hi. unfold fat. rewrite G by exact Hi. reflexivity.
Qed.
Lemma k_invB_eq B F bA bB s o tw k sc v t : invOK B F bA bB -> fft_call B s o tw k -> fvals B (mm s) o = v -> cvals B (mm s) tw = t ->
  terminates F (mkEnv (frame2c o tw 8 (ModelAsm.WF sc)) noData) invFFTInPlaceAVX2 s (becomes B o (invFFTB B bA bB (fun x => fmul F x sc) v t) (mm s)).
Proof. intros O C <- <-. exact (k_invB B F bA bB s o tw k sc O C). Qed.
Lemma fvals_all (B : arith) (P : car B -> Prop) m g : (forall i, 0 <= i < gn g -> exists y, getm m (gb g) (go g + i) = Some (ModelAsm.WF y) /\ P y) -> Forall P (fvals B m g).
Proof.
  intros H. apply Forall_forall. intros x Hx. apply in_map_iff in Hx as (i & <- & Hi). apply in_seq in Hi.
  destruct (H (Z.of_nat i) ltac:(lia)) as (y & E & Hy). unfold fval. rewrite E. exact Hy.
Qed.
Lemma fslice_fvals64 m fp : fslice64 m fp -> Forall V (fvals A m fp).
Proof. intros (_ & _ & _ & _ & H). exact (fvals_all A V m fp H). Qed.

Lemma inv_mem w kn kd acc (s : state f64) fp p twi k (ev : evaluator A) : 0 < w <= 64 -> unfolds (w / 8) kn (avxConv false w) acc ->
  (forall o x, acc o x mod 2 ^ (8 * (w / 8)) = avxAcc kd false w o (twrap false w x)) ->
  fold_call s fp p (w / 8) -> fft_call A s fp twi k -> cvals A (mm s) twi = e_twInv A ev -> Forall (pairP A V) (e_twInv A ev) ->
  terminates F64 (mkEnv (frame2c fp twi 8 (ModelAsm.WF (avxScale (Z.to_nat (gn fp))))) noData) invFFTInPlaceAVX2 s (fun m1 => forall s1, mm s1 = m1 ->
    terminates F64 (mkEnv (frameQ fp (pow2F w) (goInv (pow2F w))) foldData) floatModQInPlaceAVX2 s1 (fun m2 => forall s2, mm s2 = m2 ->
      terminates F64 (mkEnv (frameTU p (w / 8) fp 8) foldData) kn s2 (fun m3 =>
        becomes A fp (avxInvv cexp ev w (fvals A (mm s) fp)) (mm s) m2 /\
        window p (fun j => ModelAsm.WI (nthZ (avxInv cexp ev kd false w (ivals (mm s) p) (fvals A (mm s) fp)) (Z.to_nat j))) m2 m3))).
Proof.
  intros Hw Ku Hacc (F1 & I1 & Ln & L8 & Db) Cf Ht Hv. set (sc := avxScale (Z.to_nat (gn fp))). pose proof Cf as (So & St & Hk & HN & HM & D).
  pose proof F1 as (_ & Go0 & Gn0 & G59 & _).
  assert (Hk59 : k < 59). { destruct (Z.lt_ge_cases k 59) as [|C]; [assumption|]. assert (2 ^ 59 <= 2 ^ k) by (apply Z.pow_le_mono_r; lia). lia. }
  assert (Hsc : vb sc = true) by (unfold sc; rewrite HN; apply scale_valid; lia).
  assert (Lf : length (fvals A (mm s) fp) = Z.to_nat (gn fp)) by apply fvals_length.
  set (v0 := fvals A (mm s) fp) in *. set (v1 := invFFTFused A F64 sc v0 (e_twInv A ev)).
  assert (V1 : Forall V v1) by (apply invF_valid; [exact Hsc|exact Hv|apply fslice_fvals64; exact F1]).
  destruct (k_invB_eq A F64 _ _ s fp twi k sc v0 (e_twInv A ev) (invF_OK A F64) Cf eq_refl Ht) as (s' & R & B). exists s'. split; [exact R|].
  change (becomes A fp v1 (mm s) (mm s')) in B. intros s1 Es. pose proof (eq_ind_r (fun m => becomes A fp v1 (mm s) m) B Es : becomes A fp v1 (mm s) (mm s1)) as B0. clear s' R Es B. rename B0 into B.
  destruct (bec64 fp v1 (mm s) (mm s1) B V1 F1) as [F2 A1]. pose proof (proj1 B) as L1.
  destruct (k_modQ64 w s1 fp F2) as (s2' & R2 & B2). { rewrite HN. replace k with (k - 2 + 2) by lia. rewrite Z.pow_add_r by lia. change (2 ^ 2) with 4. apply Z.mod_mul. lia. }
  exists s2'. split; [exact R2|]. intros s2 Es. rewrite <- Es in *. clear s2' R2 Es.
  set (v2 := map (avxModQ w) v1). assert (E2 : v2 = avxInvv cexp ev w v0). { unfold avxInvv. change (@length f64 v0) with (@length (car A) v0). rewrite Lf. reflexivity. }
  assert (V2 : Forall V v2). { apply Forall_forall. intros x Hx. apply in_map_iff in Hx as (y & <- & Hy). apply avxModQ_valid; [exact Hw|]. rewrite Forall_forall in V1. apply V1, Hy. }
  assert (B2' : becomes A fp v2 (mm s1) (mm s2)).
  { split; [unfold v2; rewrite map_length; exact L1|]. destruct B2 as [W1 W2]. split; [exact W1|]. intros b i. rewrite W2.
    destruct (Nat.eqb b (gb fp) && (go fp <=? i) && (i <? go fp + gn fp))%bool eqn:Q; [|reflexivity]. apply andb_prop in Q as [Q Q2]. apply andb_prop in Q as [_ Q1].
    apply Z.leb_le in Q1. apply Z.ltb_lt in Q2. f_equal. f_equal. rewrite A1 by lia. unfold v2. change (a0 A) with (S754_zero false).
    rewrite (nth_indep (map _ _) _ (avxModQ w (S754_zero false))), (map_nth (avxModQ w)); [reflexivity|]. rewrite map_length. change (@length f64 v1) with (@length (car A) v1). rewrite L1. lia. }
  destruct (bec64 fp v2 (mm s1) (mm s2) B2' V2 F2) as [F3 A2]. pose proof (bec_trans A (mm s) (mm s1) fp v1 B v2 (mm s2) B2') as B3.
  assert (Gp : forall i, getm (mm s2) (gb p) i = getm (mm s) (gb p) i) by (intros i; exact (win_other fp _ _ _ (gb p) i (proj2 B3) Db)).
  assert (I3 : islice (mm s2) (w / 8) p). { destruct I1 as (J1 & J2 & J3 & J4 & J5). split; [rewrite (proj1 (proj2 B3)); exact J1|]. do 3 (split; [assumption|]). intros i Hi. rewrite Gp. exact (J5 i Hi). }
  destruct (Ku s2 fp p) as (s3 & R3 & B4); [repeat (split; [assumption|]); exact Db|]. exists s3. split; [exact R3|].
  split; [rewrite <- E2; exact B3|]. destruct B4 as [W1 W2]. split; [exact W1|]. intros b i. rewrite W2.
  destruct (Nat.eqb b (gb p) && (go p <=? i) && (i <? go p + gn p))%bool eqn:Q; [|reflexivity]. apply andb_prop in Q as [Q Q2]. apply andb_prop in Q as [_ Q1].
  apply Z.leb_le in Q1. apply Z.ltb_lt in Q2. f_equal. f_equal. set (j := i - go p). assert (Hj : 0 <= j < gn p) by lia. clearbody j. clear i Q1 Q2.
  assert (EN : Z.to_nat (gn fp) = (2 ^ S (Z.to_nat k - 1))%nat) by (rewrite HN, Z2Nat.inj_pow by lia; f_equal; lia).
  unfold avxInv. rewrite <- E2. rewrite (unfold_at cexp (Z.to_nat (gn fp)) (Z.to_nat k - 1) ltac:(lia) EN).
  - rewrite Hacc, ivals_nth by lia. rewrite !Z2Nat.id by lia. f_equal; [unfold ival; now rewrite Gp|]. rewrite A2; [reflexivity|].
    apply layout; lia.
  - unfold v2. rewrite map_length. exact L1.
  - unfold ivals. rewrite map_length, seq_length, Ln. reflexivity.
  - lia.
Qed.
End Inv.

Lemma fwd32 : avx_forward 32 foldPolyToUint32AVX2. Proof. exact fwd_mem32. Qed.
Lemma fwd64 : avx_forward 64 foldPolyToUint64AVX2. Proof. exact fwd_mem64. Qed.
Lemma acc_add w : forall o x, (o + x) mod 2 ^ w = avxAcc (Some false) false w o (twrap false w x).
Proof. intros o x. symmetry. exact (Zplus_mod_idemp_r x o (2 ^ w)). Qed.
Lemma acc_sub w : forall o x, (o - x) mod 2 ^ w = avxAcc (Some true) false w o (twrap false w x).
Proof. intros o x. symmetry. exact (Zminus_mod_idemp_r o x (2 ^ w)). Qed.
Lemma inv32 : avx_inverse 32 unfoldPolyToUint32AVX2 None.
Proof. intros cexp s fp p twi k e A. apply (inv_mem cexp 32 _ None (fun _ y => y)); [lia|exact k_unfold32|reflexivity]. Qed.
Lemma invAdd32 : avx_inverse 32 unfoldPolyAddToUint32AVX2 (Some false).
Proof. intros cexp s fp p twi k e A. apply (inv_mem cexp 32 _ (Some false) Z.add); [lia|exact k_unfoldAdd32|exact (acc_add 32)]. Qed.
Lemma invSub32 : avx_inverse 32 unfoldPolySubToUint32AVX2 (Some true).
Proof. intros cexp s fp p twi k e A. apply (inv_mem cexp 32 _ (Some true) Z.sub); [lia|exact k_unfoldSub32|exact (acc_sub 32)]. Qed.
Lemma inv64 : avx_inverse 64 unfoldPolyToUint64AVX2 None.
Proof. intros cexp s fp p twi k e A. apply (inv_mem cexp 64 _ None (fun _ y => y)); [lia|exact k_unfold64|reflexivity]. Qed.
Lemma invAdd64 : avx_inverse 64 unfoldPolyAddToUint64AVX2 (Some false).
Proof. intros cexp s fp p twi k e A. apply (inv_mem cexp 64 _ (Some false) Z.add); [lia|exact k_unfoldAdd64|exact (acc_add 64)]. Qed.
Lemma invSub64 : avx_inverse 64 unfoldPolySubToUint64AVX2 (Some true).
Proof. intros cexp s fp p twi k e A. apply (inv_mem cexp 64 _ (Some true) Z.sub); [lia|exact k_unfoldSub64|exact (acc_sub 64)]. Qed.
