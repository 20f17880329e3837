(** The AVX2 transforms as properties of calls. *)
From Coq Require Import String Lia Ring_theory.
From Verif Require Import Base ModelNum ModelVec ModelAsm ModelAsmInt ModelAsmFlt SpecAsm SpecVec SpecFFT PfFFT PfFFT4 PfAsm PfAsmFlt PfAsmFlt2 ModelFFT ModelFused SpecAsmFlt PfAsmFFT PfAsmFFT2 PfAsmFFT3 PfAsmFFT5.
Import ListNotations.
Open Scope Z_scope.

(** In exact arithmetic the operations of the kernels are those of the portable butterflies. *)
Section Exact.
Variable A : arith.
Variable F : fops (car A).
Hypothesis X : exactF A F.
Add Ring RA6 : (xf_ring A F X).
Ltac bx := intros; cbv beta delta [fwdButterfly invButterfly fwdA fwdB invA invB cmA cmB] iota zeta; apply pair4;
  rewrite ?(xf_add A F X), ?(xf_sub A F X), ?(xf_mul A F X), ?(xf_fma A F X), ?(xf_fms A F X), ?(xf_fnma A F X), ?(xf_zero A F X); ring.
Lemma fwd_exact : fwdOK A F (fwdButterfly A) (fwdButterfly A).
Proof. split; bx. Qed.
Lemma inv_exact : invOK A F (invButterfly A) (invButterfly A).
Proof. split; bx. Qed.
End Exact.
Lemma fwdMidB_go A : forall f N m t wi tw v, fwdMidB A (fwdButterfly A) f N m t wi tw v = fwdMid A f N m t wi tw v.
Proof. induction f as [|f IH]; intros; [reflexivity|]. cbn [fwdMidB fwdMid]. destruct (Nat.leb _ _); [apply IH|reflexivity]. Qed.
Lemma invMidB_go A : forall f m t wi tw v, invMidB A (invButterfly A) f m t wi tw v = invMid A f m t wi tw v.
Proof. induction f as [|f IH]; intros; [reflexivity|]. cbn [invMidB invMid]. destruct (Nat.leb _ _); [apply IH|reflexivity]. Qed.
Lemma fwdFFTB_go A v tw : fwdFFTB A (fwdButterfly A) (fwdButterfly A) v tw = fwdFFTInPlace A v tw.
Proof. unfold fwdFFTB, fwdFFTInPlace. cbv zeta. rewrite fwdMidB_go. reflexivity. Qed.
Lemma invFFTB_go A post v tw : (forall x, post x = adivn A x (Z.of_nat (length v / 2))) ->
  invFFTB A (invButterfly A) (invButterfly A) post v tw = invFFTInPlace A v tw.
Proof. intros H. unfold invFFTB, invFFTInPlace. cbv zeta. rewrite invMidB_go. destruct (invMid _ _ _ _ _ _ _) as [v' wi]. apply map_ext. exact H. Qed.

(** The kernels, for any meaning of the floating point operations. *)
Lemma k_fwdB A F bA bB s o tw k : fwdOK A F bA bB -> fft_call A s o tw k ->
  terminates F (mkEnv (frame2 o tw) noData) fwdFFTInPlaceAVX2 s (becomes A o (fwdFFTB A bA bB (fvals A (mm s) o) (cvals A (mm s) tw)) (mm s)).
Proof.
  intros X (So & St & Hk & HN & HM & D). pose proof So as (_ & Sg & Sn & Sb & _).
  assert (E1 : Z.to_nat (gn o) = (2 ^ Z.to_nat k)%nat) by (rewrite HN, Z2Nat.inj_pow by lia; reflexivity).
  apply (fwd_all A F bA bB X s o tw So St D (Z.to_nat k)); [lia|exact E1|].
  assert (E2 : Z.of_nat (2 ^ (Z.to_nat k - 1)) = 2 ^ (k - 1)) by (rewrite Nat2Z.inj_pow; f_equal; lia). lia.
Qed.
Lemma k_invB A F bA bB s o tw k sc : invOK A F bA bB -> fft_call A s o tw k ->
  terminates F (mkEnv (frame2c o tw 8 (WF sc)) noData) invFFTInPlaceAVX2 s (becomes A o (invFFTB A bA bB (fun x => fmul F x sc) (fvals A (mm s) o) (cvals A (mm s) tw)) (mm s)).
Proof.
  intros X (So & St & Hk & HN & HM & D). pose proof So as (_ & Sg & Sn & Sb & _).
  assert (E1 : Z.to_nat (gn o) = (2 ^ Z.to_nat k)%nat) by (rewrite HN, Z2Nat.inj_pow by lia; reflexivity).
  apply (inv_all A F bA bB X s o tw sc So St D (Z.to_nat k)); [lia|exact E1|].
  assert (E2 : Z.of_nat (2 ^ (Z.to_nat k - 1)) = 2 ^ (k - 1)) by (rewrite Nat2Z.inj_pow; f_equal; lia). lia.
Qed.
Lemma fwdF_OK A F : fwdOK A F (fwdA F) (fwdB F). Proof. split; reflexivity. Qed.
Lemma invF_OK A F : invOK A F (invA F) (invB F). Proof. split; reflexivity. Qed.
Lemma k_fwd A F s o tw k : exactF A F -> fft_call A s o tw k ->
  terminates F (mkEnv (frame2 o tw) noData) fwdFFTInPlaceAVX2 s (becomes A o (fwdFFTInPlace A (fvals A (mm s) o) (cvals A (mm s) tw)) (mm s)).
Proof. intros X C. pose proof (k_fwdB A F _ _ s o tw k (fwd_exact A F X) C) as H. rewrite fwdFFTB_go in H. exact H. Qed.
Lemma k_inv A F s o tw k sc : exactF A F -> fft_call A s o tw k -> is_scale A o sc ->
  terminates F (mkEnv (frame2c o tw 8 (WF sc)) noData) invFFTInPlaceAVX2 s (becomes A o (invFFTInPlace A (fvals A (mm s) o) (cvals A (mm s) tw)) (mm s)).
Proof.
  intros X C Hsc. pose proof (k_invB A F _ _ s o tw k sc (inv_exact A F X) C) as H. rewrite invFFTB_go in H; [exact H|].
  intros x. rewrite (xf_mul A F X), Hsc, fvals_length. f_equal. destruct C as ((_ & _ & Sn & _) & _). rewrite Nat2Z.inj_div, Z2Nat.id by exact Sn. reflexivity.
Qed.

Section Rt.
Variable A : arith.
Notation T := (car A).
Variable m0 m1 : mem T.
Variable o : gslice.
Variable c : list T.
Hypothesis B : becomes A o c m0 m1.
Lemma bec_fvals : 0 <= gn o -> fvals A m1 o = c.
Proof.
  intros Hn. destruct B as (L & _ & G). apply (nth_ext _ _ (a0 A) (a0 A)); [rewrite L; apply fvals_length|]. intros i Hi. rewrite fvals_length in Hi.
  replace i with (Z.to_nat (Z.of_nat i)) at 1 by lia. rewrite fvals_nth by lia. unfold fval. rewrite G, Nat.eqb_refl.
  destruct (Z.leb_spec (go o) (go o + Z.of_nat i)), (Z.ltb_spec (go o + Z.of_nat i) (go o + gn o)); cbn [andb]; try lia. f_equal. lia.
Qed.
Lemma bec_fslice : fslice A m0 o -> fslice A m1 o.
Proof.
  intros (H1 & H2 & H3 & H4 & H5). destruct B as (L & Ez & G). split; [rewrite Ez; exact H1|]. do 3 (split; [assumption|]). intros i Hi. rewrite G, Nat.eqb_refl.
  destruct (Z.leb_spec (go o) (go o + i)), (Z.ltb_spec (go o + i) (go o + gn o)); cbn [andb]; try lia. eexists. reflexivity.
Qed.
Variable tw : gslice.
Hypothesis D : gb tw <> gb o \/ go tw + 2 * gn tw <= go o \/ go o + gn o <= go tw.
Lemma bec_far i : 0 <= i < 2 * gn tw -> getm m1 (gb tw) (go tw + i) = getm m0 (gb tw) (go tw + i).
Proof.
  intros Hi. destruct B as (L & Ez & G). rewrite G. destruct (Nat.eqb_spec (gb tw) (gb o)) as [e |], (Z.leb_spec (go o) (go tw + i)), (Z.ltb_spec (go tw + i) (go o + gn o)); cbn [andb]; try reflexivity.
  destruct D as [D1 | D1]; [congruence|lia].
Qed.
Lemma bec_cvals : cvals A m1 tw = cvals A m0 tw.
Proof.
  unfold cvals. apply map_ext_in. intros i Hi. apply in_seq in Hi. unfold fval. rewrite !bec_far by lia. reflexivity.
Qed.
Lemma bec_cslice : cslice A m0 tw -> cslice A m1 tw.
Proof.
  intros (H1 & H2 & H3 & H4 & H5). pose proof B as (L & Ez & G). split; [rewrite Ez; exact H1|]. do 3 (split; [assumption|]). intros i Hi. rewrite bec_far by exact Hi. now apply H5.
Qed.
Lemma bec_trans c2 m2 : becomes A o c2 m1 m2 -> becomes A o c2 m0 m2.
Proof.
  intros (L2 & E2 & G2). destruct B as (L & Ez & G). split; [exact L2|]. split; [intros b; rewrite E2; apply Ez|]. intros b i. rewrite G2.
  destruct (Nat.eqb b (gb o) && (go o <=? i) && (i <? go o + gn o)) eqn:Q; [reflexivity|]. rewrite G, Q. reflexivity.
Qed.
End Rt.

(** The inverse transform, run on the memory the forward transform left. *)
Lemma k_round A F s o tw twi k sc z e : exactF A F -> exact A (Z.to_nat (gn o)) z -> NewEvaluator A (Z.to_nat (gn o)) = Ok e ->
  fft_call A s o tw k -> fft_call A s o twi k -> is_scale A o sc -> cvals A (mm s) tw = e_tw A e -> cvals A (mm s) twi = e_twInv A e ->
  terminates F (mkEnv (frame2 o tw) noData) fwdFFTInPlaceAVX2 s (fun m1 => forall s1, mm s1 = m1 ->
    terminates F (mkEnv (frame2c o twi 8 (WF sc)) noData) invFFTInPlaceAVX2 s1 (becomes A o (fvals A (mm s) o) (mm s))).
Proof.
  intros X Ex Ev Cf Ci Hsc Ht Hi. destruct (k_fwd A F s o tw k X Cf) as (s' & R & B). exists s'. split; [exact R|]. intros s1 Es. rewrite <- Es in B.
  pose proof Ci as (So & St & Hk & HN & HM & D). pose proof So as (_ & _ & Sn & _).
  assert (C1 : fft_call A s1 o twi k).
  { split; [eapply bec_fslice; eassumption|]. split; [eapply bec_cslice; eassumption|]. repeat (split; [assumption|]). exact D. }
  destruct (k_inv A F s1 o twi k sc X C1 Hsc) as (s2 & R2 & B2). exists s2. split; [exact R2|].
  rewrite (bec_fvals A (mm s) (mm s1) o _ B Sn), (bec_cvals A (mm s) (mm s1) o _ B twi D), Ht, Hi in B2.
  rewrite (net_left A _ z e Ex Ev) in B2 by apply fvals_length. eapply bec_trans; eassumption.
Qed.

(** The tables of an evaluator have exactly the factors that are read. *)
Section Len.
Variable A : arith.
Open Scope list_scope.
Lemma app_len {B} (g : nat -> B) n (l : list B) : length (forN 0 n (fun i l => (l ++ [g i])%list) l) = (length l + n)%nat.
Proof. induction n as [|n IH]; [cbn; lia|]. rewrite forN_S_r, app_length, IH. cbn [length]. lia. Qed.
Lemma twLoop_len j N X : (N / 2 = 2 ^ j)%nat -> forall f i t tw, (i <= S j)%nat -> (S j <= f + i)%nat ->
  length (twLoop A f N (2 ^ i) t X tw) = (length tw + 2 ^ S j - 2 ^ i)%nat.
Proof.
  intros HN. induction f as [|f IH]; intros i t tw Hi Hf; cbn [twLoop].
  { assert (i = S j) by lia. subst i. lia. }
  rewrite HN. pose proof (Nat.pow_nonzero 2 i). pose proof (Nat.pow_nonzero 2 j). destruct (Nat.eq_dec i (S j)) as [-> | Hn].
  { destruct (Nat.leb_spec (2 ^ S j) (2 ^ j)) as [Hl |]; [cbn [Nat.pow] in Hl; lia|]. lia. }
  assert (H1 : (2 ^ i <= 2 ^ j)%nat) by (apply Nat.pow_le_mono_r; lia).
  destruct (Nat.leb_spec (2 ^ i) (2 ^ j)); [|lia]. change (2 * 2 ^ i)%nat with (2 ^ S i)%nat. rewrite IH by lia. rewrite app_len. cbn [Nat.pow]. lia.
Qed.
Lemma twInvLoop_len N X : forall f i t tw, (i < f)%nat ->
  length (twInvLoop A f N (2 ^ i) t X tw) = (length tw + 2 ^ S i - 1)%nat.
Proof.
  induction f as [|f IH]; intros i t tw Hi; [lia|]. cbn [twInvLoop]. pose proof (Nat.pow_nonzero 2 i).
  destruct (Nat.leb_spec 1 (2 ^ i)); [|lia]. destruct i as [|i].
  { cbn [Nat.pow]. destruct f as [|f]; cbn [twInvLoop]; [|change (1 / 2)%nat with 0%nat; cbn [Nat.leb]]; rewrite app_len; lia. }
  replace (2 ^ S i / 2)%nat with (2 ^ i)%nat by (apply Nat.div_unique_exact; [lia|reflexivity]). rewrite IH by lia. rewrite app_len. cbn [Nat.pow]. lia.
Qed.
Lemma table_lengths k e : (4 <= k)%nat -> NewEvaluator A (2 ^ k) = Ok e -> length (e_tw A e) = (2 ^ (k - 1) - 1)%nat /\ length (e_twInv A e) = (2 ^ (k - 1) - 1)%nat.
Proof.
  intros Hk. destruct k as [|[|k]]; [lia|lia|].
  assert (E1 : (2 ^ S (S k) / 2 = 2 ^ S k)%nat) by (symmetry; apply Nat.div_unique_exact; [lia|reflexivity]).
  assert (E2 : (2 ^ S k / 2 = 2 ^ k)%nat) by (symmetry; apply Nat.div_unique_exact; [lia|reflexivity]).
  unfold NewEvaluator. destruct (negb _); [discriminate|]. destruct (Nat.ltb _ 16); [discriminate|]. rewrite E1. unfold genTwiddleFactors. rewrite E2.
  destruct (BitReverseInPlace _ _) as [X | |]; [|discriminate..]. destruct (BitReverseInPlace _ _) as [Y | |]; [|discriminate..]. destruct (BitReverseInPlace _ _) as [Z | |]; [|discriminate..].
  intros H. injection H as <-. cbn [e_tw e_twInv]. replace (S (S k) - 1)%nat with (S k) by lia. pose proof (Nat.pow_gt_lin_r 2 (S k)). split.
  - etransitivity; [apply (twLoop_len k _ _ E2 (2 ^ S k) 0); lia|]. reflexivity.
  - rewrite twInvLoop_len by (cbn [Nat.pow] in *; lia). reflexivity.
Qed.
End Len.
Lemma k_values A F s o tw k z e p : exactF A F -> exact A (Z.to_nat (gn o)) z -> NewEvaluator A (Z.to_nat (gn o)) = Ok e ->
  fft_call A s o tw k -> cvals A (mm s) tw = e_tw A e -> folded A (Z.to_nat (gn o)) (fvals A (mm s) o) p ->
  terminates F (mkEnv (frame2 o tw) noData) fwdFFTInPlaceAVX2 s (fun m => exists v, becomes A o v (mm s) m /\
    forall i r, is_bitrev (Z.to_nat k - 1) i r -> (i < Z.to_nat (gn o) / 2)%nat -> cplx A v i = evalF A (Z.to_nat (gn o)) z p (1 - 4 * Z.of_nat r)).
Proof.
  intros X Ex Ev Cf Ht Hp. destruct (k_fwd A F s o tw k X Cf) as (s' & R & B). exists s'. split; [exact R|]. eexists. split; [exact B|].
  intros i r Hr Hi. rewrite Ht. destruct Cf as (_ & _ & Hk & HN & _). apply (net_folded A _ z e Ex Ev _ p) with (n := Z.to_nat k); try assumption; [apply fvals_length|].
  rewrite HN, Z2Nat.inj_pow by lia. reflexivity.
Qed.

(** A memory with given coefficients and tables. *)
Section Lay.
Variable A : arith.
Notation T := (car A).
Definition flat (l : list (T * T)) : list T := flat_map (fun c => [fst c; snd c]) l.
Definition blk (l : list T) (i : Z) : option (word T) := if (0 <=? i) && (i <? Z.of_nat (length l)) then Some (WF (nth (Z.to_nat i) l (a0 A))) else None.
Definition lay (c : list T) (t0 t1 : list (T * T)) : state T := mkSt (fun _ => WI 0) (fun _ => YI []) None
  (mkMem (fun _ => 8) (fun b => match b with 0%nat => blk c | 1%nat => blk (flat t0) | _ => blk (flat t1) end)).
Lemma blk_ok l i : 0 <= i < Z.of_nat (length l) -> blk l i = Some (WF (nth (Z.to_nat i) l (a0 A))).
Proof. intros H. unfold blk. destruct (Z.leb_spec 0 i), (Z.ltb_spec i (Z.of_nat (length l))); cbn [andb]; try lia. reflexivity. Qed.
Lemma flat_len l : length (flat l) = (2 * length l)%nat.
Proof. induction l as [|c l IH]; [reflexivity|]. cbn [flat flat_map app length]. fold (flat l). rewrite IH. lia. Qed.
Lemma flat_nth d l : forall i, (i < length l)%nat -> nth (2 * i) (flat l) d = fst (nth i l (d, d)) /\ nth (2 * i + 1) (flat l) d = snd (nth i l (d, d)).
Proof.
  induction l as [|c l IH]; intros i Hi; cbn [length] in Hi; [lia|]. destruct i as [|i]; [split; reflexivity|].
  replace (2 * S i)%nat with (S (S (2 * i))) by lia. cbn [flat flat_map app nth]. fold (flat l). replace (S (S (2 * i)) + 1)%nat with (S (S (2 * i + 1))) by lia. cbn [nth]. apply IH. lia.
Qed.
Definition blockOf (c : list T) (t0 t1 : list (T * T)) (b : nat) : list T := match b with 0%nat => c | 1%nat => flat t0 | _ => flat t1 end.
Lemma lay_floats c t0 t1 b n k cap : Z.of_nat (length (blockOf c t0 t1 b)) = k -> k < 2 ^ 59 -> floats A (mm (lay c t0 t1)) (mkG b 0 n cap) k.
Proof.
  intros Hn Hb. split; [reflexivity|]. cbn [gb go gn]. do 3 (split; [lia|]). intros i Hi. cbn [getm mm lay].
  destruct b as [|[|b]]; cbn [blockOf] in Hn; eexists; apply blk_ok; lia.
Qed.
Lemma lay_cvals c t0 t1 b t n cap : (b = 1%nat /\ t = t0 \/ b = 2%nat /\ t = t1) -> n = Z.of_nat (length t) -> cvals A (mm (lay c t0 t1)) (mkG b 0 n cap) = t.
Proof.
  intros Hb ->. unfold cvals. cbn [gn]. rewrite Nat2Z.id. apply (nth_ext _ _ (a0 A, a0 A) (a0 A, a0 A)); [rewrite map_length, seq_length; reflexivity|].
  intros i Hi. rewrite map_length, seq_length in Hi.
  match goal with |- nth i (map ?f _) _ = _ => rewrite (nth_indep _ _ (f 0%nat)) by (rewrite map_length, seq_length; exact Hi); rewrite (map_nth f) end.
  rewrite seq_nth by exact Hi. cbn [Nat.add]. unfold fval. cbn [gb go getm mm lay].
  destruct (flat_nth (a0 A) t i Hi) as [F1 F2]. pose proof (flat_len t) as FL.
  assert (G : forall q, (q < length (flat t))%nat -> match b with 0%nat => blk c | 1%nat => blk (flat t0) | _ => blk (flat t1) end (0 + Z.of_nat q) = Some (WF (nth q (flat t) (a0 A)))).
  { intros q Hq. destruct Hb as [[-> ->] | [-> ->]]; rewrite blk_ok by lia; do 3 f_equal; lia. }
  pose proof (G (2 * i)%nat ltac:(lia)) as G1. pose proof (G (2 * i + 1)%nat ltac:(lia)) as G2.
  replace (Z.of_nat (2 * i)) with (2 * Z.of_nat i) in G1 by lia. replace (Z.of_nat (2 * i + 1)) with (2 * Z.of_nat i + 1) in G2 by lia.
  rewrite G1, G2, F1, F2. symmetry. apply surjective_pairing.
Qed.
Lemma lay_fvals c t0 t1 n cap : n = Z.of_nat (length c) -> fvals A (mm (lay c t0 t1)) (mkG 0 0 n cap) = c.
Proof.
  intros ->. apply (nth_ext _ _ (a0 A) (a0 A)); [rewrite fvals_length; cbn [gn]; lia|]. intros i Hi. rewrite fvals_length in Hi. cbn [gn] in Hi.
  replace i with (Z.to_nat (Z.of_nat i)) at 1 by lia. rewrite fvals_nth by (cbn [gn]; lia). unfold fval. cbn [gb go getm mm lay]. rewrite blk_ok by lia. f_equal. lia.
Qed.
Lemma lay_call c t0 t1 b t k n cap cap' : (b = 1%nat /\ t = t0 \/ b = 2%nat /\ t = t1) -> 4 <= k < 50 -> Z.of_nat (length c) = 2 ^ k -> Z.of_nat (length t) = 2 ^ (k - 1) - 1 -> n = Z.of_nat (length t) ->
  fft_call A (lay c t0 t1) (mkG 0 0 (2 ^ k) cap) (mkG b 0 n cap') k.
Proof.
  intros Hb Hk Hc Ht ->. assert (P : 2 ^ k < 2 ^ 50) by (apply Z.pow_lt_mono_r; lia). assert (P2 : 2 ^ k = 2 * 2 ^ (k - 1)) by (rewrite <- Z.pow_succ_r by lia; f_equal; lia).
  split; [apply lay_floats; cbn [gn blockOf]; lia|]. split.
  { unfold cslice. apply lay_floats; cbn [gn]; [|lia]. destruct Hb as [[-> ->] | [-> ->]]; cbn [blockOf]; rewrite flat_len; lia. }
  cbn [gn gb]. split; [lia|]. split; [reflexivity|]. split; [lia|]. left. destruct Hb as [[-> _] | [-> _]]; discriminate.
Qed.
End Lay.
