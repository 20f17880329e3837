(** Lemmas about gadget parameters and decomposition. *)
From Verif Require Import Base NegaRing ModelNum SpecNum PfNum ModelPoly SpecPoly PfPoly ModelGadget SpecGadget.

(** ** Gadget parameters *)
Lemma CompileGadget_inv w p g : 0 < w <= 64 -> uword w (gl_base p) -> 0 <= gl_level p * 64 < 2 ^ 63 ->
  CompileGadget w p = Ok g ->
  gadget_ok w g /\ g_base g = gl_base p /\ Z.of_nat (g_level g) = gl_level p.
Proof.
  intros Hw Hb Hl. unfold CompileGadget.
  destruct (Z.ltb_spec (gl_base p) 2) as [|H2]; [discriminate|].
  destruct (IsPowerOfTwo (gl_base p)) eqn:E; [|discriminate]. cbn [negb].
  destruct (Z.leb_spec (gl_level p) 0) as [|H3]; [discriminate|].
  destruct (Log2 (gl_base p)) as [lb| |] eqn:EL; try discriminate.
  apply Log2_spec in EL as [Hp HL].
  apply IsPowerOfTwo_spec in E as (k & Hk & Ek).
  assert (lb = k) as ->.
  { destruct HL as [H0 [HL1 HL2]]. rewrite Ek in *.
    apply Z.pow_le_mono_r_iff in HL1; [|lia|lia].
    apply Z.pow_lt_mono_r_iff in HL2; [|lia|lia]. lia. }
  assert (1 <= k) as Hk1.
  { destruct (Z.eq_dec k 0) as [->|]; [|lia]. rewrite Ek in H2. change (2 ^ 0) with 1 in H2. lia. }
  assert (k < w) as Hkw.
  { destruct Hb as [_ Hb]. rewrite Ek in Hb. apply Z.pow_lt_mono_r_iff in Hb; lia. }
  assert (swrap 64 (k * gl_level p) = k * gl_level p) as ->.
  { apply swrap_small; [lia|]. unfold sword. change (64 - 1) with 63. split.
    - apply Z.le_trans with 0; [apply Z.opp_nonpos_nonneg; apply Z.pow_nonneg; lia|]. apply Z.mul_nonneg_nonneg; lia.
    - apply Z.le_lt_trans with (gl_level p * 64); [|lia]. rewrite Z.mul_comm. apply Z.mul_le_mono_nonneg_l; lia. }
  destruct (Z.ltb_spec w (k * gl_level p)) as [|H4]; [discriminate|].
  intros E; injection E as <-. unfold gadget_ok; cbn.
  rewrite Z2Nat.id by lia. repeat split; lia.
Qed.

Lemma CompileGadget_complete w b (l : nat) : 0 < w <= 64 -> 1 <= b < w -> (1 <= l)%nat -> b * Z.of_nat l <= w ->
  CompileGadget w (mkGadgetLit (2 ^ b) (Z.of_nat l)) = Ok (mkGadget (2 ^ b) b l w).
Proof.
  intros Hw Hb Hl Hbl. unfold CompileGadget; cbn [gl_base gl_level].
  assert (2 <= 2 ^ b) as H2. { change 2 with (2 ^ 1) at 1. apply Z.pow_le_mono_r; lia. }
  destruct (Z.ltb_spec (2 ^ b) 2) as [|_]; [lia|].
  assert (IsPowerOfTwo (2 ^ b) = true) as ->.
  { apply IsPowerOfTwo_spec. exists b; split; [lia|reflexivity]. }
  cbn [negb]. destruct (Z.leb_spec (Z.of_nat l) 0) as [|_]; [lia|].
  assert (Log2 (2 ^ b) = Ok b) as ->.
  { apply Log2_spec. split; [lia|]. unfold is_floor_log2.
    rewrite Z.pow_add_r by lia. change (2 ^ 1) with 2. lia. }
  rewrite swrap_small; [|lia|].
  - destruct (Z.ltb_spec w (b * Z.of_nat l)); [lia|]. now rewrite Nat2Z.id.
  - unfold sword. assert (0 <= b * Z.of_nat l) by (apply Z.mul_nonneg_nonneg; lia).
    change (2 ^ (64 - 1)) with 9223372036854775808. lia.
Qed.

Lemma gadget_lit_roundtrip w p g : 0 < w <= 64 -> uword w (gl_base p) -> 0 <= gl_level p * 64 < 2 ^ 63 ->
  CompileGadget w p = Ok g -> GadgetLiteral g = p /\ CompileGadget w (GadgetLiteral g) = Ok g.
Proof.
  intros Hw Hb Hl H. destruct (CompileGadget_inv w p g Hw Hb Hl H) as (Hok & E1 & E2).
  assert (GadgetLiteral g = p) as E. { unfold GadgetLiteral. rewrite E1, E2. now destruct p. }
  rewrite E. auto.
Qed.

Section G.
Context (w : Z) (p : gadget) (Hok : gadget_ok w p).
Notation b := (g_logBase p).
Notation l := (g_level p).
Notation B := (2 ^ g_logBase p).

Lemma LogBaseQ_range i : (i < l)%nat -> 0 <= LogBaseQ p i < w.
Proof.
  destruct Hok as (H1 & H2 & H3 & H4 & H5 & H6). intros Hi. unfold LogBaseQ. rewrite H4.
  assert ((Z.of_nat i + 1) * b <= Z.of_nat l * b) by (apply Z.mul_le_mono_nonneg_r; lia).
  assert (1 * b <= (Z.of_nat i + 1) * b) by (apply Z.mul_le_mono_nonneg_r; lia). lia.
Qed.
Lemma LogLast_range : 0 <= LogLastBaseQ p < w.
Proof.
  destruct Hok as (H1 & H2 & H3 & H4 & H5 & H6). unfold LogLastBaseQ. rewrite H4.
  assert (1 * b <= Z.of_nat l * b) by (apply Z.mul_le_mono_nonneg_r; lia). lia.
Qed.
Lemma w_pos : 0 < w. Proof. destruct Hok as (H1 & H2 & H3 & H4 & H5 & H6). lia. Qed.

Lemma BaseQ_pow i : (i < l)%nat -> BaseQ w p i = 2 ^ LogBaseQ p i.
Proof.
  intros Hi. pose proof (LogBaseQ_range i Hi). unfold BaseQ. rewrite Z.shiftl_1_l.
  apply wrap_small. split; [apply Z.pow_nonneg; lia|apply Z.pow_lt_mono_r; lia].
Qed.
Lemma BaseQ_exact i : (i < l)%nat -> is_baseq w b i (BaseQ w p i).
Proof.
  intros Hi. pose proof (LogBaseQ_range i Hi) as Hr. rewrite BaseQ_pow by exact Hi. unfold is_baseq.
  destruct Hok as (H1 & H2 & H3 & H4 & H5 & H6).
  rewrite <- Z.pow_mul_r by lia. rewrite <- Z.pow_add_r; [|lia|apply Z.mul_nonneg_nonneg; lia].
  f_equal. unfold LogBaseQ. rewrite H4. lia.
Qed.
Lemma FirstBaseQ_eq : FirstBaseQ w p = BaseQ w p 0.
Proof. unfold FirstBaseQ, BaseQ, LogFirstBaseQ, LogBaseQ. do 3 f_equal. lia. Qed.
Lemma LastBaseQ_eq : LastBaseQ w p = BaseQ w p (l - 1).
Proof.
  destruct Hok as (H1 & H2 & H3 & H4 & H5 & H6).
  unfold LastBaseQ, BaseQ, LogLastBaseQ, LogBaseQ. do 4 f_equal. lia.
Qed.
Lemma LogLast_eq : LogLastBaseQ p = LogBaseQ p (l - 1).
Proof.
  destruct Hok as (H1 & H2 & H3 & H4 & H5 & H6).
  unfold LogLastBaseQ, LogBaseQ. do 2 f_equal. lia.
Qed.
Lemma LogFirst_eq : LogFirstBaseQ p = LogBaseQ p 0.
Proof. unfold LogFirstBaseQ, LogBaseQ. f_equal. lia. Qed.

(** ** One digit *)
Definition bal (u : Z) : Z := (u + 2 ^ (b - 1)) mod B - 2 ^ (b - 1).
Definition nxt (u : Z) : Z := (u + 2 ^ (b - 1)) / B.

Lemma B_half : B = 2 * 2 ^ (b - 1).
Proof. destruct Hok as (H1 & _). rewrite <- Z.pow_succ_r by lia. f_equal; lia. Qed.

Lemma bal_range u : - 2 ^ (b - 1) <= bal u < 2 ^ (b - 1).
Proof.
  destruct Hok as (H1 & _). unfold bal. pose proof B_half as E.
  pose proof (Z.mod_pos_bound (u + 2 ^ (b - 1)) B (pow2_pos b ltac:(lia))). lia.
Qed.
Lemma bal_nxt u : u = B * nxt u + bal u.
Proof.
  destruct Hok as (H1 & _). unfold bal, nxt.
  pose proof (Z.div_mod (u + 2 ^ (b - 1)) B). pose proof (pow2_pos b). lia.
Qed.
Lemma bal_eqm u : eqm B u (bal u).
Proof. exists (nxt u). pose proof (bal_nxt u). lia. Qed.

Lemma div_sub_uniq u B0 q r : 0 < B0 -> 0 <= r < B0 -> u = B0 * q + r -> u / B0 = q /\ u mod B0 = r.
Proof.
  intros. split; [symmetry; eapply Z.div_unique|symmetry; eapply Z.mod_unique]; [left; eassumption|eassumption|left; eassumption|eassumption].
Qed.

Lemma land_half x k : 0 <= k -> 0 <= x < 2 * 2 ^ k -> Z.land x (2 ^ k) = if x <? 2 ^ k then 0 else 2 ^ k.
Proof.
  intros Hk Hx. apply Z.bits_inj'. intros n Hn.
  rewrite Z.land_spec. rewrite Z.pow2_bits_eqb by lia.
  destruct (Z.eqb_spec k n) as [<-|Hne].
  - rewrite andb_true_r. destruct (Z.ltb_spec x (2 ^ k)) as [H|H].
    + rewrite Z.bits_0. rewrite Z.testbit_spec' || idtac.
      apply Z.testbit_false; [lia|]. rewrite Z.div_small by lia. reflexivity.
    + rewrite Z.pow2_bits_true by lia. apply Z.testbit_true; [lia|].
      assert (x / 2 ^ k = 1) as ->; [|reflexivity].
      symmetry; apply Z.div_unique with (x - 2 ^ k); lia.
  - rewrite andb_false_r. destruct (x <? 2 ^ k); [now rewrite Z.bits_0|].
    now rewrite Z.pow2_bits_false.
Qed.

Lemma digitStep_spec u : uword w u ->
  fst (digitStep w p u) = wrap w (bal u) /\ snd (digitStep w p u) = nxt u.
Proof.
  intros Hu. unfold uword in Hu. pose proof w_pos as Hw. pose proof B_half as HB. pose proof Hok as (H1 & H2 & H3 & H4 & H5 & H6).
  pose proof (pow2_pos (b - 1) ltac:(lia)) as Hh.
  assert (B < 2 ^ w) as HBw by (apply Z.pow_lt_mono_r; lia).
  unfold digitStep. cbn zeta.
  rewrite H2. rewrite (wrap_small w (B - 1)) by (unfold uword; lia).
  replace (B - 1) with (Z.ones b) by (rewrite Z.ones_equiv; lia).
  rewrite Z.land_ones by lia.
  rewrite (Z.shiftr_div_pow2 u) by lia. rewrite (Z.shiftr_div_pow2 (u mod B)) by lia.
  rewrite (Z.shiftr_div_pow2 B) by lia. change (2 ^ 1) with 2.
  replace (B / 2) with (2 ^ (b - 1)) by (rewrite HB, Z.mul_comm, Z.div_mul; lia).
  pose proof (Z.div_mod u B ltac:(lia)) as Hdm. pose proof (Z.mod_pos_bound u B ltac:(lia)) as Hm.
  set (q := u / B) in *. set (r := u mod B) in *. clearbody q r.
  rewrite (land_half r (b - 1)) by lia.
  rewrite Z.shiftl_mul_pow2 by lia. change (2 ^ 1) with 2.
  unfold bal, nxt. set (h := 2 ^ (b - 1)) in *. set (BB := B) in *. clearbody h BB.
  cbn [fst snd].
  assert (0 <= q) as Hq. { destruct (Z_lt_le_dec q 0); [|lia]. assert (BB * q <= BB * -1) by (apply Z.mul_le_mono_nonneg_l; lia). lia. }
  assert (q < 2 ^ w - 1) as Hq2.
  { assert (2 * q <= BB * q) by (apply Z.mul_le_mono_nonneg_r; lia). lia. }
  destruct (Z.ltb_spec r h) as [Hr|Hr].
  - destruct (div_sub_uniq (u + h) BB q (r + h) ltac:(lia) ltac:(lia) ltac:(lia)) as [-> ->].
    rewrite (Z.div_small r h) by lia. split.
    + rewrite Z.mul_0_l, (wrap_small w 0) by (unfold uword; lia). f_equal; lia.
    + rewrite wrap_small; unfold uword; lia.
  - destruct (div_sub_uniq (u + h) BB (q + 1) (r - h) ltac:(lia) ltac:(lia) ltac:(lia)) as [-> ->].
    assert (r / h = 1) as -> by (symmetry; apply Z.div_unique with (r - h); lia).
    split.
    + unfold wrap at 1 3. apply eqm_mod_eq. rewrite wrap_eqm. apply eqm_eq. lia.
    + rewrite wrap_small; unfold uword; lia.
Qed.

(** ** The digit sequence *)
Fixpoint uiter (t : nat) (u : Z) : Z := match t with O => u | S t' => nxt (uiter t' u) end.

Lemma nxt_range u : uword w u -> uword w (nxt u).
Proof.
  destruct Hok as (H1 & H2 & H3 & H4 & H5 & H6). pose proof (pow2_pos (b - 1) ltac:(lia)). pose proof (pow2_pos b ltac:(lia)).
  assert (B < 2 ^ w) as HBw by (apply Z.pow_lt_mono_r; lia). pose proof B_half as HB.
  unfold uword. intros Hu. unfold nxt. split; [apply Z.div_pos; lia|].
  apply Z.div_lt_upper_bound; [lia|].
  apply Z.lt_le_trans with (2 * 2 ^ w); [lia|]. apply Z.mul_le_mono_nonneg_r; lia.
Qed.

Lemma uiter_range u : uword w u -> forall t, uword w (uiter t u).
Proof. intros Hu t. induction t as [|t IH]; cbn [uiter]; [exact Hu|now apply nxt_range]. Qed.

Lemma uiter_sum t u : u = uiter t u * B ^ Z.of_nat t + zsum t (fun s => bal (uiter s u) * B ^ Z.of_nat s).
Proof.
  induction t as [|t IH]; [cbn; lia|].
  cbn [uiter zsum]. rewrite Nat2Z.inj_succ, Z.pow_succ_r by lia.
  rewrite IH at 1. rewrite (bal_nxt (uiter t u)) at 1. ring.
Qed.

(** The digits as integers: digit [i] is produced after [l-1-i] carries. *)
Definition u0 (x : Z) : Z := DivRoundBits w x (LogLastBaseQ p).
Definition sdig (x : Z) (i : nat) : Z := bal (uiter (l - 1 - i) (u0 x)).

Lemma u0_word x : uword w (u0 x).
Proof. apply wrap_range. pose proof w_pos; lia. Qed.

Lemma sdig_range x i : - 2 ^ (b - 1) <= sdig x i < 2 ^ (b - 1).
Proof. apply bal_range. Qed.

Lemma sdig_sum x : eqm (B ^ Z.of_nat l) (u0 x) (zsum l (fun i => sdig x i * B ^ Z.of_nat (l - 1 - i))).
Proof.
  pose proof Hok as (H1 & H2 & H3 & H4 & H5 & H6).
  rewrite (zsum_rev l (fun i => sdig x i * B ^ Z.of_nat (l - 1 - i))).
  rewrite (zsum_ext l _ (fun s => bal (uiter s (u0 x)) * B ^ Z.of_nat s)).
  2:{ intros i Hi. unfold sdig. replace (l - 1 - (l - 1 - i))%nat with i by lia. reflexivity. }
  exists (uiter l (u0 x)). pose proof (uiter_sum l (u0 x)). lia.
Qed.

(** The recomposed value, as an integer, and its error. *)
Lemma gadget_pow_split i : (i < l)%nat -> 2 ^ LogBaseQ p i = B ^ Z.of_nat (l - 1 - i) * 2 ^ LogLastBaseQ p.
Proof.
  pose proof Hok as (H1 & H2 & H3 & H4 & H5 & H6). intros Hi. pose proof LogLast_range.
  rewrite <- Z.pow_mul_r by lia. rewrite <- Z.pow_add_r; [|apply Z.mul_nonneg_nonneg; lia|lia].
  f_equal. unfold LogBaseQ, LogLastBaseQ.
  replace (Z.of_nat (l - 1 - i)) with (Z.of_nat l - 1 - Z.of_nat i) by lia. lia.
Qed.

Definition gerr (x : Z) : Z := x - u0 x * 2 ^ LogLastBaseQ p.

Lemma gerr_bound x : uword w x -> 2 * Z.abs (gerr x) <= 2 ^ LogLastBaseQ p.
Proof.
  intros Hx. pose proof LogLast_range as HL.
  destruct (DivRoundBits_spec w x (LogLastBaseQ p) HL Hx) as [R _].
  unfold is_round_half_up in R. fold (u0 x) in R. unfold gerr. lia.
Qed.
Lemma gerr_half x : uword w x -> Z.abs (gerr x) <= 2 ^ LogLastBaseQ p / 2.
Proof. intros Hx. pose proof (gerr_bound x Hx). apply Z.div_le_lower_bound; lia. Qed.
Lemma gerr_zero x : uword w x -> b * Z.of_nat l = w -> gerr x = 0.
Proof.
  intros Hx E. pose proof (gerr_bound x Hx) as H. pose proof Hok as (H1 & H2 & H3 & H4 & H5 & H6).
  replace (LogLastBaseQ p) with 0 in H by (unfold LogLastBaseQ; lia). change (2 ^ 0) with 1 in H. lia.
Qed.

Lemma sdig_recompose x :
  eqm (2 ^ w) x (zsum l (fun i => sdig x i * 2 ^ LogBaseQ p i) + gerr x).
Proof.
  pose proof Hok as (H1 & H2 & H3 & H4 & H5 & H6). pose proof LogLast_range as HL.
  destruct (sdig_sum x) as [k Hk].
  rewrite (zsum_ext l (fun i => sdig x i * 2 ^ LogBaseQ p i)
     (fun i => (sdig x i * B ^ Z.of_nat (l - 1 - i)) * 2 ^ LogLastBaseQ p)).
  2:{ intros i Hi. rewrite gadget_pow_split by exact Hi. ring. }
  rewrite zsum_scale_r. exists k. unfold gerr.
  assert (2 ^ w = B ^ Z.of_nat l * 2 ^ LogLastBaseQ p) as E.
  { rewrite <- Z.pow_mul_r by lia. rewrite <- Z.pow_add_r; [|apply Z.mul_nonneg_nonneg; lia|lia].
    f_equal. unfold LogLastBaseQ. lia. }
  rewrite E, Z.mul_assoc, <- Hk. ring.
Qed.

(** ** The scalar loop *)
Lemma fst_step t x : fst (digitStep w p (uiter t (u0 x))) = wrap w (bal (uiter t (u0 x))).
Proof. apply digitStep_spec. apply uiter_range, u0_word. Qed.
Lemma snd_step t x : snd (digitStep w p (uiter t (u0 x))) = uiter (S t) (u0 x).
Proof. apply digitStep_spec. apply uiter_range, u0_word. Qed.

Lemma DecomposeScalarTo_nth out x : (l <= length out)%nat ->
  length (DecomposeScalarTo w p out x) = length out /\ (forall i, (i < l)%nat -> nthZ (DecomposeScalarTo w p out x) i = wrap w (sdig x i)) /\ (forall i, (l <= i)%nat -> nthZ (DecomposeScalarTo w p out x) i = nthZ out i).
Proof.
  intros Hlen. pose proof Hok as (H1 & H2 & H3 & H4 & H5 & H6).
  unfold DecomposeScalarTo. fold (u0 x).
  match goal with |- context [forN 0 (l - 1) ?f ?s] => set (body := f); set (st := s) end.
  set (P := fun (t : nat) (s : Z * list Z) => fst s = uiter t (u0 x) /\ length (snd s) = length out /\ (forall i, (l - 1 - t < i < l)%nat -> nthZ (snd s) i = wrap w (sdig x i)) /\ (forall i, (l <= i)%nat -> nthZ (snd s) i = nthZ out i)).
  assert (P (l - 1)%nat (forN 0 (l - 1) body st)) as HP.
  { apply (forN_ind P); unfold P.
    - cbn. repeat split; auto. intros; lia.
    - intros i [u o] Hi (E1 & E2 & E3 & E4). cbn [fst snd] in *. subst u. unfold body.
      replace (0 + i)%nat with i by lia.
      destruct (digitStep w p (uiter i (u0 x))) as [d u'] eqn:ED.
      pose proof (fst_step i x) as F1. pose proof (snd_step i x) as F2. rewrite ED in F1, F2. cbn [fst snd] in *. subst d u'.
      rewrite upd_length. repeat split; auto.
      + intros j Hj. unfold nthZ. rewrite nth_upd.
        destruct (Nat.eqb_spec j (l - 1 - i)) as [->|Hne]; cbn [andb].
        * destruct (Nat.ltb_spec (l - 1 - i) (length o)); [|lia]. unfold sdig. do 3 f_equal. lia.
        * apply E3. lia.
      + intros j Hj. unfold nthZ. rewrite nth_upd_other by lia. apply E4. lia. }
  destruct (forN 0 (l - 1) body st) as [u o]. destruct HP as (E1 & E2 & E3 & E4). cbn [fst snd] in *. subst u.
  rewrite upd_length. repeat split; auto.
  - intros i Hi. unfold nthZ. rewrite nth_upd. destruct (Nat.eqb_spec i 0) as [->|Hne]; cbn [andb].
    + destruct (Nat.ltb_spec 0 (length o)); [|lia]. rewrite fst_step. unfold sdig. do 3 f_equal. lia.
    + apply E3. lia.
  - intros i Hi. unfold nthZ. rewrite nth_upd_other by lia. apply E4; lia.
Qed.

Lemma DecomposeScalarTo_tab out x : length out = l ->
  DecomposeScalarTo w p out x = tab l (fun i => wrap w (sdig x i)).
Proof.
  intros Hl. destruct (DecomposeScalarTo_nth out x ltac:(lia)) as (L & H & _).
  apply nthZ_ext; [now rewrite tab_length, L|]. intros i Hi. rewrite L, Hl in Hi. rewrite H, nthZ_tab by lia. reflexivity.
Qed.

Lemma Decompose_balanced out x : length out = l -> balanced w b (DecomposeScalarTo w p out x).
Proof.
  intros Hl. rewrite DecomposeScalarTo_tab by exact Hl. unfold balanced. apply Forall_tab. intros i Hi.
  pose proof w_pos. split; [apply wrap_range; lia|]. exists (sdig x i). split; [apply sdig_range|apply wrap_eqm].
Qed.

Lemma RecomposeScalar_eqm d : eqm (2 ^ w) (RecomposeScalar w p d) (zsum l (fun i => nthZ d i * 2 ^ LogBaseQ p i)).
Proof.
  unfold RecomposeScalar. set (P := fun n s => (n <= l)%nat -> eqm (2 ^ w) s (zsum n (fun i => nthZ d i * 2 ^ LogBaseQ p i))).
  enough (P l (forN 0 l (fun i x => wrap w (x + wrap w (Z.shiftl (nthZ d i) (LogBaseQ p i)))) 0)) as H by (apply H; lia).
  apply (forN_ind P); unfold P; [reflexivity|].
  intros i s Hi IH _. cbn [zsum]. rewrite !wrap_eqm, IH by lia.
  rewrite Z.shiftl_mul_pow2 by (apply LogBaseQ_range; lia). reflexivity.
Qed.
Lemma RecomposeScalar_word d : (0 < l)%nat -> uword w (RecomposeScalar w p d).
Proof.
  intros Hl. unfold RecomposeScalar. pose proof w_pos. destruct l as [|n]; [lia|]. rewrite forN_S_r. apply wrap_range; lia.
Qed.

Lemma Recompose_Decompose out x : length out = l -> uword w x ->
  eqm (2 ^ w) (x - RecomposeScalar w p (DecomposeScalarTo w p out x)) (gerr x).
Proof.
  intros Hl Hx. rewrite RecomposeScalar_eqm, DecomposeScalarTo_tab by exact Hl.
  rewrite (sdig_recompose x) at 1.
  rewrite (zsum_eqm (2 ^ w) l (fun i => nthZ (tab l (fun i => wrap w (sdig x i))) i * 2 ^ LogBaseQ p i)
             (fun i => sdig x i * 2 ^ LogBaseQ p i)).
  - apply eqm_eq; lia.
  - intros i Hi. rewrite nthZ_tab by exact Hi. rewrite wrap_eqm. reflexivity.
Qed.

Lemma Recompose_Decompose_dist out x : length out = l -> uword w x ->
  dist2_le (2 ^ w) x (RecomposeScalar w p (DecomposeScalarTo w p out x)) (2 ^ LogLastBaseQ p).
Proof.
  intros Hl Hx. exists (gerr x). split; [now apply Recompose_Decompose|now apply gerr_bound].
Qed.
Lemma Recompose_Decompose_exact out x : length out = l -> uword w x -> b * Z.of_nat l = w ->
  RecomposeScalar w p (DecomposeScalarTo w p out x) = x.
Proof.
  intros Hl Hx E. pose proof Hok as (H1 & H2 & H3 & H4 & H5 & H6).
  symmetry. apply (eqm_small (2 ^ w)); [|exact Hx|apply RecomposeScalar_word; lia].
  pose proof (Recompose_Decompose out x Hl Hx) as H. rewrite (gerr_zero x Hx E) in H.
  destruct H as [k Hk]. exists k. lia.
Qed.

(** ** Polynomials *)
Definition shape (m N : nat) (o : list (list Z)) : Prop := length o = m /\ forall j, (j < m)%nat -> length (nth j o []) = N.

Lemma upd2_shape m N o j i v : shape m N o -> shape m N (upd2 o j i v).
Proof.
  intros [L H]. unfold upd2. split; [now rewrite upd_length|]. intros k Hk. rewrite nth_upd.
  destruct (Nat.eqb_spec k j) as [->|]; cbn [andb]; [|auto].
  destruct (Nat.ltb_spec j (length o)); [|auto]. rewrite upd_length. auto.
Qed.
Lemma nth_upd2 m N o j i v j' i' : shape m N o -> (j < m)%nat -> (i < N)%nat ->
  nthZ (nth j' (upd2 o j i v) []) i' = if ((j' =? j)%nat && (i' =? i)%nat)%bool then v else nthZ (nth j' o []) i'.
Proof.
  intros [L H] Hj Hi. unfold upd2. rewrite nth_upd.
  destruct (Nat.eqb_spec j' j) as [->|]; cbn [andb]; [|reflexivity].
  destruct (Nat.ltb_spec j (length o)); [|lia]. unfold nthZ. rewrite nth_upd.
  rewrite (H j Hj). destruct (Nat.eqb_spec i' i); cbn [andb]; [|reflexivity].
  destruct (Nat.ltb_spec i N); [reflexivity|lia].
Qed.

Lemma DecomposePolyTo_nth m out c : (l <= m)%nat -> shape m (length c) out ->
  shape m (length c) (DecomposePolyTo w p out c) /\ forall j i, (i < length c)%nat ->
    nthZ (nth j (DecomposePolyTo w p out c) []) i =
    if (j <? l)%nat then wrap w (sdig (nthZ c i) j) else nthZ (nth j out []) i.
Proof.
  intros Hm Hs. pose proof Hok as (H1 & H2 & H3 & H4 & H5 & H6).
  unfold DecomposePolyTo.
  match goal with |- context [forN 0 (length c) ?f out] => set (outer := f) end.
  set (P := fun (n : nat) (o : list (list Z)) => shape m (length c) o /\ forall j i, (i < length c)%nat -> nthZ (nth j o []) i =
       if ((j <? l)%nat && (i <? n)%nat)%bool then wrap w (sdig (nthZ c i) j) else nthZ (nth j out []) i).
  assert (P (length c) (forN 0 (length c) outer out)) as HP.
  { apply (forN_ind P); unfold P.
    - split; [exact Hs|]. intros j i Hi. destruct (Nat.ltb_spec i 0); [lia|]. now rewrite andb_false_r.
    - intros n o Hn [So Ho]. replace (0 + n)%nat with n by lia. unfold outer. fold (u0 (nthZ c n)).
      set (x := nthZ c n).
      match goal with |- context [forN 0 (l - 1) ?f ?s] => set (body := f); set (st := s) end.
      set (R := fun (t : nat) (s : Z * list (list Z)) => fst s = uiter t (u0 x) /\ shape m (length c) (snd s) /\ forall j i, (i < length c)%nat -> nthZ (nth j (snd s) []) i =
             if ((l - 1 - t <? j)%nat && (j <? l)%nat && (i =? n)%nat)%bool then wrap w (sdig x j) else nthZ (nth j o []) i).
      assert (R (l - 1)%nat (forN 0 (l - 1) body st)) as HR.
      { apply (forN_ind R); unfold R.
        - unfold st; cbn [fst snd]. split; [reflexivity|]. split; [exact So|]. intros j i Hi.
          destruct (Nat.ltb_spec (l - 1 - 0) j), (Nat.ltb_spec j l); cbn [andb]; try reflexivity; lia.
        - intros t [u s] Ht (E1 & E2 & E3). cbn [fst snd] in *. subst u. unfold body.
          replace (0 + t)%nat with t by lia.
          destruct (digitStep w p (uiter t (u0 x))) as [d u'] eqn:ED.
          pose proof (fst_step t x) as F1. pose proof (snd_step t x) as F2. rewrite ED in F1, F2. cbn [fst snd] in *. subst d u'.
          split; [reflexivity|]. split; [now apply upd2_shape|]. intros j i Hi.
          rewrite (nth_upd2 m (length c)) by (auto; lia). rewrite E3 by exact Hi.
          destruct (Nat.eqb_spec j (l - 1 - t)) as [->|Hne]; cbn [andb].
          + destruct (Nat.eqb_spec i n) as [->|]; cbn [andb].
            * destruct (Nat.ltb_spec (l - 1 - S t) (l - 1 - t)); [|lia]. destruct (Nat.ltb_spec (l - 1 - t) l); [|lia].
              cbn [andb]. unfold sdig. do 3 f_equal. lia.
            * now rewrite !andb_false_r.
          + destruct (Nat.ltb_spec (l - 1 - t) j), (Nat.ltb_spec (l - 1 - S t) j); try reflexivity; lia. }
      destruct (forN 0 (l - 1) body st) as [u s]. destruct HR as (E1 & E2 & E3). cbn [fst snd] in *. subst u.
      split; [now apply upd2_shape|]. intros j i Hi.
      rewrite (nth_upd2 m (length c)) by (auto; lia). rewrite E3 by exact Hi. rewrite Ho by exact Hi.
      destruct (Nat.eqb_spec j 0) as [->|]; cbn [andb].
      + destruct (Nat.ltb_spec 0 l); [|lia]. destruct (Nat.ltb_spec (l - 1 - (l - 1)) 0); [lia|]. cbn [andb].
        destruct (Nat.eqb_spec i n) as [->|].
        * destruct (Nat.ltb_spec n (S n)); [|lia]. rewrite fst_step. unfold sdig, x. do 3 f_equal. lia.
        * destruct (Nat.ltb_spec i n), (Nat.ltb_spec i (S n)); try lia; reflexivity.
      + destruct (Nat.ltb_spec (l - 1 - (l - 1)) j); [|lia]. cbn [andb].
        destruct (Nat.ltb_spec j l); cbn [andb]; [|reflexivity].
        destruct (Nat.eqb_spec i n) as [->|].
        * destruct (Nat.ltb_spec n (S n)); [reflexivity|lia].
        * destruct (Nat.ltb_spec i n), (Nat.ltb_spec i (S n)); try lia; reflexivity. }
  destruct HP as [S1 S2]. split; [exact S1|]. intros j i Hi. rewrite S2 by exact Hi.
  destruct (Nat.ltb_spec i (length c)); [|lia]. now rewrite andb_true_r.
Qed.

(** The digit polynomials. *)
Definition dpolys (c : list Z) : list (list Z) := tab l (fun j => map (fun x => wrap w (sdig x j)) c).

Lemma DecomposePolyTo_eq out c : shape l (length c) out -> DecomposePolyTo w p out c = dpolys c.
Proof.
  intros Hs. destruct (DecomposePolyTo_nth l out c ltac:(lia) Hs) as [[L S1] S2].
  apply (list_ext []); [unfold dpolys; now rewrite tab_length|]. intros j Hj. rewrite L in Hj.
  unfold dpolys. rewrite nth_tab by exact Hj. apply nthZ_ext.
  - rewrite map_length. auto.
  - intros i Hi. rewrite S1 in Hi by exact Hj. rewrite S2 by exact Hi. rewrite nthZ_map by exact Hi.
    destruct (Nat.ltb_spec j l); [reflexivity|lia].
Qed.

Lemma DecomposePolyTo_scalar m out c out1 : (l <= m)%nat -> shape m (length c) out -> length out1 = l ->
  forall i j, (i < length c)%nat -> (j < l)%nat ->
    nthZ (nth j (DecomposePolyTo w p out c) []) i = nthZ (DecomposeScalarTo w p out1 (nthZ c i)) j.
Proof.
  intros Hm Hs H1 i j Hi Hj. destruct (DecomposePolyTo_nth m out c Hm Hs) as [_ S2].
  rewrite S2 by exact Hi. rewrite DecomposeScalarTo_tab by exact H1. rewrite nthZ_tab by exact Hj.
  destruct (Nat.ltb_spec j l); [reflexivity|lia].
Qed.

Lemma nthZ_column n (d : list (list Z)) j : nthZ (map (fun q => nthZ q n) d) j = nthZ (nth j d []) n.
Proof.
  destruct (Nat.lt_ge_cases j (length d)) as [Hd|Hd].
  - unfold nthZ at 1. rewrite (nth_indep _ 0 (nthZ [] n)) by now rewrite map_length.
    now rewrite (map_nth (fun q => nthZ q n)).
  - rewrite (nth_overflow d) by lia. rewrite nthZ_out by (rewrite map_length; lia). now destruct n.
Qed.

Lemma RecomposePolyTo_nth out d :
  length (RecomposePolyTo w p out d) = length out /\ forall i, (i < length out)%nat -> nthZ (RecomposePolyTo w p out d) i = RecomposeScalar w p (map (fun q => nthZ q i) d).
Proof.
  unfold RecomposePolyTo, RecomposeScalar.
  match goal with |- context [forN 0 (length out) ?f out] => set (outer := f) end.
  set (V := fun i => forN 0 l (fun j x => wrap w (x + wrap w (Z.shiftl (nthZ (map (fun q => nthZ q i) d) j) (LogBaseQ p j)))) 0).
  set (P := fun (n : nat) (o : list Z) => length o = length out /\ forall i, (i < n)%nat -> nthZ o i = V i).
  assert (P (length out) (forN 0 (length out) outer out)) as HP.
  { apply (forN_ind P); unfold P; [split; [reflexivity|intros; lia]|].
    intros n o Hn [L H]. replace (0 + n)%nat with n by lia. unfold outer.
    match goal with |- context [forN 0 l ?f ?s] => set (body := f); set (st := s) end.
    set (R := fun (t : nat) (s : list Z) => length s = length out /\ (forall i, (i < n)%nat -> nthZ s i = V i) /\ nthZ s n = forN 0 t (fun j x => wrap w (x + wrap w (Z.shiftl (nthZ (map (fun q => nthZ q n) d) j) (LogBaseQ p j)))) 0).
    assert (R l (forN 0 l body st)) as HR.
    { apply (forN_ind R); unfold R.
      - unfold st. rewrite upd_length. repeat split; auto.
        + intros i Hi. unfold nthZ. rewrite nth_upd_other by lia. now apply H.
        + unfold nthZ. rewrite nth_upd_same by lia. reflexivity.
      - intros j s Hj (E1 & E2 & E3). replace (0 + j)%nat with j by lia. unfold body. rewrite upd_length.
        repeat split; auto.
        + intros i Hi. unfold nthZ. rewrite nth_upd_other by lia. now apply E2.
        + unfold nthZ at 1. rewrite nth_upd_same by lia. rewrite forN_S_r, E3. cbn [Nat.add].
          now rewrite nthZ_column. }
    destruct HR as (E1 & E2 & E3). split; [exact E1|]. intros i Hi.
    destruct (Nat.eq_dec i n) as [->|]; [exact E3|apply E2; lia]. }
  destruct HP as [L H]. split; [exact L|]. intros i Hi. now apply H.
Qed.

(** Recomposition of a decomposed polynomial, in the ring. *)
Context (N : nat) (HN : (0 < N)%nat).
Definition gerrp (c : list Z) : npoly N := pol N (map gerr c).

Lemma pbound_gerrp c : wpoly w N c -> pbound (2 ^ LogLastBaseQ p / 2) (gerrp c).
Proof.
  intros [L W]. apply pbound_coeffs; [exact HN|]. intros i Hi. unfold gerrp. rewrite cf_pol_at by assumption.
  rewrite nthZ_map by lia. apply gerr_half. apply (Forall_nth_lt _ _ 0 _ W). lia.
Qed.

Definition dpol (c : list Z) (j : nat) : npoly N := pol N (map (fun x => sdig x j) c).
Lemma pbound_dpol c j : length c = N -> pbound (2 ^ (b - 1)) (dpol c j).
Proof.
  intros L. apply pbound_coeffs; [exact HN|]. intros i Hi. unfold dpol. rewrite cf_pol_at by assumption.
  rewrite nthZ_map by lia. pose proof (sdig_range (nthZ c i) j). lia.
Qed.
Lemma pol_dpolys c j : length c = N -> (j < l)%nat -> peq (2 ^ w) (pol N (nth j (dpolys c) [])) (dpol c j).
Proof.
  intros L Hj. unfold dpolys. rewrite nth_tab by exact Hj. apply pol_peq; [exact HN|].
  intros i Hi. unfold dpol. rewrite cf_pol_at by assumption. rewrite !nthZ_map by lia. apply wrap_eqm.
Qed.
Lemma fwd_dpolys c j : length c = N -> (j < l)%nat -> peq 0 (pol N (fwdFFT w (nth j (dpolys c) []))) (dpol c j).
Proof.
  intros L Hj. unfold dpolys. rewrite nth_tab by exact Hj. apply pol_peq; [exact HN|].
  intros i Hi. unfold dpol. rewrite cf_pol_at by assumption. unfold fwdFFT. rewrite map_map. rewrite !nthZ_map by lia.
  apply eqm_eq. pose proof w_pos as Hw. pose proof (sdig_range (nthZ c i) j) as Hs.
  assert (2 ^ (b - 1) <= 2 ^ (w - 1)) by (apply Z.pow_le_mono_r; destruct Hok as (? & _ & _ & _ & ? & _); lia).
  rewrite <- (swrap_small w (sdig (nthZ c i) j)) at 2 by (unfold sword; lia).
  unfold swrap. f_equal. apply eqm_mod_eq. rewrite wrap_eqm. reflexivity.
Qed.
Lemma dpol_recompose c : length c = N ->
  peq (2 ^ w) (pol N c) (padd (psum l (fun j => pscale (2 ^ LogBaseQ p j) (dpol c j))) (gerrp c)).
Proof.
  intros L. apply pol_peq; [exact HN|]. intros i Hi. cbn [cf padd]. rewrite cf_psum.
  unfold gerrp. rewrite cf_pol_at by assumption. rewrite nthZ_map by lia.
  rewrite (sdig_recompose (nthZ c i)) at 1.
  rewrite (zsum_ext l (fun j => cf (pscale (2 ^ LogBaseQ p j) (dpol c j)) (Z.of_nat i))
     (fun j => sdig (nthZ c i) j * 2 ^ LogBaseQ p j)); [reflexivity|].
  intros j Hj. cbn [cf pscale]. change (pol_cf N (map (fun x => sdig x j) c)) with (cf (dpol c j)).
  unfold dpol. rewrite cf_pol_at by assumption. rewrite nthZ_map by lia. ring.
Qed.

Lemma RecomposePoly_Decompose out out1 c : shape l (length c) out -> length out1 = length c -> Forall (uword w) c ->
  forall i, (i < length c)%nat ->
   dist2_le (2 ^ w) (nthZ c i) (nthZ (RecomposePolyTo w p out1 (DecomposePolyTo w p out c)) i) (2 ^ LogLastBaseQ p).
Proof.
  intros Hs L W i Hi. destruct (RecomposePolyTo_nth out1 (DecomposePolyTo w p out c)) as [L1 H1].
  rewrite H1 by lia. rewrite DecomposePolyTo_eq by exact Hs.
  assert (map (fun q => nthZ q i) (dpolys c) = DecomposeScalarTo w p (repeat 0 l) (nthZ c i)) as ->.
  { rewrite DecomposeScalarTo_tab by apply repeat_length. unfold dpolys, tab. rewrite map_map. apply map_ext.
    intros j. now rewrite nthZ_map. }
  apply Recompose_Decompose_dist; [apply repeat_length|]. apply (Forall_nth_lt _ _ 0 _ W). lia.
Qed.
Lemma RecomposePoly_Decompose_exact out out1 c : shape l (length c) out -> length out1 = length c -> Forall (uword w) c ->
  b * Z.of_nat l = w -> RecomposePolyTo w p out1 (DecomposePolyTo w p out c) = c.
Proof.
  intros Hs L W E. destruct (RecomposePolyTo_nth out1 (DecomposePolyTo w p out c)) as [L1 H1].
  apply nthZ_ext; [lia|]. intros i Hi.
  rewrite H1 by lia. rewrite DecomposePolyTo_eq by exact Hs.
  assert (map (fun q => nthZ q i) (dpolys c) = DecomposeScalarTo w p (repeat 0 l) (nthZ c i)) as ->.
  { rewrite DecomposeScalarTo_tab by apply repeat_length. unfold dpolys, tab. rewrite map_map. apply map_ext_in.
    intros j _. rewrite nthZ_map by lia. reflexivity. }
  apply Recompose_Decompose_exact; [apply repeat_length| |exact E]. apply (Forall_nth_lt _ _ 0 _ W). lia.
Qed.
End G.

Lemma DecomposeScalarTo_frame w p out x : gadget_ok w p -> (g_level p <= length out)%nat ->
  length (DecomposeScalarTo w p out x) = length out /\
  (forall i, (i < g_level p)%nat ->
     nthZ (DecomposeScalarTo w p out x) i = nthZ (DecomposeScalar w p x) i) /\
  (forall i, (g_level p <= i)%nat -> nthZ (DecomposeScalarTo w p out x) i = nthZ out i).
Proof.
  intros Hok Hl. destruct (DecomposeScalarTo_nth w p Hok out x Hl) as (L & H & F).
  repeat split; auto. intros i Hi. unfold DecomposeScalar.
  rewrite H by exact Hi. rewrite (DecomposeScalarTo_tab w p Hok) by apply repeat_length. now rewrite nthZ_tab by exact Hi.
Qed.
Lemma DecomposePolyTo_frame w p m out c : gadget_ok w p -> (g_level p <= m)%nat -> shape m (length c) out ->
  shape m (length c) (DecomposePolyTo w p out c) /\
  forall j, (g_level p <= j)%nat -> nth j (DecomposePolyTo w p out c) [] = nth j out [].
Proof.
  intros Hok Hm Hs. destruct (DecomposePolyTo_nth w p Hok m out c Hm Hs) as [S1 S2].
  split; [exact S1|]. intros j Hj. destruct (Nat.lt_ge_cases j m) as [Hjm|Hjm].
  - destruct S1 as [_ S1], Hs as [_ Hs]. apply nthZ_ext; [rewrite S1, Hs by exact Hjm; reflexivity|].
    intros i Hi. rewrite S1 in Hi by exact Hjm. rewrite S2 by exact Hi.
    destruct (Nat.ltb_spec j (g_level p)); [lia|reflexivity].
  - destruct S1 as [S1 _], Hs as [Hs _]. rewrite !nth_overflow by lia. reflexivity.
Qed.
Lemma Recompose_error_spec w p out x : gadget_ok w p -> length out = g_level p -> uword w x ->
  exists g, is_baseq w (g_logBase p) (g_level p - 1) g /\
    dist2_le (2 ^ w) x (RecomposeScalar w p (DecomposeScalarTo w p out x)) g.
Proof.
  intros Hok Hl Hx. pose proof Hok as (H1 & H2 & H3 & H4 & H5 & H6). exists (BaseQ w p (g_level p - 1)).
  split; [apply BaseQ_exact; [exact Hok|lia]|]. rewrite BaseQ_pow by (auto; lia).
  rewrite <- (LogLast_eq w) by exact Hok. now apply Recompose_Decompose_dist.
Qed.
Lemma BaseQ_full w p : gadget_ok w p -> forall i, (i < g_level p)%nat ->
  is_baseq w (g_logBase p) i (BaseQ w p i) /\ uword w (BaseQ w p i) /\ BaseQ w p i = 2 ^ LogBaseQ p i /\ 0 <= LogBaseQ p i.
Proof.
  intros Hok i Hi. pose proof (w_pos w p Hok). pose proof (LogBaseQ_range w p Hok i Hi).
  split; [now apply BaseQ_exact|]. split; [apply wrap_range; lia|]. split; [now apply BaseQ_pow|lia].
Qed.
Lemma BaseQ_extremes w p : gadget_ok w p ->
  FirstBaseQ w p = BaseQ w p 0 /\ LastBaseQ w p = BaseQ w p (g_level p - 1) /\
  LogFirstBaseQ p = LogBaseQ p 0 /\ LogLastBaseQ p = LogBaseQ p (g_level p - 1) /\
  forall i, (i < g_level p)%nat -> LastBaseQ w p <= BaseQ w p i <= FirstBaseQ w p.
Proof.
  intros Hok. pose proof Hok as (H1 & H2 & H3 & H4 & H5 & H6).
  rewrite FirstBaseQ_eq, (LastBaseQ_eq w p Hok). repeat (split; [reflexivity|]).
  split; [apply LogFirst_eq|]. split; [now apply (LogLast_eq w)|].
  intros i Hi. rewrite !BaseQ_pow by (auto; lia).
  pose proof (LogBaseQ_range w p Hok (g_level p - 1) ltac:(lia)). pose proof (LogBaseQ_range w p Hok i Hi).
  pose proof (LogBaseQ_range w p Hok 0 ltac:(lia)).
  assert (LogBaseQ p (g_level p - 1) <= LogBaseQ p i <= LogBaseQ p 0) as Hm.
  { unfold LogBaseQ. rewrite H4. replace (Z.of_nat (g_level p - 1) + 1) with (Z.of_nat (g_level p)) by lia.
    split; apply Z.sub_le_mono_l; apply Z.mul_le_mono_nonneg_r; lia. }
  split; apply Z.pow_le_mono_r; lia.
Qed.
Lemma CompileGadget_overflow : exists p g, CompileGadget 32 p = Ok g /\ gl_base p = 16 /\ 2 ^ 32 < 4 * gl_level p.
Proof.
  exists (mkGadgetLit 16 (2 ^ 62)). unfold CompileGadget. cbn [gl_base gl_level].
  replace (16 <? 2) with false by reflexivity. replace (IsPowerOfTwo 16) with true by reflexivity. cbn [negb].
  replace (2 ^ 62 <=? 0) with false by reflexivity. replace (Log2 16) with (@Ok Z 4) by reflexivity. cbn iota.
  replace (32 <? swrap 64 (4 * 2 ^ 62)) with false by (vm_compute; reflexivity).
  eexists. split; [reflexivity|]. split; [reflexivity|]. vm_compute. reflexivity.
Qed.
