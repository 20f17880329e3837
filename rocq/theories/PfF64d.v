(** float64 lanes: conversions to and from words. *)
From Coq Require Import Lia Floats.SpecFloat.
From Verif Require Import Base ModelNum ModelAsm ModelF64 SpecF64 PfF64 PfF64b PfF64c.
Import ListNotations.
Open Scope Z_scope.

Definition exactRule (up : Z -> Z -> Z -> bool) : Prop := forall q k, 0 < k -> up q 0 k = false.
Lemma exact_even : exactRule upEven. Proof. intros q k H. unfold upEven. destruct (Z.ltb_spec k (2 * 0)), (Z.eqb_spec k (2 * 0)); try lia; reflexivity. Qed.
Lemma exact_zero : exactRule upZero. Proof. intros q k H. reflexivity. Qed.
Lemma round_value up s m e n : exactRule up -> has_value (S754_finite s m e) n -> cond_Zopp s (roundZ up (Zpos m) e) = n.
Proof.
  intros Hu. cbn [has_value]. unfold roundZ. rewrite <- cz. destruct (Z.leb_spec 0 e) as [C|C]; [intros ->; destruct s; cbn [cond_Zopp]; ring|].
  intros H. pose proof (pow_pos2 (- e) ltac:(lia)) as P. set (K := 2 ^ (- e)) in *. cbv zeta.
  assert (E : Zpos m = cond_Zopp s n * K) by (destruct s; cbn [cond_Zopp] in *; lia). rewrite E, Z.div_mul, Z.mod_mul by lia. rewrite Hu by exact P. destruct s; cbn [cond_Zopp]; ring.
Qed.
Lemma cvt32_value y n : has_value y n -> - 2 ^ 31 <= n <= 2 ^ 31 -> cvt32 y = n mod 2 ^ 32.
Proof.
  intros H B. destruct y as [s|s| |s m e]; try contradiction; [cbn in H; subst n; reflexivity|]. cbn [cvt32]. cbv zeta. rewrite (round_value upEven s m e n exact_even H).
  destruct (Z.leb_spec (- 2 ^ 31) n); [|lia]. destruct (Z.ltb_spec n (2 ^ 31)); cbn [andb]; [reflexivity|]. replace n with (2 ^ 31) by lia. reflexivity.
Qed.
Lemma cvt64_value y n : has_value y n -> - 2 ^ 63 <= n <= 2 ^ 63 -> cvt64 y = n mod 2 ^ 64.
Proof.
  intros H B. destruct y as [s|s| |s m e]; try contradiction; [cbn in H; subst n; reflexivity|]. cbn [cvt64]. cbv zeta. rewrite (round_value upZero s m e n exact_zero H).
  destruct (Z.leb_spec (- 2 ^ 63) n); [|lia]. destruct (Z.ltb_spec n (2 ^ 63)); cbn [andb]; [reflexivity|]. replace n with (2 ^ 63) by lia. reflexivity.
Qed.

(** ** Words to floats *)
Lemma ofbits_norm E M : 0 < E < 2047 -> 0 <= M < 2 ^ 52 -> exists p, Zpos p = 2 ^ 52 + M /\ ofbits64 (E * 2 ^ 52 + M) = S754_finite false p (E - 1075).
Proof.
  intros HE HM. unfold ofbits64. assert (P : 0 < 2 ^ 52) by reflexivity.
  destruct (2 ^ 52 + M) as [|p|p] eqn:EP; try lia. exists p. split; [reflexivity|]. cbv zeta.
  rewrite (Z.add_comm (E * 2 ^ 52) M), Z.mod_add, Z.div_add, (Z.mod_small M), (Z.div_small M), Z.add_0_l, (Z.mod_small E) by lia.
  destruct (Z.eqb_spec E 2047); [lia|]. destruct (Z.eqb_spec E 0); [lia|]. rewrite EP.
  destruct (Z.leb_spec (2 ^ 63) (M + E * 2 ^ 52)); [|reflexivity]. exfalso. change (2 ^ 63) with (2048 * 2 ^ 52) in *. lia.
Qed.
Lemma lxor31 h : 0 <= h < 2 ^ 32 -> Z.lxor h (2 ^ 31) = (h + 2 ^ 31) mod 2 ^ 32.
Proof.
  assert (A : forall t, 0 <= t < 2 ^ 31 -> Z.lxor t (2 ^ 31) = t + 2 ^ 31).
  { intros t Ht. symmetry. apply Z.add_nocarry_lxor. rewrite <- (Z.mod_small t (2 ^ 31)) by lia. rewrite <- Z.land_ones by lia.
    rewrite <- Z.land_assoc. change (Z.land (Z.ones 31) (2 ^ 31)) with 0. apply Z.land_0_r. }
  intros H. destruct (Z.lt_ge_cases h (2 ^ 31)) as [C|C].
  - rewrite A by lia. rewrite Z.mod_small; [reflexivity|]. change (2 ^ 32) with (2 ^ 31 + 2 ^ 31). lia.
  - change (2 ^ 32) with (2 ^ 31 + 2 ^ 31) in *. assert (Eh : h = Z.lxor (h - 2 ^ 31) (2 ^ 31)) by (rewrite A by lia; lia). rewrite Eh at 1. rewrite Z.lxor_assoc, Z.lxor_nilpotent, Z.lxor_0_r.
    replace (h + 2 ^ 31) with (h - 2 ^ 31 + 1 * (2 ^ 31 + 2 ^ 31)) by lia. rewrite Z.mod_add by lia. rewrite Z.mod_small; lia.
Qed.
(** One lane of foldPolyToUint64AVX2. *)
Definition foldLane (x : Z) : f64 :=
  SFadd 53 1024 (ofbits64 (x mod 2 ^ 32 + 2 ^ 32 * 1127219200))
    (SFsub 53 1024 (ofbits64 (Z.lxor (x / 2 ^ 32) (2 ^ 31) + 2 ^ 32 * 1160773632)) (ofbits64 4985484789647671296)).
Lemma fold_lane x : 0 <= x < 2 ^ 64 -> foldLane x = goOfInt 64 x.
Proof.
  intros Hx. unfold foldLane, goOfInt.
  assert (HL : 0 <= x mod 2 ^ 32 < 2 ^ 32) by (apply Z.mod_pos_bound; reflexivity). set (L := x mod 2 ^ 32) in *.
  assert (HH : 0 <= x / 2 ^ 32 < 2 ^ 32) by (split; [apply Z.div_pos; lia|apply Z.div_lt_upper_bound; lia]).
  assert (EX : x = L + 2 ^ 32 * (x / 2 ^ 32)) by (unfold L; pose proof (Z.div_mod x (2 ^ 32)); lia).
  rewrite lxor31 by exact HH. set (H := x / 2 ^ 32) in *.
  assert (HG : 0 <= (H + 2 ^ 31) mod 2 ^ 32 < 2 ^ 32) by (apply Z.mod_pos_bound; reflexivity).
  assert (SW : swrap 64 x = L + 2 ^ 32 * ((H + 2 ^ 31) mod 2 ^ 32 - 2 ^ 31)).
  { unfold swrap. change (2 ^ (64 - 1)) with (2 ^ 32 * 2 ^ 31). change (2 ^ 64) with (2 ^ 32 * 2 ^ 32). rewrite EX.
    replace (L + 2 ^ 32 * H + 2 ^ 32 * 2 ^ 31) with (L + 2 ^ 32 * (H + 2 ^ 31)) by lia.
    rewrite Z.rem_mul_r by lia. replace (L + 2 ^ 32 * (H + 2 ^ 31)) with (L + (H + 2 ^ 31) * 2 ^ 32) by lia. rewrite Z.mod_add, Z.div_add by lia.
    rewrite (Z.mod_small L), (Z.div_small L) by lia. lia. }
  rewrite SW. set (G := (H + 2 ^ 31) mod 2 ^ 32) in *. clearbody L G. clear EX SW H HH Hx x.
  replace (L + 2 ^ 32 * 1127219200) with (1075 * 2 ^ 52 + L) by lia. replace (G + 2 ^ 32 * 1160773632) with (1107 * 2 ^ 52 + G) by lia.
  destruct (ofbits_norm 1075 L ltac:(lia) ltac:(change (2 ^ 52) with (2 ^ 32 * 2 ^ 20); lia)) as (p1 & E1 & ->).
  destruct (ofbits_norm 1107 G ltac:(lia) ltac:(change (2 ^ 52) with (2 ^ 32 * 2 ^ 20); lia)) as (p2 & E2 & ->).
  replace (ofbits64 4985484789647671296) with (S754_finite false (4503599627370496 + 2147483648 + 1048576) 32) by reflexivity.
  change (1075 - 1075) with 0. change (1107 - 1075) with 32.
  rewrite (sub_BN false p2 32 false _ 32 (G - 2 ^ 31 - 2 ^ 20) 32); [|lia|cbn [sg cond_Zopp]; rewrite E2; change (2 ^ (32 - Z.min 32 32)) with 1; lia].
  destruct (Z.eq_dec (G - 2 ^ 31 - 2 ^ 20) 0) as [Z0|NZ].
  - rewrite Z0. cbn [binary_normalize SFadd]. rewrite (normal_BN false p1 0 false); [|split; [rewrite E1|]; lia]. cbn [sg cond_Zopp]. rewrite E1. f_equal.
    change (2 ^ 52) with (2 ^ 32 * 2 ^ 20). lia.
  - destruct (BN_exact (G - 2 ^ 31 - 2 ^ 20) 32 false ltac:(change (2 ^ 53) with (2 ^ 32 * 2 ^ 21); lia) ltac:(lia)) as (p & j & -> & Ep & Hj & _).
    set (g := G - 2 ^ 31 - 2 ^ 20) in *. apply add_BN; [lia|]. unfold sg at 2. rewrite Ep. cbn [sg cond_Zopp]. rewrite E1. set (z := Z.min 0 (32 - j)).
    rewrite <- Z.mul_assoc, <- Z.pow_add_r by lia. replace (j + (32 - j - z)) with (32 + (0 - z)) by lia. rewrite Z.pow_add_r by lia.
    replace (2 ^ 52) with (2 ^ 20 * 2 ^ 32) by reflexivity. unfold g. ring.
Qed.

(** ** Floats to words *)
Lemma valid_cases s m e : valid_binary 53 1024 (S754_finite s m e) = true -> normal (Zpos m) e \/ Zpos m < 2 ^ 52 /\ e = -1074.
Proof.
  cbn [valid_binary]. unfold bounded, canonical_mantissa. intros H. apply andb_prop in H. destruct H as (H1 & H2).
  apply Zeq_bool_eq in H1. apply Zle_bool_imp_le in H2. unfold fexp, SpecFloat.emin in H1. pose proof (digits2_pos_pow m) as D.
  set (d := Zpos (digits2_pos m)) in *. assert (0 < d) by (unfold d; lia).
  destruct (Z.eq_dec d 53) as [-> | C]; [left; split; [exact D|lia]|]. right. split; [|lia].
  assert (d <= 52) by lia. eapply Z.lt_le_trans; [apply D|]. apply Z.pow_le_mono_r; lia.
Qed.
(** One lane of unfoldPolyToUint64AVX2. *)
Definition unfLane (b : Z) : Z :=
  let mant := wrap 64 (Z.shiftl (Z.lor (Z.land b 4503599627370495) 4503599627370496) 11) in
  let sh := wrap 64 (1086 - Z.land (Z.shiftr b 52) 2047) in
  let t := if sh <? 64 then Z.shiftr mant sh else 0 in
  if Z.shiftr b 63 =? 0 then t else wrap 64 (0 - t).
(** The integer part of a float, modulo 2^64. *)
Definition truncW (x : f64) : Z :=
  match x with
  | S754_finite s m e => let t := roundZ upZero (Zpos m) e in if t <? 2 ^ 64 then cond_Zopp s t mod 2 ^ 64 else 0
  | _ => 0
  end.
Lemma unf_core s E M : 0 <= E < 2048 -> 0 <= M < 2 ^ 52 ->
  unfLane (signbit s + (E * 2 ^ 52 + M)) =
  let t := if 1086 <? E then 0 else if 1086 - E <? 64 then (2 ^ 52 + M) * 2 ^ 11 / 2 ^ (1086 - E) else 0 in if s then wrap 64 (0 - t) else t.
Proof.
  intros HE HM. unfold unfLane. set (b := signbit s + (E * 2 ^ 52 + M)).
  assert (Pb : 2 ^ 63 = 2048 * 2 ^ 52) by reflexivity. assert (P52 : 0 < 2 ^ 52) by reflexivity.
  assert (HS : exists S, (S = if s then 1 else 0) /\ b = (2048 * S + E) * 2 ^ 52 + M).
  { eexists. split; [reflexivity|]. unfold b, signbit. destruct s; lia. }
  destruct HS as (S & ES & Eb). clearbody b. assert (HS : 0 <= S <= 1) by (destruct s; lia).
  change 4503599627370495 with (Z.ones 52). rewrite Z.land_ones by lia. change 2047 with (Z.ones 11). rewrite Z.land_ones by lia.
  rewrite !Z.shiftr_div_pow2 by lia.
  assert (B1 : b mod 2 ^ 52 = M) by (rewrite Eb, Z.add_comm, Z.mod_add by lia; apply Z.mod_small; lia).
  assert (B2 : b / 2 ^ 52 = 2048 * S + E) by (rewrite Eb, Z.add_comm, Z.div_add, Z.div_small by lia; lia).
  assert (B3 : b / 2 ^ 63 = S).
  { rewrite Pb, (Z.mul_comm 2048), <- Z.div_div, B2 by lia. rewrite Z.add_comm, Z.mul_comm, Z.div_add, Z.div_small by lia. lia. }
  rewrite B1, B2, B3. change ((2048 * S + E) mod 2 ^ 11) with ((2048 * S + E) mod 2048). rewrite (Z.mul_comm 2048 S), (Z.add_comm (S * 2048) E), Z.mod_add, (Z.mod_small E) by lia.
  assert (LO : Z.lor M 4503599627370496 = 2 ^ 52 + M).
  { rewrite <- Z.lxor_lor; [rewrite <- Z.add_nocarry_lxor; [lia|]|];
      rewrite <- (Z.mod_small M (2 ^ 52)) by lia; rewrite <- Z.land_ones, <- Z.land_assoc by lia; change (Z.land (Z.ones 52) 4503599627370496) with 0; apply Z.land_0_r. }
  rewrite LO, Z.shiftl_mul_pow2 by lia. assert (WM : wrap 64 ((2 ^ 52 + M) * 2 ^ 11) = (2 ^ 52 + M) * 2 ^ 11) by (unfold wrap; apply Z.mod_small; change (2 ^ 64) with (2 * 2 ^ 52 * 2 ^ 11); nia). rewrite WM.
  cbv zeta. replace (S =? 0) with (negb s) by (destruct s; subst S; reflexivity).
  assert (EQ : (if wrap 64 (1086 - E) <? 64 then Z.shiftr ((2 ^ 52 + M) * 2 ^ 11) (wrap 64 (1086 - E)) else 0) =
    (if 1086 <? E then 0 else if 1086 - E <? 64 then (2 ^ 52 + M) * 2 ^ 11 / 2 ^ (1086 - E) else 0)).
  { destruct (Z.ltb_spec 1086 E) as [C|C].
    - assert (W : wrap 64 (1086 - E) = 1086 - E + 2 ^ 64). { unfold wrap. symmetry. apply (Z.mod_unique_pos _ _ (-1)); lia. }
      rewrite W. destruct (Z.ltb_spec (1086 - E + 2 ^ 64) 64); [lia|reflexivity].
    - unfold wrap. rewrite Z.mod_small by lia. destruct (Z.ltb_spec (1086 - E) 64); [apply Z.shiftr_div_pow2; lia|reflexivity]. }
  rewrite EQ. destruct s; reflexivity.
Qed.
Lemma unf_lane x : valid_binary 53 1024 x = true -> unfLane (bits64 x) = truncW x.
Proof.
  assert (P52 : 0 < 2 ^ 52) by reflexivity.
  intros V. destruct x as [s|s| |s m e].
  - destruct s; reflexivity.
  - destruct s; reflexivity.
  - reflexivity.
  - cbn [bits64 truncW]. cbv zeta. destruct (valid_cases s m e V) as [((N1 & N2) & N3 & N4)|(H1 & ->)].
    + destruct (Z.ltb_spec (Zpos m) (2 ^ 52)); [lia|]. rewrite unf_core by (change (2 ^ 53) with (2 * 2 ^ 52) in N2; lia). cbv zeta.
      replace (2 ^ 52 + (Zpos m - 2 ^ 52)) with (Zpos m) by lia. unfold roundZ, upZero. cbv zeta.
      destruct (Z.ltb_spec 1086 (e + 1075)) as [C|C].
      * destruct (Z.leb_spec 0 e); [|lia]. assert (G : 2 ^ 64 <= Zpos m * 2 ^ e). { change (2 ^ 64) with (2 ^ 52 * 2 ^ 12). assert (2 ^ 12 <= 2 ^ e) by (apply Z.pow_le_mono_r; lia). nia. }
        destruct (Z.ltb_spec (Zpos m * 2 ^ e) (2 ^ 64)); [lia|]. destruct s; reflexivity.
      * assert (T : (if 1086 - (e + 1075) <? 64 then Zpos m * 2 ^ 11 / 2 ^ (1086 - (e + 1075)) else 0) = if 0 <=? e then Zpos m * 2 ^ e else Zpos m / 2 ^ (- e)).
        { destruct (Z.leb_spec 0 e).
          - destruct (Z.ltb_spec (1086 - (e + 1075)) 64); [|lia]. replace (2 ^ 11) with (2 ^ e * 2 ^ (1086 - (e + 1075))) by (rewrite <- Z.pow_add_r by lia; f_equal; lia).
            rewrite Z.mul_assoc, Z.div_mul; [reflexivity|]. pose proof (pow_pos2 (1086 - (e + 1075)) ltac:(lia)). lia.
          - destruct (Z.ltb_spec (1086 - (e + 1075)) 64).
            + replace (1086 - (e + 1075)) with (- e + 11) by lia. pose proof (pow_pos2 (- e) ltac:(lia)). rewrite Z.pow_add_r, Z.div_mul_cancel_r by lia. reflexivity.
            + symmetry. apply Z.div_small. split; [lia|]. eapply Z.lt_le_trans; [exact N2|]. apply Z.pow_le_mono_r; lia. }
        rewrite T. set (t := if 0 <=? e then Zpos m * 2 ^ e else Zpos m / 2 ^ (- e)).
        assert (Ht : 0 <= t < 2 ^ 64).
        { unfold t. destruct (Z.leb_spec 0 e).
          - pose proof (pow_pos2 e ltac:(lia)). split; [nia|]. change (2 ^ 64) with (2 ^ 53 * 2 ^ 11). assert (2 ^ e <= 2 ^ 11) by (apply Z.pow_le_mono_r; lia). nia.
          - pose proof (pow_pos2 (- e) ltac:(lia)). split; [apply Z.div_pos; lia|]. apply Z.div_lt_upper_bound; [lia|]. change (2 ^ 64) with (2 ^ 53 * 2 ^ 11). nia. }
        destruct (Z.ltb_spec t (2 ^ 64)); [|lia]. unfold wrap. destruct s; cbn [cond_Zopp]; [f_equal; lia|symmetry; apply Z.mod_small; lia].
    + destruct (Z.ltb_spec (Zpos m) (2 ^ 52)); [|lia]. change (signbit s + Zpos m) with (signbit s + (0 * 2 ^ 52 + Zpos m)). rewrite unf_core by lia.
      cbv zeta. assert (R : roundZ upZero (Zpos m) (-1074) = 0). { unfold roundZ, upZero. destruct (Z.leb_spec 0 (-1074)); [lia|]. cbv zeta. apply Z.div_small. split; [lia|]. eapply Z.lt_le_trans; [exact H1|]. apply Z.pow_le_mono_r; lia. }
      rewrite R. destruct s; reflexivity.
Qed.
Lemma truncW_value y n : has_value y n -> - 2 ^ 64 < n < 2 ^ 64 -> truncW y = n mod 2 ^ 64.
Proof.
  intros H B. destruct y as [s|s| |s m e]; try contradiction; [cbn in H; subst n; reflexivity|]. cbn [truncW]. cbv zeta. pose proof (round_value upZero s m e n exact_zero H) as R.
  assert (0 <= roundZ upZero (Zpos m) e).
  { unfold roundZ, upZero. destruct (Z.leb_spec 0 e); cbv zeta; [pose proof (pow_pos2 e ltac:(lia)); nia|]. apply Z.div_pos; [lia|apply pow_pos2; lia]. }
  destruct (Z.ltb_spec (roundZ upZero (Zpos m) e) (2 ^ 64)); [rewrite R; reflexivity|]. destruct s; cbn [cond_Zopp] in R; lia.
Qed.
