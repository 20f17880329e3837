(** From floats back to the torus: floatModQInPlaceAVX2 followed by an unfold kernel; the Go code. *)
From Coq Require Import String Lia Floats.SpecFloat.
From Verif Require Import Base ModelNum ModelAsm ModelAsmInt SpecAsm PfAsm PfAsmStep ModelF64 ModelAsmFold SpecF64 SpecAsmFold PfAsmFold PfAsmFold2 PfF64 PfF64b PfF64c PfF64d PfAsmFold3 PfAsmFold4 PfAsmFold5 PfAsmFold6 PfAsmFold7.
Import ListNotations.
Open Scope Z_scope.

Lemma normalF_valid x : normalF x -> valid_binary 53 1024 x = true.
Proof.
  destruct x as [s|s| |s m e]; try contradiction; [reflexivity|]. intros ((H1 & H2) & H3). cbn [valid_binary]. unfold bounded, canonical_mantissa. apply andb_true_intro. split.
  - apply Zeq_is_eq_bool. assert (D : Zpos (digits2_pos m) = 53). { change (Zpos (digits2_pos m)) with (Zdigits2 (Zpos m)). apply (normal_digits (Zpos m) e). split; [split; assumption|lia]. }
    rewrite D. unfold fexp, SpecFloat.emin. lia.
  - apply Zle_imp_le_bool. lia.
Qed.
Lemma sg_if s m : sg s (Zpos m) = if s then Zneg m else Zpos m.
Proof. destruct s; reflexivity. Qed.
Lemma mod_lane w x : w = 32 \/ w = 64 -> normalF x ->
  exists n N, has_value (modLane (pow2F w) (goInv (pow2F w)) x) n /\ normalF (modLane (pow2F w) (goInv (pow2F w)) x) /\ 2 * Z.abs n <= 2 ^ w /\ nearest_even x N /\ n mod 2 ^ w = N mod 2 ^ w.
Proof.
  intros Hw Hx. replace (goInv (pow2F w)) with (pow2F (- w)) by (destruct Hw as [-> | ->]; reflexivity).
  destruct x as [s|s| |s m e]; try contradiction.
  - exists 0, 0. destruct Hw as [-> | ->], s; repeat split; cbn; try lia; reflexivity.
  - destruct Hx as (H1 & H2). assert (Nm : normal (Zpos m) e) by (split; [exact H1|lia]).
    destruct (avx_lane w s m e ltac:(lia) Nm ltac:(lia)) as (b & e0 & EQ & HE & HR). unfold modLane. cbv zeta. rewrite EQ.
    destruct (finish upEven w s m e b e0 even_rule ltac:(lia) Nm ltac:(lia) HE HR) as (n & N & F1 & F2 & F3 & F4 & F5 & F6).
    exists n, N. split; [exact F1|]. split; [exact F2|]. split; [exact F3|]. split; [|exact F5]. cbn [nearest_even]. cbv zeta. rewrite <- sg_if. split; [exact F4|apply F6; reflexivity].
Qed.
Lemma go_mod w x : w = 32 \/ w = 64 -> normalF x ->
  exists n N, has_value (goModQ (pow2F w) x) n /\ 2 * Z.abs n <= 2 ^ w /\ match x with S754_finite s m e => near (if s then Zneg m else Zpos m) e N | _ => N = 0 end /\ n mod 2 ^ w = N mod 2 ^ w.
Proof.
  intros Hw Hx. destruct x as [s|s| |s m e]; try contradiction.
  - exists 0, 0. destruct Hw as [-> | ->], s; repeat split; cbn; try lia; reflexivity.
  - destruct Hx as (H1 & H2). assert (Nm : normal (Zpos m) e) by (split; [exact H1|lia]).
    destruct (go_lane w s m e ltac:(lia) Nm ltac:(lia)) as (b & e0 & EQ & HE & HR). rewrite EQ.
    destruct (finish upAway w s m e b e0 away_rule ltac:(lia) Nm ltac:(lia) HE HR) as (n & N & F1 & F2 & F3 & F4 & F5 & F6).
    exists n, N. split; [exact F1|]. split; [exact F3|]. split; [|exact F5]. rewrite <- sg_if. exact F4.
Qed.
Lemma near_unique z e a b : near z e a -> near z e b -> ~ tie z e -> a = b.
Proof.
  unfold near, tie. intros Ha Hb Ht. destruct (Z.leb_spec 0 e) as [C|C]; [congruence|]. pose proof (pow_pos2 (- e) ltac:(lia)) as P. set (k := 2 ^ (- e)) in *. clearbody k.
  destruct (Z.eq_dec a b) as [D|D]; [exact D|]. exfalso. apply Ht. split; [lia|].
  assert (a = b + 1 \/ b = a + 1) as [-> | ->].
  { assert (Z.abs (a - b) * k <= k) by (destruct (Z.abs_spec (a - b)), (Z.abs_spec (z - a * k)), (Z.abs_spec (z - b * k)); nia). assert (Z.abs (a - b) <= 1) by nia. lia. }
  - exists b. destruct (Z.abs_spec (z - (b + 1) * k)), (Z.abs_spec (z - b * k)); nia.
  - exists a. destruct (Z.abs_spec (z - (a + 1) * k)), (Z.abs_spec (z - a * k)); nia.
Qed.
(** The Go code agrees away from the ties. *)
Lemma go_agrees w x N : w = 32 \/ w = 64 -> normalF x -> ~ is_tie x -> nearest_even x N -> goToT w (goModQ (pow2F w) x) = N mod 2 ^ w.
Proof.
  intros Hw Hx Ht HN. destruct (go_mod w x Hw Hx) as (n & N' & V & B & Nr & M).
  assert (EN : N' = N).
  { destruct x as [s|s| |s m e]; try contradiction; [cbn in HN; congruence|]. destruct HN as (HN & _). exact (near_unique _ _ _ _ Nr HN Ht). }
  subst N'. unfold goToT, wrap. rewrite (cvt64_value _ n V) by (destruct Hw as [-> | ->]; [change (2 ^ 63) with (2 ^ 31 * 2 ^ 32)|change (2 ^ 64) with (2 * 2 ^ 63) in B]; lia).
  rewrite <- M. destruct Hw as [-> | ->]; [|apply Z.mod_mod; discriminate]. symmetry. change (2 ^ 64) with (2 ^ 32 * 2 ^ 32). rewrite Z.rem_mul_r by lia. rewrite Z.mul_comm, Z.mod_add by lia. symmetry. apply Z.mod_mod. discriminate.
Qed.
Lemma go_nearest w x : w = 32 \/ w = 64 -> normalF x ->
  exists N, match x with S754_finite s m e => near (if s then Zneg m else Zpos m) e N | _ => N = 0 end /\ goToT w (goModQ (pow2F w) x) = N mod 2 ^ w.
Proof.
  intros Hw Hx. destruct (go_mod w x Hw Hx) as (n & N & V & B & Nr & M). exists N. split; [exact Nr|].
  unfold goToT, wrap. rewrite (cvt64_value _ n V) by (destruct Hw as [-> | ->]; [change (2 ^ 63) with (2 ^ 31 * 2 ^ 32)|change (2 ^ 64) with (2 * 2 ^ 63) in B]; lia).
  rewrite <- M. destruct Hw as [-> | ->]; [|apply Z.mod_mod; discriminate]. symmetry. change (2 ^ 64) with (2 ^ 32 * 2 ^ 32). rewrite Z.rem_mul_r by lia. rewrite Z.mul_comm, Z.mod_add by lia. symmetry. apply Z.mod_mod. discriminate.
Qed.

(** ** The two kernels in sequence *)
Lemma unf_idx n j : n mod 8 = 0 -> 0 <= j < n -> 0 <= unfoldIdx n j < n.
Proof.
  intros Hn Hj. unfold unfoldIdx. pose proof (Z.div_mod n 8 ltac:(lia)) as D. rewrite Hn in D. set (a := n / 8) in *. clearbody a.
  assert (E : n / 2 = 4 * a) by (replace n with (4 * a * 2) by lia; apply Z.div_mul; lia). rewrite E.
  destruct (Z.ltb_spec j (4 * a)).
  - pose proof (Z.div_mod j 4 ltac:(lia)). pose proof (Z.mod_pos_bound j 4 ltac:(lia)). lia.
  - set (i := j - 4 * a). pose proof (Z.div_mod i 4 ltac:(lia)). pose proof (Z.mod_pos_bound i 4 ltac:(lia)). unfold i in *. lia.
Qed.
Definition modOK (acc : Z -> Z -> Z) : Prop := forall M o a b, 0 < M -> a mod M = b mod M -> acc o a mod M = acc o b mod M.
Lemma mod_id : modOK (fun _ y => y). Proof. intros M o a b _ H. exact H. Qed.
Lemma mod_plus : modOK Z.add. Proof. intros M o a b HM H. rewrite <- Z.add_mod_idemp_r, H, Z.add_mod_idemp_r by lia. reflexivity. Qed.
Lemma mod_minus : modOK Z.sub. Proof. intros M o a b HM H. rewrite Zminus_mod, H, <- Zminus_mod. reflexivity. Qed.
Lemma torus w k conv acc : (w = 32 \/ w = 64) -> unfolds (w / 8) k conv acc -> modOK acc ->
  (forall y n, has_value y n -> 2 * Z.abs n <= 2 ^ w -> conv y = n mod 2 ^ w) -> to_torus w k acc.
Proof.
  intros Hw HK HA HV s fp p HC Hf. pose proof HC as (HF & HP & Hn & H8 & Hb).
  assert (H4 : gn fp mod 4 = 0). { pose proof (Z.div_mod (gn fp) 8 ltac:(lia)) as D. rewrite H8 in D. rewrite D. replace (8 * (gn fp / 8) + 0) with (2 * (gn fp / 8) * 4) by lia. apply Z.mod_mul. lia. }
  destruct (k_modQ s fp (pow2F w) (goInv (pow2F w)) HF H4) as (s' & Run & W). exists s'. split; [exact Run|]. split; [eexists; exact W|].
  set (g := fun i => modLane (pow2F w) (goInv (pow2F w)) (fat (mm s) fp i)) in *. destruct W as (W1 & W2).
  intros s1 Hs1.
  assert (GF : forall i, 0 <= i < gn fp -> getm (mm s1) (gb fp) (go fp + i) = Some (WF (g i))).
  { intros i Hi. rewrite Hs1, W2, Nat.eqb_refl. destruct (Z.leb_spec (go fp) (go fp + i)), (Z.ltb_spec (go fp + i) (go fp + gn fp)); try lia. cbn [andb]. f_equal. f_equal. unfold g. do 2 f_equal. lia. }
  assert (GP : forall i, getm (mm s1) (gb p) i = getm (mm s) (gb p) i).
  { intros i. rewrite Hs1, W2. apply Nat.eqb_neq in Hb. rewrite Hb. reflexivity. }
  assert (HC1 : fold_call s1 fp p (w / 8)).
  { destruct HF as (F1 & F2 & F3 & F4 & F5). destruct HP as (P1 & P2 & P3 & P4 & P5). split; [|split; [|split; [exact Hn|split; [exact H8|exact Hb]]]].
    - split; [rewrite Hs1, W1; exact F1|]. split; [exact F2|]. split; [exact F3|]. split; [exact F4|]. intros i Hi. exists (g i). split; [apply GF; exact Hi|].
      destruct (mod_lane w (fat (mm s) fp i) Hw (Hf i Hi)) as (n & N & _ & V & _). exact (normalF_valid _ V).
    - split; [rewrite Hs1, W1; exact P1|]. split; [exact P2|]. split; [exact P3|]. split; [exact P4|]. intros i Hi. rewrite GP. exact (P5 i Hi). }
  destruct (HK s1 fp p HC1) as (s2 & Run2 & W3). exists s2. split; [exact Run2|]. eexists. split; [rewrite <- Hs1; exact W3|].
  intros j Hj. cbv beta. rewrite Hn in Hj. pose proof (unf_idx (gn fp) j H8 Hj) as U. set (i := unfoldIdx (gn fp) j) in *.
  destruct (mod_lane w (fat (mm s) fp i) Hw (Hf i U)) as (n & N & V & _ & B & NE & M).
  exists N. split; [exact NE|]. assert (E1 : fat (mm s1) fp i = g i) by (unfold fat at 1; rewrite (GF i U); reflexivity). assert (E2 : ival (mm s1) p j = ival (mm s) p j) by (unfold ival; rewrite GP; reflexivity).
  rewrite E1, E2. replace (8 * (w / 8)) with w by (destruct Hw as [-> | ->]; reflexivity). apply HA; [apply pow_pos2; lia|].
  unfold g. rewrite (HV _ n V B), Z.mod_mod by (pose proof (pow_pos2 w ltac:(lia)); lia). exact M.
Qed.
Lemma cv32 y n : has_value y n -> 2 * Z.abs n <= 2 ^ 32 -> cvt32 y = n mod 2 ^ 32.
Proof. intros V B. apply cvt32_value; [exact V|]. change (2 ^ 32) with (2 * 2 ^ 31) in B. lia. Qed.
Lemma cv64 y n : has_value y n -> 2 * Z.abs n <= 2 ^ 64 -> int64part y = n mod 2 ^ 64.
Proof. intros V B. rewrite int64part_truncW. apply truncW_value; [exact V|]. lia. Qed.
Lemma torus32 : to_torus 32 unfoldPolyToUint32AVX2 (fun _ y => y).
Proof. exact (torus 32 _ cvt32 _ (or_introl eq_refl) k_unfold32 mod_id cv32). Qed.
Lemma torusAdd32 : to_torus 32 unfoldPolyAddToUint32AVX2 Z.add.
Proof. exact (torus 32 _ cvt32 _ (or_introl eq_refl) k_unfoldAdd32 mod_plus cv32). Qed.
Lemma torusSub32 : to_torus 32 unfoldPolySubToUint32AVX2 Z.sub.
Proof. exact (torus 32 _ cvt32 _ (or_introl eq_refl) k_unfoldSub32 mod_minus cv32). Qed.
Lemma torus64 : to_torus 64 unfoldPolyToUint64AVX2 (fun _ y => y).
Proof. exact (torus 64 _ int64part _ (or_intror eq_refl) k_unfold64 mod_id cv64). Qed.
Lemma torusAdd64 : to_torus 64 unfoldPolyAddToUint64AVX2 Z.add.
Proof. exact (torus 64 _ int64part _ (or_intror eq_refl) k_unfoldAdd64 mod_plus cv64). Qed.
Lemma torusSub64 : to_torus 64 unfoldPolySubToUint64AVX2 Z.sub.
Proof. exact (torus 64 _ int64part _ (or_intror eq_refl) k_unfoldSub64 mod_minus cv64). Qed.

(** ** The fold direction *)
Lemma ofInt32 x : 0 <= x < 2 ^ 32 -> normalF (goOfInt 32 x) /\ has_value (goOfInt 32 x) (swrap 32 x) /\ ~ is_tie (goOfInt 32 x).
Proof.
  intros Hx. unfold goOfInt. set (z := swrap 32 x).
  assert (B : - 2 ^ 31 <= z < 2 ^ 31) by (unfold z, swrap; pose proof (Z.mod_pos_bound (x + 2 ^ (32 - 1)) (2 ^ 32) ltac:(lia)); lia).
  clearbody z. destruct (Z.eq_dec z 0) as [-> | C]; [cbn; repeat split; tauto|].
  destruct (BN_exact z 0 false ltac:(lia) ltac:(lia)) as (p & j & EQ & V & J & (N1 & N2)). rewrite EQ. change (0 - j) with (- j). split; [split; [exact N1|lia]|].
  assert (VZ : (if z <? 0 then Zneg p else Zpos p) = z * 2 ^ j) by (rewrite <- V; destruct (z <? 0); reflexivity).
  split.
  - cbn [has_value]. cbv zeta. rewrite VZ. destruct (Z.leb_spec 0 (- j)); [|rewrite Z.opp_involutive; reflexivity]. replace j with 0 by lia. cbn. lia.
  - cbn [is_tie]. rewrite VZ. intros (T1 & n & T2). rewrite Z.opp_involutive in T2. pose proof (pow_pos2 j ltac:(lia)). assert (2 * (z - n) = 1) by nia. lia.
Qed.
Lemma value_near x n N : has_value x n -> nearest_even x N -> N = n.
Proof.
  destruct x as [s|s| |s m e]; try contradiction; [cbn; congruence|]. cbn [has_value nearest_even]. cbv zeta. set (z := if s then Zneg m else Zpos m). unfold near. destruct (Z.leb_spec 0 e) as [C|C]; [intros -> (-> & _); reflexivity|].
  intros -> (H & _). pose proof (pow_pos2 (- e) ltac:(lia)) as P. set (k := 2 ^ (- e)) in *. clearbody k. replace (n * k - N * k) with ((n - N) * k) in H by ring. rewrite Z.abs_mul, (Z.abs_eq k) in H by lia. assert (Z.abs (n - N) < 1) by nia. lia.
Qed.
(** A 32-bit coefficient survives the way to float64 and back. *)
Lemma back32 x N : 0 <= x < 2 ^ 32 -> nearest_even (goOfInt 32 x) N -> N mod 2 ^ 32 = x.
Proof.
  intros Hx HN. destruct (ofInt32 x Hx) as (_ & V & _). rewrite (value_near _ _ _ V HN). unfold swrap. rewrite Zminus_mod_idemp_l.
  replace (x + 2 ^ (32 - 1) - 2 ^ (32 - 1)) with x by lia. apply Z.mod_small. exact Hx.
Qed.
Lemma layout n j : n mod 8 = 0 -> 0 <= j < n -> 0 <= unfoldIdx n j < n /\ foldIdx n (unfoldIdx n j) = j.
Proof.
  intros Hn Hj. split; [apply unf_idx; assumption|]. unfold unfoldIdx. pose proof (Z.div_mod n 8 ltac:(lia)) as D. rewrite Hn in D. set (a := n / 8) in *. clearbody a.
  assert (E : n / 2 = 4 * a) by (replace n with (4 * a * 2) by lia; apply Z.div_mul; lia). rewrite E.
  destruct (Z.ltb_spec j (4 * a)).
  - pose proof (Z.div_mod j 4 ltac:(lia)). pose proof (Z.mod_pos_bound j 4 ltac:(lia)). rewrite fold_lo; [|rewrite Z.mul_comm; apply Z.mod_mul; lia|lia]. replace (8 * (j / 4)) with (4 * (j / 4) * 2) by lia. rewrite Z.div_mul by lia. lia.
  - set (i := j - 4 * a). pose proof (Z.div_mod i 4 ltac:(lia)). pose proof (Z.mod_pos_bound i 4 ltac:(lia)). rewrite fold_hi; [|rewrite Z.mul_comm; apply Z.mod_mul; lia|lia]. rewrite E. replace (8 * (i / 4)) with (4 * (i / 4) * 2) by lia. rewrite Z.div_mul by lia. unfold i in *. lia.
Qed.
(** At a tie the two differ. *)
Lemma half_tie w : w = 32 \/ w = 64 -> let x := pow2F (-1) in normalF x /\ nearest_even x 0 /\ goToT w (goModQ (pow2F w) x) = 1.
Proof.
  intros Hw. cbv zeta. split; [split; [split; [apply Z.leb_le|apply Z.ltb_lt]; reflexivity|split; apply Z.leb_le; reflexivity]|]. split.
  - split; [|reflexivity]. apply Z.leb_le. reflexivity.
  - destruct Hw as [-> | ->]; vm_compute; reflexivity.
Qed.
