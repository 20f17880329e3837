(** ModSwitch and table generation. *)
From Verif Require Import Base NegaRing ModelNum ModelFloat ModelVec ModelPoly ModelGadget ModelEncoder ModelBoot SpecNum SpecVec SpecPoly SpecBoot PfNum PfFloat PfVec PfPoly.

Lemma Forall_nthZ (P : Z -> Prop) l : (forall i, (i < length l)%nat -> P (nthZ l i)) -> Forall P l.
Proof. intros H. apply Forall_forall. intros x Hx. destruct (In_nth l x 0 Hx) as (i & Hi & <-). now apply H. Qed.

Lemma modSwitchConst_exact w L : 0 < w -> 0 < L < 2 ^ 52 -> denotes (modSwitchConst w L) (2 * L) (2 ^ w).
Proof.
  intros Hw HL. unfold modSwitchConst, fl_div.
  destruct (fl_of_int_exact (2 * L)) as [Hd Hv]; [change (2 ^ 53) with (2 * 2 ^ 52); lia|].
  destruct (fl_of_int (2 * L)) as [a b]. cbn [fst snd] in *. pose proof (pow2_pos w ltac:(lia)).
  assert (0 < 2 * L * b) by (apply Z.mul_pos_pos; lia).
  destruct (fl_exact (a * 1) (b * 2 ^ w) (2 * L) w) as [H1 H2].
  - lia.
  - apply Z.mul_pos_pos; lia.
  - change (2 ^ 53) with (2 * 2 ^ 52); lia.
  - left. split; [lia|]. rewrite Z.mul_1_r in *. rewrite Hv. ring.
  - split; [exact H1|]. destruct (fl _) as [c d]. cbn [fst snd] in *. apply Z.mul_reg_r with b; [lia|]. nia.
Qed.

(** Exact case: x * M / Q in lowest enough terms has a numerator below 2^52. *)
Lemma ModSwitch_exact w L x g m' q' : 0 < w -> 0 < L < 2 ^ 52 -> 0 <= x -> 0 < g -> 2 * L = m' * g -> 2 ^ w = q' * g -> x * m' < 2 ^ 52 ->
  exists R, is_round_half_up (x * (2 * L)) (2 ^ w) R /\ ModSwitch w L x = R mod (2 * L).
Proof.
  intros Hw HL Hx Hg Hm Hq Hs. pose proof (pow2_pos w ltac:(lia)). assert (0 < m') by nia. assert (0 < q') by nia.
  assert (x < 2 ^ 52) by nia.
  unfold ModSwitch, fl_mul. destruct (modSwitchConst_exact w L Hw HL) as [Hcd Hcv].
  destruct (fl_of_int_exact x) as [Hxd Hxv]; [change (2 ^ 53) with (2 * 2 ^ 52); lia|].
  destruct (modSwitchConst w L) as [a b]. destruct (fl_of_int x) as [c d]. cbn [fst snd] in *.
  set (R := math_Round (fl (a * c, b * d))). exists R.
  assert (0 <= a) by nia. assert (0 <= c) by nia.
  assert (is_round_half_up (x * m') q' R) as HR.
  { apply round_of_fl; nia. }
  unfold is_round_half_up in *. split; [rewrite Hm, Hq; nia|].
  assert (0 <= R).
  { destruct (fl_error (a * c) (b * d)) as (X & Y & _); [now apply Z.mul_nonneg_nonneg|now apply Z.mul_pos_pos|].
    unfold R, math_Round. apply Z.div_pos; lia. }
  apply Z.rem_mod_nonneg; lia.
Qed.

(** General case, with the float64 error. *)
Lemma ModSwitch_general w L x : 0 < w -> 0 < L < 2 ^ 52 -> 0 <= x ->
  exists R, 0 <= R /\ ModSwitch w L x = R mod (2 * L) /\
    2 ^ 106 * (2 * Z.abs (R * 2 ^ w - x * (2 * L)) - 2 ^ w) <= 2 * (x * (2 * L)) * (2 ^ 54 + 1).
Proof.
  intros Hw HL Hx. pose proof (pow2_pos w ltac:(lia)) as HQ. set (Q := 2 ^ w) in *. set (M := 2 * L) in *. assert (0 < M) by lia.
  unfold ModSwitch, fl_mul. destruct (modSwitchConst_exact w L Hw HL) as [Hcd Hcv]. fold Q M in Hcv.
  unfold fl_of_int. destruct (fl_error x 1 Hx ltac:(lia)) as (Hd1 & Hp1 & He1).
  destruct (modSwitchConst w L) as [a b]. destruct (fl (x, 1)) as [c d]. cbn [fst snd] in *.
  assert (0 <= a) by nia.
  destruct (fl_error (a * c) (b * d) ltac:(nia) ltac:(nia)) as (Hq & Hp & He).
  destruct (fl (a * c, b * d)) as [p q] eqn:Ef. cbn [fst snd] in *.
  pose proof (math_Round_spec (p, q) Hq) as HR. cbn [fst snd] in HR.
  assert (0 <= math_Round (p, q)) as HR0 by (unfold math_Round; cbn [fst snd]; apply Z.div_pos; lia).
  set (R := math_Round (p, q)) in *. clearbody R. exists R. split; [exact HR0|]. split; [apply Z.rem_mod_nonneg; lia|].
  unfold is_round_half_up in HR.
  (* |p/q - xM/Q| *)
  rewrite Z.mul_1_r in He1.
  assert (Z.abs (p * Q - x * M * q) * 2 ^ 106 <= x * M * q * (2 ^ 54 + 1)) as Herr.
  { (* p b d vs a c q ; c vs x d ; a Q = M b *)
    apply mul_pos_le with (b * d); [nia|].
    set (A := Z.abs (p * (b * d) - a * c * q)) in *. set (B := Z.abs (c - x * d)) in *.
    assert (Z.abs (p * Q - x * M * q) * (b * d) <= A * Q + B * M * (b * q)) as T.
    { replace (Z.abs (p * Q - x * M * q) * (b * d)) with (Z.abs ((p * Q - x * M * q) * (b * d))) by (rewrite Z.abs_mul, (Z.abs_eq (b * d)) by nia; reflexivity).
      replace ((p * Q - x * M * q) * (b * d)) with ((p * (b * d) - a * c * q) * Q + (c - x * d) * (M * (b * q))).
      2:{ replace (a * c * q * Q) with (c * q * (a * Q)) by ring. transitivity (p * b * d * Q - c * q * (a * Q) + c * M * b * q - x * d * M * b * q); [|rewrite Hcv]; ring. }
      etransitivity; [apply Z.abs_triangle|]. rewrite !Z.abs_mul. rewrite (Z.abs_eq Q), (Z.abs_eq M), (Z.abs_eq b), (Z.abs_eq q) by lia. unfold A, B. nia. }
    assert (a * c * q * Q <= (x * d * M * b * q) + B * M * (b * q)) as T2.
    { replace (a * c * q * Q) with (c * q * (a * Q)) by ring. rewrite Hcv. 
      assert (c <= x * d + B) by (unfold B; lia). 
      replace (c * q * (M * b)) with (c * (q * M * b)) by ring. assert (0 <= q * M * b) by nia. 
      replace (x * d * M * b * q + B * M * (b * q)) with ((x * d + B) * (q * M * b)) by ring. nia. }
    set (Y := x * d * M * b * q) in *. set (BB := B * M * (b * q)) in *.
    assert (BB * 2 ^ 53 <= Y). { unfold BB, Y. assert (0 <= M * b * q) by nia. replace (B * M * (b * q) * 2 ^ 53) with (B * 2 ^ 53 * (M * b * q)) by ring. replace (x * d * M * b * q) with (x * d * (M * b * q)) by ring. apply Z.mul_le_mono_nonneg_r; [lia|]. exact He1. }
    assert (A * Q * 2 ^ 53 <= a * c * q * Q). { replace (A * Q * 2 ^ 53) with (A * 2 ^ 53 * Q) by ring. apply Z.mul_le_mono_nonneg_r; lia. }
    replace (x * M * q * (2 ^ 54 + 1) * (b * d)) with (Y * (2 ^ 54 + 1)) by (unfold Y; ring).
    replace (Z.abs (p * Q - x * M * q) * 2 ^ 106 * (b * d)) with (Z.abs (p * Q - x * M * q) * (b * d) * 2 ^ 106) by ring.
    clearbody Y BB A B. change (2 ^ 106) with (2 ^ 53 * 2 ^ 53). change (2 ^ 54) with (2 * 2 ^ 53).
    set (T53 := 2 ^ 53) in *. assert (0 < T53) by (unfold T53; lia). clearbody T53.
    assert (A * Q * T53 <= Y + BB) by lia. nia. }
  apply mul_pos_le with q; [lia|].
  assert (Z.abs (R * Q - x * M) * q <= Z.abs (R * q - p) * Q + Z.abs (p * Q - x * M * q)) as T.
  { replace (Z.abs (R * Q - x * M) * q) with (Z.abs ((R * q - p) * Q + (p * Q - x * M * q))).
    - etransitivity; [apply Z.abs_triangle|]. rewrite Z.abs_mul, (Z.abs_eq Q) by lia. lia.
    - rewrite <- (Z.abs_eq q) at 3 by lia. rewrite <- Z.abs_mul. f_equal. ring. }
  assert (2 * (Z.abs (R * q - p)) <= q) as T3 by nia.
  set (D := Z.abs (R * Q - x * M)) in *. set (F := Z.abs (R * q - p)) in *. set (H1 := Z.abs (p * Q - x * M * q)) in *.
  clearbody D F H1. set (XM := x * M) in *. clearbody XM.
  assert (2 * F * Q <= q * Q) by nia.
  replace (2 ^ 106 * (2 * D - Q) * q) with (2 ^ 106 * (2 * (D * q) - q * Q)) by ring.
  replace (2 * XM * (2 ^ 54 + 1) * q) with (2 * (XM * q * (2 ^ 54 + 1))) by ring.
  set (T106 := 2 ^ 106) in *. assert (0 < T106) by (unfold T106; lia). clearbody T106. nia.
Qed.

Lemma ModSwitch_range w L x : 0 < w -> 0 < L < 2 ^ 52 -> 0 <= x -> 0 <= ModSwitch w L x < 2 * L.
Proof. intros Hw HL Hx. destruct (ModSwitch_general w L x Hw HL Hx) as (R & H0 & -> & _). apply Z.mod_pos_bound. lia. Qed.

(** Half-width of the rounding error, in units of 2^-29 table positions. *)
Lemma ModSwitch_error w L x : 0 < w -> 0 < L <= 2 ^ 21 -> 0 <= x < 2 ^ w ->
  exists R, ModSwitch w L x = R mod (2 * L) /\ 2 ^ 28 * (2 * Z.abs (R * 2 ^ w - x * (2 * L))) <= (2 ^ 28 + 1) * 2 ^ w.
Proof.
  intros Hw HL Hx. destruct (ModSwitch_general w L x Hw ltac:(lia) ltac:(lia)) as (R & H0 & E & H). exists R. split; [exact E|].
  set (Q := 2 ^ w) in *. set (D := Z.abs _) in *. clearbody D.
  assert (x * (2 * L) <= Q * 2 ^ 22) by (change (2 ^ 22) with (2 * 2 ^ 21); nia).
  assert (2 * (x * (2 * L)) * (2 ^ 54 + 1) <= 2 * (Q * 2 ^ 22) * 2 ^ 55) by (change (2 ^ 55) with (2 ^ 54 + 2 ^ 54); lia).
  change (2 ^ 106) with (2 ^ 28 * 2 ^ 78) in H. change (2 ^ 55) with (2 ^ 33 * 2 ^ 22) in *. lia.
Qed.

(* ------------------------------------------------------------------ *)
(** ** Tables *)
Section Lut.
Variables (L : nat) (mm : Z).
Hypothesis HL : (0 < L)%nat.
Hypothesis Hmm : 0 < mm < 2 ^ 52.
Hypothesis Hsz : mm * Z.of_nat L < 2 ^ 52.
Notation LZ := (Z.of_nat L).

Definition rd (x : Z) : Z := DivRound (x * LZ) mm.
Lemma rd_spec x : 0 <= x <= mm -> is_round_half_up (x * LZ) mm (rd x).
Proof. intros Hx. apply DivRound_exact; [nia|change (2 ^ 53) with (2 * 2 ^ 52); lia]. Qed.
Lemma rd_0 : rd 0 = 0.
Proof. pose proof (rd_spec 0 ltac:(lia)) as H. unfold is_round_half_up in H. nia. Qed.
Lemma rd_mm : rd mm = LZ.
Proof. pose proof (rd_spec mm ltac:(lia)) as H. unfold is_round_half_up in H. nia. Qed.
Lemma rd_mono x y : 0 <= x <= y -> y <= mm -> rd x <= rd y.
Proof. intros Hx Hy. pose proof (rd_spec x ltac:(lia)) as A. pose proof (rd_spec y ltac:(lia)) as B. unfold is_round_half_up in *. nia. Qed.
Lemma rd_cover i : 0 <= i < LZ -> exists m, 0 <= m < mm /\ rd m <= i < rd (m + 1).
Proof.
  intros Hi. assert (forall n, (Z.of_nat n <= mm) -> i < rd (Z.of_nat n) -> exists m, 0 <= m < mm /\ rd m <= i < rd (m + 1)) as H.
  { induction n as [|n IH]; intros Hn Hr; [change (Z.of_nat 0) with 0 in Hr; rewrite rd_0 in Hr; lia|].
    destruct (Z_lt_ge_dec i (rd (Z.of_nat n))) as [H|H]; [apply IH; lia|].
    exists (Z.of_nat n). replace (Z.of_nat n + 1) with (Z.of_nat (S n)) by lia. lia. }
  apply (H (Z.to_nat mm)); rewrite Z2Nat.id by lia; [lia|]. rewrite rd_mm. lia.
Qed.
Lemma rd_disjoint m m' i : 0 <= m < mm -> 0 <= m' < mm -> rd m <= i < rd (m + 1) -> rd m' <= i < rd (m' + 1) -> m = m'.
Proof.
  intros Hm Hm' H H'. destruct (Z_lt_ge_dec m m').
  - pose proof (rd_mono (m + 1) m' ltac:(lia) ltac:(lia)). lia.
  - destruct (Z_lt_ge_dec m' m); [|lia]. pose proof (rd_mono (m' + 1) m ltac:(lia) ltac:(lia)). lia.
Qed.

Lemma fillInner f0 start n raw : 0 <= start -> start + Z.of_nat n <= Z.of_nat (length raw) ->
  exists r, forN 0 n (fun d r => match r with None => None | Some raw => set_chk raw (start + Z.of_nat d) f0 end) (Some raw) = Some r /\
    length r = length raw /\ forall i, nthZ r i = if (start <=? Z.of_nat i) && (Z.of_nat i <? start + Z.of_nat n) then f0 else nthZ raw i.
Proof.
  intros Hs Hl. set (P := fun (m : nat) (s : option (list Z)) => (m <= n)%nat -> exists r, s = Some r /\ length r = length raw /\
    forall i, nthZ r i = if (start <=? Z.of_nat i) && (Z.of_nat i <? start + Z.of_nat m) then f0 else nthZ raw i).
  apply (forN_ind P); unfold P; clear P; [| |lia].
  - intros _. exists raw. split; [reflexivity|]. split; [reflexivity|]. intros i. destruct (Z.leb_spec start (Z.of_nat i)), (Z.ltb_spec (Z.of_nat i) (start + Z.of_nat 0)); cbn; lia || reflexivity.
  - intros m s Hm H Hm'. destruct (H ltac:(lia)) as (r & -> & Lr & Hr). cbn [Nat.add]. unfold set_chk.
    destruct (Z.leb_spec 0 (start + Z.of_nat m)); [|lia]. destruct (Z.ltb_spec (start + Z.of_nat m) (Z.of_nat (length r))); [|lia]. cbn [andb].
    eexists. split; [reflexivity|]. split; [now rewrite upd_length|]. intros i. rewrite nthZ_upd by lia.
    destruct (Nat.eqb_spec i (Z.to_nat (start + Z.of_nat m))).
    + destruct (Z.leb_spec start (Z.of_nat i)), (Z.ltb_spec (Z.of_nat i) (start + Z.of_nat (S m))); cbn; reflexivity || lia.
    + rewrite Hr. destruct (Z.leb_spec start (Z.of_nat i)), (Z.ltb_spec (Z.of_nat i) (start + Z.of_nat (S m))), (Z.ltb_spec (Z.of_nat i) (start + Z.of_nat m)); cbn; reflexivity || lia.
Qed.

Lemma lutFill_spec f raw : length raw = L -> exists r, lutFill L mm f raw = Some r /\ length r = L /\
  forall m i, 0 <= m < mm -> rd m <= Z.of_nat i < rd (m + 1) -> nthZ r i = f m.
Proof.
  intros Lr. unfold lutFill. set (n := Z.to_nat mm).
  set (P := fun (k : nat) (s : option (list Z)) => (k <= n)%nat -> exists r, s = Some r /\ length r = L /\
    forall m i, 0 <= m < Z.of_nat k -> rd m <= Z.of_nat i < rd (m + 1) -> nthZ r i = f m).
  enough (P n (forN 0 n (fun x r => let start := DivRound (Z.of_nat x * LZ) mm in let stop := DivRound ((Z.of_nat x + 1) * LZ) mm in let y := f (Z.of_nat x) in
      forN 0 (Z.to_nat (stop - start)) (fun d r => match r with None => None | Some raw => set_chk raw (start + Z.of_nat d) y end) r) (Some raw))) as HP.
  { destruct (HP ltac:(lia)) as (r & E & A & B). exists r. split; [exact E|]. split; [exact A|]. intros m i Hm. apply B. unfold n. lia. }
  apply (forN_ind P); unfold P; clear P.
  - intros _. exists raw. split; [reflexivity|]. split; [exact Lr|]. intros; lia.
  - intros k s Hk H Hk'. destruct (H ltac:(lia)) as (r & -> & A & B). cbn [Nat.add]. cbv zeta. fold (rd (Z.of_nat k)). fold (rd (Z.of_nat k + 1)).
    assert (Z.of_nat k + 1 <= mm) as Hkm by lia.
    pose proof (rd_mono 0 (Z.of_nat k) ltac:(lia) ltac:(lia)) as M0. rewrite rd_0 in M0.
    pose proof (rd_mono (Z.of_nat k) (Z.of_nat k + 1) ltac:(lia) ltac:(lia)) as M1.
    pose proof (rd_mono (Z.of_nat k + 1) mm ltac:(lia) ltac:(lia)) as M2. rewrite rd_mm in M2.
    destruct (fillInner (f (Z.of_nat k)) (rd (Z.of_nat k)) (Z.to_nat (rd (Z.of_nat k + 1) - rd (Z.of_nat k))) r) as (r' & E & L' & H'); [lia|rewrite A, Z2Nat.id by lia; lia|].
    exists r'. split; [exact E|]. split; [lia|]. intros m i Hm Hi. rewrite H'. rewrite Z2Nat.id by lia.
    destruct (Z.leb_spec (rd (Z.of_nat k)) (Z.of_nat i)) as [C1|C1]; [destruct (Z.ltb_spec (Z.of_nat i) (rd (Z.of_nat k) + (rd (Z.of_nat k + 1) - rd (Z.of_nat k)))) as [C2|C2]|]; cbn.
    + f_equal. apply (rd_disjoint _ _ (Z.of_nat i)); lia.
    + apply B; [|exact Hi]. destruct (Z.eq_dec m (Z.of_nat k)); [subst; lia|lia].
    + apply B; [|exact Hi]. destruct (Z.eq_dec m (Z.of_nat k)); [subst; lia|lia].
Qed.
End Lut.

Section Lut2.
Variables (w : Z) (N E : nat) (mm : Z).
Hypothesis Hw : 0 < w.
Hypothesis HN : (0 < N)%nat.
Hypothesis HE : (0 < E)%nat.
Notation L := (E * N)%nat.
Notation LZ := (Z.of_nat L).
Hypothesis Hmm : 0 < mm < 2 ^ 52.
Hypothesis Hmw : 2 * mm < 2 ^ w.
Hypothesis Hsz : mm * LZ < 2 ^ 52.
Notation Q := (2 ^ w).

Definition off : Z := DivRound LZ (2 * mm).
Lemma HLpos : (0 < L)%nat.
Proof. nia. Qed.
Lemma off_spec : is_round_half_up LZ (2 * mm) off.
Proof. pose proof HLpos. apply DivRound_exact; [nia|change (2 ^ 53) with (2 * 2 ^ 52); lia]. Qed.
Lemma off_range : 0 <= off <= LZ.
Proof. pose proof off_spec as H. pose proof HLpos. unfold is_round_half_up in H. nia. Qed.

Lemma lutRotate_spec raw : length raw = L -> exists r, lutRotate w L mm raw = Some r /\ length r = L /\
  (Forall (uword w) raw -> Forall (uword w) r) /\
  (forall i, (i < L)%nat -> nthZ r i = if Z.of_nat i <? LZ - off then nthZ raw (i + Z.to_nat off) else wrap w (- nthZ raw (i + Z.to_nat off - L))).
Proof.
  intros Lr. pose proof HLpos as HL. pose proof off_range as Ho. unfold lutRotate. rewrite (wrap_small w (2 * mm)) by (unfold uword; lia). fold off.
  destruct (RotateInPlace_spec 0 raw (- off) ltac:(lia)) as (v & -> & [Lv Hv]).
  destruct (negRange_spec N HN w (LZ - off) LZ v ltac:(lia) ltac:(lia)) as [Ln Hn].
  eexists. split; [reflexivity|]. split; [lia|].
  assert (forall i, (i < L)%nat -> nthZ v i = if Z.of_nat i <? LZ - off then nthZ raw (i + Z.to_nat off) else nthZ raw (i + Z.to_nat off - L)) as Hv'.
  { intros i Hi. unfold nthZ.
    destruct (Z.ltb_spec (Z.of_nat i) (LZ - off)).
    - rewrite <- (Hv (i + Z.to_nat off)%nat) by lia. f_equal. rewrite Lr. rewrite Z.mod_small by lia. lia.
    - rewrite <- (Hv (i + Z.to_nat off - L)%nat) by lia. f_equal. rewrite Lr.
      replace (Z.of_nat (i + Z.to_nat off - L) + - off) with (Z.of_nat i - LZ) by lia. rewrite <- (Z.mod_unique_pos (Z.of_nat i - LZ) LZ (-1) (Z.of_nat i)) by lia. lia. }
  assert (forall i, (i < L)%nat -> nthZ (negRange w (LZ - off) LZ v) i = if Z.of_nat i <? LZ - off then nthZ raw (i + Z.to_nat off) else wrap w (- nthZ raw (i + Z.to_nat off - L))) as Hr.
  { intros i Hi. rewrite Hn, Hv' by exact Hi. destruct (Z.ltb_spec (Z.of_nat i) (LZ - off)); destruct (Z.leb_spec (LZ - off) (Z.of_nat i)), (Z.ltb_spec (Z.of_nat i) LZ); cbn; reflexivity || lia. }
  split; [|exact Hr]. intros F. apply (Forall_nthZ (uword w)). rewrite Ln, Lv, Lr. intros i Hi. rewrite Hr by exact Hi.
  destruct (Z.ltb_spec (Z.of_nat i) (LZ - off)); [|apply wrap_range; lia]. apply (Forall_nth_lt _ _ 0 _ F). lia.
Qed.

Lemma lutSplit_spec raw lutOut : length lutOut = E -> (forall i, (i < E)%nat -> length (nth i lutOut []) = N) ->
  lutSplit N E raw lutOut = tab E (fun i => tab N (fun j => nthZ raw (j * E + i))).
Proof.
  intros Lo Hl. unfold lutSplit.
  set (P := fun (m : nat) (o : list (list Z)) => (m <= E)%nat -> length o = E /\ forall i, (i < E)%nat -> nth i o [] = if (i <? m)%nat then tab N (fun j => nthZ raw (j * E + i)) else nth i lutOut []).
  match goal with |- forN 0 E ?b ?s = _ => assert (P E (forN 0 E b s)) as HP end.
  { apply (forN_ind P); unfold P; clear P.
    - intros _. split; [exact Lo|]. intros i Hi. reflexivity.
    - intros m o Hm H Hm'. destruct (H ltac:(lia)) as (A & B). cbn [Nat.add]. split; [now rewrite upd_length|]. intros i Hi. rewrite nth_upd_if by lia.
      destruct (Nat.eqb_spec i m) as [->|Hne].
      + destruct (Nat.ltb_spec m (S m)); [|lia]. rewrite B by lia. destruct (Nat.ltb_spec m m); [lia|].
        set (q0 := nth m lutOut []). assert (length q0 = N) as Lq by (apply Hl; lia).
        set (P2 := fun (c : nat) (q : list Z) => (c <= N)%nat -> length q = N /\ forall j, (j < c)%nat -> nthZ q j = nthZ raw (j * E + m)).
        match goal with |- forN 0 N ?b ?s = _ => assert (P2 N (forN 0 N b s)) as HP2 end.
        { apply (forN_ind P2); unfold P2; clear P2.
          - intros _. split; [exact Lq|]. intros; lia.
          - intros c q Hc H2 Hc'. destruct (H2 ltac:(lia)) as (A2 & B2). cbn [Nat.add]. split; [now rewrite upd_length|]. intros j Hj. rewrite nthZ_upd by lia.
            destruct (Nat.eqb_spec j c) as [->|]; [reflexivity|]. apply B2. lia. }
        destruct (HP2 ltac:(lia)) as (A2 & B2). apply nthZ_ext; [now rewrite tab_length|]. intros j Hj. rewrite B2 by lia. unfold nthZ at 2. now rewrite nth_tab by lia.
      + rewrite B by lia. destruct (Nat.ltb_spec i m), (Nat.ltb_spec i (S m)); try lia; reflexivity. }
  destruct (HP ltac:(lia)) as (A & B). apply (list_ext []); [now rewrite tab_length|]. intros i Hi. rewrite B, nth_tab by lia. destruct (Nat.ltb_spec i E); [reflexivity|lia].
Qed.

Lemma weave_tab raw x : cf (tableOf N E (tab E (fun i => tab N (fun j => nthZ raw (j * E + i))))) x = cf (pol L raw) x.
Proof.
  pose proof HLpos as HL.
  assert (forall i, (i < L)%nat -> cf (tableOf N E (tab E (fun i => tab N (fun j => nthZ raw (j * E + i))))) (Z.of_nat i) = cf (pol L raw) (Z.of_nat i)) as H.
  { intros i Hi. rewrite (cf_pol_at L HL) by exact Hi. unfold tableOf, weave. cbn [cf]. unfold weave_cf. destruct E as [|e] eqn:Ee; [lia|]. rewrite <- Ee in *.
    rewrite <- Nat2Z.inj_mod, <- Nat2Z.inj_div, Nat2Z.id. pose proof (Nat.mod_upper_bound i E ltac:(lia)) as Hm. pose proof (Nat.div_mod i E ltac:(lia)) as Hdm.
    assert (i / E < N)%nat as Hd by (apply Nat.div_lt_upper_bound; lia).
    rewrite (cf_pol_at N HN) by exact Hd. rewrite nth_tab by exact Hm. unfold nthZ at 1. rewrite nth_tab by exact Hd. f_equal. nia. }
  assert (@peq L 0 (tableOf N E (tab E (fun i => tab N (fun j => nthZ raw (j * E + i))))) (pol L raw)) as HP.
  { apply peq_coeffs; [exact HL|]. intros i Hi. apply eqm_eq. now apply H. }
  destruct (HP x) as (q & Hq). lia.
Qed.

(** Position j (any integer, antiperiodic) holds f m when it is in the shifted box of m. *)
Lemma rotated_value f raw r j m : length raw = L ->
  (forall m i, 0 <= m < mm -> rd L mm m <= Z.of_nat i < rd L mm (m + 1) -> nthZ raw i = f m) ->
  (forall i, (i < L)%nat -> nthZ r i = if Z.of_nat i <? LZ - off then nthZ raw (i + Z.to_nat off) else wrap w (- nthZ raw (i + Z.to_nat off - L))) ->
  0 <= m < mm -> rd L mm m <= j + off < rd L mm (m + 1) -> eqm Q (cf (pol L r) j) (f m).
Proof.
  intros Lr Hf Hr Hm Hj. pose proof HLpos as HL. pose proof off_range as Ho.
  pose proof (rd_mono L mm HL Hmm Hsz 0 m ltac:(lia) ltac:(lia)) as M0. rewrite (rd_0 L mm HL Hmm Hsz) in M0.
  pose proof (rd_mono L mm HL Hmm Hsz (m + 1) mm ltac:(lia) ltac:(lia)) as M1. rewrite (rd_mm L mm HL Hmm Hsz) in M1.
  destruct (Z_lt_ge_dec j 0) as [Hneg|Hpos].
  - replace (cf (pol L r) j) with (- cf (pol L r) (Z.of_nat (Z.to_nat (j + LZ)))).
    2:{ rewrite Z2Nat.id by lia. rewrite cf_anti. lia. }
    rewrite (cf_pol_at L HL) by lia. rewrite Hr by lia. destruct (Z.ltb_spec (Z.of_nat (Z.to_nat (j + LZ))) (LZ - off)); [lia|].
    rewrite (Hf m); [|exact Hm|lia]. rewrite wrap_eqm. apply eqm_eq. lia.
  - replace j with (Z.of_nat (Z.to_nat j)) at 1 by lia. rewrite (cf_pol_at L HL) by lia. rewrite Hr by lia.
    destruct (Z.ltb_spec (Z.of_nat (Z.to_nat j)) (LZ - off)); [|lia]. rewrite (Hf m); [reflexivity|exact Hm|lia].
Qed.

Lemma GenLUT_full f lutOut raw : length raw = L -> length lutOut = E -> (forall i, (i < E)%nat -> length (nth i lutOut []) = N) ->
  exists lut raw', GenLUTCustomFullTo w N E lutOut raw f mm = Some (lut, raw') /\ length raw' = L /\
    length lut = E /\ (forall i, (i < E)%nat -> length (nth i lut []) = N) /\
    ((forall m, 0 <= m < mm -> uword w (f m)) -> lut_ok w N E lut) /\
    (forall j m, 0 <= m < mm -> rd L mm m <= j + off < rd L mm (m + 1) -> eqm Q (cf (tableOf N E lut) j) (f m)).
Proof.
  intros Lr Lo Hl. pose proof HLpos as HL. pose proof off_range as Ho. unfold GenLUTCustomFullTo.
  destruct (lutFill_spec L mm HL Hmm Hsz f raw Lr) as (r1 & -> & L1 & H1).
  destruct (lutRotate_spec r1 L1) as (r2 & -> & L2 & W2 & H2).
  rewrite lutSplit_spec by assumption.
  eexists _, _. split; [reflexivity|]. split; [exact L2|]. split; [apply tab_length|]. split; [intros i Hi; rewrite nth_tab by exact Hi; apply tab_length|]. split.
  - intros Hf. assert (Forall (uword w) r1) as F1.
    { apply Forall_nthZ. intros i Hi. destruct (rd_cover L mm HL Hmm Hsz (Z.of_nat i) ltac:(lia)) as (m & Hm & Hb). rewrite (H1 m i Hm Hb). now apply Hf. }
    specialize (W2 F1). split; [apply tab_length|]. intros i Hi. rewrite nth_tab by exact Hi. split; [apply tab_length|]. apply Forall_tab. intros j Hj.
    apply (Forall_nth_lt _ _ 0 _ W2). rewrite L2. nia.
  - intros j m Hm Hj. rewrite weave_tab. now apply (rotated_value f r1 r2).
Qed.

(** The result does not depend on the old contents. *)
Lemma GenLUT_indep f lutOut lutOut' raw raw' : length raw = L -> length raw' = L ->
  length lutOut = E -> (forall i, (i < E)%nat -> length (nth i lutOut []) = N) -> length lutOut' = E -> (forall i, (i < E)%nat -> length (nth i lutOut' []) = N) ->
  GenLUTCustomFullTo w N E lutOut raw f mm = GenLUTCustomFullTo w N E lutOut' raw' f mm.
Proof.
  intros Lr Lr' Lo Hl Lo' Hl'. pose proof HLpos as HL. unfold GenLUTCustomFullTo.
  destruct (lutFill_spec L mm HL Hmm Hsz f raw Lr) as (r1 & -> & L1 & H1).
  destruct (lutFill_spec L mm HL Hmm Hsz f raw' Lr') as (r1' & -> & L1' & H1').
  assert (r1 = r1') as ->.
  { apply nthZ_ext; [lia|]. intros i Hi. destruct (rd_cover L mm HL Hmm Hsz (Z.of_nat i) ltac:(lia)) as (m & Hm & Hb). now rewrite (H1 m i Hm Hb), (H1' m i Hm Hb). }
  destruct (lutRotate w L mm r1') as [r2|]; [|reflexivity]. now rewrite !lutSplit_spec by assumption.
Qed.

(** The box, in plain arithmetic. *)
Lemma box_general j m : 0 <= m < mm -> 2 * Z.abs (mm * j - m * LZ) <= LZ - 2 * mm -> rd L mm m <= j + off < rd L mm (m + 1).
Proof.
  intros Hm Hj. pose proof HLpos as HL. pose proof (rd_spec L mm HL Hmm Hsz m ltac:(lia)) as A. pose proof (rd_spec L mm HL Hmm Hsz (m + 1) ltac:(lia)) as B. pose proof off_spec as C.
  unfold is_round_half_up in *. set (r0 := rd L mm m) in *. set (r1 := rd L mm (m + 1)) in *. set (o := off) in *. clearbody r0 r1 o.
  split.
  - apply Z.le_ngt. intros X. assert (mm * (j + o + 1) <= mm * r0) by (apply Z.mul_le_mono_nonneg_l; lia). lia.
  - apply Z.lt_nge. intros X. assert (mm * r1 <= mm * (j + o)) by (apply Z.mul_le_mono_nonneg_l; lia). lia.
Qed.
Lemma box_exact j m : 0 <= m < mm -> (2 * mm | LZ) -> - LZ <= 2 * (mm * j - m * LZ) < LZ -> rd L mm m <= j + off < rd L mm (m + 1).
Proof.
  intros Hm [q Hq] Hj. pose proof HLpos as HL. pose proof (rd_spec L mm HL Hmm Hsz m ltac:(lia)) as A. pose proof (rd_spec L mm HL Hmm Hsz (m + 1) ltac:(lia)) as B. pose proof off_spec as C.
  unfold is_round_half_up in *. set (r0 := rd L mm m) in *. set (r1 := rd L mm (m + 1)) in *. set (o := off) in *. clearbody r0 r1 o.
  assert (o = q) by nia. assert (r0 = m * (2 * q)) by nia. assert (r1 = (m + 1) * (2 * q)) by nia. subst o r0 r1. nia.
Qed.
End Lut2.
