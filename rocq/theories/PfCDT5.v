(** Lemmas: the tail interval of NewCDTSampler is not empty, and its ends are int64 values. *)
From Coq Require Import Lia Floats.SpecFloat.
From Verif Require Import Base ModelNum ModelAsm ModelF64 ModelFFT ModelF64Arith PfF64 PfF64b PfF64d SpecRound PfRound PfValid ModelSampler SpecSampler PfSampler SpecNum PfNum ModelCDT SpecCDT PfCDT PfCDT2 PfCDT3 PfCDT4.
From Coq Require Import Reals Lra.
Import ListNotations.
Open Scope Z_scope.

Lemma fin_F x : is_fin x -> finF x. Proof. destruct x; intros H; try exact Logic.I; exact H. Qed.
Lemma F_fin x : vb x = true -> finF x -> is_fin x. Proof. destruct x; intros V H; try exact Logic.I; try exact V; exact H. Qed.
Lemma fin_vb x : is_fin x -> vb x = true. Proof. destruct x; intros H; try reflexivity; try exact H; exfalso; exact H. Qed.
Lemma small_pw : (pw (-53) <= / 4503599627370496)%R /\ (0 < pw (-53))%R /\ (0 < pw (-1075))%R /\ (pw (-1075) <= / 16)%R /\ pw 46 = 70368744177664%R /\ (pw 64 <= pw 970)%R /\ pw 64 = 18446744073709551616%R.
Proof.
  assert (E : forall n, 0 <= n -> (pw (- n) = / IZR (2 ^ n))%R).
  { intros n Hn. rewrite pw_IZR by lia. apply Rmult_eq_reg_r with (pw n); [|pose proof (pw_pos n); lra]. rewrite <- pw_add. replace (- n + n) with 0 by lia. rewrite pw_0. field. pose proof (pw_pos n). lra. }
  repeat split; try apply pw_pos.
  - apply Rle_trans with (pw (-52)); [apply pw_le; lia|]. change (-52) with (- (52)). rewrite E by lia. apply Req_le. reflexivity.
  - apply Rle_trans with (pw (-4)); [apply pw_le; lia|]. change (-4) with (- (4)). rewrite E by lia. apply Req_le. reflexivity.
  - rewrite <- pw_IZR by lia. reflexivity.
  - apply pw_le. lia.
  - rewrite <- pw_IZR by lia. reflexivity.
Qed.
Lemma tails center sd : is_fin center -> is_fin sd -> (Rabs (val center) <= 2 ^ 46)%R -> (0 <= val sd <= 2 ^ 46)%R ->
  cdtTailLo center sd <= cdtTailHi center sd /\ (Rabs (IZR (cdtTailLo center sd)) <= 2 ^ 56)%R /\ (Rabs (IZR (cdtTailHi center sd)) <= 2 ^ 56)%R /\
  (IZR (cdtTailLo center sd) <= val center - 12 * val sd + 1 /\ val center + 12 * val sd - 1 <= IZR (cdtTailHi center sd))%R.
Proof.
  intros Hc Hs Bc Bs. destruct small_pw as (P1 & P2 & P3 & P4 & P5 & P6 & P7).
  assert (E46 : (2 ^ 46 = 70368744177664)%R) by (simpl; ring). assert (E56 : (2 ^ 56 = 72057594037927936)%R) by (simpl; ring). rewrite E46 in *. rewrite E56. clear E46 E56 P5.
  assert (V12 : finF tailCutF /\ val tailCutF = 12%R).
  { split; [exact Logic.I|]. destruct (BN_val 12 0 false ltac:(lia) ltac:(lia) ltac:(lia)) as (p & j & _ & E). unfold tailCutF. rewrite E, pw_0. ring. }
  destruct V12 as [F12 V12]. pose proof (fin_F _ Hc) as Fc. pose proof (fin_F _ Hs) as Fs.
  destruct (mul_rok tailCutF sd F12 Fs) as [Ft Et]; [rewrite V12; apply Rabs_le; lra|]. rewrite V12, (Rabs_right (12 * val sd)) in Et by lra.
  assert (Vt : is_fin (SFmul 53 1024 tailCutF sd)) by (apply F_fin; [apply mul_valid; [reflexivity|apply fin_vb; exact Hs]|exact Ft]).
  set (t := SFmul 53 1024 tailCutF sd) in *. set (c := val center) in *. set (s := val sd) in *.
  assert (Bc2 : (- 70368744177664 <= c <= 70368744177664)%R) by (revert Bc; unfold Rabs; destruct (Rcase_abs c); lra).
  assert (M1 : (pw (-53) * (12 * s) <= / 4503599627370496 * (12 * s))%R) by (apply Rmult_le_compat_r; lra).
  assert (T1 : (- (/ 4503599627370496 * (12 * s) + / 16) <= val t - 12 * s <= / 4503599627370496 * (12 * s) + / 16)%R) by (revert Et; unfold Rabs; destruct (Rcase_abs (val t - 12 * s)); lra).
  assert (K : forall y r : R, (Rabs (y - r) <= pw (-53) * Rabs r + pw (-1075))%R -> (- 14636698788954200 <= r <= 14636698788954200)%R ->
    (r - (/ 4503599627370496 * Rabs r + / 16) <= y <= r + (/ 4503599627370496 * Rabs r + / 16))%R).
  { intros y r H Hr. assert (pw (-53) * Rabs r <= / 4503599627370496 * Rabs r)%R by (apply Rmult_le_compat_r; [apply Rabs_pos|lra]).
    assert (H1 : (Rabs (y - r) <= / 4503599627370496 * Rabs r + / 16)%R) by lra. revert H1. generalize (/ 4503599627370496 * Rabs r + / 16)%R as Q. clear. intros Q H.
    pose proof (Rle_abs (y - r)). pose proof (Rle_abs (- (y - r))). rewrite Rabs_Ropp in *. lra. }
  destruct (sub_rok center t Fc Ft) as [Fl El]; [fold c; apply Rabs_le; lra|]. fold c in El. apply K in El; [|lra].
  destruct (add_rok center t Fc Ft) as [Fh Eh]; [fold c; apply Rabs_le; lra|]. fold c in Eh. apply K in Eh; [|lra]. clear K.
  pose proof (tail_lo center sd) as TL. pose proof (tail_hi center sd) as TH. cbv zeta in TL, TH. fold t in TL, TH.
  set (yl := val (SFsub 53 1024 center t)) in *. set (yh := val (SFadd 53 1024 center t)) in *.
  assert (A1 : (Rabs (c - val t) <= Rabs c + val t + / 8)%R) by (unfold Rabs; destruct (Rcase_abs (c - val t)), (Rcase_abs c); lra).
  assert (A2 : (Rabs (c + val t) <= Rabs c + val t + / 8)%R) by (unfold Rabs; destruct (Rcase_abs (c + val t)), (Rcase_abs c); lra).
  assert (Q63 : IZR (2 ^ 63) = 9223372036854775808%R) by reflexivity. assert (Q63' : IZR (2 ^ 63 - 1) = 9223372036854775807%R) by reflexivity. rewrite Q63 in *. rewrite Q63' in TH.
  specialize (TL (F_fin _ (sub_valid _ _ (fin_vb _ Hc) (fin_vb _ Vt)) Fl) ltac:(lra)). specialize (TH (F_fin _ (add_valid _ _ (fin_vb _ Hc) (fin_vb _ Vt)) Fh) ltac:(lra)).
  split; [|split; [|split]].
  - apply Z.lt_succ_r, lt_IZR. rewrite succ_IZR. lra.
  - apply Rabs_le. lra.
  - apply Rabs_le. lra.
  - lra.
Qed.

(** For such centres and deviations the constructor returns a table with at least one entry, one per integer of the tail interval. *)
Lemma cdt_returns ex center sd : is_fin center -> is_fin sd -> (Rabs (val center) <= 2 ^ 46)%R -> (0 <= val sd <= 2 ^ 46)%R ->
  exists table, NewCDTSampler ex center sd = Ret (table, cdtTailLo center sd + floorZ center) /\ (0 < length table)%nat /\
  Z.of_nat (length table) = cdtTailHi center sd - cdtTailLo center sd + 1 /\ - 2 ^ 63 <= floorZ center < 2 ^ 63.
Proof.
  intros Hc Hs Bc Bs. destruct (tails center sd Hc Hs Bc Bs) as (L & Bl & Bh & _).
  assert (E56 : (2 ^ 56 = IZR (2 ^ 56)%Z)%R) by (change (2 ^ 56)%Z with 72057594037927936; simpl; ring). rewrite E56, <- abs_IZR in Bl, Bh. apply le_IZR in Bl, Bh.
  assert (Fc : finite center) by (destruct center; try exact Logic.I; exact Hc). pose proof (floor_spec center Fc) as F.
  assert (Hf : - 2 ^ 47 <= floorZ center <= 2 ^ 47).
  { assert (E46 : (2 ^ 46 = 70368744177664)%R) by (simpl; ring). rewrite E46 in Bc. clear - Bc F. pose proof (Rle_abs (val center)). pose proof (Rle_abs (- val center)). rewrite Rabs_Ropp in *.
    split; apply le_IZR; [change (IZR (- 2 ^ 47)) with (-140737488355328)%R|change (IZR (2 ^ 47)) with 140737488355328%R]; lra. }
  destruct (cdt_total ex center sd ltac:(lia)) as (table & offset & E & El). exists table.
  destruct (entry_spec ex center sd table offset E) as [_ Ho]. rewrite E. rewrite (Ho Hc ltac:(lia) ltac:(lia)). split; [reflexivity|]. split; [lia|]. split; [exact El|lia].
Qed.
Lemma cdt_inside ex center sd : exp_ok ex -> is_fin center -> is_fin sd -> (0 <= val center < 1)%R -> (0 <= val sd <= 2 ^ 46)%R -> is_pos (expDen sd) -> is_pos (normDen sd) ->
  exists table offset, NewCDTSampler ex center sd = Ret (table, offset) /\ forall r, r < nthZ table (length table - 1) ->
    cdtTailLo center sd <= CDTSample table offset r <= cdtTailHi center sd.
Proof.
  intros Hex Hc Hs Bc Bs H1 H2. assert (E46 : (2 ^ 46 = 70368744177664)%R) by (simpl; ring).
  destruct (cdt_returns ex center sd Hc Hs ltac:(apply Rabs_le; rewrite E46; lra) Bs) as (table & E & L & El & Hf).
  assert (F0 : floorZ center = 0).
  { assert (Fc : finite center) by (destruct center; try exact Logic.I; exact Hc). pose proof (floor_spec center Fc) as F.
    assert (-1 < floorZ center) by (apply lt_IZR; lra). assert (floorZ center < 1) by (apply lt_IZR; lra). lia. }
  exists table, (cdtTailLo center sd + floorZ center). split; [exact E|]. intros r Hr.
  pose proof (sample_range ex center sd table _ Hex Hc Hf H1 H2 E r L Hr). lia.
Qed.
