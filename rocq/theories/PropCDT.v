(** Property C76: the cumulative table of the sanitization sampler. *)
From Coq Require Import Lia Floats.SpecFloat.
From Verif Require Import Base ModelNum ModelF64 ModelF64Arith SpecRound ModelSampler SpecSampler ModelCDT SpecCDT PfCDT PfCDT2 PfCDT3 PfCDT4 PfCDT5.
From Coq Require Import Reals.
Import ListNotations.
Open Scope Z_scope.

(** float64(2*math.Pi). *)
Definition twoPi : f64 := S754_finite false 7074237752028440 (-50).
(** The table is nondecreasing, its entries are words, and it has one entry per integer of the tail interval. *)
Theorem C76_table : forall ex center sd table offset, exp_ok ex -> is_fin center -> - 2 ^ 63 <= floorZ center < 2 ^ 63 -> is_pos (expDen sd) -> is_pos (normDen sd) ->
  NewCDTSampler ex center sd = Ret (table, offset) ->
  nondecreasing table /\ (forall i, (i < length table)%nat -> 0 <= nthZ table i < 2 ^ 64) /\
  Z.of_nat (length table) = swrap 64 (cdtTailHi center sd - cdtTailLo center sd + 1).
Proof. exact table_spec. Qed.
Print Assumptions C76_table.
(** Entry i is the word of the rounded sum of the densities at lo, ..., lo + i, about the fractional part of the centre. *)
Theorem C76_entry : forall ex center sd table offset, NewCDTSampler ex center sd = Ret (table, offset) ->
  let lo := cdtTailLo center sd in let c := SFsub 53 1024 center (floorF center) in
  (forall i, (i < length table)%nat -> nthZ table i = cdtWord (rsum (density ex (SFsqrt 53 1024 twoPi) c sd) lo (S i))) /\
  (is_fin center -> - 2 ^ 63 <= floorZ center < 2 ^ 63 -> - 2 ^ 63 <= lo + floorZ center < 2 ^ 63 -> offset = lo + floorZ center).
Proof. exact entry_spec. Qed.
Print Assumptions C76_entry.
(** The tail interval: the ends are the floor and the ceiling of centre -+ 12 deviations as floats. *)
Theorem C76_tail_lo : forall center sd, let t := SFsub 53 1024 center (SFmul 53 1024 (binary_normalize 53 1024 12 0 false) sd) in is_fin t -> (- IZR (2 ^ 63) <= val t < IZR (2 ^ 63))%R ->
  (IZR (cdtTailLo center sd) <= val t < IZR (cdtTailLo center sd) + 1)%R.
Proof. exact tail_lo. Qed.
Print Assumptions C76_tail_lo.
Theorem C76_tail_hi : forall center sd, let t := SFadd 53 1024 center (SFmul 53 1024 (binary_normalize 53 1024 12 0 false) sd) in is_fin t -> (- IZR (2 ^ 63) <= val t <= IZR (2 ^ 63 - 1))%R ->
  (IZR (cdtTailHi center sd) - 1 < val t <= IZR (cdtTailHi center sd))%R.
Proof. exact tail_hi. Qed.
Print Assumptions C76_tail_hi.
(** The constructor returns when the tail interval has fewer than 2^63 integers. *)
Theorem C76_returns : forall ex center sd, 0 <= cdtTailHi center sd - cdtTailLo center sd + 1 < 2 ^ 63 ->
  exists table offset, NewCDTSampler ex center sd = Ret (table, offset) /\ Z.of_nat (length table) = cdtTailHi center sd - cdtTailLo center sd + 1.
Proof. exact cdt_total. Qed.
Print Assumptions C76_returns.
(** Centres and deviations up to 2^46: the interval is not empty and reaches to within 1 of 12 deviations on both sides. *)
Theorem C76_interval : forall center sd, is_fin center -> is_fin sd -> (Rabs (val center) <= 2 ^ 46)%R -> (0 <= val sd <= 2 ^ 46)%R ->
  cdtTailLo center sd <= cdtTailHi center sd /\ (Rabs (IZR (cdtTailLo center sd)) <= 2 ^ 56)%R /\ (Rabs (IZR (cdtTailHi center sd)) <= 2 ^ 56)%R /\
  (IZR (cdtTailLo center sd) <= val center - 12 * val sd + 1 /\ val center + 12 * val sd - 1 <= IZR (cdtTailHi center sd))%R.
Proof. exact tails. Qed.
Print Assumptions C76_interval.
(** For these the constructor returns, with a table that is not empty and the offset without a wrap. *)
Theorem C76_constructed : forall ex center sd, is_fin center -> is_fin sd -> (Rabs (val center) <= 2 ^ 46)%R -> (0 <= val sd <= 2 ^ 46)%R ->
  exists table, NewCDTSampler ex center sd = Ret (table, cdtTailLo center sd + floorZ center) /\ (0 < length table)%nat /\
  Z.of_nat (length table) = cdtTailHi center sd - cdtTailLo center sd + 1 /\ - 2 ^ 63 <= floorZ center < 2 ^ 63.
Proof. exact cdt_returns. Qed.
Print Assumptions C76_constructed.
(** With a centre in [0, 1) the samples stay in the tail interval, for words below the last entry. *)
Theorem C76_inside : forall ex center sd, exp_ok ex -> is_fin center -> is_fin sd -> (0 <= val center < 1)%R -> (0 <= val sd <= 2 ^ 46)%R -> is_pos (expDen sd) -> is_pos (normDen sd) ->
  exists table offset, NewCDTSampler ex center sd = Ret (table, offset) /\ forall r, r < nthZ table (length table - 1) ->
    cdtTailLo center sd <= CDTSample table offset r <= cdtTailHi center sd.
Proof. exact cdt_inside. Qed.
Print Assumptions C76_inside.
(** So the binary search of Sample counts the entries not above the word, without a hypothesis on the table. *)
Theorem C76_value : forall ex center sd table offset, exp_ok ex -> is_fin center -> - 2 ^ 63 <= floorZ center < 2 ^ 63 -> is_pos (expDen sd) -> is_pos (normDen sd) ->
  NewCDTSampler ex center sd = Ret (table, offset) -> forall r, CDTSample table offset r = offset + below table r.
Proof. exact sample_value. Qed.
Print Assumptions C76_value.
Theorem C76_monotone : forall ex center sd table offset, exp_ok ex -> is_fin center -> - 2 ^ 63 <= floorZ center < 2 ^ 63 -> is_pos (expDen sd) -> is_pos (normDen sd) ->
  NewCDTSampler ex center sd = Ret (table, offset) -> forall r r', r <= r' -> CDTSample table offset r <= CDTSample table offset r'.
Proof. exact sample_mono. Qed.
Print Assumptions C76_monotone.
Theorem C76_range : forall ex center sd table offset, exp_ok ex -> is_fin center -> - 2 ^ 63 <= floorZ center < 2 ^ 63 -> is_pos (expDen sd) -> is_pos (normDen sd) ->
  NewCDTSampler ex center sd = Ret (table, offset) -> forall r, (0 < length table)%nat -> r < nthZ table (length table - 1) ->
  offset <= CDTSample table offset r <= offset + Z.of_nat (length table) - 1.
Proof. exact sample_range. Qed.
Print Assumptions C76_range.
(** A probability below 1 is written as its exact 64-bit truncation, any other as the largest word. *)
Theorem C76_word : forall x, is_nonneg x -> x <> S754_infinity false -> (val x < 1)%R -> (IZR (cdtWord x) <= val x * powerRZ 2 64 < IZR (cdtWord x) + 1)%R.
Proof. exact word_val. Qed.
Print Assumptions C76_word.
Theorem C76_word_top : forall x, is_nonneg x -> (1 <= val x)%R -> cdtWord x = 2 ^ 64 - 1.
Proof. exact word_top. Qed.
Print Assumptions C76_word_top.
(** A rounded sum of zero or positive floats is not below its first summand. *)
Theorem C76_sum : forall x d, is_nonneg x -> is_nonneg d ->
  is_nonneg (SFadd 53 1024 x d) /\ (SFadd 53 1024 x d <> S754_infinity false -> (val x <= val (SFadd 53 1024 x d))%R).
Proof. exact sum_le. Qed.
Print Assumptions C76_sum.

(** A concrete case: centre 1/2, deviation 1/4, and a step function for the exponential. *)
Definition exE (y : f64) : f64 := match y with S754_zero _ => oneF | S754_finite true m e => if -51 <? e then S754_zero false else pow2F (-1) | _ => pow2F (-1) end.
Example ex_C76_exp : exp_ok exE.
Proof. intros [s|[]| |[] m e] H; try exact Logic.I; try reflexivity. unfold exE. destruct (-51 <? e); [exact Logic.I|reflexivity]. Qed.
Example ex_C76_hyp : is_fin (pow2F (-1)) /\ floorZ (pow2F (-1)) = 0 /\ is_pos (expDen (pow2F (-2))) /\ is_pos (normDen (pow2F (-2))).
Proof. repeat split; reflexivity. Qed.
Example ex_C76_table : cdtTailLo (pow2F (-1)) (pow2F (-2)) = -3 /\ cdtTailHi (pow2F (-1)) (pow2F (-2)) = 4 /\
  NewCDTSampler exE (pow2F (-1)) (pow2F (-2)) = Ret ([0; 0; 0; 14718372293494605824; 2 ^ 64 - 1; 2 ^ 64 - 1; 2 ^ 64 - 1; 2 ^ 64 - 1], -3).
Proof. vm_compute. repeat split. Qed.
Example ex_C76_sample : map (CDTSample [0; 0; 0; 14718372293494605824; 2 ^ 64 - 1; 2 ^ 64 - 1; 2 ^ 64 - 1; 2 ^ 64 - 1] (-3)) [0; 2 ^ 63; 2 ^ 64 - 2; 2 ^ 64 - 1] = [0; 0; 1; 5].
Proof. reflexivity. Qed.
(** A zero deviation: the sum is NaN from the first term, and its conversion to uint64 is not defined by Go. *)
Theorem C76_zero_refuted : exists center sd, is_fin center /\ is_fin sd /\ cdtTailLo center sd = 0 /\ cdtTailHi center sd = 0 /\
  forall ex, ex S754_nan = S754_nan -> SFadd 53 1024 (S754_zero false) (cdtTerm ex (SFsub 53 1024 center (floorF center)) sd 0) = S754_nan.
Proof. exists (S754_zero false), (S754_zero false). repeat split; try exact Logic.I. intros ex H. change (SFadd 53 1024 (S754_zero false) (SFdiv 53 1024 (ex S754_nan) (S754_zero false)) = S754_nan). rewrite H. reflexivity. Qed.
Print Assumptions C76_zero_refuted.
(** The fault of C19_center_refuted on binary64: with centre 100 and deviation 1 every sample lies above the tail interval. *)
Theorem C76_center_refuted : exists center sd, is_pos center /\ is_pos sd /\ forall ex table offset r, NewCDTSampler ex center sd = Ret (table, offset) ->
  cdtTailHi center sd < CDTSample table offset r.
Proof.
  exists (binary_normalize 53 1024 100 0 false), (binary_normalize 53 1024 1 0 false). split; [reflexivity|]. split; [reflexivity|]. intros ex table offset r H.
  destruct (entry_spec _ _ _ _ _ H) as [_ Ho]. clear H. set (hi := cdtTailHi _ _). replace hi with 112 by reflexivity. clear hi.
  set (lo := cdtTailLo _ _) in Ho. replace lo with 88 in Ho by reflexivity. clear lo. set (fl := floorZ _) in Ho. replace fl with 100 in Ho by reflexivity. clear fl.
  specialize (Ho eq_refl ltac:(lia) ltac:(lia)). unfold CDTSample. match goal with |- context [Z.of_nat ?x] => pose proof (Nat2Z.is_nonneg x) end. lia.
Qed.
Print Assumptions C76_center_refuted.
