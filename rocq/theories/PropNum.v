(** Properties C01-C05: integer and floating-point helpers of math/num/num.go. *)
From Verif Require Import Base ModelNum ModelFloat SpecNum PfNum PfNum2 PfFloat.

(** C01, unsigned T.  Guard: 2x need not fit; the code shifts the wrapped double, which is harmless. *)
Theorem C01_DivRoundBits_unsigned : forall w x bits, 0 <= bits < w -> uword w x ->
  is_round_half_up x (2 ^ bits) (DivRoundBits w x bits) /\ uword w (DivRoundBits w x bits).
Proof. exact DivRoundBits_spec. Qed.
Print Assumptions C01_DivRoundBits_unsigned.
Example C01_unsigned_case : uword 32 4294967295 /\ DivRoundBits 32 4294967295 31 = 2 /\ DivRoundBits 32 6 2 = 2.
Proof. vm_compute. repeat split; discriminate. Qed.

Theorem C01_DivRoundBits_signed : forall w x bits, 0 <= bits < w -> sword w x ->
  is_round_half_up x (2 ^ bits) (DivRoundBitsS w x bits) /\ sword w (DivRoundBitsS w x bits).
Proof. exact DivRoundBitsS_spec. Qed.
Print Assumptions C01_DivRoundBits_signed.
Example C01_signed_case : sword 64 (-3) /\ DivRoundBitsS 64 (-3) 1 = -1.
Proof. vm_compute. repeat split; discriminate. Qed.

(** C02. *)
Theorem C02_IsPowerOfTwo : forall x, IsPowerOfTwo x = true <-> power_of_two x.
Proof. exact IsPowerOfTwo_spec. Qed.
Print Assumptions C02_IsPowerOfTwo.
Theorem C02_Log2 : forall x k, Log2 x = Ok k <-> 0 < x /\ is_floor_log2 x k.
Proof. exact Log2_spec. Qed.
Print Assumptions C02_Log2.
Theorem C02_Log2_panics : forall x, Log2 x = Panic <-> x <= 0.
Proof. exact Log2_panics. Qed.
Print Assumptions C02_Log2_panics.
Example C02_case : IsPowerOfTwo 1024 = true /\ IsPowerOfTwo 1023 = false /\ IsPowerOfTwo 0 = false /\ Log2 1023 = Ok 9.
Proof. vm_compute. repeat split. Qed.

(** C59 *)
Theorem C59_MaxN : forall x, x <> [] -> In (MaxN x) x /\ forall y, In y x -> y <= MaxN x.
Proof. exact MaxN_spec. Qed.
Print Assumptions C59_MaxN.
Theorem C59_MinN : forall x, x <> [] -> In (MinN x) x /\ forall y, In y x -> MinN x <= y.
Proof. exact MinN_spec. Qed.
Print Assumptions C59_MinN.
Theorem C59_empty : MaxN [] = 0 /\ MinN [] = 0.
Proof. exact (conj eq_refl eq_refl). Qed.
Print Assumptions C59_empty.
Theorem C59_Min_Max : forall x y, MinT x y = Z.min x y /\ MaxT x y = Z.max x y.
Proof. exact MinMax_spec. Qed.
Print Assumptions C59_Min_Max.
Example C59_ex : MaxN [-3; 7; 7; 2] = 7 /\ MinN [5; -4; 9] = -4.
Proof. vm_compute. repeat split; reflexivity. Qed.

(** C03. *)
Theorem C03_Sqrt : forall x, 0 <= x < 2 ^ 64 -> exists s, Sqrt x = Ok s /\ is_floor_sqrt x s.
Proof. exact Sqrt_spec. Qed.
Print Assumptions C03_Sqrt.
Theorem C03_Sqrt_negative : forall x, x < 0 -> Sqrt x = Panic.
Proof. exact Sqrt_panics. Qed.
Print Assumptions C03_Sqrt_negative.
Theorem C03_sqrt_unique : forall x r r', is_floor_sqrt x r -> is_floor_sqrt x r' -> r = r'.
Proof. exact is_floor_sqrt_unique. Qed.
Print Assumptions C03_sqrt_unique.
Example C03_case : Sqrt 18446744073709551615 = Ok 4294967295 /\ Sqrt 99 = Ok 9.
Proof. vm_compute. repeat split. Qed.

(** C04: signed T (the only instantiation in the repository is int). *)
Theorem C04_ModInverse : forall w x m, 1 < w <= 64 -> 0 < m < 2 ^ (w - 1) ->
  (Z.gcd x m = 1 -> exists y, ModInverse true w x m = Ok y /\ 0 <= y < m /\ eqm m (x * y) 1) /\
  (Z.gcd x m <> 1 -> ModInverse true w x m = Panic).
Proof. exact ModInverse_signed. Qed.
Print Assumptions C04_ModInverse.
Example C04_inv_case : Z.gcd (-3) 16 = 1 /\ ModInverse true 64 (-3) 16 = Ok 5 /\ Z.gcd 4 16 <> 1.
Proof. vm_compute. repeat split; discriminate. Qed.

(** Unsigned T: only guaranteed when the modulus divides the word size (u wraps mod 2^w). *)
Theorem C04_ModInverse_unsigned : forall w x m, 1 < w <= 64 -> 0 < m < 2 ^ w -> (m | 2 ^ w) -> uword w x ->
  (Z.gcd x m = 1 -> exists y, ModInverse false w x m = Ok y /\ 0 <= y < m /\ eqm m (x * y) 1) /\
  (Z.gcd x m <> 1 -> ModInverse false w x m = Panic).
Proof. exact ModInverse_unsigned. Qed.
Print Assumptions C04_ModInverse_unsigned.
Example C04_inv_unsigned_case : ModInverse false 32 3 16 = Ok 11.
Proof. vm_compute. reflexivity. Qed.

(** Finding: for unsigned T and a modulus that does not divide 2^w the result can be wrong. *)
Theorem C04_ModInverse_unsigned_refuted : exists w x m y,
  1 < w <= 64 /\ 0 < m < 2 ^ w /\ uword w x /\ Z.gcd x m = 1 /\ ModInverse false w x m = Ok y /\ (x * y) mod m <> 1.
Proof. exists 32, 3, 7, 2. vm_compute. repeat split; discriminate. Qed.
Print Assumptions C04_ModInverse_unsigned_refuted.

Theorem C04_ModExp : forall sg w x y m,
  1 < w <= 64 -> 1 < m -> tword sg w m -> tword sg w ((m - 1) * (m - 1)) ->
  tword sg w x -> tword sg w y -> 0 <= y ->
  exists s, ModExp sg w x y m = Ok s /\ 0 <= s < m /\ eqm m s (x ^ y).
Proof. exact ModExp_nonneg. Qed.
Print Assumptions C04_ModExp.
Theorem C04_ModExp_negative : forall w x y m,
  1 < w <= 64 -> 1 < m < 2 ^ (w - 1) -> sword w ((m - 1) * (m - 1)) ->
  sword w x -> - 2 ^ (w - 1) < y < 0 -> Z.gcd x m = 1 ->
  exists s, ModExp true w x y m = Ok s /\ 0 <= s < m /\ eqm m (s * x ^ (- y)) 1.
Proof. exact ModExp_neg. Qed.
Print Assumptions C04_ModExp_negative.
Example C04_exp_case : ModExp true 64 5 117 8192 = Ok ((5 ^ 117) mod 8192) /\ ModExp true 64 5 (-1) 8192 = Ok 3277.
Proof. vm_compute. split; reflexivity. Qed.

(** Findings: with m = 1 and y = 0 the result 1 is outside [0,m); large moduli overflow silently. *)
Theorem C04_ModExp_m1_refuted : exists w x, ModExp true w x 0 1 = Ok 1.
Proof. exists 64, 5. vm_compute. reflexivity. Qed.
Print Assumptions C04_ModExp_m1_refuted.
Theorem C04_ModExp_overflow_refuted : exists x y m s,
  sword 64 x /\ 1 < m < 2 ^ 63 /\ 0 <= y /\ ModExp true 64 x y m = Ok s /\ s <> (x ^ y) mod m.
Proof.
  exists (2 ^ 40), 2, (2 ^ 62 - 57). eexists. split; [vm_compute; split; [discriminate|reflexivity]|].
  split; [vm_compute; split; reflexivity|]. split; [lia|]. split; [vm_compute; reflexivity|]. vm_compute. discriminate.
Qed.
Print Assumptions C04_ModExp_overflow_refuted.

(** C05. *)
Theorem C05_DivRound : forall x y, 0 <= x < 2 ^ 52 -> 0 < y < 2 ^ 53 -> is_round_half_up x y (DivRound x y).
Proof. exact DivRound_exact. Qed.
Print Assumptions C05_DivRound.
Example C05_case : DivRound 4503599627370495 2 = 2251799813685248 /\ DivRound 2147483648 3 = 715827883.
Proof. vm_compute. split; reflexivity. Qed.
(** Finding: outside the domain the result is wrong, e.g. dividing by 1 already changes the value. *)
Theorem C05_DivRound_refuted : exists x y, uword 64 x /\ 0 < y < 2 ^ 53 /\ ~ is_round_half_up x y (DivRound x y).
Proof.
  exists (2 ^ 53 + 1), 1. split; [vm_compute; split; [discriminate|reflexivity]|]. split; [lia|].
  intros [H1 H2]. vm_compute in H2. discriminate H2.
Qed.
Print Assumptions C05_DivRound_refuted.

(** Every 64-bit word: the quotient by an exactly representable scale survives noise up to half a step minus 2^12+1. *)
Theorem C05_DivRound_noisy : forall x y m e, 0 <= x < 2 ^ 64 -> 0 < y -> is_float_int y ->
  x = m * y + e -> 2 * Z.abs e + 2 ^ 13 + 2 < y -> DivRound x y = m.
Proof. exact DivRound_noisy. Qed.
Print Assumptions C05_DivRound_noisy.
Example C05_noisy_case : is_float_int (2 ^ 60) /\ DivRound (7 * 2 ^ 60 - (2 ^ 59 - 2 ^ 13)) (2 ^ 60) = 7.
Proof. split; [apply fl_pow2_float; lia|vm_compute; reflexivity]. Qed.
