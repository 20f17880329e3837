(** Property C20: encoding and decoding. *)
From Verif Require Import Base ModelNum ModelFloat ModelEncoder ModelParams SpecNum SpecParams PfNum PfFloat PfParams PfEncoder.

(** Default parameters: message modulus 2^k, the compiled scale.  Torus of at most 52 bits (uint32):
    every int message, every noise in [-scale/2, scale/2). *)
Theorem C20_params_small : forall w k msg e, 0 < w <= 52 -> 0 <= k <= w - 2 ->
  let mm := 2 ^ k in let scale := scaleOf w mm in
  - scale <= 2 * e < scale ->
  DecodeLWECustom w (wrap w (EncodeLWECustom w msg mm scale + e)) mm scale = Some (msg mod mm).
Proof. exact decode_params_small. Qed.
Print Assumptions C20_params_small.
(** Torus up to 64 bits: the float64 quotient costs 2^13 + 2. *)
Theorem C20_params_large : forall w k msg e, 0 < w <= 64 -> 0 <= k <= w - 2 ->
  let mm := 2 ^ k in let scale := scaleOf w mm in
  2 * Z.abs e + 2 ^ 13 + 2 < scale ->
  DecodeLWECustom w (wrap w (EncodeLWECustom w msg mm scale + e)) mm scale = Some (msg mod mm).
Proof. exact decode_params_large. Qed.
Print Assumptions C20_params_large.
(** Any message modulus (non-negative messages). *)
Theorem C20_params_any : forall w mm msg e, 0 < w <= 52 -> 0 < mm < 2 ^ w -> 0 <= msg < 2 ^ w ->
  let scale := scaleOf w mm in
  2 * (Z.abs e + mm) < scale ->
  DecodeLWECustom w (wrap w (EncodeLWECustom w msg mm scale + e)) mm scale = Some (msg mod mm).
Proof. exact decode_params_any. Qed.
Print Assumptions C20_params_any.
(** Custom modulus and scale; D is how far kk*mm*scale is from Q. *)
Theorem C20_custom_small : forall w msg mm scale kk D e, 0 < w <= 52 -> 2 <= scale < 2 ^ 53 -> 0 < mm -> 0 < kk ->
  2 ^ w = kk * mm * scale + D -> 2 * (Z.abs e + Z.abs D) <= scale -> - scale <= 2 * e < scale ->
  (- scale <= 2 * (e + D)) -> wrap w msg mod mm = msg mod mm ->
  DecodeLWECustom w (wrap w (EncodeLWECustom w msg mm scale + e)) mm scale = Some (msg mod mm).
Proof. exact decode_small. Qed.
Print Assumptions C20_custom_small.
Theorem C20_custom_large : forall w msg mm scale kk D e, 0 < w <= 64 -> is_float_int scale -> 0 < scale -> 0 < mm <= 2 ^ 63 -> 0 < kk ->
  2 ^ w = kk * mm * scale + D -> 2 * (Z.abs e + Z.abs D) + 2 ^ 13 + 2 < scale ->
  wrap w msg mod mm = msg mod mm ->
  DecodeLWECustom w (wrap w (EncodeLWECustom w msg mm scale + e)) mm scale = Some (msg mod mm).
Proof. exact decode_large. Qed.
Print Assumptions C20_custom_large.
(** Modulus 0 means Q/scale. *)
Theorem C20_no_modulus : forall w s msg e, 0 < w <= 52 -> 1 <= s <= w - 1 -> - 2 ^ s <= 2 * e < 2 ^ s ->
  DecodeLWECustom w (wrap w (EncodeLWECustom w msg 0 (2 ^ s) + e)) 0 (2 ^ s) = Some (msg mod 2 ^ (w - s)).
Proof. exact decode_nomod_small. Qed.
Print Assumptions C20_no_modulus.

(** GLWE: coefficientwise, missing messages are 0, surplus messages dropped, old content overwritten. *)
Theorem C20_EncodeGLWE : forall w N out messages mm scale, length out = N ->
  length (EncodeGLWECustomTo w N out messages mm scale) = N /\
  forall i, (i < N)%nat -> nthZ (EncodeGLWECustomTo w N out messages mm scale) i =
    if (i <? length messages)%nat then EncodeLWECustom w (nthZ messages i) mm scale else 0.
Proof. exact EncodeGLWE_spec. Qed.
Print Assumptions C20_EncodeGLWE.
Theorem C20_DecodeGLWE : forall w N out pt mm scale vals,
  0 < mm -> (forall i, (i < Nat.min N (length out))%nat -> DecodeLWECustom w (nthZ pt i) mm scale = Some (vals i)) ->
  exists o, DecodeGLWECustomTo w N out pt mm scale = Some o /\ length o = length out /\
    (forall i, (i < Nat.min N (length out))%nat -> nthZ o i = vals i) /\
    (forall i, (N <= i)%nat -> nthZ o i = nthZ out i).
Proof. exact DecodeGLWE_spec. Qed.
Print Assumptions C20_DecodeGLWE.
Theorem C20_GLWE_roundtrip : forall w N out out2 messages noise mm scale,
  0 < mm -> length out = N -> length out2 = N ->
  (forall i, (i < N)%nat -> DecodeLWECustom w (wrap w (EncodeLWECustom w (nthZ messages i) mm scale + nthZ noise i)) mm scale
                            = Some (nthZ messages i mod mm)) ->
  let pt := map2 (fun a b => wrap w (a + b)) (EncodeGLWECustomTo w N out messages mm scale) noise in
  length noise = N ->
  exists o, DecodeGLWECustomTo w N out2 pt mm scale = Some o /\ length o = N /\
    forall i, (i < N)%nat -> nthZ o i = nthZ messages i mod mm.
Proof. exact glwe_roundtrip. Qed.
Print Assumptions C20_GLWE_roundtrip.

Example C20_ex : scaleOf 32 8 = 2 ^ 28 /\
  DecodeLWECustom 32 (wrap 32 (EncodeLWECustom 32 (-3) 8 (2 ^ 28) + (2 ^ 27 - 1))) 8 (2 ^ 28) = Some 5 /\
  DecodeLWECustom 32 (wrap 32 (EncodeLWECustom 32 8 8 (2 ^ 28) - 2 ^ 27)) 8 (2 ^ 28) = Some 0 /\
  DecodeLWECustom 64 (wrap 64 (EncodeLWECustom 64 12 16 (2 ^ 59) - 2 ^ 57)) 16 (2 ^ 59) = Some 12 /\
  DecodeLWECustom 32 (wrap 32 (EncodeLWECustom 32 6 7 (scaleOf 32 7) - 2 ^ 27)) 7 (scaleOf 32 7) = Some 6.
Proof. vm_compute. repeat split; reflexivity. Qed.
Example C20_ex_glwe : EncodeGLWECustomTo 32 4 [9; 9; 9; 9] [1; -1] 4 (2 ^ 29) = [2 ^ 29; 3 * 2 ^ 29; 0; 0] /\
  DecodeGLWECustomTo 32 4 [9; 9; 9; 9; 9] [2 ^ 29; 3 * 2 ^ 29; 0; 5] 4 (2 ^ 29) = Some [1; 3; 0; 0; 9].
Proof. vm_compute. split; reflexivity. Qed.

(** Findings.  A negative message with a modulus that does not divide Q is not reduced correctly. *)
Theorem C20_negative_refuted : exists msg mm, 0 < mm /\ sword 64 msg /\
  DecodeLWECustom 32 (EncodeLWECustom 32 msg mm (scaleOf 32 mm)) mm (scaleOf 32 mm) <> Some (msg mod mm).
Proof. exists (-1), 3. split; [lia|]. split; [unfold sword; lia|]. vm_compute. discriminate. Qed.
Print Assumptions C20_negative_refuted.
(** On a 64-bit torus the tolerated noise is not the full half step: float64 rounding of the phase. *)
Theorem C20_half_step_refuted : exists msg e, - scaleOf 64 2 <= 2 * e < scaleOf 64 2 /\
  DecodeLWECustom 64 (wrap 64 (EncodeLWECustom 64 msg 2 (scaleOf 64 2) + e)) 2 (scaleOf 64 2) <> Some (msg mod 2).
Proof. exists 1, (2 ^ 61 - 1). vm_compute. split; [split; [discriminate|reflexivity]|discriminate]. Qed.
Print Assumptions C20_half_step_refuted.
