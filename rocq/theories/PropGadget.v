(** Properties C14, C15 and C43: gadget parameters and gadget decomposition. *)
From Verif Require Import Base ModelNum SpecNum ModelPoly SpecPoly ModelGadget SpecGadget PfGadget.

(** ** C14 *)
(** [level] digits, each in [-B/2, B/2) as a signed word, whatever the output held. *)
Theorem C14_digits_balanced : forall w p out x,
  gadget_ok w p -> length out = g_level p ->
  length (DecomposeScalarTo w p out x) = g_level p /\ balanced w (g_logBase p) (DecomposeScalarTo w p out x).
Proof.
  exact (fun w p out x H L => conj
    (eq_trans (proj1 (DecomposeScalarTo_nth w p H out x (Nat.eq_le_incl _ _ (eq_sym L)))) L)
    (Decompose_balanced w p H out x L)).
Qed.
Print Assumptions C14_digits_balanced.

(** Longer outputs: entries beyond [level] are left alone, the digits do not depend on the old content. *)
Theorem C14_digits_frame : forall w p out x,
  gadget_ok w p -> (g_level p <= length out)%nat ->
  length (DecomposeScalarTo w p out x) = length out /\
  (forall i, (i < g_level p)%nat ->
     nthZ (DecomposeScalarTo w p out x) i = nthZ (DecomposeScalar w p x) i) /\
  (forall i, (g_level p <= i)%nat -> nthZ (DecomposeScalarTo w p out x) i = nthZ out i).
Proof. exact DecomposeScalarTo_frame. Qed.
Print Assumptions C14_digits_frame.

(** The recomposition error is at most Q/(2 B^l): with g = Q/B^l the last gadget power, 2|e| <= g. *)
Theorem C14_recompose_error : forall w p out x,
  gadget_ok w p -> length out = g_level p -> uword w x ->
  exists g, is_baseq w (g_logBase p) (g_level p - 1) g /\
    dist2_le (2 ^ w) x (RecomposeScalar w p (DecomposeScalarTo w p out x)) g.
Proof. exact Recompose_error_spec. Qed.
Print Assumptions C14_recompose_error.

Theorem C14_recompose_exact : forall w p out x,
  gadget_ok w p -> length out = g_level p -> uword w x -> g_logBase p * Z.of_nat (g_level p) = w ->
  RecomposeScalar w p (DecomposeScalarTo w p out x) = x.
Proof. exact (fun w p out x H => Recompose_Decompose_exact w p H out x). Qed.
Print Assumptions C14_recompose_exact.

(** Non-vacuity: w = 32, base 2^6, 3 levels; and base 2^8, 4 levels (exact). *)
Example C14_ex_ok : gadget_ok 32 (mkGadget 64 6 3 32) /\ gadget_ok 32 (mkGadget 256 8 4 32).
Proof. unfold gadget_ok; cbn; lia. Qed.
Example C14_ex_digits :
  map (swrap 32) (DecomposeScalar 32 (mkGadget 64 6 3 32) 3735928559) = [-8; -21; -9] /\
  RecomposeScalar 32 (mkGadget 64 6 3 32) (DecomposeScalar 32 (mkGadget 64 6 3 32) 3735928559) = 3735928559 + 273 /\
  RecomposeScalar 32 (mkGadget 256 8 4 32) (DecomposeScalar 32 (mkGadget 256 8 4 32) 3735928559) = 3735928559.
Proof. vm_compute. repeat split; reflexivity. Qed.

(** ** C15 *)
Theorem C15_poly_digits : forall w p m out c out1,
  gadget_ok w p -> (g_level p <= m)%nat -> shape m (length c) out -> length out1 = g_level p ->
  forall i j, (i < length c)%nat -> (j < g_level p)%nat ->
    nthZ (nth j (DecomposePolyTo w p out c) []) i = nthZ (DecomposeScalarTo w p out1 (nthZ c i)) j.
Proof. exact (fun w p m out c out1 H H1 => DecomposePolyTo_scalar w p H m out c out1 H1). Qed.
Print Assumptions C15_poly_digits.

(** The shape is kept, polynomials beyond [level] are left alone. *)
Theorem C15_poly_frame : forall w p m out c,
  gadget_ok w p -> (g_level p <= m)%nat -> shape m (length c) out ->
  shape m (length c) (DecomposePolyTo w p out c) /\
  forall j, (g_level p <= j)%nat -> nth j (DecomposePolyTo w p out c) [] = nth j out [].
Proof. exact DecomposePolyTo_frame. Qed.
Print Assumptions C15_poly_frame.

Theorem C15_poly_recompose : forall w p out d,
  length (RecomposePolyTo w p out d) = length out /\
  forall i, (i < length out)%nat -> nthZ (RecomposePolyTo w p out d) i = RecomposeScalar w p (map (fun q => nthZ q i) d).
Proof. exact RecomposePolyTo_nth. Qed.
Print Assumptions C15_poly_recompose.

Theorem C15_poly_error : forall w p, gadget_ok w p -> forall out out1 c,
  shape (g_level p) (length c) out -> length out1 = length c -> Forall (uword w) c ->
  forall i, (i < length c)%nat ->
   dist2_le (2 ^ w) (nthZ c i) (nthZ (RecomposePolyTo w p out1 (DecomposePolyTo w p out c)) i) (2 ^ LogLastBaseQ p).
Proof. exact (fun w p H => RecomposePoly_Decompose w p H 1 Nat.lt_0_1). Qed.
Print Assumptions C15_poly_error.

Theorem C15_poly_exact : forall w p, gadget_ok w p -> forall out out1 c,
  shape (g_level p) (length c) out -> length out1 = length c -> Forall (uword w) c ->
  g_logBase p * Z.of_nat (g_level p) = w -> RecomposePolyTo w p out1 (DecomposePolyTo w p out c) = c.
Proof. exact (fun w p H => RecomposePoly_Decompose_exact w p H 1 Nat.lt_0_1). Qed.
Print Assumptions C15_poly_exact.

Example C15_ex :
  shape 4 2 (repeat [5; 6] 4) /\
  map (map (swrap 32)) (DecomposePolyTo 32 (mkGadget 256 8 4 32) (repeat [5; 6] 4) [3735928559; 255])
    = [[-33; 0]; [-82; 0]; [-65; 1]; [-17; -1]] /\
  RecomposePolyTo 32 (mkGadget 256 8 4 32) [1; 2]
    (DecomposePolyTo 32 (mkGadget 256 8 4 32) (repeat [5; 6] 4) [3735928559; 255]) = [3735928559; 255].
Proof.
  split; [|vm_compute; split; reflexivity]. split; [reflexivity|].
  intros j Hj. do 4 (destruct j as [|j]; [reflexivity|]). lia.
Qed.

(** ** C43 *)
(** What Compile accepts is valid (for levels below 2^57, so that the int product cannot overflow), and conversely. *)
Theorem C43_Compile_sound : forall w p g, 0 < w <= 64 -> uword w (gl_base p) -> 0 <= gl_level p * 64 < 2 ^ 63 ->
  CompileGadget w p = Ok g ->
  gadget_ok w g /\ g_base g = gl_base p /\ Z.of_nat (g_level g) = gl_level p.
Proof. exact CompileGadget_inv. Qed.
Print Assumptions C43_Compile_sound.
Theorem C43_Compile_complete : forall w b (l : nat), 0 < w <= 64 -> 1 <= b < w -> (1 <= l)%nat -> b * Z.of_nat l <= w ->
  CompileGadget w (mkGadgetLit (2 ^ b) (Z.of_nat l)) = Ok (mkGadget (2 ^ b) b l w).
Proof. exact CompileGadget_complete. Qed.
Print Assumptions C43_Compile_complete.
Theorem C43_Literal_roundtrip : forall w p g, 0 < w <= 64 -> uword w (gl_base p) -> 0 <= gl_level p * 64 < 2 ^ 63 ->
  CompileGadget w p = Ok g -> GadgetLiteral g = p /\ CompileGadget w (GadgetLiteral g) = Ok g.
Proof. exact gadget_lit_roundtrip. Qed.
Print Assumptions C43_Literal_roundtrip.
(** Without that restriction Compile accepts parameters with Base^Level far above Q. *)
Theorem C43_Compile_refuted : exists p g, CompileGadget 32 p = Ok g /\ gl_base p = 16 /\ 2 ^ 32 < 4 * gl_level p.
Proof. exact CompileGadget_overflow. Qed.
Print Assumptions C43_Compile_refuted.

Theorem C43_BaseQ : forall w p, gadget_ok w p -> forall i, (i < g_level p)%nat ->
  is_baseq w (g_logBase p) i (BaseQ w p i) /\ uword w (BaseQ w p i) /\ BaseQ w p i = 2 ^ LogBaseQ p i /\ 0 <= LogBaseQ p i.
Proof. exact BaseQ_full. Qed.
Print Assumptions C43_BaseQ.
Theorem C43_BaseQ_extremes : forall w p, gadget_ok w p ->
  FirstBaseQ w p = BaseQ w p 0 /\ LastBaseQ w p = BaseQ w p (g_level p - 1) /\
  LogFirstBaseQ p = LogBaseQ p 0 /\ LogLastBaseQ p = LogBaseQ p (g_level p - 1) /\
  forall i, (i < g_level p)%nat -> LastBaseQ w p <= BaseQ w p i <= FirstBaseQ w p.
Proof. exact BaseQ_extremes. Qed.
Print Assumptions C43_BaseQ_extremes.
Example C43_ex : CompileGadget 64 (mkGadgetLit (2 ^ 23) 1) = Ok (mkGadget (2 ^ 23) 23 1 64) /\
  BaseQ 64 (mkGadget (2 ^ 10) 10 3 64) 2 = 2 ^ 34.
Proof. split; vm_compute; reflexivity. Qed.
