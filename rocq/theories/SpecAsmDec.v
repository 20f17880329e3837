(** Specification of the decomposition kernels. *)
From Coq Require Import String.
From Verif Require Import Base ModelNum ModelGadget SpecGadget ModelAsm ModelAsmInt SpecAsm.
Import ListNotations.
Open Scope Z_scope.

Section Spec.
Context {A : Type}.
(** [h] is a []poly.Poly[T] in memory whose element j is the slice [d j] (three words each: pointer, length, capacity). *)
Definition polys (m : mem A) (e : Z) (h : gslice) (d : Z -> gslice) : Prop :=
  esz m (gb h) = 8 /\ 0 <= go h /\ go h + 3 * gn h < 2 ^ 59 /\
  forall j, 0 <= j < gn h ->
    getm m (gb h) (go h + 3 * j) = Some (WP (gb (d j)) (e * go (d j))) /\ islice m e (d j).
(** The windows of the output polynomials do not overlap each other nor the slice of headers; the input may be one of them, or
    overlap one as long as it does not start before it. *)
Definition apart (h p : gslice) (d : Z -> gslice) : Prop :=
  (forall j, 0 <= j < gn h -> gb (d j) <> gb h /\ gn (d j) = gn p /\ no_fwd (d j) p) /\
  forall j k, 0 <= j < gn h -> 0 <= k < gn h -> j <> k ->
    gb (d j) <> gb (d k) \/ go (d j) + gn p <= go (d k) \/ go (d k) + gn p <= go (d j).
(** The memory holds [f j i] in d_j[i] for every i < B j and is otherwise unchanged. *)
Definition written (n : Z) (d : Z -> gslice) (B : Z -> Z) (f : Z -> Z -> Z) (m m' : mem A) : Prop :=
  (forall b, esz m' b = esz m b) /\
  (forall j i, 0 <= j < n -> 0 <= i < B j -> getm m' (gb (d j)) (go (d j) + i) = Some (WI (f j i))) /\
  forall b i, (forall j, 0 <= j < n -> ~ (b = gb (d j) /\ go (d j) <= i < go (d j) + B j)) -> getm m' b i = getm m b i.
End Spec.

(** decomposePolyTo on T of e bytes, k lanes: same digits as DecomposeScalar of each coefficient (the Go code, C15). *)
Definition decomposes (e k : Z) (pr : prog) : Prop :=
  forall (A : Type) (F : fops A) (s : state A) (g : gadget) (h p : gslice) (d : Z -> gslice),
    gadget_ok (8 * e) g -> gn h = Z.of_nat (g_level g) -> polys (mm s) e h d -> islice (mm s) e p -> apart h p d -> gn p mod k = 0 ->
    terminates F (mkEnv (frameD h p e (g_base g) (g_logBase g) (LogLastBaseQ g)) intData) pr s
      (written (gn h) d (fun _ => gn p) (fun j i => nthZ (DecomposeScalar (8 * e) g (ival (mm s) p i)) (Z.to_nat j)) (mm s)).
(** What the kernel leaves in memory recomposes to the input. *)
Definition decomposes_recompose (e k : Z) (pr : prog) : Prop :=
  forall (A : Type) (F : fops A) (s : state A) (g : gadget) (h p : gslice) (d : Z -> gslice),
    gadget_ok (8 * e) g -> gn h = Z.of_nat (g_level g) -> polys (mm s) e h d -> islice (mm s) e p -> apart h p d -> gn p mod k = 0 ->
    terminates F (mkEnv (frameD h p e (g_base g) (g_logBase g) (LogLastBaseQ g)) intData) pr s
      (fun m => forall i, 0 <= i < gn p ->
         let c := map (fun j => ival m (d (Z.of_nat j)) i) (seq 0 (g_level g)) in
         balanced (8 * e) (g_logBase g) c /\
         dist2_le (2 ^ (8 * e)) (ival (mm s) p i) (RecomposeScalar (8 * e) g c) (2 ^ LogLastBaseQ g)).
