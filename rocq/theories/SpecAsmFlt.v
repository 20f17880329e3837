(** Specifications for the floating point kernels: they compute the portable Go versions (ModelFFT.v) in exact arithmetic. *)
From Coq Require Import String Ring_theory.
From Verif Require Import Base ModelNum ModelAsm ModelAsmInt ModelAsmFlt SpecAsm ModelFFT.
Import ListNotations.
Open Scope Z_scope.

(** The floating point unit computes exactly in the ring [A]. *)
Record exactF (A : arith) (F : fops (car A)) : Prop := mkExactF {
  xf_ring : ring_theory (a0 A) (a1 A) (aadd A) (amul A) (asub A) (aopp A) eq;
  xf_add : forall x y, fadd F x y = aadd A x y;
  xf_sub : forall x y, fsub F x y = asub A x y;
  xf_mul : forall x y, fmul F x y = amul A x y;
  xf_fma : forall x y z, ffma F x y z = aadd A (amul A x y) z;
  xf_fms : forall x y z, ffms F x y z = asub A (amul A x y) z;
  xf_fnma : forall x y z, ffnma F x y z = asub A z (amul A x y);
  xf_zero : fofbits F 0 = a0 A
}.

Section Slices.
Variable A : arith.
Notation T := (car A).
(** The floats of a slice in memory. *)
Definition fval (m : mem T) (g : gslice) (i : Z) : T :=
  match getm m (gb g) (go g + i) with Some (WF z) => z | _ => a0 A end.
Definition fvals (m : mem T) (g : gslice) : list T := map (fun i => fval m g (Z.of_nat i)) (seq 0 (Z.to_nat (gn g))).
(** k floats from offset go g, inside an allocation of the memory. *)
Definition floats (m : mem T) (g : gslice) (k : Z) : Prop :=
  esz m (gb g) = 8 /\ 0 <= go g /\ 0 <= k /\ go g + k < 2 ^ 59 /\
  forall i, 0 <= i < k -> exists z, getm m (gb g) (go g + i) = Some (WF z).
(** A []float64. *)
Definition fslice (m : mem T) (g : gslice) : Prop := floats m g (gn g).
(** A []complex128: gn g pairs. *)
Definition cslice (m : mem T) (g : gslice) : Prop := floats m g (2 * gn g).
Definition cvals (m : mem T) (g : gslice) : list (T * T) :=
  map (fun i => (fval m g (2 * Z.of_nat i), fval m g (2 * Z.of_nat i + 1))) (seq 0 (Z.to_nat (gn g))).
(** The slice [o] holds [l] afterwards, everything else is as before. *)
Definition becomes (o : gslice) (l : list T) (m m' : mem T) : Prop :=
  length l = Z.to_nat (gn o) /\ window o (fun i => WF (nth (Z.to_nat i) l (a0 A))) m m'.
End Slices.

(** A kernel func(vOut, v0, v1 []float64) computes [g], for every length that is a multiple of 8, every position of the slices
    and every permitted overlap (in particular vOut = v0 or v1). *)
Definition computesF3 (p : prog) (g : forall A, list (car A) -> list (car A) -> list (car A) -> list (car A)) : Prop :=
  forall (A : arith) (F : fops (car A)) (s : state (car A)) (o v0 v1 : gslice), exactF A F ->
    fslice A (mm s) o -> fslice A (mm s) v0 -> fslice A (mm s) v1 ->
    gn v0 = gn o -> gn v1 = gn o -> gn o mod 8 = 0 -> no_fwd o v0 -> no_fwd o v1 ->
    terminates F (mkEnv (frame3 o v0 v1 8) noData) p s
      (becomes A o (g A (fvals A (mm s) o) (fvals A (mm s) v0) (fvals A (mm s) v1)) (mm s)).
Definition computesF2 (p : prog) (g : forall A, list (car A) -> list (car A) -> list (car A)) : Prop :=
  forall (A : arith) (F : fops (car A)) (s : state (car A)) (o v : gslice), exactF A F ->
    fslice A (mm s) o -> fslice A (mm s) v -> gn v = gn o -> gn o mod 8 = 0 -> no_fwd o v ->
    terminates F (mkEnv (frame2 o v) noData) p s (becomes A o (g A (fvals A (mm s) o) (fvals A (mm s) v)) (mm s)).
Definition computesF2c (p : prog) (g : forall A, list (car A) -> list (car A) -> car A -> list (car A)) : Prop :=
  forall (A : arith) (F : fops (car A)) (s : state (car A)) (o v : gslice) (c : car A), exactF A F ->
    fslice A (mm s) o -> fslice A (mm s) v -> gn v = gn o -> gn o mod 8 = 0 -> no_fwd o v ->
    terminates F (mkEnv (frame2c o v 8 (WF c)) noData) p s (becomes A o (g A (fvals A (mm s) o) (fvals A (mm s) v) c) (mm s)).
Definition computesF2cc (p : prog) (g : forall A, list (car A) -> list (car A) -> car A * car A -> list (car A)) : Prop :=
  forall (A : arith) (F : fops (car A)) (s : state (car A)) (o v : gslice) (c : car A * car A), exactF A F ->
    fslice A (mm s) o -> fslice A (mm s) v -> gn v = gn o -> gn o mod 8 = 0 -> no_fwd o v ->
    terminates F (mkEnv (frame2cc o v (fst c) (snd c)) noData) p s (becomes A o (g A (fvals A (mm s) o) (fvals A (mm s) v) c) (mm s)).

(** The transforms: the coefficients and the table of factors do not overlap; N = 2^k floats, 16 <= N; the table has at least
    the N/2 - 1 factors that are read. *)
Definition fft_call (A : arith) (s : state (car A)) (o tw : gslice) (k : Z) : Prop :=
  fslice A (mm s) o /\ cslice A (mm s) tw /\ 4 <= k /\ gn o = 2 ^ k /\ 2 ^ (k - 1) - 1 <= gn tw /\
  (gb tw <> gb o \/ go tw + 2 * gn tw <= go o \/ go o + gn o <= go tw).
(** The scale argument that asm_fft_amd64.go:107 passes, 2/float64(len(coeffs)): multiplying by it divides by len/2. *)
Definition is_scale (A : arith) (o : gslice) (sc : car A) : Prop := forall x, amul A x sc = adivn A x (gn o / 2).
