(** Specification: the standard model for the floating point operations of the AVX2 kernels. *)
From Verif Require Import Base ModelAsm ModelAsmInt SpecAsm ModelFFT.
From Coq Require Import Reals.
Open Scope R_scope.

(** The operations of the kernels are those of [A], the fused operations round the exact x*y + z, x*y - z and z - x*y
    once, and a subtraction from zero is exact. *)
Record fusedmodel (A : arith) (G : fops (car A)) (fin : car A -> Prop) (vl : car A -> R) (u eta Om : R) : Prop := mkFused {
  fm_add : forall x y, fadd G x y = aadd A x y;
  fm_sub : forall x y, fsub G x y = asub A x y;
  fm_mul : forall x y, fmul G x y = amul A x y;
  fm_fma : forall x y z, fin x -> fin y -> fin z -> Rabs (vl x * vl y + vl z) <= Om ->
    fin (ffma G x y z) /\ Rabs (vl (ffma G x y z) - (vl x * vl y + vl z)) <= u * Rabs (vl x * vl y + vl z) + eta;
  fm_fms : forall x y z, fin x -> fin y -> fin z -> Rabs (vl x * vl y - vl z) <= Om ->
    fin (ffms G x y z) /\ Rabs (vl (ffms G x y z) - (vl x * vl y - vl z)) <= u * Rabs (vl x * vl y - vl z) + eta;
  fm_fnma : forall x y z, fin x -> fin y -> fin z -> Rabs (vl z - vl x * vl y) <= Om ->
    fin (ffnma G x y z) /\ Rabs (vl (ffnma G x y z) - (vl z - vl x * vl y)) <= u * Rabs (vl z - vl x * vl y) + eta;
  fm_neg : forall x, fin x -> fin (fsub G (fofbits G 0) x) /\ vl (fsub G (fofbits G 0) x) = - vl x
}.

(** The integers of a slice in memory. *)
Definition ivals {T : Type} (m : mem T) (g : gslice) : list Z := List.map (fun i => ival m g (Z.of_nat i)) (List.seq 0 (Z.to_nat (gn g))).
