(** Specifications for the assembly kernels. *)
From Coq Require Import String.
From Verif Require Import Base ModelNum ModelAsm ModelAsmInt.
Import ListNotations.
Open Scope Z_scope.

Section Spec.
Context {A : Type}.

(** The i-th integer of a slice in memory. *)
Definition ival (m : mem A) (g : gslice) (i : Z) : Z :=
  match getm m (gb g) (go g + i) with Some (WI z) => z | _ => 0 end.
(** A slice of gn g integers of w = 8 e bits inside an allocation of the memory. *)
Definition islice (m : mem A) (e : Z) (g : gslice) : Prop :=
  esz m (gb g) = e /\ 0 <= go g /\ 0 <= gn g /\ go g + gn g < 2 ^ 59 /\
  forall i, 0 <= i < gn g -> exists z, getm m (gb g) (go g + i) = Some (WI z) /\ 0 <= z < 2 ^ (8 * e).
(** Overlap allowed between an input and the output: other allocations, the same slice, disjoint windows, or an input that
    starts after the output. *)
Definition no_fwd (o v : gslice) : Prop := gb v <> gb o \/ go o <= go v \/ go v + gn v <= go o.
(** [m'] is [m] with the window of [o] replaced by [f i]. *)
Definition window (o : gslice) (f : Z -> word A) (m m' : mem A) : Prop :=
  (forall b, esz m' b = esz m b) /\
  forall b i, getm m' b i =
    if Nat.eqb b (gb o) && (go o <=? i) && (i <? go o + gn o) then Some (f (i - go o)) else getm m b i.
End Spec.

(** The kernel ends, without fault, in a state whose memory satisfies Q. *)
Definition terminates {A} (F : fops A) (E : env A) (p : prog) (s : state A) (Q : mem A -> Prop) : Prop :=
  exists s', (exists fuel, run F E fuel p p s = OK s') /\ Q (mm s').

(** A kernel func(vOut, v0, v1 []T), T of e bytes, stores f (old vOut[i]) v0[i] v1[i] modulo 2^(8e) in every vOut[i], touches
    nothing else and does not fault, for every length (a multiple of the vector width or not), every position of the slices
    in their allocations, every permitted overlap, every initial content of registers. *)
Definition computes3 (e : Z) (p : prog) (f : Z -> Z -> Z -> Z) : Prop :=
  forall (A : Type) (F : fops A) (s : state A) (o v0 v1 : gslice),
    islice (mm s) e o -> islice (mm s) e v0 -> islice (mm s) e v1 ->
    gn v0 = gn o -> gn v1 = gn o -> no_fwd o v0 -> no_fwd o v1 ->
    terminates F (mkEnv (frame3 o v0 v1 e) intData) p s
      (window o (fun i => WI (f (ival (mm s) o i) (ival (mm s) v0 i) (ival (mm s) v1 i) mod 2 ^ (8 * e))) (mm s)).
(** The same for func(vOut, v []T, c T). *)
Definition computes2c (e : Z) (p : prog) (f : Z -> Z -> Z -> Z) : Prop :=
  forall (A : Type) (F : fops A) (s : state A) (o v : gslice) (c : Z),
    islice (mm s) e o -> islice (mm s) e v -> 0 <= c < 2 ^ (8 * e) ->
    gn v = gn o -> no_fwd o v ->
    terminates F (mkEnv (frame2c o v e (WI c)) intData) p s
      (window o (fun i => WI (f (ival (mm s) o i) (ival (mm s) v i) c mod 2 ^ (8 * e))) (mm s)).
