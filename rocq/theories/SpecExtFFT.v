(** Specification: buffers of extended blind rotation on binary64 transforms. *)
From Coq Require Import List Floats.SpecFloat.
From Verif Require Import ModelExtFFT SpecProdFFT.
Import ListNotations.

(** Buffers for E components that hold binary64 numbers, of the right lengths. *)
Definition ext_bufs (N k E l : nat) (b : extBuf spec_float) : Prop :=
  (forall m, m < E -> length (nth m (x_dcmp b) []) = S k /\ forall i j, i <= k -> j < l -> valid64 N (nth j (nth i (nth m (x_dcmp b) []) []) [])) /\
  (length (x_blk b) = E /\ forall m i, m < E -> i <= k -> valid64 N (nth i (nth m (x_blk b) []) [])) /\ valid64 N (x_mono b) /\
  (length (x_acc b) = E /\ forall m i, m < E -> i <= k -> valid64 N (nth i (nth m (x_acc b) []) [])).
