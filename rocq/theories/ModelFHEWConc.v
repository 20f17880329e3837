(** Model: xtfhe/fhew_bootstrap_keygen.go:83-141 GenBlindRotateKeyParallel, on the worker pool of ModelConc.v.  No proofs in this file. *)
From Verif Require Import Base ModelNum ModelVec ModelPoly ModelGadget ModelLWE ModelGLWE ModelConc ModelFHEW.

Section KeyGen.
Variables (w logN : Z) (N k : nat).
(** The samplers of worker t's encryptor copy (fhew_enc.go:60-66 SafeCopy makes new ones, and new buffers). *)
Variables U G : nat -> nat -> Z.

(** 111-134: the body of job (i, j); the state is buf.ctGLWE and the number of samples drawn.  A crash of the monomial product leaves the
    row as it was; C45_fhew_blind_rotate_key says that there is none. *)
Definition fhewJob (fsk sk : list (list Z)) (lwe : list Z) (p : gadget) (t i j : nat) (s : list (list Z) * rst) (row : list (list (list Z))) : list (list (list Z)) * (list (list Z) * rst) :=
  match fhewRow w N k logN (U t) (G t) fsk sk p (swrap w (nthZ lwe i)) j row (fst s) (snd s) with
  | None => (row, s)
  | Some r => r
  end.
(** 83-92, up to the start of the goroutines: c workers on c copies of the encryptor. *)
Definition fhewPool (c : nat) (n l : nat) : pool (list (list Z) * rst) (list (list (list Z))) :=
  pinit n (S k) (repeat (repeat (repeat 0 N) (S k), (0, 0)%nat) c) (repeat (repeat (repeat (repeat (repeat 0 N) (S k)) l) (S k)) n).
End KeyGen.
