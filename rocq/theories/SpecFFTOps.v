(** Specification: transformed ciphertexts. *)
From Verif Require Import Base NegaRing ModelFFT SpecPoly SpecFFT.
Import ListNotations.
Open Scope Z_scope.

(** k+1 transforms of integer polynomials; their phase under sk is ph modulo Q. *)
Definition fct_phase (A : arith) (N : nat) (z : Z -> car A * car A) (k : nat) (Q : Z) (sk : list (list Z)) (x : list (list (car A))) (ph : npoly N) : Prop :=
  exists P : nat -> npoly N, (forall i, (i <= k)%nat -> transform A N z (nth i x []) (P i)) /\
    peq Q ph (padd (P 0%nat) (psum k (fun i => pmul (P (S i)) (pol N (nth i sk []))))).
(** k+1 vectors of the right length. *)
Definition fct_shape {F} (N k : nat) (x : list (list F)) : Prop := length x = S k /\ forall i, (i <= k)%nat -> length (nth i x []) = N.
(** The polynomial a + b X^(N/2), which the complex number a + bi stands for at the points of the transform. *)
Definition gauss (N : nat) (a b : Z) : npoly N := padd (pconst a) (pscale b (pmono (Z.of_nat N / 2))).
