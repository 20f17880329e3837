(** Specification of property C75: GLev and GGSW ciphertexts made of words, GGSW shape.  No model functions. *)
From Verif Require Import Base NegaRing SpecPoly ModelGadget SpecGLWE.

(** Every level is a ciphertext of words. *)
Definition lev_words (w : Z) (N k : nat) (p : gadget) (lev : list (list (list Z))) : Prop :=
  length lev = g_level p /\ forall j, (j < g_level p)%nat -> glwe_ct w N k (nth j lev []).
(** k+1 rows of the right shape; the same with word coefficients. *)
Definition gsw_shape (N k : nat) (p : gadget) (ct : list (list (list (list Z)))) : Prop :=
  length ct = S k /\ forall i, (i <= k)%nat -> lshape N k p (nth i ct []).
Definition gsw_words (w : Z) (N k : nat) (p : gadget) (ct : list (list (list (list Z)))) : Prop :=
  length ct = S k /\ forall i, (i <= k)%nat -> lev_words w N k p (nth i ct []).
(** The noise polynomial is too small to disturb rounding to the first level: all coefficients in [-2^(w-b)/2, 2^(w-b)/2). *)
Definition small_noise (w : Z) (N : nat) (p : gadget) (e : npoly N) : Prop :=
  forall i, (i < N)%nat -> - 2 ^ (w - g_logBase p) <= 2 * cf e (Z.of_nat i) < 2 ^ (w - g_logBase p).
