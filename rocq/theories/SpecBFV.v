(** Specification of the BFV operations on GLWE ciphertexts. *)
From Verif Require Import Base NegaRing SpecNum SpecPoly ModelGadget SpecGadget SpecGLWE.

(** ksk switches from the key with polynomials s_i(X^d) to the key with polynomials s_i, with errors of at most E. *)
Definition galois_key (w : Z) (N k : nat) (p : gadget) (sk : list (list Z)) (d : Z) (ksk : list (list (list (list Z)))) (E : Z) : Prop :=
  exists sk' e, length sk' = k /\
    (forall i, (i < k)%nat -> peq (2 ^ w) (pol N (nth i sk' [])) (psubst d (pol N (nth i sk [])))) /\
    gksk_enc w N k p sk sk' ksk e /\
    (forall i j, (i < k)%nat -> (j < g_level p)%nat -> pbound E (e i j)).

(** Noise of one key switch from a key with k polynomials of coefficients at most b: gadget rounding and row errors. *)
Definition switchNoise (w : Z) (N k : nat) (p : gadget) (b E : Z) : Z :=
  Z.of_nat k * (Z.of_nat N * (b * (2 ^ (w - Z.of_nat (g_level p) * g_logBase p) / 2))) + rowNoise N p (Z.of_nat k) E.

(** Noise of one packing step: halving k+1 polynomials, and one key switch. *)
Definition packNoise (w : Z) (N k : nat) (p : gadget) (E : Z) : Z := 1 + Z.of_nat k * Z.of_nat N + switchNoise w N k p 1 E.

(** The pairs (i,j) with i <= j < n, row by row. *)
Definition pairs (n : nat) : list (nat * nat) := flat_map (fun i => map (fun j => (i, j)) (seq i (n - i))) (seq 0 n).

(** rlk holds an encryption of s_i * s_j for each pair, with errors of at most E. *)
Definition relin_key (w : Z) (N k : nat) (p : gadget) (sk : list (list Z)) (rlk : list (list (list (list Z)))) (E : Z) : Prop :=
  length rlk = length (pairs k) /\
  forall ii, (ii < length (pairs k))%nat -> exists e, let '(i, j) := nth ii (pairs k) (0, 0)%nat in
    glev_enc w N k p sk (nth ii rlk []) (pmul (pol N (nth i sk [])) (pol N (nth j sk []))) e /\
    (forall l, (l < g_level p)%nat -> pbound E (e l)).

(** The evaluator's buffers have the sizes newBFVEvaluatorBuffer gives them. *)
Definition bfv_buf_ok (w : Z) (N k : nat) (tensor fftTensor permute pack : list (list Z)) : Prop :=
  length tensor = length (pairs (S k)) /\ length fftTensor = length (pairs (S k)) /\ glwe_ct w N k permute /\ gshape N k pack.

(** A phase computed over the integers from centred words differs from scale*m + e, |m| <= M, |e| <= B, by at most this. *)
Definition liftBound (w : Z) (N k : nat) (scale M B : Z) : Z := 2 ^ (w - 1) * (1 + Z.of_nat k * Z.of_nat N) + scale * M + B.

(** Twice scale times the noise of a product of scale*m0 + e0 and scale*m1 + e1 with |mi| <= Mi, |ei| <= Bi:
    the cross terms, the rounding of the tensor coefficients, and the relinearisation. *)
Definition mulNoise (w : Z) (N k : nat) (p : gadget) (scale M0 B0 M1 B1 E : Z) : Z :=
  2 * (scale * (Z.of_nat N * (M0 * B1) + Z.of_nat N * (M1 * B0)) + Z.of_nat N * (B0 * B1) +
       Z.of_nat N * (liftBound w N k scale M0 B0 * B1) + Z.of_nat N * (liftBound w N k scale M1 B1 * B0)) +
  scale * (1 + Z.of_nat k * Z.of_nat N + Z.of_nat (length (pairs k)) * (Z.of_nat N * Z.of_nat N)) +
  2 * scale * switchNoise w N (length (pairs k)) p (Z.of_nat N) E.
