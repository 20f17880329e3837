(** Specification of GLWE: phases in Z_Q[X]/(X^N+1) and what it means to encrypt something. *)
From Verif Require Import Base NegaRing SpecNum SpecPoly ModelGadget SpecGadget.

(** b + sum_i a_i * s_i. *)
Definition gphase (N k : nat) (sk ct : list (list Z)) : npoly N :=
  padd (pol N (nth 0 ct [])) (psum k (fun i => pmul (pol N (nth (S i) ct [])) (pol N (nth i sk [])))).

(** k+1 polynomials of N coefficients; in [glwe_ct] the coefficients are words. *)
Definition gshape (N k : nat) (ct : list (list Z)) : Prop :=
  length ct = S k /\ forall i, (i <= k)%nat -> length (nth i ct []) = N.
Definition glwe_ct (w : Z) (N k : nat) (ct : list (list Z)) : Prop :=
  length ct = S k /\ forall i, (i <= k)%nat -> wpoly w N (nth i ct []).

(** N Gaussian samples starting at number g as a polynomial. *)
Definition noisep (N : nat) (G : nat -> Z) (g : nat) : npoly N := pol N (tab N (fun i => G (g + i)%nat)).

(** Level j encrypts m * 2^(w-(j+1)b) with error e j. *)
Definition glev_enc (w : Z) (N k : nat) (p : gadget) (sk : list (list Z)) (lev : list (list (list Z))) (m : npoly N) (e : nat -> npoly N) : Prop :=
  length lev = g_level p /\
  forall j, (j < g_level p)%nat -> gshape N k (nth j lev []) /\
    peq (2 ^ w) (gphase N k sk (nth j lev [])) (padd (pscale (2 ^ (w - (Z.of_nat j + 1) * g_logBase p)) m) (e j)).

(** Row 0 encrypts m, row i+1 encrypts m * s_i. *)
Definition ggsw_enc (w : Z) (N k : nat) (p : gadget) (sk : list (list Z)) (ggsw : list (list (list (list Z)))) (m : npoly N) (e : nat -> nat -> npoly N) : Prop :=
  length ggsw = S k /\
  glev_enc w N k p sk (nth 0 ggsw []) m (e O) /\
  forall i, (i < k)%nat -> glev_enc w N k p sk (nth (S i) ggsw []) (pmul m (pol N (nth i sk []))) (e (S i)).

(** Row i encrypts polynomial i of the input key. *)
Definition gksk_enc (w : Z) (N k : nat) (p : gadget) (sk skIn : list (list Z)) (ksk : list (list (list (list Z)))) (e : nat -> nat -> npoly N) : Prop :=
  length ksk = length skIn /\
  forall i, (i < length skIn)%nat -> glev_enc w N k p sk (nth i ksk []) (pol N (nth i skIn [])) (e i).

(** Balanced digits d with rounding error r of the polynomial c. *)
Definition is_pdcmp (w : Z) (N : nat) (p : gadget) (c : list Z) (d : nat -> npoly N) (r : npoly N) : Prop :=
  (forall j, (j < g_level p)%nat -> pbound (2 ^ (g_logBase p - 1)) (d j)) /\
  peq (2 ^ w) (pol N c) (padd (psum (g_level p) (fun j => pscale (2 ^ (w - (Z.of_nat j + 1) * g_logBase p)) (d j))) r) /\
  pbound (2 ^ (w - Z.of_nat (g_level p) * g_logBase p) / 2) r.

(** Within distance b of each other, coefficientwise modulo Q. *)
Definition pdist_le {N} (Q : Z) (p q : npoly N) (b : Z) : Prop := exists r, peq Q (psub p q) r /\ pbound b r.

(** k key polynomials of N coefficients; g_level p ciphertexts. *)
Definition skey (N k : nat) (sk : list (list Z)) : Prop := length sk = k /\ forall i, (i < k)%nat -> length (nth i sk []) = N.
Definition lshape (N k : nat) (p : gadget) (lev : list (list (list Z))) : Prop :=
  length lev = g_level p /\ forall j, (j < g_level p)%nat -> gshape N k (nth j lev []).

(** The operation did not panic, wrote a ciphertext with phase v to variable out, and nothing else. *)
Definition gopok (w : Z) (N k : nat) (sk : list (list Z)) (s : nat -> list (list Z)) (out : nat) (r : option (nat -> list (list Z))) (v : npoly N) : Prop :=
  exists s', r = Some s' /\ glwe_ct w N k (s' out) /\ peq (2 ^ w) (gphase N k sk (s' out)) v /\ (forall y, y <> out -> s' y = s y).

(** The flattened key: coefficient j of key polynomial i is at i*N+j. *)
Definition flat (N : nat) (sk : list (list Z)) (s : list Z) : Prop :=
  length s = (length sk * N)%nat /\ forall i j, (i < length sk)%nat -> (j < N)%nat -> nthZ s (i * N + j) = nthZ (nth i sk []) j.

(** Noise contributed by n gadget rows with errors of at most E. *)
Definition rowNoise (N : nat) (p : gadget) (n E : Z) : Z := n * (Z.of_nat (g_level p) * (Z.of_nat N * (2 ^ (g_logBase p - 1) * E))).
