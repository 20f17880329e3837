(** Specification of public keys (C46). *)
From Verif Require Import Base NegaRing SpecNum SpecPoly SpecLWE SpecGLWE ModelParams ModelPub.

(** k encryptions of zero under sk with errors E. *)
Definition pk_enc (w : Z) (N k : nat) (sk : list (list Z)) (pk : list (list (list Z))) (E : nat -> npoly N) : Prop :=
  length pk = k /\ forall i, (i < k)%nat -> glwe_ct w N k (nth i pk []) /\ peq (2 ^ w) (gphase N k sk (nth i pk [])) (E i).
(** The key with each polynomial's coefficients reversed. *)
Definition revkey (sk : list (list Z)) : list (list Z) := map (@rev Z) sk.
(** k polynomials of N coefficients, as auxiliary keys are. *)
Definition ashape (N k : nat) (a : list (list Z)) : Prop := length a = k /\ forall i, (i < k)%nat -> length (nth i a []) = N.

(** The error of a public GLWE encryption: sum_i r_i E_i + e_0 + sum_j e_(j+1) s_j. *)
Definition pubNoise (N k : nat) (sk : list (list Z)) (E : nat -> npoly N) (B G : nat -> Z) (b g : nat) : npoly N :=
  padd (psum k (fun i => pmul (E i) (noisep N B (b + i * N)))) (padd (noisep N G g) (psum k (fun j => pmul (noisep N G (g + S j * N)) (pol N (nth j sk []))))).
(** The error of a public LWE encryption: e_0 + [sum_i rev(r_i) E_i + sum_j e_(j+1) rev(s_j)] at coefficient N-1. *)
Definition revp (N : nat) (B : nat -> Z) (b : nat) : npoly N := pol N (rev (tab N (fun i => B (b + i)%nat))).
Definition pubNoiseLWE (N k : nat) (sk : list (list Z)) (E : nat -> npoly N) (B G : nat -> Z) (b g : nat) : Z :=
  G g + cf (padd (psum k (fun i => pmul (E i) (revp N B (b + i * N)))) (psum k (fun j => pmul (noisep N G (S g + j * N)) (pol N (nth j (revkey sk) []))))) (Z.of_nat N - 1).
(** Its bound when every sample is at most e and the keys and auxiliary keys are binary. *)
Definition pubBound (N k : nat) (e : Z) : Z := (2 * Z.of_nat k * Z.of_nat N + 1) * e.

(** Outputs of the right shape. *)
Definition pshaped (N k : nat) (c : pcall) : Prop := match c with PLWE out _ => length out = S (k * N) | PGLWE out _ => gshape N k out | PFFT out _ => length out = S k end.
Definition noPFFT (c : pcall) : Prop := match c with PFFT _ _ => False | _ => True end.
(** Room for an error of b around messages modulo 2^n: exact decoding up to 52 bits; on wider tori float64 rounding costs 2^13 (C20). *)
Definition margin (w n b : Z) : Prop :=
  0 < w /\ 0 <= n <= w - 2 /\ ((w <= 52 /\ 2 * b < scaleOf w (2 ^ n)) \/ (w <= 64 /\ 2 * b + 2 ^ 13 + 2 < scaleOf w (2 ^ n))).
(** The setting of a history: a well-formed binary key, its public key as GenPublicKey made it, bounded samples. *)
Definition pubset (w n logN : Z) (N k : nat) (U Gk B G : nat -> Z) (sk : list (list Z)) (s : list Z) (e : Z) (lpk gpk : list (list (list Z))) : Prop :=
  (0 < N)%nat /\ (0 < k)%nat /\ 0 < ModelPoly.splitBitsShort logN /\ skey N k sk /\ flat N sk s /\ (forall i, (i < k)%nat -> binary (nth i sk [])) /\
  (forall i, Z.abs (Gk i) <= e) /\ (forall i, 0 <= B i <= 1) /\ (forall i, Z.abs (G i) <= e) /\ margin w n (pubBound N k e) /\
  exists st st', GenPublicKey w logN N k U Gk sk st = ((lpk, gpk), st').
