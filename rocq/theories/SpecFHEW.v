(** Specification of FHEW blind rotation. *)
From Verif Require Import Base NegaRing SpecNum SpecVec ModelNum SpecPoly ModelGadget SpecGadget SpecLWE SpecGLWE SpecBoot SpecBFV.

(** The key polynomials, read as signed integers, have coefficients of at most b. *)
Definition key_small (w : Z) (N k : nat) (sk : list (list Z)) (b : Z) : Prop := forall i, (i < k)%nat -> pbound b (pol N (map (swrap w) (nth i sk []))).

(** Key j encrypts X^(s_j), s_j read as a signed integer, with errors of at most E. *)
Definition mono_keys (w : Z) (N k : nat) (p : gadget) (sk : list (list Z)) (s : list Z) (brk : list (list (list (list (list Z))))) (E : Z) : Prop :=
  length brk = length s /\ forall j, (j < length s)%nat -> exists e, ggsw_enc w N k p sk (nth j brk []) (pmono (swrap w (nthZ s j))) e /\
    forall a b, (a <= k)%nat -> (b < g_level p)%nat -> pbound E (e a b).

(** Entry 0 switches from the key at X^-5, entry i from the key at X^(5^i), up to the window size. *)
Definition window_keys (w : Z) (N k : nat) (p : gadget) (sk : list (list Z)) (W : nat) (glk : list (list (list (list (list Z))))) (E : Z) : Prop :=
  (exists ksk, nth_error glk 0 = Some ksk /\ galois_key w N k p sk (-5) ksk E) /\
  forall i, (1 <= i <= W)%nat -> exists ksk, nth_error glk i = Some ksk /\ galois_key w N k p sk (5 ^ Z.of_nat i) ksk E.

(** The rotation: odd switched words of the negated ciphertext against the signed key. *)
Definition oddRot (w : Z) (ms : Z -> Z) (s ct : list Z) : Z :=
  let a x := Z.lor (ms (wrap w (- x))) 1 in
  a (nthZ ct 0) + zsum (length s) (fun i => a (nthZ ct (S i)) * swrap w (nthZ s i)).

(** Noise of one product with a monomial, for a key bounded by b. *)
Definition monoNoise (w : Z) (N k : nat) (p : gadget) (b E : Z) : Z := gadEps w p * (1 + Z.of_nat k * Z.of_nat N * b) + rowNoise N p (Z.of_nat k + 1) E.
(** Number of automorphisms: one per step at most, and at most one per key word and window. *)
Definition autCount (N W n : nat) : Z :=
  let H := (N / 2 - 1)%nat in 1 + Z.min (2 * Z.of_nat H) (Z.of_nat n + 2 * Z.of_nat (H / W + 1)).
Definition fhewNoise (w : Z) (N k : nat) (p : gadget) (W n : nat) (b Ek Eg : Z) : Z :=
  Z.of_nat n * monoNoise w N k p b Ek + autCount N W n * switchNoise w N k p b Eg.

(** Error of an LWE key switch of D coordinates for a key bounded by b. *)
Definition ksNoiseB (w : Z) (p : gadget) (D : nat) (b E : Z) : Z := Z.of_nat D * (Z.of_nat (g_level p) * (2 ^ (g_logBase p - 1) * E) + b * gadEps w p).
(** Sum of the absolute values of the signed key words. *)
Definition absSum (w : Z) (s : list Z) : Z := zsum (length s) (fun i => Z.abs (swrap w (nthZ s i))).

(** Keys of FHEW bootstrapping: large is the flattened ring key sk, s its prefix, entries bounded by b as signed integers. *)
Record fhew_keys (w : Z) (N k : nat) (p pKS : gadget) (sk : list (list Z)) (s large : list Z) (brk glk : list (list (list (list (list Z))))) (ksk : list (list (list Z)))
    (W : nat) (b Ek Eg Eks : Z) : Prop := {
  fk_rank : exists n, 1 <= n <= 30 /\ Z.of_nat N = 2 ^ n;
  fk_gadgets : gadget_ok w p /\ gadget_ok w pKS;
  fk_key : (1 <= k)%nat /\ length sk = k /\ flat N sk large /\ forall i, (i < k)%nat -> length (nth i sk []) = N;
  fk_small : s = firstn (length s) large /\ (length s <= length large)%nat;
  fk_bounds : 0 <= b /\ 0 <= Ek /\ 0 <= Eg /\ 0 <= Eks /\ key_small w N k sk b;
  fk_window : (1 <= W)%nat;
  fk_brk : mono_keys w N k p sk s brk Ek;
  fk_glk : window_keys w N k p sk W glk Eg;
  fk_ksk : exists e, ksk_enc w pKS s (skipn (length s) large) ksk e /\ forall i j, (i < length large - length s)%nat -> (j < g_level pKS)%nat -> Z.abs (e i j) <= Eks }.
