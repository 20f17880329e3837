(** Specification of circuit bootstrapping. *)
From Verif Require Import Base NegaRing SpecNum SpecPoly ModelGadget SpecGadget SpecLWE SpecGLWE SpecBoot ModelBFV SpecBFV ModelManyLUT SpecManyLUT ModelCB.

(** Scheme-switching keys: GGSW encryptions of the key polynomials, with errors of at most E. *)
Definition scheme_key (w : Z) (N k : nat) (p : gadget) (sk : list (list Z)) (ssk : list (list (list (list (list Z))))) (E : Z) : Prop :=
  forall i, (i < k)%nat -> exists e, ggsw_enc w N k p sk (nth i ssk []) (pol N (nth i sk [])) e /\
    forall a j, (a <= k)%nat -> (j < g_level p)%nat -> pbound E (e a j).

(** Error of the first row: blind rotation, division of k+1 polynomials by the rank, and a trace whose steps double the noise. *)
Definition traceNoise (w : Z) (N k : nat) (pT : gadget) (B Et : Z) : Z :=
  B + (Z.of_nat N * (1 + Z.of_nat k * Z.of_nat N)) / 2 + (Z.of_nat N - 1) * switchNoise w N k pT 1 Et.
(** Error of the other rows: the first row's error times a key polynomial, and an external product. *)
Definition schemeNoise (w : Z) (N k : nat) (pSS : gadget) (R Es : Z) : Z :=
  Z.of_nat N * R + Z.of_nat N * (1 * ((2 ^ (w - Z.of_nat (g_level pSS) * g_logBase pSS) / 2) * (1 + Z.of_nat k * Z.of_nat N))) + rowNoise N pSS (Z.of_nat k + 1) Es.

(** Buffers: k+1 times level words-valued GLWE ciphertexts; C word-valued functions; the shapes the allocations give. *)
Definition ggsw_rows (w : Z) (N k level : nat) (g : list (list (list (list Z)))) : Prop :=
  length g = S k /\ forall i, (i <= k)%nat -> length (nth i g []) = level /\ forall j, (j < level)%nat -> glwe_ct w N k (nth j (nth i g []) []).
Definition funs_ok (w : Z) (C : nat) (fs : list (Z -> Z)) : Prop := length fs = C /\ forall i x, (i < C)%nat -> uword w (funOf fs i x).
Definition cb_buf_ok (w : Z) (N k C level n : nat) (b : cbBuf) : Prop :=
  funs_ok w C (cb_fs b) /\ length (cb_lut b) = N /\ length (cb_ks b) = S n /\ gshape N k (cb_pack b) /\ gshape N k (cb_rot b) /\
  ggsw_rows w N k level (cb_ggsw b) /\ glwe_ct w N k (bb_permute (cb_bfv b)).

(** The input encrypts m at the given scale, with error ee, under the key that the bootstrap order asks for; the margin
    keeps the rotation inside the slot of m. *)
Definition cb_input (w : Z) (N C : nat) (pKS : gadget) (s large : list Z) (Eks mm scale m ee : Z) (ksFirst : bool) (ct : list Z) : Prop :=
  let key := if ksFirst then large else s in
  let E := if ksFirst then Z.abs ee + ksNoise w pKS (length large - length s) Eks else Z.abs ee in
  lwe_ct w (length key) ct /\ eqm (2 ^ w) (phase key ct) (scale * m + ee) /\ many_margin (2 ^ w) (Z.of_nat N) (Z.of_nat C) mm scale m E (zsum (length s) (nthZ s)).

(** Error of an external product with a GGSW encryption of the constant c whose rows have errors of at most E. *)
Definition externalNoise (w : Z) (N k : nat) (p : gadget) (c E : Z) : Z :=
  Z.abs c * (2 ^ (w - Z.of_nat (g_level p) * g_logBase p) / 2 * (1 + Z.of_nat k * Z.of_nat N)) + rowNoise N p (Z.of_nat k + 1) E.
