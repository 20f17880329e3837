(** Specification of LWE: the phase of a ciphertext and what it means to encrypt something. *)
From Verif Require Import Base SpecNum ModelGadget SpecGadget.

(** b + <a, s> over the integers (taken modulo 2^w). *)
Definition phase (s ct : list Z) : Z := nthZ ct 0 + zsum (length s) (fun i => nthZ ct (S i) * nthZ s i).

(** A ciphertext of dimension n of words. *)
Definition lwe_ct (w : Z) (n : nat) (ct : list Z) : Prop := length ct = S n /\ Forall (uword w) ct.

(** [lev] encrypts [m] at every gadget level with error [e]. *)
Definition lev_enc (w : Z) (p : gadget) (s : list Z) (lev : list (list Z)) (m : Z) (e : nat -> Z) : Prop :=
  length lev = g_level p /\
  forall j, (j < g_level p)%nat -> lwe_ct w (length s) (nth j lev []) /\
    eqm (2 ^ w) (phase s (nth j lev [])) (m * 2 ^ (w - (Z.of_nat j + 1) * g_logBase p) + e j).

(** A GSW encryption of m: row 0 encrypts m, row i+1 encrypts m * s_i. *)
Definition gsw_enc (w : Z) (p : gadget) (s : list Z) (gsw : list (list (list Z))) (m : Z) (e : nat -> nat -> Z) : Prop :=
  length gsw = S (length s) /\
  lev_enc w p s (nth 0 gsw []) m (e O) /\
  forall i, (i < length s)%nat -> lev_enc w p s (nth (S i) gsw []) (m * nthZ s i) (e (S i)).

(** Row i of a key switching key encrypts coefficient i of the input key. *)
Definition ksk_enc (w : Z) (p : gadget) (s sIn : list Z) (ksk : list (list (list Z))) (e : nat -> nat -> Z) : Prop :=
  length ksk = length sIn /\
  forall i, (i < length sIn)%nat -> lev_enc w p s (nth i ksk []) (nthZ sIn i) (e i).

Definition binary (s : list Z) : Prop := Forall (fun x => x = 0 \/ x = 1) s.
