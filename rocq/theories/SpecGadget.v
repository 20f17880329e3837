(** Specification of gadget parameters and balanced digit expansions. *)
From Verif Require Import Base SpecNum ModelGadget.

(** Valid gadget parameters for torus width [w]: base 2^b, [l] levels, b*l <= w. *)
Definition gadget_ok (w : Z) (p : gadget) : Prop :=
  1 <= g_logBase p /\ g_base p = 2 ^ g_logBase p /\ (1 <= g_level p)%nat /\ g_sizeT p = w /\
  g_logBase p < w /\ g_logBase p * Z.of_nat (g_level p) <= w.

(** Q / Base^(i+1) as a rational identity. *)
Definition is_baseq (w b : Z) (i : nat) (g : Z) : Prop := g * (2 ^ b) ^ (Z.of_nat i + 1) = 2 ^ w.

(** [d] (words) read as signed integers in [-B/2, B/2). *)
Definition balanced (w b : Z) (d : list Z) : Prop :=
  Forall (fun x => uword w x /\ exists s, - 2 ^ (b - 1) <= s < 2 ^ (b - 1) /\ eqm (2 ^ w) x s) d.

(** Distance modulo Q. *)
Definition dist_le (Q a b e : Z) : Prop := exists r, eqm Q (a - b) r /\ Z.abs r <= e.
Definition dist2_le (Q a b e2 : Z) : Prop := exists r, eqm Q (a - b) r /\ 2 * Z.abs r <= e2.

(** A balanced digit expansion [d] of the word [x] with rounding error [r]. *)
Definition is_dcmp (w : Z) (p : gadget) (x : Z) (d : nat -> Z) (r : Z) : Prop :=
  (forall j, (j < g_level p)%nat -> - 2 ^ (g_logBase p - 1) <= d j < 2 ^ (g_logBase p - 1)) /\
  eqm (2 ^ w) x (zsum (g_level p) (fun j => d j * 2 ^ (w - (Z.of_nat j + 1) * g_logBase p)) + r) /\
  2 * Z.abs r <= 2 ^ (w - Z.of_nat (g_level p) * g_logBase p).
