(** Specifications for rounding, logarithms, square roots: what the English says, nothing about the code. *)
From Verif Require Import Base.

(** [r] is n/d rounded to the nearest integer, ties upwards:  r - 1/2 <= n/d < r + 1/2. *)
Definition is_round_half_up (n d r : Z) : Prop := d * (2 * r - 1) <= 2 * n < d * (2 * r + 1).

(** [r] is floor(sqrt x). *)
Definition is_floor_sqrt (x r : Z) : Prop := 0 <= r /\ r * r <= x < (r + 1) * (r + 1).

(** [k] is floor(log2 x). *)
Definition is_floor_log2 (x k : Z) : Prop := 0 <= k /\ 2 ^ k <= x < 2 ^ (k + 1).

Definition power_of_two (x : Z) : Prop := exists k, 0 <= k /\ x = 2 ^ k.

(** The range of an unsigned / signed [w]-bit integer. *)
Definition uword (w x : Z) : Prop := 0 <= x < 2 ^ w.
Definition sword (w x : Z) : Prop := - 2 ^ (w - 1) <= x < 2 ^ (w - 1).
