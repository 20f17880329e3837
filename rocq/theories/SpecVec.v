(** Specifications for vector operations. *)
From Verif Require Import Base ModelNum ModelVec.

(** A slice lies inside the memory. *)
Definition valid {A} (m : list A) (v : slice) : Prop := (soff v + slen v <= length m)%nat /\ (slen v <= scap v)%nat.

(** Overlap allowed by a left-to-right pointwise loop: the input does not start before the output
    unless it ends before it (in particular: same slice, or disjoint). *)
Definition no_forward_overlap (vOut v : slice) : Prop :=
  (soff vOut <= soff v)%nat \/ (soff v + slen v <= soff vOut)%nat.

(** [m'] is [m] with the window [vOut] replaced by the pointwise results. *)
Definition pointwise {A} (d : A) (op : A -> A -> A -> A) (vOut v0 v1 : slice) (m m' : list A) : Prop :=
  length m' = length m /\
  (forall i, (i < slen vOut)%nat ->
     nth (soff vOut + i) m' d = op (nth (soff vOut + i) m d) (nth (soff v0 + i) m d) (nth (soff v1 + i) m d)) /\
  (forall j, (j < soff vOut \/ soff vOut + slen vOut <= j)%nat -> nth j m' d = nth j m d).

(** v' is v with index i moved to (i + l) mod n. *)
Definition rotated {A} (d : A) (l : Z) (v v' : list A) : Prop :=
  length v' = length v /\
  forall i, (i < length v)%nat ->
    nth (Z.to_nat ((Z.of_nat i + l) mod Z.of_nat (length v))) v' d = nth i v d.

(** r is the k-bit reversal of i. *)
Definition is_bitrev (k i r : nat) : Prop :=
  (r < 2 ^ k)%nat /\ forall b, (b < k)%nat -> Nat.testbit r b = Nat.testbit i (k - 1 - b).
