(** Specification of polynomials: the element of Z[X]/(X^N+1) a coefficient list stands for. *)
From Verif Require Import Base NegaRing SpecNum.

(** Antiperiodic extension of the coefficient list. *)
Definition pol_cf (N : nat) (l : list Z) (k : Z) : Z :=
  match N with
  | O => 0
  | _ => let j := k mod (2 * Z.of_nat N) in
         if j <? Z.of_nat N then nthZ l (Z.to_nat j) else - nthZ l (Z.to_nat (j - Z.of_nat N))
  end.

Lemma pol_anti (N : nat) l k : pol_cf N l (k + Z.of_nat N) = - pol_cf N l k.
Proof.
  unfold pol_cf. destruct N as [|n]; [reflexivity|]. cbn zeta. rewrite mod2N_add by lia.
  pose proof (Z.mod_pos_bound k (2 * Z.of_nat (S n)) ltac:(lia)).
  set (j := k mod (2 * Z.of_nat (S n))) in *. clearbody j.
  destruct (Z.ltb_spec j (Z.of_nat (S n))).
  - destruct (Z.ltb_spec (j + Z.of_nat (S n)) (Z.of_nat (S n))); [lia|]. do 2 f_equal. lia.
  - destruct (Z.ltb_spec (j - Z.of_nat (S n)) (Z.of_nat (S n))); [|lia]. lia.
Qed.

(** The polynomial sum l[i] X^i. *)
Definition pol (N : nat) (l : list Z) : npoly N := mkNP (pol_cf N l) (pol_anti N l).

(** A list of N words of w bits. *)
Definition wpoly (w : Z) (N : nat) (l : list Z) : Prop := length l = N /\ Forall (uword w) l.
Definition tpoly (sg : bool) (w : Z) (N : nat) (l : list Z) : Prop :=
  length l = N /\ Forall (fun x => if sg then sword w x else uword w x) l.
