(** Specification of boolean ciphertexts, gates and straight-line programs of gates. *)
From Verif Require Import Base SpecNum SpecLWE SpecGadget.

(** [ct] encrypts [b] under [s]: phase +-Q/8 up to B. *)
Definition bool_enc (w : Z) (s : list Z) (B : Z) (ct : list Z) (b : bool) : Prop :=
  lwe_ct w (length s) ct /\ dist_le (2 ^ w) (phase s ct) (if b then 2 ^ (w - 3) else - 2 ^ (w - 3)) B.

Inductive gate := gAND | gNAND | gOR | gNOR | gXOR | gXNOR.
Definition truth (g : gate) (a b : bool) : bool :=
  match g with
  | gAND => andb a b | gNAND => negb (andb a b) | gOR => orb a b | gNOR => negb (orb a b) | gXOR => xorb a b | gXNOR => negb (xorb a b)
  end.
(** Programs over registers: any output register, also one of the inputs. *)
Inductive instr := INot (out a : nat) | IGate (g : gate) (out a b : nat).
Definition bset (v : nat -> bool) (x : nat) (b : bool) : nat -> bool := fun y => if Nat.eqb y x then b else v y.
Definition istep (v : nat -> bool) (i : instr) : nat -> bool :=
  match i with INot o a => bset v o (negb (v a)) | IGate g o a b => bset v o (truth g (v a) (v b)) end.
Definition bprog (p : list instr) (v : nat -> bool) : nat -> bool := fold_left istep p v.

(** A bootstrap of the sign table: any phase within R of Q/4 (of -Q/4) gives an encryption of true (false)
    with noise B. *)
Definition sign_boot (w : Z) (s : list Z) (boot : list Z -> list Z -> list Z) (R B : Z) : Prop :=
  forall out ct phi (b : bool), length out = S (length s) -> lwe_ct w (length s) ct -> eqm (2 ^ w) (phase s ct) phi ->
  Z.abs (phi - (if b then 2 ^ (w - 2) else - 2 ^ (w - 2))) <= R -> bool_enc w s B (boot out ct) b.

(** Bits 0..n-1 of x as a number. *)
Definition lowbits (x : Z) (n : nat) : Z := x mod 2 ^ Z.of_nat n.
