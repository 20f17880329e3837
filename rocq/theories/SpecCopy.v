(** Specification of thread-safe copies. *)
From Verif Require Import Base ModelGadget ModelMK ModelConc ModelCopy SpecConc.

(** A copy writes only regions that did not exist before, no two of its fields share one, and it reads no other region than the original does. *)
Definition isolated {O} (copy : O -> M O) (ro rw : O -> list nat) : Prop :=
  forall o n, let '(o', n') := copy o n in
  (n <= n')%nat /\ NoDup (rw o') /\ (forall a, In a (rw o') -> (n <= a < n')%nat) /\ incl (ro o') (ro o).
(** An object as its constructor makes it: everything is allocated, and nothing it writes is shared. *)
Definition wellMade {O} (ro rw : O -> list nat) (o : O) (n : nat) : Prop :=
  (forall a, In a (ro o ++ rw o) -> (a < n)%nat) /\ (forall a, In a (rw o) -> ~ In a (ro o)).
(** What a method called on object o by goroutine i may touch: the object's regions and the caller's own arguments. *)
Definition mayRead {O} (ro : O -> list nat) (o : O) (c : cell) : Prop := match c with UReg a _ => In a (ro o) | UArg _ _ => False end.
Definition mayWrite {O} (rw : O -> list nat) (o : O) (i : nat) (c : cell) : Prop := match c with UReg a _ => In a (rw o) | UArg j _ => j = i end.
(** Goroutine i runs a method call (or any sequence of them) on the i-th object. *)
Definition callsOn {O A} (ro rw : O -> list nat) (objs : list O) (ps : list (prog cell Z A)) : Prop :=
  length ps = length objs /\
  forall i o p, nth_error objs i = Some o -> nth_error ps i = Some p -> fp (mayRead ro o) (mayWrite rw o i) p.
