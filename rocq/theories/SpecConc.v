(** Specification of non-interference: footprints of programs and when they are separate. *)
From Verif Require Import Base ModelGadget ModelMK ModelConc.

(** [fp R W p]: whatever values it reads, p reads only cells in R or W and writes only cells in W. *)
Fixpoint fp {L V A} (R W : L -> Prop) (p : prog L V A) : Prop :=
  match p with
  | Ret _ => True
  | Rd l k => (R l \/ W l) /\ forall v, fp R W (k v)
  | Wr l _ k => W l /\ fp R W k
  end.
(** No goroutine writes a cell that another one reads or writes. *)
Definition separate {L} (n : nat) (R W : nat -> L -> Prop) : Prop :=
  forall i j l, (i < n)%nat -> (j < n)%nat -> i <> j -> W i l -> ~ R j l /\ ~ W j l.
(** The cell of the next access and whether it is a write. *)
Definition next {L V A} (p : prog L V A) : option (L * bool) :=
  match p with Ret _ => None | Rd l _ => Some (l, false) | Wr l _ _ => Some (l, true) end.
(** Two goroutines are about to access one cell, one of them writing: a data race. *)
Definition race {L V A} (ps : list (prog L V A)) : Prop :=
  exists i j p q l a b, i <> j /\ nth_error ps i = Some p /\ nth_error ps j = Some q /\ next p = Some (l, a) /\ next q = Some (l, b) /\ (a || b = true).
(** Number of accesses of p when running alone from m, and the number of times goroutine i is scheduled. *)
Fixpoint steps {L V A} (leq : forall a b : L, {a = b} + {a <> b}) (p : prog L V A) (m : mem L V) : nat :=
  match p with
  | Ret _ => O
  | Rd l k => S (steps leq (k (m l)) m)
  | Wr l v k => S (steps leq k (mset leq m l v))
  end.
Definition turns (i : nat) (s : list nat) : nat := count_occ Nat.eq_dec s i.

(** The memory holds the ciphertext, the gadget tables and the active parties' blind rotation keys. *)
Definition parMem (w : Z) (N P n : nat) (pa pBR : gadget) (bm : list bool) (eks : list evalKey) (ct : list Z) (m : mem loc Z) : Prop :=
  (forall t, (t < S (P * n))%nat -> m (LCt t) = nthZ ct t) /\
  (forall j t, (j < g_level pa)%nat -> (t < N)%nat -> m (LLut j t) = nthZ (nth 0 (gadgetLUT w N pa j) []) t) /\
  (forall i a b c d t, nth i bm false = true -> (a < n)%nat -> (b < 2)%nat -> (c < g_level pBR)%nat -> (d < 2)%nat -> (t < N)%nat ->
    m (LBrk i a b c d t) = nthZ (nth d (nth c (nth b (nth a (ek_brk (nth i eks noKey)) []) []) []) []) t).
(** Cells that all goroutines only read, and those of party i alone. *)
Definition sharedC (l : loc) : Prop := match l with LCt _ | LLut _ _ | LBrk _ _ _ _ _ _ => True | _ => False end.
Definition ownC (i : nat) (l : loc) : Prop := match l with LRin a _ | LAcc a _ _ | LFacc a _ _ _ | LSub a _ => a = i | _ => False end.
