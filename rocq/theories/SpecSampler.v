(** Specification of sampling: an abstract stream of words and what each call takes from it. *)
From Verif Require Import Base SpecNum ModelNum ModelSampler.

Definition byte (x : Z) : Prop := 0 <= x < 256.

(** Byte i of the r-th buffer of size B: every refill xors fresh key stream onto the previous buffer. *)
Fixpoint blk (B : nat) (ks : nat -> Z) (r i : nat) : Z :=
  match r with
  | O => ks i
  | S r' => Z.lxor (blk B ks r' i) (ks (S r' * B + i)%nat)
  end.
Definition stream (B : nat) (ks : nat -> Z) (p : nat) : Z := blk B ks (p / B) (p mod B).

(** Little-endian word of bs bytes at position p of a byte stream. *)
Definition leword (f : nat -> Z) (bs p : nat) : Z := zsum bs (fun i => 2 ^ (8 * Z.of_nat i) * f (p + i)%nat).

(** The n-th word: bytes n*bs, ..., n*bs + bs - 1 of the stream, little-endian, read as a value of the type. *)
Definition word (B : nat) (ks : nat -> Z) (sg : bool) (bs n : nat) : Z := twrap sg (8 * Z.of_nat bs) (leword (stream B ks) bs (n * bs)).

(** Accepted words of bounded sampling; biggest is the largest value of the type. *)
Definition accept (biggest N x : Z) : Prop := 0 <= x < biggest - biggest mod N.

(** What a call may reply when the words W n, W (n+1), ... come next, and the number of words it takes. *)
Inductive replies (biggest : Z) (W : nat -> Z) : ucall -> nat -> ureply -> nat -> Prop :=
| rep_sample n : replies biggest W USample n (UWord (W n)) (S n)
| rep_vec out n : replies biggest W (UVec out) n (UVecR (tab (length out) (fun i => W (n + i)%nat))) (n + length out)
| rep_n N n k : (forall j, (j < k)%nat -> ~ accept biggest N (W (n + j)%nat)) -> accept biggest N (W (n + k)%nat) ->
    replies biggest W (UN N) n (UNR (W (n + k)%nat mod N)) (n + S k).
Inductive history (biggest : Z) (W : nat -> Z) : list ucall -> nat -> list ureply -> nat -> Prop :=
| hist_nil n : history biggest W [] n [] n
| hist_cons c cs n r rs n1 n2 : replies biggest W c n r n1 -> history biggest W cs n1 rs n2 -> history biggest W (c :: cs) n (r :: rs) n2.

(** Successive bounded samples below M of 64-bit words, starting with word n and ending before word n'. *)
Inductive nchain (W : nat -> Z) (M : Z) : nat -> list Z -> nat -> Prop :=
| nc_nil n : nchain W M n [] n
| nc_snoc n os n1 k : nchain W M n os n1 -> (forall j, (j < k)%nat -> ~ accept (2 ^ 64 - 1) M (W (n1 + j)%nat)) -> accept (2 ^ 64 - 1) M (W (n1 + k)%nat) ->
    nchain W M n (os ++ [W (n1 + k)%nat mod M]) (n1 + S k)%nat.

(** Each of the blocks of size bs has a single 1 at its offset, or none when the offset is bs. *)
Definition blocks (bs : nat) (os : list Z) (v : list Z) : Prop :=
  length v = (length os * bs)%nat /\
  forall k j, (k < length os)%nat -> (j < bs)%nat ->
    0 <= nthZ os k <= Z.of_nat bs /\ nthZ v (k * bs + j) = if nthZ os k =? Z.of_nat j then 1 else 0.

(** Number of table entries not above r. *)
Definition below (table : list Z) (r : Z) : Z := zsum (length table) (fun i => if nthZ table i <=? r then 1 else 0).
Definition nondecreasing (table : list Z) : Prop := forall i j, (i <= j < length table)%nat -> nthZ table i <= nthZ table j.
