(** Model of math/csprng/uniform_sampler.go, binary_sampler.go and xtfhe/sanitization_sampler.go.
    No proofs in this file.

    The AES-CTR key stream is the oracle [ks : nat -> Z] giving its bytes; seeding and SHA-384 are not
    modelled (equal seeds give equal key streams).  Go's [s.buf] is [ubuf]; [upos] is the number of key
    stream bytes the cipher has produced. *)
From Verif Require Import Base ModelNum.

(** A call returns, panics, or is still looping when the fuel ends. *)
Inductive outcome (A : Type) : Type := Ret (a : A) | Panic | Loop.
Arguments Ret {A} a.
Arguments Panic {A}.
Arguments Loop {A}.

(** uniform_sampler.go:14. *)
Definition bufSize : nat := Z.to_nat 8192.

Record ust := { ubuf : list Z; uptr : nat; upos : nat }.

(** uniform_sampler.go:44-60: a fresh sampler has an all-zero, exhausted buffer. *)
Definition newUst : ust := {| ubuf := repeat 0 bufSize; uptr := bufSize; upos := 0 |}.

Section Uniform.
Variable ks : nat -> Z.

(** XORKeyStream(s.buf[:], s.buf[:]): the next bufSize bytes are xored onto the buffer. *)
Definition refill (s : ust) : ust :=
  {| ubuf := tab bufSize (fun i => Z.lxor (nthZ (ubuf s) i) (ks (upos s + i)%nat)); uptr := 0; upos := (upos s + bufSize)%nat |}.

(** Little-endian assembly [res |= uint64(buf[ptr+i]) << (8*i)] for i < bs. *)
Definition assemble (bs : nat) (buf : list Z) (ptr : nat) : Z :=
  forN 0 bs (fun i res => Z.lor res (Z.shiftl (nthZ buf (ptr + i)) (8 * Z.of_nat i))) 0.

(** 65-96 Sample for a type of [bs] bytes (1, 2, 4 or 8), signed or not. *)
Definition Sample (sg : bool) (bs : nat) (s : ust) : Z * ust :=
  let s := if Nat.eqb (uptr s) bufSize then refill s else s in
  (twrap sg (8 * Z.of_nat bs) (assemble bs (ubuf s) (uptr s)),
   {| ubuf := ubuf s; uptr := (uptr s + bs)%nat; upos := upos s |}).

(** num.MaxT (math/num/num.go). *)
Definition maxT (sg : bool) (bs : nat) : Z := if sg then 2 ^ (8 * Z.of_nat bs - 1) - 1 else 2 ^ (8 * Z.of_nat bs) - 1.

(** 99-107 SampleN; N = 0 panics in the remainder.  [Z.rem] is Go's %. *)
Fixpoint sampleLoop (sg : bool) (bs : nat) (fuel : nat) (bound N : Z) (s : ust) : outcome (Z * ust) :=
  match fuel with
  | O => Loop
  | S fuel =>
    let '(res, s) := Sample sg bs s in
    if (0 <=? res) && (res <? bound) then Ret (Z.rem res N, s) else sampleLoop sg bs fuel bound N s
  end.
Definition SampleN (sg : bool) (bs : nat) (fuel : nat) (N : Z) (s : ust) : outcome (Z * ust) :=
  if N =? 0 then Panic
  else sampleLoop sg bs fuel (twrap sg (8 * Z.of_nat bs) (maxT sg bs - Z.rem (maxT sg bs) N)) N s.

(** 110-114 SampleVecTo, SamplePolyTo. *)
Definition USampleVecTo (sg : bool) (bs : nat) (vOut : list Z) (s : ust) : list Z * ust :=
  forN 0 (length vOut) (fun i st => let '(v, s) := st in let '(x, s) := Sample sg bs s in (upd v i x, s)) (vOut, s).

(** binary_sampler.go:33-35 Sample (the base sampler is over uint64). *)
Definition BSample (s : ust) : Z * ust := let '(x, s) := Sample false 8 s in (Z.land x 1, s).

(** binary_sampler.go:38-47 SampleVecTo, SamplePolyTo. *)
Definition BSampleVecTo (vOut : list Z) (s : ust) : list Z * ust :=
  let '(v, _, s) := forN 0 (length vOut) (fun i st =>
    let '(v, buf, s) := st in
    let '(buf, s) := if Nat.eqb (i mod 64) 0 then Sample false 8 s else (buf, s) in
    (upd v i (Z.land buf 1), Z.shiftr buf 1, s)) (vOut, 0, s) in (v, s).

(** vec.Fill(vOut[i:i+bs], 0) and [vOut[i+offset] = 1]. *)
Definition fillBlock (v : list Z) (i bs : nat) : list Z := forN i bs (fun j v => upd v j 0) v.

(** binary_sampler.go:55-68 SampleBlockVecTo: fuel for every SampleN; blocks bs apart. *)
Definition SampleBlockVecTo (fuel : nat) (vOut : list Z) (blockSize : Z) (s : ust) : outcome (list Z * ust) :=
  if blockSize =? 0 then Panic
  else if negb (Z.rem (Z.of_nat (length vOut)) blockSize =? 0) then Panic
  else if (blockSize <? 0) && negb (Nat.eqb (length vOut) 0) then Panic (* vOut[0:blockSize] *)
  else
    let bs := Z.to_nat blockSize in
    forN 0 (length vOut / bs) (fun k r =>
      match r with
      | Ret (v, s) =>
        let v := fillBlock v (k * bs) bs in
        match SampleN false 8 fuel (wrap 64 (blockSize + 1)) s with
        | Ret (o, s) => if o =? blockSize then Ret (v, s) else Ret (upd v (k * bs + Z.to_nat o) 1, s)
        | Panic => Panic
        | Loop => Loop
        end
      | e => e
      end) (Ret (vOut, s)).
End Uniform.

(** sort.Search (Go standard library): binary search for the smallest index with f true. *)
Fixpoint searchLoop (fuel : nat) (f : nat -> bool) (i j : nat) : nat :=
  match fuel with
  | O => i
  | S fuel => if Nat.ltb i j then let h := Nat.div2 (i + j) in if f h then searchLoop fuel f i h else searchLoop fuel f (S h) j else i
  end.
Definition Search (n : nat) (f : nat -> bool) : nat := searchLoop (S n) f 0 n.

(** xtfhe/sanitization_sampler.go:75-83 CDTSampler.Sample: random word r, before conversion to T. *)
Definition CDTSample (table : list Z) (offset r : Z) : Z :=
  Z.of_nat (Search (length table) (fun i => r <? nthZ table i)) + offset.

(** sanitization_sampler.go:33-62 for an integer center and standard deviation; the table of cumulative
    probabilities needs exp and is an oracle with one entry per value of the tail interval. *)
Definition cdtLo (center stdDev : Z) : Z := center - 12 * stdDev.
Definition cdtHi (center stdDev : Z) : Z := center + 12 * stdDev.
Definition NewCDT (cdf : Z -> Z) (center stdDev : Z) : list Z * Z :=
  let lo := cdtLo center stdDev in let hi := cdtHi center stdDev in
  (tab (Z.to_nat (hi - lo + 1)) (fun i => cdf (lo + Z.of_nat i)), lo + center).

(** A sequence of calls on one sampler. *)
Inductive ucall := USample | UVec (out : list Z) | UN (N : Z).
Inductive ureply := UWord (x : Z) | UVecR (v : list Z) | UNR (x : Z).
Definition ustep (ks : nat -> Z) (sg : bool) (bs fuel : nat) (c : ucall) (s : ust) : outcome (ureply * ust) :=
  match c with
  | USample => let '(x, s) := Sample ks sg bs s in Ret (UWord x, s)
  | UVec o => let '(v, s) := USampleVecTo ks sg bs o s in Ret (UVecR v, s)
  | UN N => match SampleN ks sg bs fuel N s with Ret (x, s) => Ret (UNR x, s) | Panic => Panic | Loop => Loop end
  end.
Fixpoint urun (ks : nat -> Z) (sg : bool) (bs fuel : nat) (cs : list ucall) (s : ust) : outcome (list ureply * ust) :=
  match cs with
  | [] => Ret ([], s)
  | c :: cs =>
    match ustep ks sg bs fuel c s with
    | Ret (r, s) => match urun ks sg bs fuel cs s with Ret (rs, s) => Ret (r :: rs, s) | Panic => Panic | Loop => Loop end
    | Panic => Panic
    | Loop => Loop
    end
  end.
