(** Model of math/vec/vec.go and math/vec/asm_vec.go (pure Go kernels).  No proofs in this file.

    The kernels of asm_vec.go are modelled on a flat memory so that overlapping arguments are
    visible: a slice is a window of one memory.  The element type is arbitrary; the word
    instances follow.  A panic is [None]. *)
From Verif Require Import Base ModelNum.

Record slice := { soff : nat; slen : nat; scap : nat }.

(** math/vec/vec.go:17-27 checkLength for two / three arguments. *)
Definition sameLen2 (a b : slice) : bool := Nat.eqb (slen b) (slen a).
Definition sameLen3 (a b c : slice) : bool := Nat.eqb (slen b) (slen a) && Nat.eqb (slen c) (slen a).

(** [&v[:1][0]] (e.g. asm_vec.go:18): reslicing to length 1 panics exactly when cap(v) = 0. *)
Definition firstOk (a : slice) : bool := Nat.ltb 0 (scap a).

Section Kernel.
Context {A : Type} (d : A).

Definition rd (m : list A) (v : slice) (i : nat) : A := nth (soff v + i) m d.
Definition wr (m : list A) (v : slice) (i : nat) (x : A) : list A := upd m (soff v + i) x.

(** One assignment [vOut[i] = op(vOut[i], v0[i], v1[i])]. *)
Definition kbody (op : A -> A -> A -> A) (vOut v0 v1 : slice) (i : nat) (m : list A) : list A :=
  wr m vOut i (op (rd m vOut i) (rd m v0 i) (rd m v1 i)).

(** The 8 assignments of one unrolled iteration, in program order (asm_vec.go:27-35 etc.). *)
Definition kblock op vOut v0 v1 (i : nat) (m : list A) : list A :=
  let b := kbody op vOut v0 v1 in
  b (i + 7)%nat (b (i + 6)%nat (b (i + 5)%nat (b (i + 4)%nat
    (b (i + 3)%nat (b (i + 2)%nat (b (i + 1)%nat (b (i + 0)%nat m))))))).

(** The two loops: [for i := 0; i < M; i += 8] with M = (len>>3)<<3, then the tail. *)
Definition kernel op vOut v0 v1 (m : list A) : list A :=
  let n := slen vOut in
  let M := (n / 8 * 8)%nat in
  let m1 := forN 0 (n / 8) (fun k => kblock op vOut v0 v1 (8 * k)%nat) m in
  forN M (n - M) (kbody op vOut v0 v1) m1.

(** Kernels with two vector inputs / one vector input (the second read is unused). *)
Definition kernel2 op (m : list A) (vOut v0 v1 : slice) : option (list A) :=
  if sameLen3 vOut v0 v1 && firstOk vOut && firstOk v0 && firstOk v1
  then Some (kernel op vOut v0 v1 m) else None.
Definition kernel1 op (m : list A) (vOut v0 : slice) : option (list A) :=
  if sameLen2 vOut v0 && firstOk vOut && firstOk v0
  then Some (kernel (fun o a _ => op o a) vOut v0 v0 m) else None.
End Kernel.

(** asm_vec.go:12-41, 44-73, 76-103, 106-133, 136-163, 166-195, 198-227, 230-259 on w-bit words. *)
Definition AddTo (w : Z) := kernel2 0 (fun _ a b => wrap w (a + b)).
Definition SubTo (w : Z) := kernel2 0 (fun _ a b => wrap w (a - b)).
Definition ScalarMulTo (w : Z) m vOut v c := kernel1 0 (fun _ a => wrap w (c * a)) m vOut v.
Definition ScalarMulAddTo (w : Z) m vOut v c := kernel1 0 (fun o a => wrap w (o + wrap w (c * a))) m vOut v.
Definition ScalarMulSubTo (w : Z) m vOut v c := kernel1 0 (fun o a => wrap w (o - wrap w (c * a))) m vOut v.
Definition MulTo (w : Z) := kernel2 0 (fun _ a b => wrap w (a * b)).
Definition MulAddTo (w : Z) := kernel2 0 (fun o a b => wrap w (o + wrap w (a * b))).
Definition MulSubTo (w : Z) := kernel2 0 (fun o a b => wrap w (o - wrap w (a * b))).

(** vec.go:190-196 NegTo (a plain loop: no capacity check). *)
Definition NegTo (w : Z) (m : list Z) (vOut v : slice) : option (list Z) :=
  if sameLen2 vOut v
  then Some (forN 0 (slen vOut) (kbody 0 (fun _ a _ => wrap w (- a)) vOut v v) m) else None.

(** Below: functions on separate (non-overlapping) slices, as lists. *)

(** vec.go:158-166 Dot. *)
Definition Dot (w : Z) (v0 v1 : list Z) : option Z :=
  if Nat.eqb (length v1) (length v0)
  then Some (forN 0 (length v0) (fun i r => wrap w (r + wrap w (nthZ v0 i * nthZ v1 i))) 0) else None.

(** vec.go:30-41 Equals. *)
Fixpoint Equals {A} (eqb : A -> A -> bool) (v0 v1 : list A) : bool :=
  match v0, v1 with
  | [], [] => true
  | a :: v0', b :: v1' => if eqb a b then Equals eqb v0' v1' else false
  | _, _ => false
  end.

(** vec.go:44-48 Fill. *)
Definition Fill {A} (v : list A) (x : A) : list A := forN 0 (length v) (fun i v => upd v i x) v.

(** Go's built-in copy(dst, src) for non-overlapping slices, returning the new dst. *)
Definition go_copy {A} (dst src : list A) : list A :=
  let k := Nat.min (length dst) (length src) in firstn k src ++ skipn k dst.

(** The amount normalisation of vec.go:83-87 and 96-100; [len] > 0. *)
Definition rotAmount (len : nat) (l : Z) : nat :=
  Z.to_nat (if l <? 0 then Z.of_nat len - Z.rem (- l) (Z.of_nat len) else Z.rem l (Z.of_nat len)).

(** vec.go:80-91 RotateTo; an empty vector divides by zero. *)
Definition RotateTo {A} (vOut v : list A) (l : Z) : option (list A) :=
  if negb (Nat.eqb (length v) (length vOut)) then None
  else if Nat.eqb (length v) 0 then None
  else
    let k := rotAmount (length v) l in
    let o1 := firstn k vOut ++ go_copy (skipn k vOut) v in
    Some (go_copy (firstn k o1) (skipn (length v - k) v) ++ skipn k o1).

Definition swap {A} (d : A) (i j : nat) (v : list A) : list A :=
  let a := nth i v d in let b := nth j v d in upd (upd v i b) j a.

(** vec.go:127-131 ReverseInPlace on the window [lo, lo+n) of v. [for i, j := 0, n-1; i < j; i++, j--]. *)
Definition ReverseWin {A} (d : A) (lo n : nat) (v : list A) : list A :=
  (fix go (fuel i j : nat) (v : list A) : list A :=
     match fuel with
     | O => v
     | S f => if Nat.ltb i j then go f (S i) (j - 1)%nat (swap d (lo + i) (lo + j) v) else v
     end) n 0%nat (n - 1)%nat v.

Definition ReverseInPlace {A} (d : A) (v : list A) : list A := ReverseWin d 0 (length v) v.

(** vec.go:118-124 ReverseTo. *)
Definition ReverseTo {A} (d : A) (vOut v : list A) : option (list A) :=
  if Nat.eqb (length v) (length vOut)
  then Some (forN 0 (length vOut) (fun i o => upd o (length vOut - i - 1) (nth i v d)) vOut) else None.

(** vec.go:95-105 RotateInPlace. *)
Definition RotateInPlace {A} (d : A) (v : list A) (l : Z) : option (list A) :=
  if Nat.eqb (length v) 0 then None
  else
    let n := length v in
    let k := rotAmount n l in
    Some (ReverseWin d k (n - k) (ReverseWin d 0 k (ReverseInPlace d v))).

(** vec.go:138-141: [for j >= bit { j -= bit; bit >>= 1 }; j += bit]. *)
Fixpoint br_inner (fuel : nat) (j bit : nat) : res nat :=
  match fuel with
  | O => OutOfFuel
  | S f => if Nat.leb bit j then br_inner f (j - bit) (bit / 2) else Ok (j + bit)%nat
  end.

(** vec.go:134-147 BitReverseInPlace.  Fuel of the inner loop: the length (out of fuel = the Go loop diverges). *)
Definition BitReverseInPlace {A} (d : A) (v : list A) : res (list A) :=
  let n := length v in
  match forN 1 (n - 1) (fun i st =>
    match st with
    | Ok (v, j) => match br_inner n j (n / 2) with
                   | Ok j' => Ok (if Nat.ltb i j' then swap d i j' v else v, j')
                   | Panic => Panic | OutOfFuel => OutOfFuel
                   end
    | e => e
    end) (Ok (v, 0%nat)) with
  | Ok (v, _) => Ok v
  | Panic => Panic | OutOfFuel => OutOfFuel
  end.

(** vec.go:242-262 CmplxToFloat4To; a complex128 is a pair of an arbitrary type of floats. *)
Definition CmplxToFloat4To {F} (f0 : F) (vOut : list F) (v : list (F * F)) : option (list F) :=
  if negb (Nat.eqb (length v mod 4) 0) then None
  else if negb (Nat.eqb (length vOut) (2 * length v)) then None
  else Some (forN 0 (length v / 4) (fun k o =>
    let i := (4 * k)%nat in let j := (8 * k)%nat in
    let re t := fst (nth (i + t) v (f0, f0)) in
    let im t := snd (nth (i + t) v (f0, f0)) in
    upd (upd (upd (upd (upd (upd (upd (upd o
      (j + 0) (re 0%nat)) (j + 1) (re 1%nat)) (j + 2) (re 2%nat)) (j + 3) (re 3%nat))
      (j + 4) (im 0%nat)) (j + 5) (im 1%nat)) (j + 6) (im 2%nat)) (j + 7) (im 3%nat)) vOut).

(** vec.go:293-309 Float4ToCmplxTo. *)
Definition Float4ToCmplxTo {F} (f0 : F) (vOut : list (F * F)) (v : list F) : option (list (F * F)) :=
  if negb (Nat.eqb (length v mod 8) 0) then None
  else if negb (Nat.eqb (length vOut * 2) (length v)) then None
  else Some (forN 0 (length v / 8) (fun k o =>
    let i := (8 * k)%nat in let j := (4 * k)%nat in
    let c t := (nth (i + t) v f0, nth (i + t + 4) v f0) in
    upd (upd (upd (upd o (j + 0) (c 0%nat)) (j + 1) (c 1%nat)) (j + 2) (c 2%nat)) (j + 3) (c 3%nat)) vOut).
