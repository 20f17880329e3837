(** Model of math/num/num.go (integer part).  No proofs in this file.
    A Go integer of type T with w bits is a [Z]; unsigned values lie in [0,2^w), signed ones in
    [-2^(w-1), 2^(w-1)).  Every operation that can leave the range is followed by the wrap. *)
From Verif Require Import Base.

(** Wrap-around of unsigned [w]-bit arithmetic (Go spec: unsigned overflow is modulo 2^w). *)
Definition wrap (w x : Z) : Z := x mod 2 ^ w.

(** Two's complement reinterpretation/wrap-around of signed [w]-bit arithmetic. *)
Definition swrap (w x : Z) : Z := (x + 2 ^ (w - 1)) mod 2 ^ w - 2 ^ (w - 1).

(** The result of a Go call that may panic; [OutOfFuel] is the artefact of bounding loops and is
    excluded by theorems. *)
Inductive res (A : Type) : Type :=
| Ok (a : A)
| Panic
| OutOfFuel.
Arguments Ok {A}.
Arguments Panic {A}.
Arguments OutOfFuel {A}.

(** Wrap of type T: signed or unsigned. *)
Definition twrap (signed : bool) (w x : Z) : Z := if signed then swrap w x else wrap w x.

(** math/num/num.go:114-116 IsPowerOfTwo. [x-1] does not wrap because the first conjunct guards x>0. *)
Definition IsPowerOfTwo (x : Z) : bool := (0 <? x) && (Z.land x (x - 1) =? 0).

(** math/bits.Len64: number of bits needed for x (0 for 0). *)
Definition Len64 (x : Z) : Z := if x =? 0 then 0 else Z.log2 x + 1.

(** math/num/num.go:119-125 Log2 (for any T of at most 64 bits; uint64(x) of a positive x is x). *)
Definition Log2 (x : Z) : res Z := if x <=? 0 then Panic else Ok (Len64 x - 1).

(** math/num/num.go:136-138 DivRoundBits for unsigned T.
    Go: [(x >> bits) + ((x<<1)>>bits)&1]; [&] binds tighter than [+]. *)
Definition DivRoundBits (w x bits : Z) : Z :=
  wrap w (Z.shiftr x bits + Z.land (Z.shiftr (wrap w (Z.shiftl x 1)) bits) 1).

(** The same for signed T (arithmetic shift). *)
Definition DivRoundBitsS (w x bits : Z) : Z :=
  swrap w (Z.shiftr x bits + Z.land (Z.shiftr (swrap w (Z.shiftl x 1)) bits) 1).

(** math/num/num.go:141-154 Min, Max. *)
Definition MinT (x y : Z) : Z := if x <? y then x else y.
Definition MaxT (x y : Z) : Z := if y <? x then x else y.

(** math/num/num.go:158-171 MaxN. *)
Definition MaxN (x : list Z) : Z :=
  match x with
  | [] => 0
  | x0 :: xs => fold_left (fun m y => if m <? y then y else m) xs x0
  end.
(** math/num/num.go:175-188 MinN. *)
Definition MinN (x : list Z) : Z :=
  match x with
  | [] => 0
  | x0 :: xs => fold_left (fun m y => if y <? m then y else m) xs x0
  end.

(** math/num/num.go:199-201: [for d > t { d >>= 2 }]. *)
Fixpoint sqrt_init (fuel : nat) (t d : Z) : res Z :=
  match fuel with
  | O => OutOfFuel
  | S f => if t <? d then sqrt_init f t (Z.shiftr d 2) else Ok d
  end.

(** math/num/num.go:203-211; t, c, d are uint64. *)
Fixpoint sqrt_loop (fuel : nat) (t c d : Z) : res Z :=
  match fuel with
  | O => OutOfFuel
  | S f =>
    if d =? 0 then Ok c
    else if wrap 64 (c + d) <=? t
         then sqrt_loop f (wrap 64 (t - wrap 64 (c + d))) (wrap 64 (Z.shiftr c 1 + d)) (Z.shiftr d 2)
         else sqrt_loop f t (Z.shiftr c 1) (Z.shiftr d 2)
  end.

(** math/num/num.go:191-214 Sqrt (T of at most 64 bits). 40 iterations always suffice. *)
Definition Sqrt (x : Z) : res Z :=
  if x <? 0 then Panic
  else match sqrt_init 40 x (2 ^ 62) with
       | Ok d => sqrt_loop 40 x 0 d
       | e => e
       end.

(** math/num/num.go:231-235: the extended Euclid loop, arithmetic in T. Returns (a, u). *)
Fixpoint inv_loop (fuel : nat) (signed : bool) (w a b u v : Z) : res (Z * Z) :=
  match fuel with
  | O => OutOfFuel
  | S f =>
    if b =? 0 then Ok (a, u)
    else let q := Z.quot a b in
         inv_loop f signed w b (twrap signed w (a - twrap signed w (q * b)))
                             v (twrap signed w (u - twrap signed w (q * v)))
  end.

(** math/num/num.go:219-246 ModInverse over a (signed or unsigned) w-bit T, w <= 64. *)
Definition ModInverse (signed : bool) (w x m : Z) : res Z :=
  if m <=? 0 then Panic
  else
    let x1 := Z.rem x m in
    let x2 := if x1 <? 0 then twrap signed w (x1 + m) else x1 in
    match inv_loop 140 signed w x2 m 1 0 with
    | Ok (a, u) =>
        if a =? 1 then
          let u1 := Z.rem u m in
          Ok (if u1 <? 0 then twrap signed w (u1 + m) else u1)
        else Panic
    | Panic => Panic
    | OutOfFuel => OutOfFuel
    end.

(** math/num/num.go:273-279: square and multiply, arithmetic in T. *)
Fixpoint exp_loop (fuel : nat) (signed : bool) (w res_ x y m : Z) : res Z :=
  match fuel with
  | O => OutOfFuel
  | S f =>
    if 0 <? y then
      let r := if Z.land y 1 =? 1 then Z.rem (twrap signed w (res_ * x)) m else res_ in
      exp_loop f signed w r (Z.rem (twrap signed w (x * x)) m) (Z.shiftr y 1) m
    else Ok res_
  end.

(** math/num/num.go:254-285 ModExp. *)
Definition ModExp (signed : bool) (w x y m : Z) : res Z :=
  if m <=? 0 then Panic
  else
    let go x y :=
      let x1 := Z.rem x m in
      let x2 := if x1 <? 0 then twrap signed w (x1 + m) else x1 in
      match exp_loop 70 signed w 1 x2 y m with
      | Ok r => Ok (if r <? 0 then twrap signed w (r + m) else r)
      | e => e
      end in
    if y <? 0 then
      match ModInverse signed w x m with
      | Ok xi => go xi (twrap signed w (- y))
      | e => e
      end
    else if y =? 0 then Ok 1
    else go x y.
