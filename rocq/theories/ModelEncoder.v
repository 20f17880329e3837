(** Model of tfhe/encoder.go.  Integers are Go values: [message] a 64-bit int, torus values words.
    No proofs in this file. *)
From Verif Require Import Base ModelNum ModelFloat ModelVec.

(** tfhe/encoder.go:37-43 EncodeLWECustom. *)
Definition EncodeLWECustom (w message mm scale : Z) : Z :=
  let encoded := wrap w message in
  let encoded := if mm =? 0 then encoded else encoded mod mm in
  wrap w (encoded * scale).

(** tfhe/encoder.go:57-59: the modulus used by decoding; T(math.Round(Exp2(logQ)/float64(scale))). *)
Definition decodeModulus (w mm scale : Z) : Z := if mm =? 0 then wrap w (DivRound (2 ^ w) scale) else mm.

(** tfhe/encoder.go:55-61 DecodeLWECustom; [None]: division by a zero modulus panics. *)
Definition DecodeLWECustom (w pt mm scale : Z) : option Z :=
  let decoded := wrap w (DivRound pt scale) in
  let mm' := decodeModulus w mm scale in
  if mm' =? 0 then None else Some (swrap 64 (decoded mod mm')).

(** tfhe/encoder.go:101-111 EncodeGLWECustomTo; [out] has length polyRank. *)
Definition EncodeGLWECustomTo (w : Z) (N : nat) (out messages : list Z) (mm scale : Z) : list Z :=
  let len := Nat.min N (length messages) in
  let o := forN 0 len (fun i o =>
             let o := upd o i (wrap w (nthZ messages i)) in
             let o := if mm =? 0 then o else upd o i (nthZ o i mod mm) in
             upd o i (wrap w (nthZ o i * scale))) out in
  firstn len o ++ Fill (skipn len o) 0.

(** tfhe/encoder.go:148-157 DecodeGLWECustomTo. *)
Definition DecodeGLWECustomTo (w : Z) (N : nat) (out pt : list Z) (mm scale : Z) : option (list Z) :=
  let len := Nat.min N (length out) in
  match forN 0 len (fun i st =>
          match st with
          | Some (o, mm) =>
            let decoded := wrap w (DivRound (nthZ pt i) scale) in
            let mm' := decodeModulus w mm scale in
            if mm' =? 0 then None else Some (upd o i (swrap 64 (decoded mod mm')), mm')
          | None => None
          end) (Some (out, mm)) with
  | Some (o, _) => Some o
  | None => None
  end.
