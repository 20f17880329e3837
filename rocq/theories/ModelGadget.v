(** Model of tfhe/params.go (gadget parameters) and tfhe/decomposer.go, tfhe/asm_decompose.go
    (pure Go version).  No proofs in this file.  T is an unsigned word of [w] bits; [level] is an int
    and is a [nat] in compiled parameters. *)
From Verif Require Import Base ModelNum ModelPoly.

(** tfhe/params.go:61-71 GadgetParameters. *)
Record gadget : Type := mkGadget { g_base : Z; g_logBase : Z; g_level : nat; g_sizeT : Z }.

(** tfhe/params.go:11-18 GadgetParametersLiteral. *)
Record gadgetLit : Type := mkGadgetLit { gl_base : Z; gl_level : Z }.

(** tfhe/params.go:41-59 GadgetParametersLiteral.Compile.  The product [Log2(Base)*Level] is
    an int (64-bit) product. *)
Definition CompileGadget (w : Z) (p : gadgetLit) : res gadget :=
  if gl_base p <? 2 then Panic
  else if negb (IsPowerOfTwo (gl_base p)) then Panic
  else if gl_level p <=? 0 then Panic
  else match Log2 (gl_base p) with
       | Ok lb => if w <? swrap 64 (lb * gl_level p) then Panic
                  else Ok (mkGadget (gl_base p) lb (Z.to_nat (gl_level p)) w)
       | Panic => Panic
       | OutOfFuel => OutOfFuel
       end.

(** tfhe/params.go:121-126 Literal. *)
Definition GadgetLiteral (p : gadget) : gadgetLit := mkGadgetLit (g_base p) (Z.of_nat (g_level p)).

(** tfhe/params.go:106-108, 111-113, 116-118. *)
Definition LogBaseQ (p : gadget) (i : nat) : Z := g_sizeT p - (Z.of_nat i + 1) * g_logBase p.
Definition LogFirstBaseQ (p : gadget) : Z := g_sizeT p - g_logBase p.
Definition LogLastBaseQ (p : gadget) : Z := g_sizeT p - Z.of_nat (g_level p) * g_logBase p.

(** tfhe/params.go:90-92, 95-97, 100-102: [T(1 << n)]. *)
Definition BaseQ (w : Z) (p : gadget) (i : nat) : Z := wrap w (Z.shiftl 1 (LogBaseQ p i)).
Definition FirstBaseQ (w : Z) (p : gadget) : Z := wrap w (Z.shiftl 1 (LogFirstBaseQ p)).
Definition LastBaseQ (w : Z) (p : gadget) : Z := wrap w (Z.shiftl 1 (LogLastBaseQ p)).

(** tfhe/decomposer.go:116-121, one iteration of the digit loop: returns (digit, next u).
    The slice entry is written three times; only the last value is visible. *)
Definition digitStep (w : Z) (p : gadget) (u : Z) : Z * Z :=
  let d0 := Z.land u (wrap w (g_base p - 1)) in
  let u1 := Z.shiftr u (g_logBase p) in
  let u2 := wrap w (u1 + Z.shiftr d0 (g_logBase p - 1)) in
  (wrap w (d0 - wrap w (Z.shiftl (Z.land d0 (Z.shiftr (g_base p) 1)) 1)), u2).

(** tfhe/decomposer.go:114-124 DecomposeScalarTo; [out] is the previous content of dcmpOut. *)
Definition DecomposeScalarTo (w : Z) (p : gadget) (out : list Z) (x : Z) : list Z :=
  let u0 := DivRoundBits w x (LogLastBaseQ p) in
  let '(u, o) :=
    forN 0 (g_level p - 1) (fun t st =>
      let '(u, o) := st in
      let i := (g_level p - 1 - t)%nat in
      let '(d, u') := digitStep w p u in (u', upd o i d)) (u0, out) in
  upd o 0 (fst (digitStep w p u)).

(** tfhe/decomposer.go:107-111 DecomposeScalar: fresh output. *)
Definition DecomposeScalar (w : Z) (p : gadget) (x : Z) : list Z :=
  DecomposeScalarTo w p (repeat 0 (g_level p)) x.

(** tfhe/decomposer.go:161-167 RecomposeScalar. *)
Definition RecomposeScalar (w : Z) (p : gadget) (d : list Z) : Z :=
  forN 0 (g_level p) (fun i x => wrap w (x + wrap w (Z.shiftl (nthZ d i) (LogBaseQ p i)))) 0.

(** Assignment [o[j].Coeffs[i] = v] on a slice of polynomials. *)
Definition upd2 (o : list (list Z)) (j i : nat) (v : Z) : list (list Z) := upd o j (upd (nth j o []) i v).

(** tfhe/asm_decompose.go:11-25 decomposePolyTo (and tfhe/decomposer.go:137-139). *)
Definition DecomposePolyTo (w : Z) (p : gadget) (out : list (list Z)) (c : list Z) : list (list Z) :=
  forN 0 (length c) (fun i o =>
    let u0 := DivRoundBits w (nthZ c i) (LogLastBaseQ p) in
    let '(u, o) :=
      forN 0 (g_level p - 1) (fun t st =>
        let '(u, o) := st in
        let j := (g_level p - 1 - t)%nat in
        let '(d, u') := digitStep w p u in (u', upd2 o j i d)) (u0, o) in
    upd2 o 0 i (fst (digitStep w p u))) out.

(** tfhe/decomposer.go:127-134 DecomposePoly: fresh output. *)
Definition DecomposePoly (w : Z) (p : gadget) (c : list Z) : list (list Z) :=
  DecomposePolyTo w p (repeat (repeat 0 (length c)) (g_level p)) c.

(** tfhe/decomposer.go:152-158 FourierDecomposePolyTo (dcmpOut fully overwritten). *)
Definition FourierDecomposePolyTo (w : Z) (p : gadget) (buf : list (list Z)) (c : list Z) : list (list Z) :=
  map (fwdFFT w) (DecomposePolyTo w p buf c).

(** tfhe/decomposer.go:177-184 RecomposePolyTo. *)
Definition RecomposePolyTo (w : Z) (p : gadget) (out : list Z) (d : list (list Z)) : list Z :=
  forN 0 (length out) (fun i o =>
    forN 0 (g_level p) (fun j o =>
      upd o i (wrap w (nthZ o i + wrap w (Z.shiftl (nthZ (nth j d []) i) (LogBaseQ p j))))) (upd o i 0)) out.
