(** Model: split multiplication of math/poly/poly_mul.go on the transforms themselves (ModelPoly.v has the same functions
    on exact integer polynomials, with the transforms left out). *)
From Verif Require Import Base ModelNum ModelPoly ModelFFT.

(** The functions of fft.go and fft_ops.go that poly_mul.go calls, for float vectors over F.  The portable loops and the AVX2
    kernels are two instances. *)
Record kern (F : Type) := mkKern {
  kzero : list F; (* poly.go NewFFTPoly *)
  kfwd : bool -> Z -> list F -> list Z -> list F; (* FwdFFTPolyTo: signed, w, fpOut, p *)
  kmul : list F -> list F -> list F -> list F; (* MulFFTPolyTo: fpOut, fp0, fp1 *)
  kacc : list F -> list F -> list F -> list F; (* MulAddFFTPolyTo *)
  kinv : option bool -> bool -> Z -> list Z -> list F -> list Z (* InvFFTToUnsafe, AddTo (Some false), SubTo (Some true): pOut, fp *)
}.
Arguments kzero {F}. Arguments kfwd {F}. Arguments kmul {F}. Arguments kacc {F}. Arguments kinv {F}.
(** The sign of the accumulation. *)
Definition opK (k : option bool) : Z -> Z -> Z := match k with Some true => Z.sub | _ => Z.add end.

Section SplitFFT.
Context {F : Type}.
Variable K : kern F.
(** poly_mul.go:36-62: fpSplit[i] = FwdFFT of the i-th digits. *)
Definition splitFFT (sg : bool) (w sb : Z) (cnt : nat) (p : list Z) : list (list F) :=
  tab cnt (fun i => kfwd K sg w (kzero K) (map (digit sg w sb i) p)).
(** poly_mul.go:64-68 *)
Definition splitAccFFT (cnt : nat) (f0 f1 : list (list F)) : list (list F) :=
  forN 0 cnt (fun i o =>
    forN 0 (cnt - i) (fun j o =>
      upd o (i + j) (kacc K (nth (i + j) o []) (nth i f0 []) (nth j f1 []))) o)
    (repeat (kzero K) cnt).
(** poly_mul.go:71-77 (op = +) and 209-215 (op = -); [buf] is e.buf.pSplit, [first] the result of the first inverse. *)
Definition recombineFFT (op : Z -> Z -> Z) (sg : bool) (w sb : Z) (cnt : nat) (buf first : list Z) (s : list (list F)) : list Z :=
  forN 1 (cnt - 1) (fun i o =>
    map2 (fun a b => twrap sg w (op a (twrap sg w (Z.shiftl b (Z.of_nat i * sb))))) o
         (kinv K None sg w buf (nth i s []))) first.

(** poly_mul.go:13-79, 82-148, 151-217: MulTo, MulAddTo, MulSubTo. *)
Definition mulFFT (k : option bool) (sg : bool) (w logN : Z) (buf out p0 p1 : list Z) : list Z :=
  let sb := splitBits logN in let cnt := splitCount w sb in
  if Nat.eqb cnt 1 then
    let fp0 := kfwd K sg w (kzero K) p0 in let fp1 := kfwd K sg w (kzero K) p1 in
    kinv K k sg w out (kmul K fp0 fp0 fp1)
  else let s := splitAccFFT cnt (splitFFT sg w sb cnt p0) (splitFFT sg w sb cnt p1) in
    recombineFFT (opK k) sg w sb cnt buf (kinv K k sg w out (nth 0 s [])) s.

(** poly_mul.go:231-273, 278-320, 325-367: products with an already transformed short polynomial. *)
Definition shortMulFFT (k : option bool) (sg : bool) (w logN : Z) (buf out p : list Z) (fpShort : list F) : list Z :=
  let sb := splitBitsShort logN in let cnt := splitCount w sb in
  if Nat.eqb cnt 1 then let fp := kfwd K sg w (kzero K) p in kinv K k sg w out (kmul K fp fp fpShort)
  else let s := map (fun f => kmul K f f fpShort) (splitFFT sg w sb cnt p) in
    recombineFFT (opK k) sg w sb cnt buf (kinv K k sg w out (nth 0 s [])) s.
End SplitFFT.

(** The portable loops. *)
Section GoKern.
Variable A : arith.
Variable e : evaluator A.
Definition zeroFFT : list (car A) := repeat (a0 A) (e_rank A e).
Definition goInvK (k : option bool) : bool -> Z -> list Z -> list (car A) -> list Z :=
  match k with None => InvFFTTo A e | Some false => InvFFTAddTo A e | Some true => InvFFTSubTo A e end.
Definition goKern : kern (car A) := mkKern (car A) zeroFFT (FwdFFTTo A e) (mulCmplxTo A) (mulAddCmplxTo A) goInvK.
Definition MulPolyFFTTo := mulFFT goKern None.
Definition MulAddPolyFFTTo := mulFFT goKern (Some false).
Definition MulSubPolyFFTTo := mulFFT goKern (Some true).
Definition ShortMulFFTTo := shortMulFFT goKern None.
Definition ShortMulAddFFTTo := shortMulFFT goKern (Some false).
Definition ShortMulSubFFTTo := shortMulFFT goKern (Some true).
End GoKern.
