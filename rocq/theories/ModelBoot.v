(** Model of tfhe/bootstrap.go, bootstrap_lut.go and bootstrap_keygen.go (sequential key generation).
    No proofs in this file.

    Ciphertext representation as in ModelLWE.v and ModelGLWE.v; a bootstrapping key is the list of its
    FFTGGSW ciphertexts.  Evaluator buffers (ctAcc, ctFFTAcc, ctFFTBlockAcc, ctAccFFTDcmp, fMono, ctRotate,
    ctKeySwitch, ctExtract) are overwritten before they are read and appear as local values; lutRaw
    is an argument and a result. *)
From Verif Require Import Base ModelNum ModelFloat ModelVec ModelPoly ModelGadget ModelEncoder ModelLWE ModelGLWE.

(** evaluator.go:97 modSwitchConst (math.Exp2 of an integer is exact). *)
Definition modSwitchConst (w L : Z) : rat := fl_div (fl_of_int (2 * L)) (2 ^ w, 1).
(** bootstrap.go:41-43 ModSwitch; [Z.rem] is Go's %. *)
Definition ModSwitch (w L x : Z) : Z := Z.rem (math_Round (fl_mul (modSwitchConst w L) (fl_of_int x))) (2 * L).

(* ------------------------------------------------------------------ *)
(** ** bootstrap_lut.go *)

(** [v[i] = x] of a slice; None is the index panic. *)
Definition set_chk (v : list Z) (i : Z) (x : Z) : option (list Z) :=
  if (0 <=? i) && (i <? Z.of_nat (length v)) then Some (upd v (Z.to_nat i) x) else None.

(** bootstrap_lut.go:112-119: fill [start, end) with f(x) for every x below the modulus. *)
Definition lutFill (L : nat) (mm : Z) (f : Z -> Z) (raw : list Z) : option (list Z) :=
  forN 0 (Z.to_nat mm) (fun x r =>
    let start := DivRound (Z.of_nat x * Z.of_nat L) mm in
    let stop := DivRound ((Z.of_nat x + 1) * Z.of_nat L) mm in
    let y := f (Z.of_nat x) in
    forN 0 (Z.to_nat (stop - start)) (fun d r =>
      match r with None => None | Some raw => set_chk raw (start + Z.of_nat d) y end) r) (Some raw).

(** bootstrap_lut.go:121-125. *)
Definition lutRotate (w : Z) (L : nat) (mm : Z) (raw : list Z) : option (list Z) :=
  let offset := DivRound (Z.of_nat L) (wrap w (2 * mm)) in
  match RotateInPlace 0 raw (- offset) with
  | None => None
  | Some raw => Some (negRange w (Z.of_nat L - offset) (Z.of_nat L) raw)
  end.

(** bootstrap_lut.go:127-131. *)
Definition lutSplit (N E : nat) (raw : list Z) (lutOut : list (list Z)) : list (list Z) :=
  forN 0 E (fun i o => upd o i (forN 0 N (fun j q => upd q j (nthZ raw (j * E + i))) (nth i o []))) lutOut.

(** bootstrap_lut.go:111-132 GenLUTCustomFullTo; returns the table and the new content of lutRaw. *)
Definition GenLUTCustomFullTo (w : Z) (N E : nat) (lutOut : list (list Z)) (raw : list Z) (f : Z -> Z) (mm : Z) : option (list (list Z) * list Z) :=
  match lutFill (E * N) mm f raw with
  | None => None
  | Some raw =>
    match lutRotate w (E * N) mm raw with
    | None => None
    | Some raw => Some (lutSplit N E raw lutOut, raw)
    end
  end.
(** bootstrap_lut.go:97-99 GenLUTCustomTo (69-71 GenLUTTo with the parameters' modulus and scale). *)
Definition GenLUTCustomTo (w : Z) (N E : nat) (lutOut : list (list Z)) (raw : list Z) (f : Z -> Z) (mm scale : Z) :=
  GenLUTCustomFullTo w N E lutOut raw (fun x => EncodeLWECustom w (f x) mm scale) mm.

(* ------------------------------------------------------------------ *)
(** ** bootstrap.go *)

(** math/poly/fft.go:46-79 and 93-126: the integer polynomials X^d and X^d - 1 whose transforms
    MonomialFwdFFTTo and MonomialSubOneFwdFFTTo write (see ModelFFT.v for the transforms). *)
Definition fmono (N : nat) (d : Z) : list Z :=
  let e := d mod (2 * Z.of_nat N) in
  tab N (fun i => if Z.of_nat i =? e then 1 else if Z.of_nat i + Z.of_nat N =? e then -1 else 0).
Definition fmonoSubOne (N : nat) (d : Z) : list Z := tab N (fun i => nthZ (fmono N d) i - (if Nat.eqb i 0 then 1 else 0)).

Section BR.
Variables (w : Z) (N k : nat).
Notation brkT := (list (list (list (list (list Z))))).

(** fft_glwe_ops.go:29-33 SubFFTGLWETo. *)
Definition fgSub (a b : list (list Z)) : list (list Z) := tab (S k) (fun i => fsub (nth i a []) (nth i b [])).

(** Transformed digits of all polynomials of a ciphertext (bootstrap.go:290-295, 334-339). *)
Definition fdAll (p : gadget) (ct : list (list Z)) : list (list (list Z)) := tab (S k) (fun j => fdigits w p (nth j ct [])).

(** bootstrap.go:273-276, 324-327: trivial encryption of lut * X^d; the old ctOut gives the lengths. *)
Definition rotInit (lut0 : list Z) (d : Z) (ctOut : list (list Z)) : list (list Z) :=
  let out := upd ctOut 0 (MonomialMulPolyTo w N (nth 0 ctOut []) lut0 d) in
  forN 1 k (fun i o => upd o i (repeat 0 (length (nth i o [])))) out.

(** bootstrap.go:270-317 blindRotateBlockTo. *)
Definition blindRotateBlockTo (ms : Z -> Z) (p : gadget) (brk : brkT) (bs blockCount : nat) (ctOut : list (list Z)) (ct lut0 : list Z) : list (list Z) :=
  let out := rotInit lut0 (- ms (nthZ ct 0)) ctOut in
  let fd0 := fdigits w p (nth 0 out []) in
  let acc := fgMul N k (GadgetProdFFTGLWETo N k p (nth 0 (nth 0 brk []) []) fd0) (fmonoSubOne N (- ms (nthZ ct 1))) in
  let acc := forN 1 (bs - 1) (fun j acc =>
    fgMulAdd N k acc (GadgetProdFFTGLWETo N k p (nth 0 (nth j brk []) []) fd0) (fmonoSubOne N (- ms (nthZ ct (S j))))) acc in
  let out := gInvAdd w k out acc in
  forN 1 (blockCount - 1) (fun i out =>
    let fd := fdAll p out in
    let acc := fgMul N k (ExternalProdFFTGLWETo N k p (nth (i * bs) brk []) fd) (fmonoSubOne N (- ms (nthZ ct (i * bs + 1)))) in
    let acc := forN (i * bs + 1) (bs - 1) (fun j acc =>
      fgMulAdd N k acc (ExternalProdFFTGLWETo N k p (nth j brk []) fd) (fmonoSubOne N (- ms (nthZ ct (j + 1))))) acc in
    gInvAdd w k out acc) out.

(** bootstrap.go:321-357 blindRotateOriginalTo. *)
Definition blindRotateOriginalTo (ms : Z -> Z) (p : gadget) (brk : brkT) (n : nat) (ctOut : list (list Z)) (ct lut0 : list Z) : list (list Z) :=
  let out := rotInit lut0 (- ms (nthZ ct 0)) ctOut in
  let fd0 := fdigits w p (nth 0 out []) in
  let acc := fgMul N k (GadgetProdFFTGLWETo N k p (nth 0 (nth 0 brk []) []) fd0) (fmonoSubOne N (- ms (nthZ ct 1))) in
  let out := gInvAdd w k out acc in
  forN 1 (n - 1) (fun i out =>
    let fd := fdAll p out in
    let acc := fgMul N k (ExternalProdFFTGLWETo N k p (nth i brk []) fd) (fmonoSubOne N (- ms (nthZ ct (i + 1)))) in
    gInvAdd w k out acc) out.

(* ------------------------------------------------------------------ *)
(** *** bootstrap.go:66-266 blindRotateExtendedTo *)

Variable E : nat.
Notation EZ := (Z.of_nat E).

(** 72-77: the initial rotation of the table, body polynomials of ctAcc.  Every entry of ctAcc is written. *)
Definition extInit (acc : list (list Z)) (lut : list (list Z)) (b2N : Z) : list (list Z) :=
  let mono := Z.quot b2N EZ in
  let idx := Z.to_nat (Z.rem b2N EZ) in
  let acc := forN 0 idx (fun i a => upd a (E - idx + i) (MonomialMulPolyTo w N (nth (E - idx + i) a []) (nth i lut []) (mono + 1))) acc in
  forN idx (E - idx) (fun i a => upd a (i - idx) (MonomialMulPolyTo w N (nth (i - idx) a []) (nth i lut []) mono)) acc.

(** 103-118, 128-144, ...: ctFFTAcc[k] (+)= Y^a2N rotation of ctFFTBlockAcc minus ctFFTBlockAcc[k];
    [mul old x f] is FFTPolyMulFFTGLWETo or FFTPolyMulAddFFTGLWETo. *)
Definition rotAcc (mul : list (list Z) -> list (list Z) -> list Z -> list (list Z)) (a2N : Z) (blk acc : list (list (list Z))) : list (list (list Z)) :=
  let mono := Z.quot a2N EZ in
  let idx := Z.to_nat (Z.rem a2N EZ) in
  if Nat.eqb idx 0 then tab E (fun kk => mul (nth kk acc []) (nth kk blk []) (fmonoSubOne N mono))
  else tab E (fun kk =>
    if Nat.ltb kk idx then fgSub (mul (nth kk acc []) (nth (E - idx + kk) blk []) (fmono N (mono + 1))) (nth kk blk [])
    else fgSub (mul (nth kk acc []) (nth (kk - idx) blk []) (fmono N mono)) (nth kk blk [])).
Definition mulSet (old x : list (list Z)) (f : list Z) := fgMul N k x f.
Definition mulAdd (old x : list (list Z)) (f : list Z) := fgMulAdd N k old x f.

(** 230-251: the last block, component 0 only. *)
Definition rotAcc0 (mul : list (list Z) -> list (list Z) -> list Z -> list (list Z)) (a2N : Z) (blk : nat -> list (list Z)) (acc0 : list (list Z)) : list (list Z) :=
  let mono := Z.quot a2N EZ in
  let idx := Z.to_nat (Z.rem a2N EZ) in
  if Nat.eqb idx 0 then mul acc0 (blk O) (fmonoSubOne N mono)
  else fgSub (mul acc0 (blk (E - idx)%nat) (fmono N (mono + 1))) (blk O).

Definition blindRotateExtendedTo (ms : Z -> Z) (p : gadget) (brk : brkT) (bs blockCount n : nat) (acc0 : list (list Z)) (ct : list Z) (lut : list (list Z)) : list (list Z) :=
  let L2 := 2 * (EZ * Z.of_nat N) in
  let rot j := L2 - ms (nthZ ct (S j)) in
  let bodies := extInit acc0 lut (L2 - ms (nthZ ct 0)) in
  let acc := tab E (fun i => nth i bodies [] :: repeat (repeat 0 N) k) in
  (* first block: row 0 of the key only *)
  let fd0 := tab E (fun j => fdigits w p (nth 0 (nth j acc []) [])) in
  let blk j := tab E (fun kk => GadgetProdFFTGLWETo N k p (nth 0 (nth j brk []) []) (nth kk fd0 [])) in
  let facc := rotAcc mulSet (rot O) (blk O) [] in
  let facc := forN 1 (bs - 1) (fun j facc => rotAcc mulAdd (rot j) (blk j) facc) facc in
  let acc := tab E (fun j => gInvAdd w k (nth j acc []) (nth j facc [])) in
  (* middle blocks *)
  let acc := forN 1 (blockCount - 2) (fun i acc =>
    let fd := tab E (fun j => fdAll p (nth j acc [])) in
    let blk j := tab E (fun kk => ExternalProdFFTGLWETo N k p (nth j brk []) (nth kk fd [])) in
    let facc := rotAcc mulSet (rot (i * bs)%nat) (blk (i * bs)%nat) [] in
    let facc := forN (i * bs + 1) (bs - 1) (fun j facc => rotAcc mulAdd (rot j) (blk j) facc) facc in
    tab E (fun j => gInvAdd w k (nth j acc []) (nth j facc []))) acc in
  (* last block *)
  let fd := tab E (fun j => fdAll p (nth j acc [])) in
  let blk j kk := ExternalProdFFTGLWETo N k p (nth j brk []) (nth kk fd []) in
  let facc0 := rotAcc0 mulSet (rot (n - bs)%nat) (blk (n - bs)%nat) [] in
  let facc0 := forN (n - bs + 1) (bs - 1) (fun j f => rotAcc0 mulAdd (rot j) (blk j) f) facc0 in
  gInvAdd w k (nth 0 acc []) facc0.

(** bootstrap.go:53-62 BlindRotateTo; acc0 is the old content of the ctAcc bodies. *)
Definition BlindRotateTo (ms : Z -> Z) (p : gadget) (brk : brkT) (bs blockCount n : nat) (acc0 : list (list Z)) (ctOut : list (list Z)) (ct : list Z) (lut : list (list Z)) : list (list Z) :=
  if Nat.ltb N (E * N) then blindRotateExtendedTo ms p brk bs blockCount n acc0 ct lut
  else if Nat.ltb 1 bs then blindRotateBlockTo ms p brk bs blockCount ctOut ct (nth 0 lut [])
  else blindRotateOriginalTo ms p brk n ctOut ct (nth 0 lut []).

(** bootstrap.go:27-38 BootstrapLUTTo; ksBuf, rotBuf and extBuf are old buffer contents. *)
Definition BootstrapLUTTo (ksFirst : bool) (ms : Z -> Z) (pBR pKS : gadget) (brk : brkT) (ksk : list (list (list Z))) (bs blockCount n : nat)
    (acc0 rotBuf : list (list Z)) (ksBuf extBuf ctOut ct : list Z) (lut : list (list Z)) : list Z :=
  if ksFirst then
    let c := DefaultKeySwitchTo w n (k * N) pKS ksBuf ct ksk in
    let r := BlindRotateTo ms pBR brk bs blockCount n acc0 rotBuf c lut in
    AsLWECiphertextTo w N 0 ctOut r
  else
    let r := BlindRotateTo ms pBR brk bs blockCount n acc0 rotBuf ct lut in
    let c := AsLWECiphertextTo w N 0 extBuf r in
    DefaultKeySwitchTo w n (k * N) pKS ctOut c ksk.
End BR.

(* ------------------------------------------------------------------ *)
(** ** bootstrap_keygen.go *)

(** 39-44: the message of row j for key bit b. *)
Definition brkMessage (w : Z) (N : nat) (sk : list (list Z)) (b : Z) (j : nat) : list Z :=
  match j with
  | O => upd (repeat 0 N) 0 b
  | S j => vscale w b (nth j sk [])
  end.
(** 34-54 GenBlindRotateKey; buf is e.buf.ctGLWE; ptGGSW is overwritten. *)
Definition GenBlindRotateKey (w logN : Z) (N k : nat) (U G : nat -> Z) (fsk sk : list (list Z)) (lwe : list Z) (p : gadget) (buf : list (list Z)) (st : rst) :=
  forN 0 (length lwe) (fun i s =>
    let '(brk, (buf, st)) := s in
    let '(ggsw, (buf, st)) :=
      forN 0 (S k) (fun j s =>
        let '(g, (buf, st)) := s in
        let pt := brkMessage w N sk (nthZ lwe i) j in
        let '(row, (buf, st)) :=
          forN 0 (g_level p) (fun l s =>
            let '(r, (buf, st)) := s in
            let '(b, st) := EncryptGLWEBody w logN N k U G fsk (upd buf 0 (vscale w (BaseQ w p l) pt)) st in
            (upd r l (FwdFFTGLWECiphertextTo w (nth l r []) b), (b, st))) (nth j g [], (buf, st)) in
        (upd g j row, (buf, st))) (nth i brk [], (buf, st)) in
    (upd brk i ggsw, (buf, st)))
    (repeat (repeat (repeat (repeat (repeat 0 N) (S k)) (g_level p)) (S k)) (length lwe), (buf, st)).
