(** Model of tfhe/binary_encoder.go, binary_encryptor.go and binary_evaluator.go.  No proofs in this file. *)
From Verif Require Import Base ModelNum ModelVec ModelLWE ModelGadget ModelBoot SpecBinary.

(** binary_encoder.go:26-31 EncodeLWEBool. *)
Definition EncodeLWEBool (w : Z) (m : bool) : Z := if m then wrap w (Z.shiftl 1 (w - 3)) else wrap w (Z.shiftl 7 (w - 3)).
(** binary_encoder.go:34-36 DecodeLWEBool. *)
Definition DecodeLWEBool (w pt : Z) : bool := pt <? Z.shiftl 1 (w - 1).

(** binary_encryptor.go:48-50, 55-57 EncryptLWEBool(To); the key is Encryptor.DefaultLWESecretKey. *)
Definition EncryptLWEBoolTo (w : Z) (U G : nat -> Z) (sk out : list Z) (m : bool) (st : rst) : list Z * rst :=
  EncryptLWEPlaintextTo w U G sk out (EncodeLWEBool w m) st.
Definition EncryptLWEBool (w : Z) (U G : nat -> Z) (sk : list Z) (m : bool) (st : rst) : list Z * rst :=
  EncryptLWEBoolTo w U G sk (repeat 0 (S (length sk))) m st.
(** binary_encryptor.go:60-62 DecryptLWEBool. *)
Definition DecryptLWEBool (w : Z) (sk ct : list Z) : bool := DecodeLWEBool w (DecryptLWEPhase w sk ct).

(** binary_encryptor.go:75-80 EncryptLWEBitsTo; message is an int. *)
Definition EncryptLWEBitsTo (w : Z) (U G : nat -> Z) (sk : list Z) (out : list (list Z)) (msg : Z) (st : rst) : list (list Z) * (Z * rst) :=
  forN 0 (length out) (fun i s =>
    let '(o, (m, st)) := s in
    let '(c, st) := EncryptLWEBool w U G sk (Z.land m 1 =? 1) st in
    (upd o i c, (Z.shiftr m 1, st))) (out, (msg, st)).
(** binary_encryptor.go:66-70 EncryptLWEBits: make leaves nil ciphertexts. *)
Definition EncryptLWEBits (w : Z) (U G : nat -> Z) (sk : list Z) (msg : Z) (bits : nat) (st : rst) : list (list Z) :=
  fst (EncryptLWEBitsTo w U G sk (repeat [] bits) msg st).
(** binary_encryptor.go:85-94 DecryptLWEBits; the int arithmetic wraps at 64 bits. *)
Definition DecryptLWEBits (w : Z) (sk : list Z) (cts : list (list Z)) : Z :=
  forN 0 (length cts) (fun d m =>
    let i := (length cts - 1 - d)%nat in
    let m := swrap 64 (Z.shiftl m 1) in
    if DecryptLWEBool w sk (nth i cts []) then swrap 64 (m + 1) else m) 0.

(** binary_evaluator.go:26-30: the table of the sign function. *)
Definition signLUT (w : Z) (N E : nat) : list (list Z) :=
  forN 0 E (fun i l => upd l i (map (fun _ => wrap w (Z.shiftl 1 (w - 3))) (nth i l []))) (repeat (repeat 0 N) E).

Section Gates.
Variables (w : Z) (n : nat).
(** [boot out ct] is the vector Evaluator.BootstrapLUTTo(ctOut, ct, signLUT) leaves in ctOut, whose old
    content is [out]; n is Params.DefaultLWEDimension(). *)
Variable boot : list Z -> list Z -> list Z.

(** binary_evaluator.go:60-65 NOTTo. *)
Definition NOTTo (s : store) (out a : nat) : store :=
  forN 0 (S n) (fun i s => sset s out (upd (s out) i (wrap w (- nthZ (s a) i)))) s.
(** The loops of the binary gates: element i of the output from elements i of the inputs. *)
Definition gateLoop (f : Z -> Z -> Z) (s : store) (out a b : nat) : store :=
  forN 0 (S n) (fun i s => sset s out (upd (s out) i (f (nthZ (s a) i) (nthZ (s b) i)))) s.
Definition addBody (s : store) (out : nat) (c : Z) : store := sset s out (upd (s out) 0 (wrap w (nthZ (s out) 0 + c))).
Definition subBody (s : store) (out : nat) (c : Z) : store := sset s out (upd (s out) 0 (wrap w (nthZ (s out) 0 - c))).
Definition bootSelf (s : store) (out : nat) : store := sset s out (boot (s out) (s out)).

(** binary_evaluator.go:77-84 ANDTo. *)
Definition ANDTo (s : store) (out a b : nat) : store :=
  bootSelf (subBody (gateLoop (fun x y => wrap w (x + y)) s out a b) out (Z.shiftl 1 (w - 3))) out.
(** binary_evaluator.go:96-103 NANDTo. *)
Definition NANDTo (s : store) (out a b : nat) : store :=
  bootSelf (addBody (gateLoop (fun x y => wrap w (wrap w (- x) - y)) s out a b) out (Z.shiftl 1 (w - 3))) out.
(** binary_evaluator.go:115-122 ORTo. *)
Definition ORTo (s : store) (out a b : nat) : store :=
  bootSelf (addBody (gateLoop (fun x y => wrap w (x + y)) s out a b) out (Z.shiftl 1 (w - 3))) out.
(** binary_evaluator.go:134-141 NORTo. *)
Definition NORTo (s : store) (out a b : nat) : store :=
  bootSelf (subBody (gateLoop (fun x y => wrap w (wrap w (- x) - y)) s out a b) out (Z.shiftl 1 (w - 3))) out.
(** binary_evaluator.go:153-160 XORTo. *)
Definition XORTo (s : store) (out a b : nat) : store :=
  bootSelf (addBody (gateLoop (fun x y => wrap w (2 * wrap w (x + y))) s out a b) out (Z.shiftl 1 (w - 2))) out.
(** binary_evaluator.go:172-179 XNORTo. *)
Definition XNORTo (s : store) (out a b : nat) : store :=
  bootSelf (subBody (gateLoop (fun x y => wrap w (2 * wrap w (wrap w (- x) - y))) s out a b) out (Z.shiftl 1 (w - 2))) out.
End Gates.

(** A sequence of calls (program syntax of SpecBinary): every call comes with the bootstrap it runs, because
    the evaluator's buffers change from call to call. *)
Definition runGate (w : Z) (n : nat) (boot : list Z -> list Z -> list Z) (g : gate) : store -> nat -> nat -> nat -> store :=
  match g with
  | gAND => ANDTo w n boot | gNAND => NANDTo w n boot | gOR => ORTo w n boot | gNOR => NORTo w n boot | gXOR => XORTo w n boot | gXNOR => XNORTo w n boot
  end.
Definition stepC (w : Z) (n : nat) (s : store) (ib : instr * (list Z -> list Z -> list Z)) : store :=
  match fst ib with INot o a => NOTTo w n s o a | IGate g o a b => runGate w n (snd ib) g s o a b end.
Definition runC (w : Z) (n : nat) (p : list (instr * (list Z -> list Z -> list Z))) (s : store) : store := fold_left (stepC w n) p s.

(** binary_evaluator.go:33-46 (NewBinaryEvaluator): e.BootstrapLUTTo(ctOut, ctOut, e.signLUT) on an evaluator
    with the given keys and the buffers bufs = (acc0, rotBuf, ksBuf, extBuf) of BootstrapLUTTo. *)
Definition bootBufs : Type := list (list Z) * list (list Z) * list Z * list Z.
Definition bootSign (w : Z) (N k E : nat) (order : bool) (ms : Z -> Z) (p pKS : gadget) (brk : list (list (list (list (list Z))))) (ksk : list (list (list Z)))
    (bs bc n : nat) (b : bootBufs) (out ct : list Z) : list Z :=
  let '(acc0, rotBuf, ksBuf, extBuf) := b in
  BootstrapLUTTo w N k E order ms p pKS brk ksk bs bc n acc0 rotBuf ksBuf extBuf out ct (signLUT w N E).
