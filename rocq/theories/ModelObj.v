(** Model of the Copy, CopyFrom and Clear methods of ciphertexts and keys.  No proofs in this file.

    Every one of these types is a struct { GadgetParams?; Value }: Value (Coeffs) is a slice, of words or of such structs in turn.
    A struct is its GadgetParams and the address of the backing array of its slice; the heap holds the arrays.
    Slices start at the beginning of their array and different slices are different arrays (SecretKey, whose slices overlap, is ModelKey.v).
    Simplified: Copy allocates the outer array after the inner ones; addresses are not observable. *)
From Verif Require Import Base ModelGadget.

(** What a struct type has in front of Value: no GadgetParams; GadgetParams which CopyFrom copies; GadgetParams which it does not. *)
Inductive gmode := NoG | Copied | Kept.
(** A type: the modes of the nested structs, outermost first; the innermost structs have a slice of words. *)
Definition ty := list gmode.
(** tfhe/lwe.go:10-13, 93-98, 121-128; math/poly/poly.go (Poly, FFTPoly); mktfhe/lwe.go:10-14. *)
Definition tWords : ty := [].
(** tfhe/glwe.go:10-14 GLWESecretKey, 152-157 GLWECiphertext; tfhe/fft_glwe.go:10-14, 52-58; tfhe/bootstrap_lut.go LookUpTable; mktfhe/glwe.go, fft_glwe.go GLWECiphertext. *)
Definition tGLWE : ty := [NoG].
(** tfhe/lwe.go:42-45 LWEPublicKey, tfhe/glwe.go:84-88 GLWEPublicKey. *)
Definition tPublic : ty := [NoG; NoG].
(** tfhe/lwe.go:156-161 LevCiphertext (CopyFrom 191-196). *)
Definition tLev : ty := [Copied].
(** tfhe/lwe.go:207-213 GSWCiphertext (CopyFrom 243-248); tfhe/keyswitch_key.go LWEKeySwitchKey (54-59). *)
Definition tGSW : ty := [Copied; Copied].
(** tfhe/glwe.go GLevCiphertext (CopyFrom 261-266), tfhe/fft_glwe.go:102-107 (137-142). *)
Definition tGLev : ty := [Copied; NoG].
(** tfhe/glwe.go:277-282 GGSWCiphertext (CopyFrom 312-317), tfhe/fft_glwe.go:152-157 (187-192); tfhe/keyswitch_key.go:69-74 GLWEKeySwitchKey (109-114). *)
Definition tGGSW : ty := [Copied; Copied; NoG].
(** tfhe/bootstrap_key.go:53-57 BlindRotateKey (CopyFrom 88-93). *)
Definition tBlindRotate : ty := [Copied; Copied; Copied; NoG].
(** mktfhe/glwe.go:96-101 UniEncryption (CopyFrom 136-140), mktfhe/fft_glwe.go:69-75 FFTUniEncryption (109-113): GadgetParams is left as it is. *)
Definition tUni : ty := [Kept; Copied; NoG].
(** As it would be with the missing assignment. *)
Definition tUni_fixed : ty := [Copied; Copied; NoG].

Record obj := mkObj { o_gad : gadget; o_ptr : nat }.
Section Obj.
Context {W : Type}.
Variable w0 : W.
Inductive cell := Words (l : list W) | Objs (l : list obj).
(** Next free address and contents. *)
Record heap := mkHeap { h_next : nat; h_get : nat -> option cell }.
Definition hset (h : heap) (a : nat) (c : cell) : heap := mkHeap (h_next h) (fun b => if Nat.eqb b a then Some c else h_get h b).
Definition alloc (h : heap) (c : cell) : nat * heap := (h_next h, hset (mkHeap (S (h_next h)) (h_get h)) (h_next h) c).

(** The loops [for i := range l { out[i] = l[i].Copy() }]. *)
Fixpoint copyList (f : obj -> heap -> option (obj * heap)) (l : list obj) (h : heap) : option (list obj * heap) :=
  match l with
  | [] => Some ([], h)
  | o :: l => match f o h with
    | Some (o', h) => match copyList f l h with Some (l', h) => Some (o' :: l', h) | None => None end
    | None => None end
  end.
(** Copy: math/vec/vec.go:150-155 (words); e.g. tfhe/fft_glwe.go:178-184 (structs). *)
Fixpoint Copy (t : ty) (o : obj) (h : heap) : option (obj * heap) :=
  match t, h_get h (o_ptr o) with
  | [], Some (Words l) => let '(a, h) := alloc h (Words l) in Some (mkObj (o_gad o) a, h)
  | _ :: t, Some (Objs l) => match copyList (Copy t) l h with
    | Some (l', h) => let '(a, h) := alloc h (Objs l') in Some (mkObj (o_gad o) a, h)
    | None => None end
  | _, _ => None
  end.

(** Go's copy: the shorter of the two lengths. *)
Definition goCopy (dst src : list W) : list W := firstn (length dst) src ++ skipn (length src) dst.
(** [for i := range ct.Value { ct.Value[i].CopyFrom(ctIn.Value[i]) }]: [n] rounds left, at index [i]; a, b are the two arrays.
    None: index out of range (or not a value of the type). *)
Fixpoint fromLoop (f : obj -> obj -> heap -> option (obj * heap)) (n i a b : nat) (h : heap) : option heap :=
  match n with
  | O => Some h
  | S n => match h_get h a, h_get h b with
    | Some (Objs lt), Some (Objs ls) => match nth_error lt i, nth_error ls i with
      | Some t, Some s => match f t s h with
        | Some (t', h) => match h_get h a with
          | Some (Objs lt) => fromLoop f n (S i) a b (hset h a (Objs (upd lt i t')))
          | _ => None end
        | None => None end
      | _, _ => None end
    | _, _ => None end
  end.
(** CopyFrom: the receiver afterwards and the heap. *)
Fixpoint CopyFrom (t : ty) (o s : obj) (h : heap) : option (obj * heap) :=
  match t with
  | [] => match h_get h (o_ptr o), h_get h (o_ptr s) with
    | Some (Words d), Some (Words l) => Some (o, hset h (o_ptr o) (Words (goCopy d l)))
    | _, _ => None end
  | m :: t => match h_get h (o_ptr o) with
    | Some (Objs l) => match fromLoop (CopyFrom t) (length l) 0 (o_ptr o) (o_ptr s) h with
      | Some h => Some (mkObj (match m with Copied => o_gad s | _ => o_gad o end) (o_ptr o), h)
      | None => None end
    | _ => None end
  end.

(** Clear: e.g. tfhe/fft_glwe.go:195-199; math/poly/poly.go:55-57, vec.Fill. *)
Fixpoint clearList (f : obj -> heap -> option heap) (l : list obj) (h : heap) : option heap :=
  match l with [] => Some h | o :: l => match f o h with Some h => clearList f l h | None => None end end.
Fixpoint Clear (t : ty) (o : obj) (h : heap) : option heap :=
  match t, h_get h (o_ptr o) with
  | [], Some (Words l) => Some (hset h (o_ptr o) (Words (repeat w0 (length l))))
  | _ :: t, Some (Objs l) => clearList (Clear t) l h
  | _, _ => None
  end.
End Obj.
Arguments cell : clear implicits. Arguments heap : clear implicits.
