(** Multi-key encryption of the bits of an integer (mktfhe/binary_encryptor.go).  No proofs in this file. *)
From Verif Require Import Base ModelNum ModelLWE ModelEncoder ModelBinary ModelMK ModelMKBin.

(** mktfhe/binary_encryptor.go:48-50 EncryptLWEBool and encryptor.go:156-160: a fresh zero ciphertext of P sub-masks of n words;
    the encryptor's sub-ciphertext buffer [sub] is threaded through. *)
Definition MKEncryptLWEBool (w : Z) (U G : nat -> Z) (P n : nat) (sk sub : list Z) (idx : nat) (m : bool) (st : rst) :=
  MKEncryptLWEBoolTo w U G sk sub idx (repeat 0 (S (P * n))) m st.
(** mktfhe/binary_encryptor.go:71-76 EncryptLWEBitsTo. *)
Definition MKEncryptLWEBitsTo (w : Z) (U G : nat -> Z) (P n : nat) (sk sub : list Z) (idx : nat) (out : list (list Z)) (msg : Z) (st : rst) : option (list (list Z)) * (Z * (list Z * rst)) :=
  forN 0 (length out) (fun i s =>
    let '(o, (m, (sub, st))) := s in
    match o with
    | None => s
    | Some o =>
        let '(c, (sub, st)) := MKEncryptLWEBool w U G P n sk sub idx (Z.land m 1 =? 1) st in
        (match c with Some c => Some (upd o i c) | None => None end, (Z.shiftr m 1, (sub, st)))
    end) (Some out, (msg, (sub, st))).
(** mktfhe/binary_encryptor.go:62-66 EncryptLWEBits. *)
Definition MKEncryptLWEBits (w : Z) (U G : nat -> Z) (P n : nat) (sk sub : list Z) (idx : nat) (msg : Z) (bits : nat) (st : rst) : option (list (list Z)) :=
  fst (MKEncryptLWEBitsTo w U G P n sk sub idx (repeat [] bits) msg st).
