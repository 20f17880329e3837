(** Model of the serialisation code: tfhe/lwe_marshal.go, glwe_marshal.go, fft_glwe_marshal.go,
    encryptor_key_marshal.go, bootstrap_key_marshal.go, keyswitch_key_marshal.go, params.go and
    mktfhe/lwe_marshal.go, glwe_marshal.go, fft_glwe_marshal.go, bootstrap_key_marshal.go, params.go.
    No proofs in this file.
    Bytes are Z in [0,256).  A float64 is its 64-bit pattern (Float64bits and Float64frombits are inverse
    on patterns).  ByteSize is a total function; where the code would panic on an empty slice, WriteTo
    panics in its header before it.  Go int is 64 bits, allocation never fails for lack of memory. *)
From Verif Require Import Base ModelNum ModelGadget ModelParams.

(** encoding/binary.BigEndian: PutUint of k bytes, and the value of a byte string. *)
Definition beBytes (k : nat) (x : Z) : list Z := tab k (fun i => (x / 2 ^ (8 * Z.of_nat (k - 1 - i))) mod 256).
Definition beVal (l : list Z) : Z := fold_left (fun a b => a * 256 + b) l 0.
(** uint64(int), int(uint64). *)
Definition putInt (x : Z) : list Z := beBytes 8 (wrap 64 x).
Definition getInt (b : list Z) : Z := swrap 64 (beVal b).

(** ** io.Writer.  The writer is an oracle: for call number i and length it answers how many bytes it takes
    (cut to the length) and whether it reports an error.  State: number of calls, bytes taken.
    A statement maps (n, state) to (n, err, state) or a panic; an error ends the function. *)
Definition writer : Type := nat -> nat -> nat * bool.
Definition wst : Type := nat * list Z.
Inductive wres : Type := WPanic | WRet (n : Z) (err : bool) (s : wst).
Definition W : Type := writer -> Z -> wst -> wres.
Definition wskip : W := fun _ n s => WRet n false s.
Definition wpanic : W := fun _ _ _ => WPanic.
Definition wseq (m1 m2 : W) : W := fun O n s => match m1 O n s with WRet n' false s' => m2 O n' s' | r => r end.
Notation "m1 ;;w m2" := (wseq m1 m2) (at level 60, right associativity).
Definition wtake (O : writer) (b : list Z) (s : wst) : nat * bool * wst :=
  let '(a, e) := O (fst s) (length b) in
  let a := Nat.min a (length b) in (a, e, (S (fst s), snd s ++ firstn a b)).
(** if nWrite, err = w.Write(b); err != nil { return n + int64(nWrite), err }; n += int64(nWrite) *)
Definition Write (b : list Z) : W := fun O n s => let '(a, e, s') := wtake O b s in WRet (n + Z.of_nat a) e s'.
(** if nWrite, err = w.Write(b); err != nil { return int64(nWrite), err }; n += int64(nWrite) *)
Definition WriteE (b : list Z) : W := fun O n s => let '(a, e, s') := wtake O b s in WRet (if e then Z.of_nat a else n + Z.of_nat a) e s'.
(** if nWrite, err = f(w); err != nil { return n + nWrite, err }; n += nWrite *)
Definition callW (f : W) : W := fun O n s => match f O 0 s with WRet m e s' => WRet (n + m) e s' | WPanic => WPanic end.
(** if n < int64(x.ByteSize()) { return n, io.ErrShortWrite } *)
Definition shortCheck (size : Z) : W := fun _ n s => WRet n (n <? size) s.
Definition wloop {A} (l : list A) (f : A -> W) : W := fold_right (fun a k => f a ;;w k) wskip l.
(** x.Value[0] *)
Definition windex {A} (l : list A) (k : A -> W) : W := match l with a :: _ => k a | [] => wpanic end.

(** ** io.Reader.  The reader holds the bytes it can still deliver and then fails (EOF or any other error).
    io.ReadFull delivers the whole buffer or an error with the number of bytes read; how a reader cuts its
    bytes into pieces is invisible behind it (standard library, trusted).  On an error the receiver is not
    looked at any more. *)
Inductive rres (A : Type) : Type := RPanic | RRet (n : Z) (a : option A) (rest : list Z).
Arguments RPanic {A}. Arguments RRet {A}.
Definition R (A : Type) : Type := Z -> list Z -> rres A.
Definition rret {A} (a : A) : R A := fun n r => RRet n (Some a) r.
Definition rlift {A} (o : option A) : R A := fun n r => match o with Some a => RRet n (Some a) r | None => RPanic end.
Definition rbind {A B} (m : R A) (k : A -> R B) : R B :=
  fun n r => match m n r with RRet n' (Some a) r' => k a n' r' | RRet n' None r' => RRet n' None r' | RPanic => RPanic end.
Notation "x <-- m ;; k" := (rbind m (fun x => k)) (at level 60, m at next level, right associativity).
(** if nRead, err = io.ReadFull(r, buf); err != nil { return n + int64(nRead), err }; n += int64(nRead) *)
Definition ReadFull (k : nat) : R (list Z) := fun n r =>
  if Nat.leb k (length r) then RRet (n + Z.of_nat k) (Some (firstn k r)) (skipn k r) else RRet (n + Z.of_nat (length r)) None [].
(** if nRead, err = io.ReadFull(r, buf); err != nil { return int64(nRead), err }; n += int64(nRead) *)
Definition ReadFullE (k : nat) : R (list Z) := fun n r =>
  if Nat.leb k (length r) then RRet (n + Z.of_nat k) (Some (firstn k r)) (skipn k r) else RRet (Z.of_nat (length r)) None [].
(** if nRead, err = f(r); err != nil { return n + nRead, err }; n += nRead *)
Definition callR {A} (f : R A) : R A := fun n r => match f 0 r with RRet m a r' => RRet (n + m) a r' | RPanic => RPanic end.
(** if nRead, err = f(r); err != nil { return n + nRead, err }  (nothing added to n) *)
Definition callRlost {A} (f : R A) : R A :=
  fun n r => match f 0 r with RRet m None r' => RRet (n + m) None r' | RRet m (Some a) r' => RRet n (Some a) r' | RPanic => RPanic end.
Fixpoint rloop {A} (l : list A) (f : A -> R A) : R (list A) :=
  match l with [] => rret [] | a :: l => a' <-- f a ;; l' <-- rloop l f ;; rret (a' :: l') end.
Definition rindex {A B} (l : list A) (k : A -> R B) : R B := match l with a :: _ => k a | [] => rlift None end.
Definition resOpt {A} (r : res A) : option A := match r with Ok a => Some a | _ => None end.

(** make([]X, d) and filling every entry with a constructor: panics on a negative length, and when the
    constructor panics on the first entry. *)
Definition mkN {A} (d : Z) (x : option A) : option (list A) :=
  if d <? 0 then None else if d =? 0 then Some [] else match x with Some a => Some (repeat a (Z.to_nat d)) | None => None end.
(** math/poly/poly.go:19-28 NewPoly, 84-93 NewFFTPoly. *)
Definition NewPoly (N : Z) : option (list Z) := if IsPowerOfTwo N && negb (N <? 16) then Some (repeat 0 (Z.to_nat N)) else None.
Definition optBind {A B} (o : option A) (f : A -> option B) : option B := match o with Some a => f a | None => None end.

Section T.
(** bytes of T: 4 or 8. *)
Variable sz : nat.
Notation wT := (8 * Z.of_nat sz).
Notation szZ := (Z.of_nat sz).
Definition lenZ {A} (l : list A) : Z := Z.of_nat (length l).
(** Buffer sizes (dim+1)*sz with dim = len-1 are written length*sz; ByteSize is computed in Z (no overflow). *)
(** uint64 read into T. *)
Definition getT (b : list Z) : Z := wrap wT (beVal b).

(** ** Vectors: lwe_marshal.go:12-126 (the mktfhe copies, mktfhe/lwe_marshal.go:13-127, are identical);
    fft_glwe_marshal.go:12-38 for float64 (s = 8). *)
Definition vecWriteTo (v : list Z) : W := wloop v (fun x => Write (beBytes sz x)).
Definition vecReadFrom (v : list Z) : R (list Z) := rloop v (fun _ => b <-- ReadFull sz ;; rret (beVal b)).
(** The buffer has bl bytes; when v is shorter the rest of it is modelled as zeros (stale bytes in the code). *)
Definition vecWriteToBuf (s : nat) (v : list Z) (bl : nat) : W :=
  if Nat.leb (length v * s) bl then Write (flat_map (beBytes s) v ++ repeat 0 (bl - length v * s)) else wpanic.
Definition vecReadFromBuf (s : nat) (v : list Z) (bl : nat) : R (list Z) :=
  b <-- ReadFull bl ;;
  if Nat.leb (length v * s) bl then rret (tab (length v) (fun i => beVal (firstn s (skipn (i * s) b)))) else rlift None.

(** Loops over 1..4 levels of slices around vectors, as in the valueWriteTo/valueReadFrom functions:
    for i := range x.Value { for j := range x.Value[i].Value { ... } }.  The containers that carry their own
    gadget parameters keep them. *)
Definition wrows (s bl : nat) (rows : list (list Z)) : W := wloop rows (fun v => callW (vecWriteToBuf s v bl)).
Definition rrows (s bl : nat) (rows : list (list Z)) : R (list (list Z)) := rloop rows (fun v => callR (vecReadFromBuf s v bl)).
Definition withG {A} (f : A -> R A) (x : gadget * A) : R (gadget * A) := a <-- f (snd x) ;; rret (fst x, a).

(** Gadget parameters from the first two header words. *)
Definition gadOf (base level : Z) : option gadget := resOpt (CompileGadget wT (mkGadgetLit base level)).

(** ** LWESecretKey: lwe_marshal.go:129-228; lwe.go:19-21. *)
Definition NewLWESecretKeyCustom (d : Z) : option (list Z) := mkN d (Some 0).
Definition LWESecretKey_ByteSize (sk : list Z) : Z := 8 + lenZ sk * szZ.
Definition LWESecretKey_header (sk : list Z) : W := Write (putInt (lenZ sk)).
Definition LWESecretKey_WriteTo (sk : list Z) : W :=
  callW (LWESecretKey_header sk) ;;w callW (vecWriteTo sk) ;;w shortCheck (LWESecretKey_ByteSize sk).
Definition LWESecretKey_headerReadFrom (old : list Z) : R (list Z) := b <-- ReadFull 8 ;; rlift (NewLWESecretKeyCustom (getInt b)).
(** lwe_marshal.go:201-214: the count of the value is not added. *)
Definition LWESecretKey_ReadFrom (old : list Z) : R (list Z) :=
  sk <-- callR (LWESecretKey_headerReadFrom old) ;; callRlost (vecReadFrom sk).

(** ** GLWE ciphertext constructor: glwe.go:169-175. *)
Definition NewGLWECiphertextCustom (k N : Z) : option (list (list Z)) := mkN (swrap 64 (k + 1)) (NewPoly N).

(** ** LWEPublicKey: lwe_marshal.go:231-375; lwe.go:63-69.  GLWEPublicKey: glwe_marshal.go:156-301;
    glwe.go:89-95 (same code). *)
Definition NewPublicKeyCustom (k N : Z) : option (list (list (list Z))) := mkN k (NewGLWECiphertextCustom k N).
Definition LWEPublicKey_ByteSize (pk : list (list (list Z))) : Z :=
  16 + lenZ pk * (lenZ pk + 1) * lenZ (nth 0 (nth 0 pk []) []) * szZ.
Definition LWEPublicKey_header (pk : list (list (list Z))) : W :=
  Write (putInt (lenZ pk)) ;;w windex pk (fun c => windex c (fun p => Write (putInt (lenZ p)))).
Definition LWEPublicKey_value (pk : list (list (list Z))) : W :=
  windex pk (fun c => windex c (fun p => wloop pk (wrows sz (length p * sz)))).
Definition LWEPublicKey_WriteTo (pk : list (list (list Z))) : W :=
  callW (LWEPublicKey_header pk) ;;w callW (LWEPublicKey_value pk) ;;w shortCheck (LWEPublicKey_ByteSize pk).
Definition LWEPublicKey_headerReadFrom (old : list (list (list Z))) : R (list (list (list Z))) :=
  b1 <-- ReadFull 8 ;; b2 <-- ReadFull 8 ;; rlift (NewPublicKeyCustom (getInt b1) (getInt b2)).
Definition LWEPublicKey_valueReadFrom (pk : list (list (list Z))) : R (list (list (list Z))) :=
  rindex pk (fun c => rindex c (fun p => rloop pk (rrows sz (length p * sz)))).
Definition LWEPublicKey_ReadFrom (old : list (list (list Z))) : R (list (list (list Z))) :=
  pk <-- callR (LWEPublicKey_headerReadFrom old) ;; callR (LWEPublicKey_valueReadFrom pk).

(** ** LWEPlaintext: lwe_marshal.go:378-429. *)
Definition LWEPlaintext_ByteSize (pt : Z) : Z := szZ.
Definition LWEPlaintext_WriteTo (pt : Z) : W := callW (vecWriteTo [pt]) ;;w shortCheck (LWEPlaintext_ByteSize pt).
Definition LWEPlaintext_ReadFrom (old : Z) : R Z := v <-- callR (vecReadFrom [0]) ;; rret (nthZ v 0).

(** ** LWECiphertext: lwe_marshal.go:432-532; lwe.go:136-138 (mktfhe/lwe_marshal.go:130-230, mktfhe/lwe.go:20-22: same code). *)
Definition NewLWECiphertextCustom (d : Z) : option (list Z) := mkN (swrap 64 (d + 1)) (Some 0).
Definition LWECiphertext_ByteSize (ct : list Z) : Z := 8 + lenZ ct * szZ.
Definition LWECiphertext_WriteTo (ct : list Z) : W :=
  callW (Write (putInt (lenZ ct - 1))) ;;w callW (vecWriteTo ct) ;;w shortCheck (LWECiphertext_ByteSize ct).
Definition LWECiphertext_headerReadFrom (old : list Z) : R (list Z) := b <-- ReadFull 8 ;; rlift (NewLWECiphertextCustom (getInt b)).
Definition LWECiphertext_ReadFrom (old : list Z) : R (list Z) :=
  ct <-- callR (LWECiphertext_headerReadFrom old) ;; callR (vecReadFrom ct).

(** ** LevCiphertext: lwe_marshal.go:535-690; lwe.go:173-179. *)
Definition lev : Type := gadget * list (list Z).
Definition NewLevCiphertextCustom (d : Z) (g : gadget) : option lev :=
  optBind (mkN (Z.of_nat (g_level g)) (NewLWECiphertextCustom d)) (fun v => Some (g, v)).
Definition Lev_ByteSize (ct : lev) : Z := 24 + lenZ (snd ct) * (lenZ (nth 0 (snd ct) []) - 1 + 1) * szZ.
Definition Lev_header (ct : lev) : W :=
  Write (putInt (g_base (fst ct))) ;;w Write (putInt (lenZ (snd ct))) ;;w windex (snd ct) (fun c => Write (putInt (lenZ c - 1))).
Definition Lev_value (ct : lev) : W := windex (snd ct) (fun c => wrows sz (length c * sz) (snd ct)).
Definition Lev_WriteTo (ct : lev) : W := callW (Lev_header ct) ;;w callW (Lev_value ct) ;;w shortCheck (Lev_ByteSize ct).
Definition Lev_headerReadFrom (old : lev) : R lev :=
  b1 <-- ReadFull 8 ;; b2 <-- ReadFull 8 ;; b3 <-- ReadFull 8 ;;
  rlift (optBind (gadOf (getT b1) (getInt b2)) (NewLevCiphertextCustom (getInt b3))).
Definition Lev_valueReadFrom (ct : lev) : R lev :=
  rindex (snd ct) (fun c => withG (rrows sz (length c * sz)) ct).
Definition Lev_ReadFrom (old : lev) : R lev := ct <-- callR (Lev_headerReadFrom old) ;; callR (Lev_valueReadFrom ct).

(** ** GSWCiphertext: lwe_marshal.go:693-852; lwe.go:225-231. *)
Definition gsw : Type := gadget * list lev.
Definition NewGSWCiphertextCustom (d : Z) (g : gadget) : option gsw :=
  optBind (mkN (swrap 64 (d + 1)) (NewLevCiphertextCustom d g)) (fun v => Some (g, v)).
Definition GSW_ByteSize (ct : gsw) : Z := 24 + lenZ (snd ct) * lenZ (snd (nth 0 (snd ct) (fst ct, []))) * lenZ (snd ct) * szZ.
Definition GSW_header (ct : gsw) : W :=
  Write (putInt (g_base (fst ct))) ;;w windex (snd ct) (fun l => Write (putInt (lenZ (snd l)))) ;;w Write (putInt (lenZ (snd ct) - 1)).
Definition GSW_value (ct : gsw) : W := wloop (snd ct) (fun l => wrows sz (length (snd ct) * sz) (snd l)).
Definition GSW_WriteTo (ct : gsw) : W := callW (GSW_header ct) ;;w callW (GSW_value ct) ;;w shortCheck (GSW_ByteSize ct).
Definition GSW_headerReadFrom (old : gsw) : R gsw :=
  b1 <-- ReadFull 8 ;; b2 <-- ReadFull 8 ;; b3 <-- ReadFull 8 ;;
  rlift (optBind (gadOf (getT b1) (getInt b2)) (NewGSWCiphertextCustom (getInt b3))).
Definition GSW_valueReadFrom (ct : gsw) : R gsw :=
  withG (fun ls => rloop ls (withG (rrows sz (length (snd ct) * sz)))) ct.
Definition GSW_ReadFrom (old : gsw) : R gsw := ct <-- callR (GSW_headerReadFrom old) ;; callR (GSW_valueReadFrom ct).

(** ** GLWESecretKey: glwe_marshal.go:12-153; glwe.go:23-29. *)
Definition NewGLWESecretKeyCustom (k N : Z) : option (list (list Z)) := mkN k (NewPoly N).
Definition GLWESecretKey_ByteSize (sk : list (list Z)) : Z := 16 + lenZ sk * lenZ (nth 0 sk []) * szZ.
Definition GLWESecretKey_WriteTo (sk : list (list Z)) : W :=
  callW (Write (putInt (lenZ sk)) ;;w windex sk (fun p => Write (putInt (lenZ p)))) ;;w
  callW (windex sk (fun p => wrows sz (length p * sz) sk)) ;;w shortCheck (GLWESecretKey_ByteSize sk).
Definition GLWESecretKey_headerReadFrom (old : list (list Z)) : R (list (list Z)) :=
  b1 <-- ReadFull 8 ;; b2 <-- ReadFull 8 ;; rlift (NewGLWESecretKeyCustom (getInt b1) (getInt b2)).
Definition GLWESecretKey_ReadFrom (old : list (list Z)) : R (list (list Z)) :=
  sk <-- callR (GLWESecretKey_headerReadFrom old) ;; callR (rindex sk (fun p => rrows sz (length p * sz) sk)).

(** ** GLWEPlaintext: glwe_marshal.go:304-413; glwe.go:132-134. *)
Definition GLWEPlaintext_ByteSize (pt : list Z) : Z := 8 + lenZ pt * szZ.
Definition GLWEPlaintext_WriteTo (pt : list Z) : W :=
  callW (Write (putInt (lenZ pt))) ;;w callW (callW (vecWriteTo pt)) ;;w shortCheck (GLWEPlaintext_ByteSize pt).
Definition GLWEPlaintext_headerReadFrom (old : list Z) : R (list Z) := b <-- ReadFull 8 ;; rlift (NewPoly (getInt b)).
Definition GLWEPlaintext_ReadFrom (old : list Z) : R (list Z) :=
  pt <-- callR (GLWEPlaintext_headerReadFrom old) ;; callR (vecReadFrom pt).

(** ** GLWECiphertext: glwe_marshal.go:416-557 (mktfhe/glwe_marshal.go:13-154, mktfhe/glwe.go:26-32: same code). *)
Definition GLWECiphertext_ByteSize (ct : list (list Z)) : Z := 16 + (lenZ ct - 1 + 1) * lenZ (nth 0 ct []) * szZ.
Definition GLWECiphertext_WriteTo (ct : list (list Z)) : W :=
  callW (Write (putInt (lenZ ct - 1)) ;;w windex ct (fun p => Write (putInt (lenZ p)))) ;;w
  callW (windex ct (fun p => wrows sz (length p * sz) ct)) ;;w shortCheck (GLWECiphertext_ByteSize ct).
Definition GLWECiphertext_headerReadFrom (old : list (list Z)) : R (list (list Z)) :=
  b1 <-- ReadFull 8 ;; b2 <-- ReadFull 8 ;; rlift (NewGLWECiphertextCustom (getInt b1) (getInt b2)).
Definition GLWECiphertext_ReadFrom (old : list (list Z)) : R (list (list Z)) :=
  ct <-- callR (GLWECiphertext_headerReadFrom old) ;; callR (rindex ct (fun p => rrows sz (length p * sz) ct)).

(** ** GLevCiphertext: glwe_marshal.go:560-734; glwe.go:243-249. *)
Definition glev : Type := gadget * list (list (list Z)).
Definition NewGLevCiphertextCustom (k N : Z) (g : gadget) : option glev :=
  optBind (mkN (Z.of_nat (g_level g)) (NewGLWECiphertextCustom k N)) (fun v => Some (g, v)).
Definition glevRank (ct : glev) : nat := length (nth 0 (nth 0 (snd ct) []) []).
(** s bytes per coefficient: FFTGLevCiphertext has the same code with 8. *)
Definition GLev_ByteSize (s : nat) (ct : glev) : Z := 32 + lenZ (snd ct) * (lenZ (nth 0 (snd ct) []) - 1 + 1) * Z.of_nat (glevRank ct) * Z.of_nat s.
Definition GLev_header (wr : list Z -> W) (ct : glev) : W :=
  wr (putInt (g_base (fst ct))) ;;w wr (putInt (lenZ (snd ct))) ;;w
  windex (snd ct) (fun c => wr (putInt (lenZ c - 1)) ;;w windex c (fun p => wr (putInt (lenZ p)))).
Definition GLev_value (s : nat) (ct : glev) : W :=
  windex (snd ct) (fun c => windex c (fun p => wloop (snd ct) (wrows s (length p * s)))).
Definition GLev_WriteTo (ct : glev) : W := callW (GLev_header Write ct) ;;w callW (GLev_value sz ct) ;;w shortCheck (GLev_ByteSize sz ct).
Definition GLev_headerReadFrom (old : glev) : R glev :=
  b1 <-- ReadFull 8 ;; b2 <-- ReadFull 8 ;; b3 <-- ReadFull 8 ;; b4 <-- ReadFull 8 ;;
  rlift (optBind (gadOf (getT b1) (getInt b2)) (NewGLevCiphertextCustom (getInt b3) (getInt b4))).
Definition GLev_valueReadFrom (s : nat) (ct : glev) : R glev :=
  rindex (snd ct) (fun c => rindex c (fun p => withG (fun l => rloop l (rrows s (length p * s))) ct)).
Definition GLev_ReadFrom (old : glev) : R glev := ct <-- callR (GLev_headerReadFrom old) ;; callR (GLev_valueReadFrom sz ct).

(** ** GGSWCiphertext: glwe_marshal.go:737-915; glwe.go:294-300.  FFTGGSWCiphertext: the same with s = 8. *)
Definition ggsw : Type := gadget * list glev.
Definition NewGGSWCiphertextCustom (k N : Z) (g : gadget) : option ggsw :=
  optBind (mkN (swrap 64 (k + 1)) (NewGLevCiphertextCustom k N g)) (fun v => Some (g, v)).
Definition dglev (g : gadget) : glev := (g, []).
Definition GGSW_ByteSize (s : nat) (ct : ggsw) : Z :=
  32 + (lenZ (snd ct) - 1 + 1) * lenZ (snd (nth 0 (snd ct) (dglev (fst ct)))) * (lenZ (snd ct) - 1 + 1) * Z.of_nat (glevRank (nth 0 (snd ct) (dglev (fst ct)))) * Z.of_nat s.
Definition GGSW_header (ct : ggsw) : W :=
  Write (putInt (g_base (fst ct))) ;;w windex (snd ct) (fun l => Write (putInt (lenZ (snd l)))) ;;w Write (putInt (lenZ (snd ct) - 1)) ;;w
  windex (snd ct) (fun l => windex (snd l) (fun c => windex c (fun p => Write (putInt (lenZ p))))).
Definition GGSW_value (s : nat) (ct : ggsw) : W :=
  windex (snd ct) (fun l => windex (snd l) (fun c => windex c (fun p => wloop (snd ct) (fun l => wloop (snd l) (wrows s (length p * s)))))).
Definition GGSW_WriteTo (s : nat) (ct : ggsw) : W := callW (GGSW_header ct) ;;w callW (GGSW_value s ct) ;;w shortCheck (GGSW_ByteSize s ct).
Definition GGSW_headerReadFrom (old : ggsw) : R ggsw :=
  b1 <-- ReadFull 8 ;; b2 <-- ReadFull 8 ;; b3 <-- ReadFull 8 ;; b4 <-- ReadFull 8 ;;
  rlift (optBind (gadOf (getT b1) (getInt b2)) (NewGGSWCiphertextCustom (getInt b3) (getInt b4))).
Definition GGSW_valueReadFrom (s : nat) (ct : ggsw) : R ggsw :=
  rindex (snd ct) (fun l => rindex (snd l) (fun c => rindex c (fun p =>
    withG (fun ls => rloop ls (withG (fun cs => rloop cs (rrows s (length p * s))))) ct))).
Definition GGSW_ReadFrom (s : nat) (old : ggsw) : R ggsw := ct <-- callR (GGSW_headerReadFrom old) ;; callR (GGSW_valueReadFrom s ct).

(** ** FFTGLWESecretKey: fft_glwe_marshal.go:41-182; fft_glwe.go:21-27.  The error paths of the header
    forget n. *)
Definition FFTGLWESecretKey_ByteSize (sk : list (list Z)) : Z := 16 + lenZ sk * lenZ (nth 0 sk []) * 8.
Definition FFTGLWESecretKey_value (sk : list (list Z)) : W := windex sk (fun p => wrows 8 (length p * 8) sk).
Definition FFTGLWESecretKey_valueReadFrom (sk : list (list Z)) : R (list (list Z)) := rindex sk (fun p => rrows 8 (length p * 8) sk).
Definition FFTGLWESecretKey_WriteTo (sk : list (list Z)) : W :=
  callW (WriteE (putInt (lenZ sk)) ;;w windex sk (fun p => WriteE (putInt (lenZ p)))) ;;w
  callW (FFTGLWESecretKey_value sk) ;;w shortCheck (FFTGLWESecretKey_ByteSize sk).
Definition FFTGLWESecretKey_headerReadFrom (old : list (list Z)) : R (list (list Z)) :=
  b1 <-- ReadFullE 8 ;; b2 <-- ReadFullE 8 ;; rlift (NewGLWESecretKeyCustom (getInt b1) (getInt b2)).
Definition FFTGLWESecretKey_ReadFrom (old : list (list Z)) : R (list (list Z)) :=
  sk <-- callR (FFTGLWESecretKey_headerReadFrom old) ;; callR (FFTGLWESecretKey_valueReadFrom sk).

(** ** FFTGLWECiphertext: fft_glwe_marshal.go:185-326 (mktfhe/fft_glwe_marshal.go:43-184: same code).  The error
    paths of the header forget n. *)
Definition FFTGLWECiphertext_ByteSize (ct : list (list Z)) : Z := 16 + (lenZ ct - 1 + 1) * lenZ (nth 0 ct []) * 8.
Definition FFTGLWECiphertext_WriteTo (ct : list (list Z)) : W :=
  callW (WriteE (putInt (lenZ ct - 1)) ;;w windex ct (fun p => WriteE (putInt (lenZ p)))) ;;w
  callW (windex ct (fun p => wrows 8 (length p * 8) ct)) ;;w shortCheck (FFTGLWECiphertext_ByteSize ct).
Definition FFTGLWECiphertext_headerReadFrom (old : list (list Z)) : R (list (list Z)) :=
  b1 <-- ReadFullE 8 ;; b2 <-- ReadFullE 8 ;; rlift (NewGLWECiphertextCustom (getInt b1) (getInt b2)).
Definition FFTGLWECiphertext_ReadFrom (old : list (list Z)) : R (list (list Z)) :=
  ct <-- callR (FFTGLWECiphertext_headerReadFrom old) ;; callR (rindex ct (fun p => rrows 8 (length p * 8) ct)).

(** ** FFTGLevCiphertext: fft_glwe_marshal.go:329-503: the error paths of headerWriteTo forget n, those of
    headerReadFrom do not. *)
Definition FFTGLev_WriteTo (ct : glev) : W := callW (GLev_header WriteE ct) ;;w callW (GLev_value 8 ct) ;;w shortCheck (GLev_ByteSize 8 ct).
Definition FFTGLev_ReadFrom (old : glev) : R glev := ct <-- callR (GLev_headerReadFrom old) ;; callR (GLev_valueReadFrom 8 ct).

(** ** FFTGGSWCiphertext: fft_glwe_marshal.go:506-684. *)
Definition FFTGGSW_WriteTo : ggsw -> W := GGSW_WriteTo 8.
Definition FFTGGSW_ReadFrom : ggsw -> R ggsw := GGSW_ReadFrom 8.

(** ** SecretKey: encryptor_key_marshal.go:12-144; encryptor_key.go:52-69.  GLWEKey and LWEKey are slices of
    LWELargeKey's array, so they show its contents (ModelKey.v has the memory). *)
Record secretKey : Type := mkSK { sk_large : list Z; sk_glwe : list (list Z); sk_fft : list (list Z); sk_lwe : list Z }.
Definition skViews (n k N : nat) (large : list Z) (fft : list (list Z)) : secretKey :=
  mkSK large (tab k (fun i => firstn N (skipn (i * N) large))) fft (firstn n large).
Definition SecretKey_ByteSize (sk : secretKey) : Z :=
  24 + lenZ (sk_glwe sk) * lenZ (nth 0 (sk_glwe sk) []) * szZ + lenZ (sk_glwe sk) * lenZ (nth 0 (sk_glwe sk) []) * 8.
Definition SecretKey_WriteTo (sk : secretKey) : W :=
  callW (Write (putInt (lenZ (sk_lwe sk))) ;;w Write (putInt (lenZ (sk_glwe sk))) ;;w windex (sk_glwe sk) (fun p => Write (putInt (lenZ p)))) ;;w
  callW (vecWriteTo (sk_large sk)) ;;w callW (FFTGLWESecretKey_value (sk_fft sk)) ;;w shortCheck (SecretKey_ByteSize sk).
(** The header returns the dimensions with the zero key. *)
Definition NewSecretKeyCustom (n k N : Z) : option (nat * nat * nat * list Z * list (list Z)) :=
  let d := swrap 64 (k * N) in
  if (d <? 0) || (k <? 0) || (negb (k =? 0) && ((N <? 0) || negb (k * N =? d))) || (n <? 0) || (d <? n) then None
  else optBind (NewGLWESecretKeyCustom k N) (fun fft => Some (Z.to_nat n, Z.to_nat k, Z.to_nat N, repeat 0 (Z.to_nat d), fft)).
Definition SecretKey_headerReadFrom (old : secretKey) : R (nat * nat * nat * list Z * list (list Z)) :=
  b1 <-- ReadFull 8 ;; b2 <-- ReadFull 8 ;; b3 <-- ReadFull 8 ;; rlift (NewSecretKeyCustom (getInt b1) (getInt b2) (getInt b3)).
Definition SecretKey_ReadFrom (old : secretKey) : R secretKey :=
  h <-- callR (SecretKey_headerReadFrom old) ;;
  let '(n, k, N, large, fft) := h in
  large <-- callR (vecReadFrom large) ;; fft <-- callR (FFTGLWESecretKey_valueReadFrom fft) ;; rret (skViews n k N large fft).

(** ** PublicKey: encryptor_key_marshal.go:147-206. *)
Definition publicKey : Type := list (list (list Z)) * list (list (list Z)).
Definition PublicKey_ByteSize (pk : publicKey) : Z := LWEPublicKey_ByteSize (fst pk) + LWEPublicKey_ByteSize (snd pk).
Definition PublicKey_WriteTo (pk : publicKey) : W :=
  callW (LWEPublicKey_WriteTo (fst pk)) ;;w callW (LWEPublicKey_WriteTo (snd pk)) ;;w shortCheck (PublicKey_ByteSize pk).
Definition PublicKey_ReadFrom (old : publicKey) : R publicKey :=
  a <-- callR (LWEPublicKey_ReadFrom (fst old)) ;; b <-- callR (LWEPublicKey_ReadFrom (snd old)) ;; rret (a, b).

(** ** BlindRotateKey: bootstrap_key_marshal.go:115-312; bootstrap_key.go:70-76. *)
Definition brKey : Type := gadget * list ggsw.
Definition NewBlindRotateKeyCustom (n k N : Z) (g : gadget) : option brKey :=
  optBind (mkN n (NewGGSWCiphertextCustom k N g)) (fun v => Some (g, v)).
Definition BlindRotateKey_ByteSize (b : brKey) : Z :=
  let c := nth 0 (snd b) (fst b, []) in let l := nth 0 (snd c) (dglev (fst b)) in
  40 + lenZ (snd b) * (lenZ (snd c) - 1 + 1) * lenZ (snd l) * (lenZ (snd c) - 1 + 1) * Z.of_nat (glevRank l) * 8.
Definition BlindRotateKey_header (b : brKey) : W :=
  Write (putInt (g_base (fst b))) ;;w Write (putInt (Z.of_nat (g_level (fst b)))) ;;w Write (putInt (lenZ (snd b))) ;;w
  windex (snd b) (fun c => Write (putInt (lenZ (snd c) - 1)) ;;w
    windex (snd c) (fun l => windex (snd l) (fun r => windex r (fun p => Write (putInt (lenZ p)))))).
Definition BlindRotateKey_value (b : brKey) : W :=
  windex (snd b) (fun c => windex (snd c) (fun l => windex (snd l) (fun r => windex r (fun p =>
    wloop (snd b) (fun c => wloop (snd c) (fun l => wloop (snd l) (wrows 8 (length p * 8)))))))).
Definition BlindRotateKey_WriteTo (b : brKey) : W :=
  callW (BlindRotateKey_header b) ;;w callW (BlindRotateKey_value b) ;;w shortCheck (BlindRotateKey_ByteSize b).
Definition BlindRotateKey_headerReadFrom (old : brKey) : R brKey :=
  b1 <-- ReadFull 8 ;; b2 <-- ReadFull 8 ;; b3 <-- ReadFull 8 ;; b4 <-- ReadFull 8 ;; b5 <-- ReadFull 8 ;;
  rlift (optBind (gadOf (getT b1) (getInt b2)) (NewBlindRotateKeyCustom (getInt b3) (getInt b4) (getInt b5))).
Definition BlindRotateKey_valueReadFrom (b : brKey) : R brKey :=
  rindex (snd b) (fun c => rindex (snd c) (fun l => rindex (snd l) (fun r => rindex r (fun p =>
    withG (fun cs => rloop cs (withG (fun ls => rloop ls (withG (fun rs => rloop rs (rrows 8 (length p * 8))))))) b)))).
Definition BlindRotateKey_ReadFrom (old : brKey) : R brKey :=
  b <-- callR (BlindRotateKey_headerReadFrom old) ;; callR (BlindRotateKey_valueReadFrom b).

(** ** LWEKeySwitchKey: keyswitch_key_marshal.go:12-186; keyswitch_key.go:21-27. *)
Definition NewLWEKeySwitchKeyCustom (n m : Z) (g : gadget) : option gsw :=
  optBind (mkN n (NewLevCiphertextCustom m g)) (fun v => Some (g, v)).
Definition LWEKeySwitchKey_ByteSize (ksk : gsw) : Z :=
  let l := nth 0 (snd ksk) (fst ksk, []) in 32 + lenZ (snd ksk) * lenZ (snd l) * (lenZ (nth 0 (snd l) []) - 1 + 1) * szZ.
Definition LWEKeySwitchKey_header (ksk : gsw) : W :=
  Write (putInt (g_base (fst ksk))) ;;w Write (putInt (Z.of_nat (g_level (fst ksk)))) ;;w Write (putInt (lenZ (snd ksk))) ;;w
  windex (snd ksk) (fun l => windex (snd l) (fun c => Write (putInt (lenZ c - 1)))).
Definition LWEKeySwitchKey_value (ksk : gsw) : W :=
  windex (snd ksk) (fun l => windex (snd l) (fun c => wloop (snd ksk) (fun l => wrows sz (length c * sz) (snd l)))).
Definition LWEKeySwitchKey_WriteTo (ksk : gsw) : W :=
  callW (LWEKeySwitchKey_header ksk) ;;w callW (LWEKeySwitchKey_value ksk) ;;w shortCheck (LWEKeySwitchKey_ByteSize ksk).
Definition LWEKeySwitchKey_headerReadFrom (old : gsw) : R gsw :=
  b1 <-- ReadFull 8 ;; b2 <-- ReadFull 8 ;; b3 <-- ReadFull 8 ;; b4 <-- ReadFull 8 ;;
  rlift (optBind (gadOf (getT b1) (getInt b2)) (NewLWEKeySwitchKeyCustom (getInt b3) (getInt b4))).
Definition LWEKeySwitchKey_valueReadFrom (ksk : gsw) : R gsw :=
  rindex (snd ksk) (fun l => rindex (snd l) (fun c => withG (fun ls => rloop ls (withG (rrows sz (length c * sz)))) ksk)).
Definition LWEKeySwitchKey_ReadFrom (old : gsw) : R gsw :=
  ksk <-- callR (LWEKeySwitchKey_headerReadFrom old) ;; callR (LWEKeySwitchKey_valueReadFrom ksk).

(** ** GLWEKeySwitchKey: keyswitch_key_marshal.go:189-368; keyswitch_key.go:86-92. *)
Definition NewGLWEKeySwitchKeyCustom (n m N : Z) (g : gadget) : option ggsw :=
  optBind (mkN n (NewGLevCiphertextCustom m N g)) (fun v => Some (g, v)).
Definition GLWEKeySwitchKey_ByteSize (ksk : ggsw) : Z :=
  let l := nth 0 (snd ksk) (dglev (fst ksk)) in 40 + lenZ (snd ksk) * lenZ (snd l) * (lenZ (nth 0 (snd l) []) - 1 + 1) * Z.of_nat (glevRank l) * 8.
Definition GLWEKeySwitchKey_header (ksk : ggsw) : W :=
  Write (putInt (g_base (fst ksk))) ;;w Write (putInt (Z.of_nat (g_level (fst ksk)))) ;;w Write (putInt (lenZ (snd ksk))) ;;w
  windex (snd ksk) (fun l => windex (snd l) (fun c => Write (putInt (lenZ c - 1)) ;;w windex c (fun p => Write (putInt (lenZ p))))).
Definition GLWEKeySwitchKey_WriteTo (ksk : ggsw) : W :=
  callW (GLWEKeySwitchKey_header ksk) ;;w callW (GGSW_value 8 ksk) ;;w shortCheck (GLWEKeySwitchKey_ByteSize ksk).
Definition GLWEKeySwitchKey_headerReadFrom (old : ggsw) : R ggsw :=
  b1 <-- ReadFull 8 ;; b2 <-- ReadFull 8 ;; b3 <-- ReadFull 8 ;; b4 <-- ReadFull 8 ;; b5 <-- ReadFull 8 ;;
  rlift (optBind (gadOf (getT b1) (getInt b2)) (NewGLWEKeySwitchKeyCustom (getInt b3) (getInt b4) (getInt b5))).
Definition GLWEKeySwitchKey_ReadFrom (old : ggsw) : R ggsw :=
  ksk <-- callR (GLWEKeySwitchKey_headerReadFrom old) ;; callR (GGSW_valueReadFrom 8 ksk).

(** ** GadgetParameters: params.go:129-202. *)
Definition GadgetParameters_ByteSize (p : gadget) : Z := 16.
Definition GadgetParameters_WriteTo (p : gadget) : W :=
  Write (putInt (g_base p)) ;;w Write (putInt (Z.of_nat (g_level p))) ;;w shortCheck (GadgetParameters_ByteSize p).
Definition GadgetParameters_ReadFrom (old : gadget) : R gadget :=
  b1 <-- ReadFull 8 ;; b2 <-- ReadFull 8 ;; rlift (gadOf (getT b1) (getInt b2)).

(** ** EvaluationKey: bootstrap_key_marshal.go:10-112. *)
Definition evalKey : Type := brKey * gsw.
Definition ksPresent (k : evalKey) : bool := 0 <? lenZ (snd (snd k)).
Definition EvaluationKey_ByteSize (k : evalKey) : Z :=
  if ksPresent k then 1 + BlindRotateKey_ByteSize (fst k) + LWEKeySwitchKey_ByteSize (snd k)
  else 1 + BlindRotateKey_ByteSize (fst k) + GadgetParameters_ByteSize (fst (snd k)).
Definition EvaluationKey_WriteTo (k : evalKey) : W :=
  Write [if ksPresent k then 1 else 0] ;;w callW (BlindRotateKey_WriteTo (fst k)) ;;w
  (if ksPresent k then callW (LWEKeySwitchKey_WriteTo (snd k)) else callW (GadgetParameters_WriteTo (fst (snd k)))) ;;w
  shortCheck (EvaluationKey_ByteSize k).
Definition EvaluationKey_ReadFrom (old : evalKey) : R evalKey :=
  b <-- ReadFull 1 ;; brk <-- callR (BlindRotateKey_ReadFrom (fst old)) ;;
  if nthZ b 0 =? 0 then
    g <-- callR (GadgetParameters_ReadFrom (fst (snd old))) ;; ksk <-- rlift (NewLWEKeySwitchKeyCustom 0 0 g) ;; rret (brk, ksk)
  else ksk <-- callR (LWEKeySwitchKey_ReadFrom (snd old)) ;; rret (brk, ksk).

(** ** Parameters: params.go:717-926. *)
Definition Parameters_ByteSize (p : params) : Z := 8 * 8 + GadgetParameters_ByteSize (p_blindRotate p) + GadgetParameters_ByteSize (p_keySwitch p) + 1.
Definition Parameters_WriteTo (p : params) : W :=
  Write (putInt (p_lweDimension p)) ;;w Write (putInt (p_glweRank p)) ;;w Write (putInt (p_polyRank p)) ;;w Write (putInt (p_lutSize p)) ;;w
  Write (putInt (p_lweStdDev p)) ;;w Write (putInt (p_glweStdDev p)) ;;w Write (putInt (p_blockSize p)) ;;w Write (putInt (p_messageModulus p)) ;;w
  callW (GadgetParameters_WriteTo (p_blindRotate p)) ;;w callW (GadgetParameters_WriteTo (p_keySwitch p)) ;;w
  Write [wrap 8 (p_order p)] ;;w shortCheck (Parameters_ByteSize p).
(** The old value of the local gadget variables is the zero value. *)
Definition zeroGadget : gadget := mkGadget 0 0 0 0.
Definition Parameters_ReadFrom (old : params) : R params :=
  b1 <-- ReadFull 8 ;; b2 <-- ReadFull 8 ;; b3 <-- ReadFull 8 ;; b4 <-- ReadFull 8 ;;
  b5 <-- ReadFull 8 ;; b6 <-- ReadFull 8 ;; b7 <-- ReadFull 8 ;; b8 <-- ReadFull 8 ;;
  br <-- callR (GadgetParameters_ReadFrom zeroGadget) ;; ks <-- callR (GadgetParameters_ReadFrom zeroGadget) ;; b9 <-- ReadFull 1 ;;
  rlift (resOpt (Compile wT (mkLit (getInt b1) (getInt b2) (getInt b3) (getInt b4) (beVal b5) (beVal b6) (getInt b7) (getT b8)
    (GadgetLiteral br) (GadgetLiteral ks) (nthZ b9 0)))).

(** ** mktfhe UniEncryption: mktfhe/glwe_marshal.go:157-320; mktfhe/glwe.go:116-124.  FFTUniEncryption:
    mktfhe/fft_glwe_marshal.go:187-350; mktfhe/fft_glwe.go:89-97 (same code with s = 8).  Value has two entries. *)
Definition NewUniEncryptionCustom (N : Z) (g : gadget) : option ggsw :=
  optBind (NewGLevCiphertextCustom 1 N g) (fun l => Some (g, [l; l])).
Definition UniEncryption_ByteSize (s : nat) (ct : ggsw) : Z :=
  24 + 2 * lenZ (snd (nth 0 (snd ct) (dglev (fst ct)))) * 2 * Z.of_nat (glevRank (nth 0 (snd ct) (dglev (fst ct)))) * Z.of_nat s.
Definition UniEncryption_header (ct : ggsw) : W :=
  Write (putInt (g_base (fst ct))) ;;w windex (snd ct) (fun l => Write (putInt (lenZ (snd l))) ;;w
    windex (snd l) (fun c => windex c (fun p => Write (putInt (lenZ p))))).
Definition UniEncryption_WriteTo (s : nat) (ct : ggsw) : W :=
  callW (UniEncryption_header ct) ;;w callW (GGSW_value s ct) ;;w shortCheck (UniEncryption_ByteSize s ct).
Definition UniEncryption_headerReadFrom (old : ggsw) : R ggsw :=
  b1 <-- ReadFull 8 ;; b2 <-- ReadFull 8 ;; b3 <-- ReadFull 8 ;;
  rlift (optBind (gadOf (getT b1) (getInt b2)) (NewUniEncryptionCustom (getInt b3))).
Definition UniEncryption_ReadFrom (s : nat) (old : ggsw) : R ggsw :=
  ct <-- callR (UniEncryption_headerReadFrom old) ;; callR (GGSW_valueReadFrom s ct).

(** ** mktfhe EvaluationKey: mktfhe/bootstrap_key_marshal.go:9-83: (EvaluationKey, CRSPublicKey, RelinKey).
    ReadFrom ends with a size check. *)
Definition mkEvalKey : Type := evalKey * (glev * ggsw).
Definition MkEvaluationKey_ByteSize (k : mkEvalKey) : Z :=
  EvaluationKey_ByteSize (fst k) + GLev_ByteSize 8 (fst (snd k)) + UniEncryption_ByteSize 8 (snd (snd k)).
Definition MkEvaluationKey_WriteTo (k : mkEvalKey) : W :=
  callW (EvaluationKey_WriteTo (fst k)) ;;w callW (FFTGLev_WriteTo (fst (snd k))) ;;w callW (UniEncryption_WriteTo 8 (snd (snd k))) ;;w
  shortCheck (MkEvaluationKey_ByteSize k).
Definition MkEvaluationKey_ReadFrom (old : mkEvalKey) : R mkEvalKey :=
  a <-- callR (EvaluationKey_ReadFrom (fst old)) ;; b <-- callR (FFTGLev_ReadFrom (fst (snd old))) ;;
  c <-- callR (UniEncryption_ReadFrom 8 (snd (snd old))) ;;
  (fun n r => if n <? MkEvaluationKey_ByteSize (a, (b, c)) then RRet n None r else RRet n (Some (a, (b, c))) r).

(** ** mktfhe Parameters: mktfhe/params.go:301-401. *)
Definition MkParameters_ByteSize (p : mkParams_) : Z :=
  Parameters_ByteSize (mp_sub p) + 8 + GadgetParameters_ByteSize (mp_acc p) + GadgetParameters_ByteSize (mp_relin p).
Definition MkParameters_WriteTo (p : mkParams_) : W :=
  callW (Parameters_WriteTo (mp_sub p)) ;;w Write (putInt (mp_partyCount p)) ;;w callW (GadgetParameters_WriteTo (mp_acc p)) ;;w
  callW (GadgetParameters_WriteTo (mp_relin p)) ;;w shortCheck (MkParameters_ByteSize p).
Definition MkParameters_ReadFrom (old : mkParams_) : R mkParams_ :=
  sub <-- callR (Parameters_ReadFrom (mp_sub old)) ;; b <-- ReadFull 8 ;;
  a <-- callR (GadgetParameters_ReadFrom zeroGadget) ;; r <-- callR (GadgetParameters_ReadFrom zeroGadget) ;;
  rlift (resOpt (MkCompile wT (mkMkLit (Literal sub) (getInt b) (GadgetLiteral a) (GadgetLiteral r)))).
End T.

(** MarshalBinary (every file: bytes.NewBuffer, WriteTo, Bytes): a buffer accepts everything.
    UnmarshalBinary: bytes.NewBuffer(data), ReadFrom; leftover bytes are ignored. *)
Definition bufferWriter : writer := fun _ len => (len, false).
Definition MarshalBinary (wr : W) : option (list Z * bool) :=
  match wr bufferWriter 0 (O, []) with WRet _ e s => Some (snd s, e) | WPanic => None end.
Definition UnmarshalBinary {A} (rd : A -> R A) (old : A) (data : list Z) : option (option A) :=
  match rd old 0 data with RRet _ a _ => Some a | RPanic => None end.

(** ** All serialisable types. *)
Inductive ctype : Type :=
| TLWESecretKey | TLWEPublicKey | TLWEPlaintext | TLWECiphertext | TLev | TGSW
| TGLWESecretKey | TGLWEPublicKey | TGLWEPlaintext | TGLWECiphertext | TGLev | TGGSW
| TFFTGLWESecretKey | TFFTGLWECiphertext | TFFTGLev | TFFTGGSW
| TSecretKey | TPublicKey | TBlindRotateKey | TEvaluationKey | TLWEKeySwitchKey | TGLWEKeySwitchKey
| TGadgetParameters | TParameters
| TMkLWECiphertext | TMkGLWECiphertext | TMkUniEncryption | TMkFFTGLWECiphertext | TMkFFTUniEncryption
| TMkEvaluationKey | TMkParameters.
Definition cval (t : ctype) : Type :=
  match t with
  | TLWESecretKey => list Z | TLWEPublicKey => list (list (list Z)) | TLWEPlaintext => Z | TLWECiphertext => list Z
  | TLev => lev | TGSW => gsw
  | TGLWESecretKey => list (list Z) | TGLWEPublicKey => list (list (list Z)) | TGLWEPlaintext => list Z | TGLWECiphertext => list (list Z)
  | TGLev => glev | TGGSW => ggsw
  | TFFTGLWESecretKey => list (list Z) | TFFTGLWECiphertext => list (list Z) | TFFTGLev => glev | TFFTGGSW => ggsw
  | TSecretKey => secretKey | TPublicKey => publicKey | TBlindRotateKey => brKey | TEvaluationKey => evalKey
  | TLWEKeySwitchKey => gsw | TGLWEKeySwitchKey => ggsw
  | TGadgetParameters => gadget | TParameters => params
  | TMkLWECiphertext => list Z | TMkGLWECiphertext => list (list Z) | TMkUniEncryption => ggsw | TMkFFTGLWECiphertext => list (list Z)
  | TMkFFTUniEncryption => ggsw | TMkEvaluationKey => mkEvalKey | TMkParameters => mkParams_
  end.
Definition cWrite (sz : nat) (t : ctype) : cval t -> W :=
  match t with
  | TLWESecretKey => LWESecretKey_WriteTo sz | TLWEPublicKey => LWEPublicKey_WriteTo sz | TLWEPlaintext => LWEPlaintext_WriteTo sz | TLWECiphertext => LWECiphertext_WriteTo sz
  | TLev => Lev_WriteTo sz | TGSW => GSW_WriteTo sz
  | TGLWESecretKey => GLWESecretKey_WriteTo sz | TGLWEPublicKey => LWEPublicKey_WriteTo sz | TGLWEPlaintext => GLWEPlaintext_WriteTo sz | TGLWECiphertext => GLWECiphertext_WriteTo sz
  | TGLev => GLev_WriteTo sz | TGGSW => GGSW_WriteTo sz
  | TFFTGLWESecretKey => FFTGLWESecretKey_WriteTo | TFFTGLWECiphertext => FFTGLWECiphertext_WriteTo | TFFTGLev => FFTGLev_WriteTo | TFFTGGSW => FFTGGSW_WriteTo
  | TSecretKey => SecretKey_WriteTo sz | TPublicKey => PublicKey_WriteTo sz | TBlindRotateKey => BlindRotateKey_WriteTo | TEvaluationKey => EvaluationKey_WriteTo sz
  | TLWEKeySwitchKey => LWEKeySwitchKey_WriteTo sz | TGLWEKeySwitchKey => GLWEKeySwitchKey_WriteTo
  | TGadgetParameters => GadgetParameters_WriteTo | TParameters => Parameters_WriteTo
  | TMkLWECiphertext => LWECiphertext_WriteTo sz | TMkGLWECiphertext => GLWECiphertext_WriteTo sz | TMkUniEncryption => UniEncryption_WriteTo sz | TMkFFTGLWECiphertext => FFTGLWECiphertext_WriteTo
  | TMkFFTUniEncryption => UniEncryption_WriteTo 8 | TMkEvaluationKey => MkEvaluationKey_WriteTo sz | TMkParameters => MkParameters_WriteTo
  end.
Definition cSize (sz : nat) (t : ctype) : cval t -> Z :=
  match t with
  | TLWESecretKey => LWESecretKey_ByteSize sz | TLWEPublicKey => LWEPublicKey_ByteSize sz | TLWEPlaintext => LWEPlaintext_ByteSize sz | TLWECiphertext => LWECiphertext_ByteSize sz
  | TLev => Lev_ByteSize sz | TGSW => GSW_ByteSize sz
  | TGLWESecretKey => GLWESecretKey_ByteSize sz | TGLWEPublicKey => LWEPublicKey_ByteSize sz | TGLWEPlaintext => GLWEPlaintext_ByteSize sz | TGLWECiphertext => GLWECiphertext_ByteSize sz
  | TGLev => GLev_ByteSize sz | TGGSW => GGSW_ByteSize sz
  | TFFTGLWESecretKey => FFTGLWESecretKey_ByteSize | TFFTGLWECiphertext => FFTGLWECiphertext_ByteSize | TFFTGLev => GLev_ByteSize 8 | TFFTGGSW => GGSW_ByteSize 8
  | TSecretKey => SecretKey_ByteSize sz | TPublicKey => PublicKey_ByteSize sz | TBlindRotateKey => BlindRotateKey_ByteSize | TEvaluationKey => EvaluationKey_ByteSize sz
  | TLWEKeySwitchKey => LWEKeySwitchKey_ByteSize sz | TGLWEKeySwitchKey => GLWEKeySwitchKey_ByteSize
  | TGadgetParameters => GadgetParameters_ByteSize | TParameters => Parameters_ByteSize
  | TMkLWECiphertext => LWECiphertext_ByteSize sz | TMkGLWECiphertext => GLWECiphertext_ByteSize sz | TMkUniEncryption => UniEncryption_ByteSize sz | TMkFFTGLWECiphertext => FFTGLWECiphertext_ByteSize
  | TMkFFTUniEncryption => UniEncryption_ByteSize 8 | TMkEvaluationKey => MkEvaluationKey_ByteSize sz | TMkParameters => MkParameters_ByteSize
  end.
Definition cRead (sz : nat) (t : ctype) : cval t -> R (cval t) :=
  match t with
  | TLWESecretKey => LWESecretKey_ReadFrom sz | TLWEPublicKey => LWEPublicKey_ReadFrom sz | TLWEPlaintext => LWEPlaintext_ReadFrom sz | TLWECiphertext => LWECiphertext_ReadFrom sz
  | TLev => Lev_ReadFrom sz | TGSW => GSW_ReadFrom sz
  | TGLWESecretKey => GLWESecretKey_ReadFrom sz | TGLWEPublicKey => LWEPublicKey_ReadFrom sz | TGLWEPlaintext => GLWEPlaintext_ReadFrom sz | TGLWECiphertext => GLWECiphertext_ReadFrom sz
  | TGLev => GLev_ReadFrom sz | TGGSW => GGSW_ReadFrom sz sz
  | TFFTGLWESecretKey => FFTGLWESecretKey_ReadFrom | TFFTGLWECiphertext => FFTGLWECiphertext_ReadFrom | TFFTGLev => FFTGLev_ReadFrom sz | TFFTGGSW => FFTGGSW_ReadFrom sz
  | TSecretKey => SecretKey_ReadFrom sz | TPublicKey => PublicKey_ReadFrom sz | TBlindRotateKey => BlindRotateKey_ReadFrom sz | TEvaluationKey => EvaluationKey_ReadFrom sz
  | TLWEKeySwitchKey => LWEKeySwitchKey_ReadFrom sz | TGLWEKeySwitchKey => GLWEKeySwitchKey_ReadFrom sz
  | TGadgetParameters => GadgetParameters_ReadFrom sz | TParameters => Parameters_ReadFrom sz
  | TMkLWECiphertext => LWECiphertext_ReadFrom sz | TMkGLWECiphertext => GLWECiphertext_ReadFrom sz | TMkUniEncryption => UniEncryption_ReadFrom sz sz | TMkFFTGLWECiphertext => FFTGLWECiphertext_ReadFrom
  | TMkFFTUniEncryption => UniEncryption_ReadFrom sz 8 | TMkEvaluationKey => MkEvaluationKey_ReadFrom sz | TMkParameters => MkParameters_ReadFrom sz
  end.
