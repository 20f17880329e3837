(** Specification of the wire format and of serialisable values, independent of the codec code:
    big-endian words, a header of 64-bit dimensions, then the coefficients row by row. *)
From Verif Require Import Base ModelNum SpecNum ModelGadget SpecGadget ModelParams SpecParams ModelCodec.

(** io.Writer's contract: a short write reports an error. *)
Definition honest (O : writer) : Prop := forall i l, (fst (O i l) < l)%nat -> snd (O i l) = true.
Definition never_fails (O : writer) : Prop := forall i l, snd (O i l) = false.

(** x as k bytes, most significant first; a signed int is sent in two's complement. *)
Fixpoint be (k : nat) (x : Z) : list Z := match k with O => [] | S k => (x / 256 ^ Z.of_nat k) mod 256 :: be k x end.
Definition be64 (x : Z) : list Z := be 8 (x mod 2 ^ 64).
Definition ewords (s : nat) (v : list Z) : list Z := concat (map (be s) v).
Definition erows (s : nat) (r : list (list Z)) : list Z := concat (map (ewords s) r).
Definition ecube (s : nat) (c : list (list (list Z))) : list Z := concat (map (erows s) c).
Definition header (l : list Z) : list Z := concat (map be64 l).

(** Shapes. *)
Definition wfwords (s : nat) (d : nat) (v : list Z) : Prop := length v = d /\ Forall (uword (8 * Z.of_nat s)) v.
Definition wfrows (s N m : nat) (r : list (list Z)) : Prop := length r = m /\ Forall (wfwords s N) r.
Definition okint (n : nat) : Prop := Z.of_nat n + 1 < 2 ^ 63.
(** A rank accepted by the polynomial constructors. *)
Definition okrank (N : nat) : Prop := exists e, 4 <= e <= 62 /\ Z.of_nat N = 2 ^ e.
Definition wflev (s d : nat) (g : gadget) (l : lev) : Prop := fst l = g /\ wfrows s d (g_level g) (snd l).
Definition wfglev (s k N : nat) (g : gadget) (l : glev) : Prop :=
  fst l = g /\ length (snd l) = g_level g /\ Forall (wfrows s N (S k)) (snd l).
Definition wfggsw (s k N : nat) (g : gadget) (c : ggsw) : Prop :=
  fst c = g /\ length (snd c) = S k /\ Forall (wfglev s k N g) (snd c).
Definition eglev (s : nat) (l : glev) : list Z := ecube s (snd l).
Definition eggsw (s : nat) (c : ggsw) : list Z := concat (map (eglev s) (snd c)).
Definition ebrk (s : nat) (b : brKey) : list Z := concat (map (eggsw s) (snd b)).
Definition elevs (s : nat) (c : gsw) : list Z := concat (map (fun l => erows s (snd l)) (snd c)).

Section S.
Variable sz : nat.
Notation w := (8 * Z.of_nat sz).

Definition wfPK (pk : list (list (list Z))) : Prop :=
  exists k N, (1 <= k)%nat /\ okint k /\ okrank N /\ length pk = k /\ Forall (wfrows sz N (S k)) pk.
Definition wfGLWESK (s : nat) (sk : list (list Z)) : Prop := exists k N, (1 <= k)%nat /\ okint k /\ okrank N /\ wfrows s N k sk.
Definition wfGLWE (s : nat) (ct : list (list Z)) : Prop := exists k N, okint k /\ okrank N /\ wfrows s N (S k) ct.
Definition wfLev (l : lev) : Prop := gadget_ok w (fst l) /\ exists d, okint d /\ wflev sz d (fst l) l.
Definition wfGSW (c : gsw) : Prop :=
  gadget_ok w (fst c) /\ (1 <= length (snd c))%nat /\ okint (length (snd c)) /\ Forall (wflev sz (length (snd c)) (fst c)) (snd c).
Definition wfGLev (s : nat) (l : glev) : Prop := gadget_ok w (fst l) /\ exists k N, okint k /\ okrank N /\ wfglev s k N (fst l) l.
Definition wfGGSW (s : nat) (c : ggsw) : Prop := gadget_ok w (fst c) /\ exists k N, okint k /\ okrank N /\ wfggsw s k N (fst c) c.
Definition wfBRK (b : brKey) : Prop :=
  gadget_ok w (fst b) /\ exists n k N, (1 <= n)%nat /\ okint n /\ okint k /\ okrank N /\ length (snd b) = n /\ Forall (wfggsw 8 k N (fst b)) (snd b).
Definition wfKSK (c : gsw) : Prop :=
  gadget_ok w (fst c) /\ exists n d, (1 <= n)%nat /\ okint n /\ okint d /\ length (snd c) = n /\ Forall (wflev sz d (fst c)) (snd c).
Definition wfGKSK (c : ggsw) : Prop :=
  gadget_ok w (fst c) /\ exists n k N, (1 <= n)%nat /\ okint n /\ okint k /\ okrank N /\ length (snd c) = n /\ Forall (wfglev 8 k N (fst c)) (snd c).
Definition wfUni (s : nat) (c : ggsw) : Prop :=
  gadget_ok w (fst c) /\ exists N, okrank N /\ length (snd c) = 2%nat /\ Forall (wfglev s 1 N (fst c)) (snd c).
(** A complete key set, or one without a key-switching key. *)
Definition wfEvk (k : evalKey) : Prop :=
  wfBRK (fst k) /\ (wfKSK (snd k) \/ (gadget_ok w (fst (snd k)) /\ snd (snd k) = [])).
(** The small key is a prefix of the large one and the GLWE key its rows (C24). *)
Definition wfSecretKey (sk : secretKey) : Prop :=
  exists n k N, (1 <= k)%nat /\ okint k /\ okrank N /\ okint (k * N) /\ (n <= k * N)%nat /\
    wfwords sz (k * N) (sk_large sk) /\ wfrows 8 N k (sk_fft sk) /\
    length (sk_glwe sk) = k /\ Forall (fun p => length p = N) (sk_glwe sk) /\ concat (sk_glwe sk) = sk_large sk /\
    sk_lwe sk = firstn n (sk_large sk).
Definition wfParams (p : params) : Prop := exists l, lit_sane w l /\ Compile w l = Ok p.
Definition wfMkParams (p : mkParams_) : Prop :=
  exists l, lit_sane w (ml_Sub l) /\ sword 64 (ml_PartyCount l) /\ uword w (gl_base (ml_Acc l)) /\ uword w (gl_base (ml_Relin l)) /\
    0 <= gl_level (ml_Acc l) * 64 < 2 ^ 63 /\ 0 <= gl_level (ml_Relin l) * 64 < 2 ^ 63 /\ MkCompile w l = Ok p.

Definition len {A} (l : list A) : Z := Z.of_nat (length l).
Definition encGad (g : gadget) : list Z := header [g_base g; Z.of_nat (g_level g)].
Definition encPK (pk : list (list (list Z))) : list Z := header [len pk; len (hd [] (hd [] pk))] ++ ecube sz pk.
Definition encRows (s : nat) (d : Z) (r : list (list Z)) : list Z := header [d; len (hd [] r)] ++ erows s r.
Definition hdl {A B} (g : gadget) (l : list (gadget * list (A))) (f : list A -> B) : B := f (snd (hd (g, []) l)).
Definition encGLev (s : nat) (l : glev) : list Z :=
  header [g_base (fst l); len (snd l); len (hd [] (snd l)) - 1; len (hd [] (hd [] (snd l)))] ++ eglev s l.
Definition encGGSW (s : nat) (c : ggsw) : list Z :=
  header [g_base (fst c); hdl (fst c) (snd c) len; len (snd c) - 1; hdl (fst c) (snd c) (fun l => len (hd [] (hd [] l)))] ++ eggsw s c.
Definition encUni (s : nat) (c : ggsw) : list Z :=
  header [g_base (fst c); hdl (fst c) (snd c) len; hdl (fst c) (snd c) (fun l => len (hd [] (hd [] l)))] ++ eggsw s c.
Definition encBRK (b : brKey) : list Z :=
  header [g_base (fst b); Z.of_nat (g_level (fst b)); len (snd b); hdl (fst b) (snd b) len - 1;
          hdl (fst b) (snd b) (fun c => hdl (fst b) c (fun l => len (hd [] (hd [] l))))] ++ ebrk 8 b.
Definition encKSK (c : gsw) : list Z :=
  header [g_base (fst c); Z.of_nat (g_level (fst c)); len (snd c); hdl (fst c) (snd c) (fun l => len (hd [] l)) - 1] ++ elevs sz c.
Definition encGKSK (c : ggsw) : list Z :=
  header [g_base (fst c); Z.of_nat (g_level (fst c)); len (snd c); hdl (fst c) (snd c) (fun l => len (hd [] l)) - 1;
          hdl (fst c) (snd c) (fun l => len (hd [] (hd [] l)))] ++ eggsw 8 c.
Definition encEvk (k : evalKey) : list Z :=
  match snd (snd k) with
  | [] => [0] ++ encBRK (fst k) ++ encGad (fst (snd k))
  | _ => [1] ++ encBRK (fst k) ++ encKSK (snd k)
  end.
Definition encParams (p : params) : list Z :=
  header [p_lweDimension p; p_glweRank p; p_polyRank p; p_lutSize p; p_lweStdDev p; p_glweStdDev p; p_blockSize p; p_messageModulus p]
  ++ encGad (p_blindRotate p) ++ encGad (p_keySwitch p) ++ [p_order p].

Definition wf (t : ctype) : cval t -> Prop :=
  match t with
  | TLWESecretKey => fun v => okint (length v) /\ wfwords sz (length v) v
  | TLWEPublicKey | TGLWEPublicKey => wfPK
  | TLWEPlaintext => uword w
  | TLWECiphertext | TMkLWECiphertext => fun v => okint (length v) /\ wfwords sz (length v) v
  | TLev => wfLev | TGSW => wfGSW
  | TGLWESecretKey => wfGLWESK sz
  | TGLWEPlaintext => fun v => okrank (length v) /\ wfwords sz (length v) v
  | TGLWECiphertext | TMkGLWECiphertext => wfGLWE sz
  | TGLev => wfGLev sz | TGGSW => wfGGSW sz
  | TFFTGLWESecretKey => wfGLWESK 8 | TFFTGLWECiphertext | TMkFFTGLWECiphertext => wfGLWE 8
  | TFFTGLev => wfGLev 8 | TFFTGGSW => wfGGSW 8
  | TSecretKey => wfSecretKey
  | TPublicKey => fun pk => wfPK (fst pk) /\ wfPK (snd pk)
  | TBlindRotateKey => wfBRK | TEvaluationKey => wfEvk | TLWEKeySwitchKey => wfKSK | TGLWEKeySwitchKey => wfGKSK
  | TGadgetParameters => gadget_ok w | TParameters => wfParams
  | TMkUniEncryption => wfUni sz | TMkFFTUniEncryption => wfUni 8
  | TMkEvaluationKey => fun k => wfEvk (fst k) /\ wfGLev 8 (fst (snd k)) /\ wfUni 8 (snd (snd k))
  | TMkParameters => wfMkParams
  end.

Definition enc (t : ctype) : cval t -> list Z :=
  match t with
  | TLWESecretKey => fun v => header [len v] ++ ewords sz v
  | TLWEPublicKey | TGLWEPublicKey => encPK
  | TLWEPlaintext => be sz
  | TLWECiphertext | TMkLWECiphertext => fun v => header [len v - 1] ++ ewords sz v
  | TLev => fun l => header [g_base (fst l); len (snd l); len (hd [] (snd l)) - 1] ++ erows sz (snd l)
  | TGSW => fun c => header [g_base (fst c); hdl (fst c) (snd c) len; len (snd c) - 1] ++ elevs sz c
  | TGLWESecretKey => fun r => encRows sz (len r) r
  | TGLWEPlaintext => fun v => header [len v] ++ ewords sz v
  | TGLWECiphertext | TMkGLWECiphertext => fun r => encRows sz (len r - 1) r
  | TGLev => encGLev sz | TGGSW => encGGSW sz
  | TFFTGLWESecretKey => fun r => encRows 8 (len r) r
  | TFFTGLWECiphertext | TMkFFTGLWECiphertext => fun r => encRows 8 (len r - 1) r
  | TFFTGLev => encGLev 8 | TFFTGGSW => encGGSW 8
  | TSecretKey => fun sk => header [len (sk_lwe sk); len (sk_glwe sk); len (hd [] (sk_glwe sk))] ++ ewords sz (sk_large sk) ++ erows 8 (sk_fft sk)
  | TPublicKey => fun pk => encPK (fst pk) ++ encPK (snd pk)
  | TBlindRotateKey => encBRK | TEvaluationKey => encEvk | TLWEKeySwitchKey => encKSK | TGLWEKeySwitchKey => encGKSK
  | TGadgetParameters => encGad | TParameters => encParams
  | TMkUniEncryption => encUni sz | TMkFFTUniEncryption => encUni 8
  | TMkEvaluationKey => fun k => encEvk (fst k) ++ encGLev 8 (fst (snd k)) ++ encUni 8 (snd (snd k))
  | TMkParameters => fun p => encParams (mp_sub p) ++ header [mp_partyCount p] ++ encGad (mp_acc p) ++ encGad (mp_relin p)
  end.
End S.

(** The outcome of a WriteTo call on writer O: the returned count is the number of bytes accepted; success
    means that the whole encoding was accepted; an honest writer has received a prefix of it; an honest
    writer that never fails makes WriteTo succeed. *)
Definition write_ok (O : writer) (m : W) (bytes : list Z) : Prop :=
  forall s, exists n e s' acc, m O 0 s = WRet n e s' /\ snd s' = snd s ++ acc /\ n = Z.of_nat (length acc) /\
    (e = false -> acc = bytes) /\ (honest O -> exists t, bytes = acc ++ t) /\ (honest O -> never_fails O -> e = false).
(** The same with the count claimed only for success. *)
Definition write_ok_nil (O : writer) (m : W) (bytes : list Z) : Prop :=
  forall s, exists n e s' acc, m O 0 s = WRet n e s' /\ snd s' = snd s ++ acc /\ (e = false -> n = Z.of_nat (length acc)) /\
    (e = false -> acc = bytes) /\ (honest O -> exists t, bytes = acc ++ t) /\ (honest O -> never_fails O -> e = false).

(** The types whose count is wrong on some error or success path. *)
Definition write_count_exact (t : ctype) : bool :=
  match t with TFFTGLWESecretKey | TFFTGLWECiphertext | TFFTGLev | TMkFFTGLWECiphertext | TMkEvaluationKey => false | _ => true end.
Definition read_count_exact (t : ctype) : bool :=
  match t with TLWESecretKey | TFFTGLWESecretKey | TFFTGLWECiphertext | TMkFFTGLWECiphertext => false | _ => true end.
Definition read_count_success (t : ctype) : bool := match t with TLWESecretKey => false | _ => true end.

(** Streams of objects of any types. *)
Definition obj : Type := {t : ctype & cval t}.
Definition stream (sz : nat) (l : list obj) : list Z := concat (map (fun o => enc sz (projT1 o) (projT2 o)) l).
Definition writeAll (sz : nat) (l : list obj) : W := wloop l (fun o => callW (cWrite sz (projT1 o) (projT2 o))).
(** Read objects of the types of the receivers, one after another. *)
Fixpoint readAll (sz : nat) (old : list obj) (r : list Z) : option (list obj * list Z) :=
  match old with
  | [] => Some ([], r)
  | o :: old => match cRead sz (projT1 o) (projT2 o) 0 r with
                | RRet _ (Some v) r' => match readAll sz old r' with Some (l, r'') => Some (existT _ (projT1 o) v :: l, r'') | None => None end
                | _ => None
                end
  end.

(** A literal of Go values, and a literal whose products do not overflow (together: lit_sane). *)
Definition lit_go (w : Z) (p : paramsLit) : Prop :=
  sword 64 (l_LWEDimension p) /\ sword 64 (l_PolyRank p) /\ sword 64 (l_GLWERank p) /\
  sword 64 (l_LUTSize p) /\ sword 64 (l_BlockSize p) /\ uword 64 (l_LWEStdDev p) /\ uword 64 (l_GLWEStdDev p) /\
  uword w (l_MessageModulus p) /\ uword w (gl_base (l_BlindRotate p)) /\ uword w (gl_base (l_KeySwitch p)).
Definition lit_small (p : paramsLit) : Prop :=
  sword 64 (l_GLWERank p * l_PolyRank p) /\
  0 <= gl_level (l_BlindRotate p) * 64 < 2 ^ 63 /\ 0 <= gl_level (l_KeySwitch p) * 64 < 2 ^ 63.
