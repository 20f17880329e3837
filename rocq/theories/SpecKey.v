(** Specification of the secret key views (C24). *)
From Verif Require Import Base ModelNum ModelPoly ModelSampler ModelCodec ModelKey.

(** The large LWE key lists the GLWE key's coefficients in order, the small key is its prefix of length n. *)
Definition views (n N : nat) (sk : secretKey) : Prop :=
  concat (sk_glwe sk) = sk_large sk /\ Forall (fun p => length p = N) (sk_glwe sk) /\
  (n <= length (sk_large sk))%nat /\ sk_lwe sk = firstn n (sk_large sk).
(** The transformed key is the transform of the GLWE key. *)
Definition fftok (w : Z) (sk : secretKey) : Prop := sk_fft sk = map (fwdFFT w) (sk_glwe sk).
(** Blocks of bs entries have at most one 1. *)
Definition block_binary (bs : nat) (v : list Z) : Prop :=
  (forall i, (i < length v)%nat -> nthZ v i = 0 \/ nthZ v i = 1) /\
  (forall k i j, (k < length v / bs)%nat -> (i < bs)%nat -> (j < bs)%nat -> nthZ v (k * bs + i) = 1 -> nthZ v (k * bs + j) = 1 -> i = j).

(** The effect of writing x at position pos of the large key, seen through all three views. *)
Definition written (n N pos : nat) (x : Z) (a a' : secretKey) : Prop :=
  views n N a /\ views n N a' /\ (pos < length (sk_large a))%nat /\ sk_large a' = upd (sk_large a) pos x /\ sk_fft a' = sk_fft a /\ length (sk_glwe a') = length (sk_glwe a) /\
  (forall r j, (r < length (sk_glwe a))%nat -> (j < N)%nat -> nthZ (nth r (sk_glwe a') []) j = if Nat.eqb (r * N + j) pos then x else nthZ (nth r (sk_glwe a) []) j) /\
  (forall j, (j < n)%nat -> nthZ (sk_lwe a') j = if Nat.eqb j pos then x else nthZ (sk_lwe a) j).
(** A command on variable i of st had exactly this effect on the key held there; the variables are as before. *)
Definition seen (st st' : kstate) (i : nat) (x : Z) (pos : nat -> nat) : Prop :=
  exists k n N, nth_error (ks_keys st) i = Some k /\ ks_keys st' = ks_keys st /\ written n N (pos N) x (abs (ks_mem st) k) (abs (ks_mem st') k).

(** A command that writes only through variables outside P and shares none of P's variables. New variables may appear on either side. *)
Definition okcmd (P : nat -> bool) (c : kcmd) : Prop :=
  match c with
  | KNew _ _ _ | KGen _ _ _ _ | KCopy _ => True
  | KAssign i j => P i = false /\ P j = false
  | KCopyFrom i _ | KClear i | KRead i _ | KFFT i | KWriteLarge i _ _ | KWriteGLWE i _ _ _ | KWriteLWE i _ _ => P i = false
  end.

(** Commands after which transformed keys need not be recomputed: no writes through a view, copies between equal shapes,
    deserialisation of consistent keys. *)
Section F.
Variables (sz : nat) (ks : nat -> Z) (fuel : nat).
Definition fguard (c : kcmd) (st : kstate) : Prop :=
  match c with
  | KWriteLarge _ _ _ | KWriteGLWE _ _ _ _ | KWriteLWE _ _ _ => False
  | KCopyFrom i j => forall ki kj, nth_error (ks_keys st) i = Some ki -> nth_error (ks_keys st) j = Some kj ->
      map (@length Z) (sk_glwe (abs (ks_mem st) ki)) = map (@length Z) (sk_glwe (abs (ks_mem st) kj))
  | KRead _ b => exists old n sk r, SecretKey_ReadFrom sz old 0 b = RRet n (Some sk) r /\ fftok (8 * Z.of_nat sz) sk
  | _ => True
  end.
Inductive freach : kstate -> Prop :=
| freach_init : freach kinit
| freach_step c st st' : freach st -> fguard c st -> kstep sz ks fuel c st = Ret st' -> freach st'.
End F.
(** Key generation with a sensible block size. *)
Definition genok (c : kcmd) : Prop := match c with KGen _ _ _ bs => 0 < bs < 2 ^ 63 | _ => True end.
