(** Memory model of SecretKey: tfhe/encryptor_key.go:14-102, tfhe/encryptor.go:139-152 (GenSecretKey) and
    tfhe/encryptor_key_marshal.go:82-130 (ReadFrom).  No proofs in this file.
    Go slices are (array, offset, length) into a heap of arrays; the capacity runs to the end of the array.
    Arrays are never freed.  The FFT key's floats are the exact transform of ModelPoly.v.
    NewSecretKeyCustom's panic conditions are those of ModelCodec.v. *)
From Verif Require Import Base ModelNum ModelPoly ModelGadget ModelParams ModelSampler ModelCodec.

Record slice : Type := mkS { s_id : nat; s_off : nat; s_len : nat }.
Record mem : Type := mkM { m_arr : nat -> list Z; m_next : nat }.
Definition setA (m : mem) (id : nat) (l : list Z) : mem := mkM (fun j => if Nat.eqb j id then l else m_arr m j) (m_next m).
(** make([]T, n) filled with l. *)
Definition alloc (m : mem) (l : list Z) : mem * slice :=
  (mkM (fun j => if Nat.eqb j (m_next m) then l else m_arr m j) (S (m_next m)), mkS (m_next m) 0 (length l)).
Fixpoint allocs (m : mem) (ls : list (list Z)) : mem * list slice :=
  match ls with [] => (m, []) | l :: ls => let '(m, s) := alloc m l in let '(m, ss) := allocs m ls in (m, s :: ss) end.
(** The contents of a slice. *)
Definition rd (m : mem) (s : slice) : list Z := firstn (s_len s) (skipn (s_off s) (m_arr m (s_id s))).
(** v[lo:hi], up to the capacity. *)
Definition reslice (m : mem) (s : slice) (lo hi : nat) : outcome slice :=
  if Nat.leb lo hi && Nat.leb (s_off s + hi) (length (m_arr m (s_id s))) then Ret (mkS (s_id s) (s_off s + lo) (hi - lo)) else Panic.
(** v[i] = x *)
Definition store1 (m : mem) (s : slice) (i : nat) (x : Z) : outcome mem :=
  if Nat.ltb i (s_len s) then Ret (setA m (s_id s) (upd (m_arr m (s_id s)) (s_off s + i) x)) else Panic.
(** copy(v, l): the first min(len(v), len(l)) entries. *)
Definition blit (m : mem) (s : slice) (l : list Z) : mem :=
  let c := firstn (s_len s) l in let a := m_arr m (s_id s) in
  setA m (s_id s) (firstn (s_off s) a ++ c ++ skipn (s_off s + length c) a).
Definition blits (m : mem) (ss : list slice) (ls : list (list Z)) : mem :=
  fold_left (fun m (x : slice * list Z) => blit m (fst x) (snd x)) (combine ss ls) m.

(** SecretKey (encryptor_key.go:14-27). *)
Record mkey : Type := mkMK { k_large : slice; k_glwe : list slice; k_fft : list slice; k_lwe : slice }.
Definition abs (m : mem) (k : mkey) : secretKey := mkSK (rd m (k_large k)) (map (rd m) (k_glwe k)) (map (rd m) (k_fft k)) (rd m (k_lwe k)).

Definition obind {A B} (o : outcome A) (f : A -> outcome B) : outcome B := match o with Ret a => f a | Panic => Panic | Loop => Loop end.
(** glweKey.Value[i].Coeffs = lweLargeKey.Value[i*N : (i+1)*N] for i = lo .. lo+k-1. *)
Fixpoint glweViews (m : mem) (s : slice) (N lo k : nat) : outcome (list slice) :=
  match k with O => Ret [] | S k => obind (reslice m s (lo * N) ((lo + 1) * N)) (fun v => obind (glweViews m s N (S lo) k) (fun vs => Ret (v :: vs))) end.
(** encryptor_key.go:31-48 and 52-69 NewSecretKey, NewSecretKeyCustom. *)
Definition kNewCustom (m : mem) (n k N : Z) : outcome (mem * mkey) :=
  match NewSecretKeyCustom n k N with
  | None => Panic
  | Some (n, k, N, large, fft) =>
    let '(m, s) := alloc m large in
    obind (glweViews m s N 0 k) (fun glwe =>
    let '(m, fs) := allocs m fft in
    obind (reslice m s 0 n) (fun lwe => Ret (m, mkMK s glwe fs lwe)))
  end.
(** 72-90 Copy: polyRank is taken from each polynomial. *)
Fixpoint copyViews (m : mem) (s : slice) (lo : nat) (vs : list slice) : outcome (list slice) :=
  match vs with [] => Ret [] | v :: vs => obind (reslice m s (lo * s_len v) ((lo + 1) * s_len v)) (fun v' => obind (copyViews m s (S lo) vs) (fun vs' => Ret (v' :: vs'))) end.
Definition kCopy (m : mem) (sk : mkey) : outcome (mem * mkey) :=
  let '(m, s) := alloc m (rd m (k_large sk)) in
  obind (copyViews m s 0 (k_glwe sk)) (fun glwe =>
  let '(m, fs) := allocs m (map (rd m) (k_fft sk)) in
  obind (reslice m s 0 (s_len (k_lwe sk))) (fun lwe => Ret (m, mkMK s glwe fs lwe))).
(** 93-96 CopyFrom; fft_glwe.go CopyFrom indexes skIn.Value[i] for every i. *)
Definition kCopyFrom (m : mem) (sk skIn : mkey) : outcome mem :=
  let m := blit m (k_large sk) (rd m (k_large skIn)) in
  let fix go (m : mem) (a b : list slice) : outcome mem :=
    match a, b with
    | [], _ => Ret m
    | _ :: _, [] => Panic
    | s :: a, s' :: b => go (blit m s (rd m s')) a b
    end in
  go m (k_fft sk) (k_fft skIn).
(** 99-102 Clear. *)
Definition kClear (m : mem) (sk : mkey) : mem :=
  fold_left (fun m s => blit m s (repeat 0 (s_len s))) (k_fft sk) (blit m (k_large sk) (repeat 0 (s_len (k_large sk)))).

Section W.
(** bytes of T, the binary sampler's key stream, fuel of its rejection loop. *)
Variable sz : nat.
Notation w := (8 * Z.of_nat sz).
Variable ks : nat -> Z.
Variable fuel : nat.

(** FwdFFTGLWESecretKeyTo(sk.FFTGLWEKey, sk.GLWEKey) (glwe_conv.go): polynomial i goes to entry i. *)
Definition kFwdFFT (m : mem) (sk : mkey) : mem :=
  fold_left (fun m (x : slice * slice) => blit m (fst x) (fwdFFT w (rd m (snd x)))) (combine (k_fft sk) (k_glwe sk)) m.

(** encryptor.go:139-152 GenSecretKey. *)
Definition kGen (m : mem) (n k N blockSize : Z) (u : ust) : outcome (mem * mkey * ust) :=
  obind (kNewCustom m n k N) (fun r => let '(m, sk) := r in
  obind (if blockSize =? 1 then let '(v, u) := BSampleVecTo ks (rd m (k_large sk)) u in Ret (blit m (k_large sk) v, u)
         else
           obind (reslice m (k_large sk) 0 (Z.to_nat n)) (fun lo =>
           obind (SampleBlockVecTo ks fuel (rd m lo) blockSize u) (fun r => let '(v, u) := r in
           let m := blit m lo v in
           obind (reslice m (k_large sk) (Z.to_nat n) (s_len (k_large sk))) (fun hi =>
           let '(v, u) := BSampleVecTo ks (rd m hi) u in Ret (blit m hi v, u)))))
    (fun r => let '(m, u) := r in Ret (kFwdFFT m sk, sk, u))).

(** lwe_marshal.go vecReadFrom: the words before a failure are stored. *)
Fixpoint readWords (n : nat) (b : list Z) : list Z * list Z * bool :=
  match n with
  | O => ([], b, true)
  | S n => match ReadFull sz 0 b with
           | RRet _ (Some x) r => let '(l, r, ok) := readWords n r in (beVal x :: l, r, ok)
           | _ => ([], [], false)
           end
  end.
(** fft_glwe_marshal.go valueReadFrom: row by row. *)
Fixpoint readRows (m : mem) (bl : nat) (ss : list slice) (b : list Z) : outcome (mem * list Z * bool) :=
  match ss with
  | [] => Ret (m, b, true)
  | s :: ss => match vecReadFromBuf 8 (rd m s) bl 0 b with
               | RPanic => Panic
               | RRet _ None r => Ret (m, r, false)
               | RRet _ (Some v) r => readRows (blit m s v) bl ss r
               end
  end.
(** encryptor_key_marshal.go:82-130 headerReadFrom, ReadFrom; the boolean is err == nil. *)
Definition kRead (m : mem) (sk : mkey) (b : list Z) : outcome (mem * mkey * list Z * bool) :=
  match ReadFull 8 0 b with
  | RRet _ (Some b1) r => match ReadFull 8 0 r with
    | RRet _ (Some b2) r => match ReadFull 8 0 r with
      | RRet _ (Some b3) r =>
        obind (kNewCustom m (getInt b1) (getInt b2) (getInt b3)) (fun x => let '(m, sk) := x in
        let '(l, r, ok) := readWords (s_len (k_large sk)) r in
        let m := blit m (k_large sk) l in
        if ok then
          match k_fft sk with
          | [] => Panic
          | s :: _ => obind (readRows m (s_len s * 8) (k_fft sk) r) (fun x => let '(m, r, ok) := x in Ret (m, sk, r, ok))
          end
        else Ret (m, sk, r, false))
      | _ => Ret (m, sk, [], false) end
    | _ => Ret (m, sk, [], false) end
  | _ => Ret (m, sk, [], false) end.

(** A client's history over key variables. *)
Inductive kcmd : Type :=
| KNew (n k N : Z) | KGen (n k N blockSize : Z) | KCopy (i : nat) | KAssign (i j : nat) | KCopyFrom (i j : nat) | KClear (i : nat)
| KRead (i : nat) (b : list Z) | KFFT (i : nat)
| KWriteLarge (i j : nat) (x : Z) | KWriteGLWE (i r j : nat) (x : Z) | KWriteLWE (i j : nat) (x : Z).
Record kstate : Type := mkK { ks_mem : mem; ks_keys : list mkey; ks_u : ust }.
Definition kinit : kstate := mkK (mkM (fun _ => []) 0) [] newUst.
(** A use of an undeclared variable is not a program: Panic. *)
Definition withKey {A} (st : kstate) (i : nat) (f : mkey -> outcome A) : outcome A := match nth_error (ks_keys st) i with Some k => f k | None => Panic end.
Definition kstep (c : kcmd) (st : kstate) : outcome kstate :=
  let m := ks_mem st in
  match c with
  | KNew n k N => obind (kNewCustom m n k N) (fun r => let '(m, sk) := r in Ret (mkK m (ks_keys st ++ [sk]) (ks_u st)))
  | KGen n k N bs => obind (kGen m n k N bs (ks_u st)) (fun r => let '(m, sk, u) := r in Ret (mkK m (ks_keys st ++ [sk]) u))
  | KCopy i => withKey st i (fun sk => obind (kCopy m sk) (fun r => let '(m, sk') := r in Ret (mkK m (ks_keys st ++ [sk']) (ks_u st))))
  | KAssign i j => withKey st i (fun _ => withKey st j (fun sk => Ret (mkK m (upd (ks_keys st) i sk) (ks_u st))))
  | KCopyFrom i j => withKey st i (fun sk => withKey st j (fun skIn => obind (kCopyFrom m sk skIn) (fun m => Ret (mkK m (ks_keys st) (ks_u st)))))
  | KClear i => withKey st i (fun sk => Ret (mkK (kClear m sk) (ks_keys st) (ks_u st)))
  | KRead i b => withKey st i (fun sk => obind (kRead m sk b) (fun r => let '(m, sk', _, _) := r in Ret (mkK m (upd (ks_keys st) i sk') (ks_u st))))
  | KFFT i => withKey st i (fun sk => Ret (mkK (kFwdFFT m sk) (ks_keys st) (ks_u st)))
  | KWriteLarge i j x => withKey st i (fun sk => obind (store1 m (k_large sk) j x) (fun m => Ret (mkK m (ks_keys st) (ks_u st))))
  | KWriteGLWE i r j x => withKey st i (fun sk => match nth_error (k_glwe sk) r with Some s => obind (store1 m s j x) (fun m => Ret (mkK m (ks_keys st) (ks_u st))) | None => Panic end)
  | KWriteLWE i j x => withKey st i (fun sk => obind (store1 m (k_lwe sk) j x) (fun m => Ret (mkK m (ks_keys st) (ks_u st))))
  end.
Fixpoint krun (p : list kcmd) (st : kstate) : outcome kstate := match p with [] => Ret st | c :: p => obind (kstep c st) (krun p) end.
End W.
