(** Model of xtfhe/fhew_evaluator.go, fhew_bootstrap.go, fhew_bootstrap_keygen.go and GenSecretKey of fhew_enc.go.  No
    proofs in this file.

    PolyRank = LUTSize (fhew_params.go:36), so a table is one polynomial.  The FFT buffers are written in full before
    they are read and are not kept.  Arguments are different from the evaluator's buffers.  None is a panic. *)
From Verif Require Import Base ModelNum ModelVec ModelPoly ModelGadget ModelEncoder ModelLWE ModelGLWE ModelBoot ModelBFV.

Section FHEW.
Variables (w : Z) (N k : nat).
Notation NZ := (Z.of_nat N).

(** fhew_evaluator.go:50-57: the table +-5^i -> +-i mod 2N, and 2N for -1.  autIdx stays odd, so the indices are in range. *)
Definition autIdxMap : list Z :=
  let '(m, _) := forN 0 (N / 2) (fun i s =>
    let '(m, a) := s in
    (upd (upd m (Z.to_nat a) (Z.of_nat i)) (Z.to_nat (2 * NZ - a)) (- Z.of_nat i), Z.rem (a * 5) (2 * NZ))) (repeat 0 (2 * N), 1) in
  upd m (2 * N - 1) (2 * NZ).

(** fhew_bootstrap.go:42-44 ModSwitch; ms is the embedded evaluator's. *)
Definition FHEWModSwitch (ms : Z -> Z) (x : Z) : Z := Z.lor (ms x) 1.

(** 57-62: the map from table entries to mask positions; an absent entry is the empty list. *)
Definition autClasses (ms : Z -> Z) (n : nat) (ct : list Z) : Z -> list nat :=
  forN 0 n (fun i (m : Z -> list nat) =>
    let idx := nthZ autIdxMap (Z.to_nat (FHEWModSwitch ms (wrap w (- nthZ ct (S i))))) in
    fun y => if y =? idx then m y ++ [i] else m y) (fun _ => []).

(** 79-91, 103-115, 129-141, 153-165: external products with the listed keys, in order. *)
Definition fhewProd (p : gadget) (brk : list (list (list (list (list Z))))) (js : list nat) (acc : list (list Z)) : list (list Z) :=
  fold_left (fun acc j => gInv w k (ExternalProdFFTGLWETo N k p (nth j brk []) (fdAll w k p acc))) js acc.

(** 118-119: PermuteGLWETo and KeySwitchGLWETo with key idx; the state is ctOut and ctPermute. *)
Definition fhewAut (p : gadget) (glk : list (list (list (list (list Z))))) (d : Z) (idx : nat) (s : list (list Z) * list (list Z)) : option (list (list Z) * list (list Z)) :=
  let '(acc, perm) := s in
  match PermuteGLWETo w N k (fun y => if Nat.eqb y 0 then perm else acc) 0 1 d with
  | None => None
  | Some s =>
    match nth_error glk idx with
    | None => None
    | Some ksk => Some (KeySwitchGLWETo w N k p acc (s 0%nat) ksk, s 0%nat)
    end
  end.
(** 74-75, 96-97, 124-125, 146-147: the automorphism X -> X^(5^skip). *)
Definition fhewFlush p glk (skip : nat) s :=
  match ModExp true 64 5 (Z.of_nat skip) (2 * NZ) with Ok d => fhewAut p glk d skip s | _ => None end.

(** 71-99, 121-149: one step; js is the class of this step, last is i == 1, W is the window size. *)
Definition fhewStep p brk glk (W : nat) (js : list nat) (last : bool) (st : option (list (list Z) * list (list Z) * nat)) : option (list (list Z) * list (list Z) * nat) :=
  match st with
  | None => None
  | Some (s, skip) =>
    match (match js with
           | [] => Some (s, skip)
           | _ => match (if Nat.eqb skip 0 then Some s else fhewFlush p glk skip s) with
                  | None => None
                  | Some (acc, perm) => Some ((fhewProd p brk js acc, perm), 0%nat)
                  end
           end) with
    | None => None
    | Some (s, skip) =>
      let skip := S skip in
      if Nat.eqb skip W || last then option_map (fun s => (s, 0%nat)) (fhewFlush p glk skip s) else Some (s, skip)
    end
  end.
(** 71, 121: for i := N/2 - 1; i > 0; i-- *)
Definition fhewLoop p brk glk (W : nat) (cls : nat -> list nat) st :=
  forN 0 (N / 2 - 1) (fun q st => let i := (N / 2 - 1 - q)%nat in fhewStep p brk glk W (cls i) (Nat.eqb i 1) st) st.

(** 54-166 BlindRotateTo; returns ctOut and ctPermute. *)
Definition FHEWBlindRotateTo (ms : Z -> Z) (p : gadget) brk glk (W n : nat) (perm ctOut : list (list Z)) (ct lut : list Z) : option (list (list Z) * list (list Z)) :=
  let m := autClasses ms n ct in
  match PermutePolyTo w N (nth 0 ctOut []) lut (-5) with
  | None => None
  | Some r =>
    match MonomialMulPolyInPlace w N r (-5 * FHEWModSwitch ms (wrap w (- nthZ ct 0))) with
    | None => None
    | Some r =>
      let acc := forN 1 k (fun i o => upd o i (repeat 0 (length (nth i o [])))) (upd ctOut 0 r) in
      match fhewLoop p brk glk W (fun i => m (- Z.of_nat i)) (Some ((acc, perm), 0%nat)) with
      | None => None
      | Some ((acc, perm), skip) =>
        match fhewAut p glk (-5) skip (fhewProd p brk (m (2 * NZ)) acc, perm) with
        | None => None
        | Some s =>
          match fhewLoop p brk glk W (fun i => m (Z.of_nat i)) (Some (s, skip)) with
          | None => None
          | Some ((acc, perm), _) => Some (fhewProd p brk (m 0) acc, perm)
          end
        end
      end
    end
  end.

(** 28-39 BootstrapLUTTo. *)
Definition FHEWBootstrapLUTTo (ksFirst : bool) (ms : Z -> Z) (pBR pKS : gadget) brk glk (ksk : list (list (list Z))) (W n : nat)
    (perm rotBuf : list (list Z)) (ksBuf extBuf ctOut ct lut : list Z) : option (list Z) :=
  if ksFirst then
    let c := DefaultKeySwitchTo w n (k * N) pKS ksBuf ct ksk in
    option_map (fun r => AsLWECiphertextTo w N 0 ctOut (fst r)) (FHEWBlindRotateTo ms pBR brk glk W n perm rotBuf c lut)
  else
    option_map (fun r => DefaultKeySwitchTo w n (k * N) pKS ctOut (AsLWECiphertextTo w N 0 extBuf (fst r)) ksk) (FHEWBlindRotateTo ms pBR brk glk W n perm rotBuf ct lut).

(* ------------------------------------------------------------------ *)
(** ** Keys *)

(** fhew_enc.go:70-77 GenSecretKey: Gaussian samples G g, G (g+1), ... in the large key; the LWE key (first n words) and the
    ring key (k rows) are parts of it (ModelKey.v). *)
Definition FHEWGenSecretKey (G : nat -> Z) (n g : nat) : list Z * list Z * list (list Z) :=
  let large := tab (k * N) (fun i => wrap w (G (g + i)%nat)) in
  (large, firstn n large, tab k (fun i => firstn N (skipn (i * N) large))).

(** fhew_bootstrap_keygen.go:63-70: the message of row j for the signed key word b; ptGGSW is written in full. *)
Definition fhewMessage (sk : list (list Z)) (b : Z) (j : nat) : option (list Z) :=
  match j with
  | O => MonomialMulPolyInPlace w N (upd (repeat 0 N) 0 1) b
  | S j => Some (MonomialMulPolyTo w N (repeat 0 N) (nth j sk []) b)
  end.
(** 62-77: one row. *)
Definition fhewRow (logN : Z) (U G : nat -> Z) (fsk sk : list (list Z)) (p : gadget) (b : Z) (j : nat) (row : list (list (list Z))) (buf : list (list Z)) (st : rst) :=
  match fhewMessage sk b j with
  | None => None
  | Some pt => Some (forN 0 (g_level p) (fun l s =>
      let '(r, (buf, st)) := s in
      let '(c, st) := EncryptGLWEBody w logN N k U G fsk (upd buf 0 (vscale w (BaseQ w p l) pt)) st in
      (upd r l (FwdFFTGLWECiphertextTo w (nth l r []) c), (c, st))) (row, (buf, st)))
  end.
(** 49-79 GenBlindRotateKey: row by row; the key word is read as a signed integer. *)
Definition FHEWGenBlindRotateKey (logN : Z) (U G : nat -> Z) (fsk sk : list (list Z)) (lwe : list Z) (p : gadget) (buf : list (list Z)) (st : rst) :=
  forN 0 (length lwe) (fun i s =>
    match s with
    | None => None
    | Some (brk, (buf, st)) =>
      match forN 0 (S k) (fun j s =>
          match s with
          | None => None
          | Some (g, (buf, st)) =>
            match fhewRow logN U G fsk sk p (swrap w (nthZ lwe i)) j (nth j g []) buf st with
            | None => None
            | Some (row, r) => Some (upd g j row, r)
            end
          end) (Some (nth i brk [], (buf, st))) with
      | None => None
      | Some (g, r) => Some (upd brk i g, r)
      end
    end) (Some (repeat (repeat (repeat (repeat (repeat 0 N) (S k)) (g_level p)) (S k)) (length lwe), (buf, st))).

(** 144-161 GenGaloisKey: the key of X -> X^-5, then those of X -> X^(5^i); skPermute is a buffer. *)
Definition FHEWGenGaloisKey (logN : Z) (U G : nat -> Z) (sk fsk : list (list Z)) (p : gadget) (W : nat) (skp buf : list (list Z)) (st : rst) :=
  match permuteKey w N k sk skp (-5) with
  | None => None
  | Some skp =>
    let '(ksk, r) := GenGLWEKeySwitchKey w logN N k U G fsk skp p buf st in
    forN 1 W (fun i s =>
      match s with
      | None => None
      | Some (glk, (skp, (buf, st))) =>
        match ModExp true 64 5 (Z.of_nat i) (2 * NZ) with
        | Ok d =>
          match permuteKey w N k sk skp d with
          | None => None
          | Some skp =>
            let '(ksk, r) := GenGLWEKeySwitchKey w logN N k U G fsk skp p buf st in
            Some (upd glk i ksk, (skp, r))
          end
        | _ => None
        end
      end) (Some (upd (repeat [] (S W)) 0 ksk, (skp, r)))
  end.
End FHEW.
