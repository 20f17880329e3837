(** Model of xtfhe/circuit_bootstrap.go and xtfhe/circuit_bootstrap_key.go.  No proofs in this file.

    The digit buffer ctFFTDcmp and the buffer ctFFTGLWEOut are written in full before they are read and are not kept.
    The arguments are different from the bootstrapper's buffers.  None is a panic. *)
From Verif Require Import Base ModelNum ModelVec ModelPoly ModelGadget ModelEncoder ModelLWE ModelGLWE ModelBoot ModelManyLUT ModelBFV.

(** circuit_bootstrap.go:33-52, with the buffers of the embedded BFVEvaluator. *)
Record cbBuf := mkCBBuf { cb_fs : list (Z -> Z); cb_lut : list Z; cb_ks : list Z; cb_pack : list (list Z); cb_rot : list (list Z);
  cb_ggsw : list (list (list (list Z))); cb_bfv : bfvBuf }.

Section CB.
Variables (w : Z) (N k logN C : nat).
(** Output, scheme-switching and trace gadgets. *)
Variables (pOut pSS pT : gadget).

(** 73-103 newCircuitBootstrapBuffer; n is the LWE dimension. *)
Definition newCBBuf (n : nat) : cbBuf :=
  mkCBBuf (repeat (fun _ => 0) C) (repeat 0 N) (repeat 0 (S n)) (repeat (repeat 0 N) (S k)) (repeat (repeat 0 N) (S k))
    (repeat (repeat (repeat (repeat 0 N) (S k)) (g_level pOut)) (S k)) (newBFVBuf N k).

(** 131-136: the functions of one group of levels. *)
Definition cbFuncs (start cnt : nat) (fs : list (Z -> Z)) : list (Z -> Z) :=
  forN 0 cnt (fun jj fs => upd fs jj (fun x => wrap w (Z.shiftl (wrap w x) (LogBaseQ pOut (start + jj))))) fs.

(** 147-151: every coefficient divided by the rank. *)
Definition cbDivide (c : list (list Z)) : list (list Z) :=
  forN 0 (S k) (fun j o => forN 0 N (fun l o => upd o j (upd (nth j o []) l (DivRoundBits w (nthZ (nth j o []) l) (Z.of_nat logN)))) o) c.

(** 155-158: the trace of row, with buffer ctPack and the BFV buffers. *)
Definition cbTrace (gal : Z -> option (list (list (list (list Z))))) (row pack : list (list Z)) (bfv : bfvBuf) : option (list (list Z) * (list (list Z) * bfvBuf)) :=
  forN 0 logN (fun q s =>
    match s with
    | None => None
    | Some (row, (pack, bfv)) =>
      match BFVPermuteTo w N k pT gal bfv pack row (2 ^ Z.of_nat (logN - q) + 1) with
      | None => None
      | Some (pack, bfv) => option_map (fun s : gstore => (s 0%nat, (pack, bfv))) (AddGLWETo w k (fun y => if Nat.eqb y 0 then row else pack) 0 0 1)
      end
    end) (Some (row, (pack, bfv))).

Definition setRow (g : list (list (list (list Z)))) (i j : nat) (v : list (list Z)) := upd g i (upd (nth i g []) j v).

(** 154-172: level start+jj; the state is ctGGSWOut, ctPack and the BFV buffers. *)
Definition cbLevel (ssk : list (list (list (list (list Z))))) gal (rot : list (list Z)) (start jj : nat)
    (s : option (list (list (list (list Z))) * (list (list Z) * bfvBuf))) : option (list (list (list (list Z))) * (list (list Z) * bfvBuf)) :=
  match s with
  | None => None
  | Some (g, (pack, bfv)) =>
    let j := (start + jj)%nat in
    match MonomialMulGLWETo w N k (fun y => if Nat.eqb y 0 then nth j (nth 0 g []) [] else rot) 0 1 (- Z.of_nat jj) with
    | None => None
    | Some s =>
      match cbTrace gal (s 0%nat) pack bfv with
      | None => None
      | Some (row, (pack, bfv)) =>
        let g := setRow g 0 j row in
        let fd := map (fdigits w pSS) row in
        let g := forN 0 k (fun kk g => setRow g (S kk) j (gInv w k (ExternalProdFFTGLWETo N k pSS (nth kk ssk []) fd))) g in
        Some (g, (pack, bfv))
      end
    end
  end.

(** 127-173: the group of levels from i on. *)
Definition cbGroup (mm : Z) (ksFirst : bool) (ms : Z -> Z) (pBR pKS : gadget) (brk : list (list (list (list (list Z))))) (ksk : list (list (list Z))) (bs bc n : nat)
    ssk gal (ct : list Z) (i : nat) (b : cbBuf) : option cbBuf :=
  let cnt := (Nat.min (i + C) (g_level pOut) - i)%nat in
  let fs := cbFuncs i cnt (cb_fs b) in
  match MLGenLUTCustomFullTo w N C (cb_lut b) fs mm with
  | None => None
  | Some lut =>
    let ks := if ksFirst then DefaultKeySwitchTo w n (k * N) pKS (cb_ks b) ct ksk else cb_ks b in
    let rot := cbDivide (MLBlindRotateTo w N k ms pBR brk bs bc n (cb_rot b) (if ksFirst then ks else ct) lut) in
    match forN 0 cnt (cbLevel ssk gal rot i) (Some (cb_ggsw b, (cb_pack b, cb_bfv b))) with
    | None => None
    | Some (g, (pack, bfv)) => Some (mkCBBuf fs lut ks pack rot g bfv)
    end
  end.

(** 124-178 CircuitBootstrapTo.  [for i := 0; i < level; i += C] takes the rounded-up quotient of steps; 177 is
    FwdFFTGGSWCiphertextTo (fft_glwe_conv.go:123-127, 95-99, 67-71) onto an output of the same shape. *)
Definition CircuitBootstrapTo (mm : Z) (ksFirst : bool) (ms : Z -> Z) (pBR pKS : gadget) brk ksk (bs bc n : nat) ssk gal (b : cbBuf) (ct : list Z) :
    option (list (list (list (list Z))) * cbBuf) :=
  match forN 0 ((g_level pOut + C - 1) / C) (fun q s => match s with None => None | Some b => cbGroup mm ksFirst ms pBR pKS brk ksk bs bc n ssk gal ct (q * C) b end) (Some b) with
  | None => None
  | Some b => Some (map (map (map (fwdFFT w))) (cb_ggsw b), b)
  end.

(** circuit_bootstrap_key.go:42-52 GenCircuitBootstrapKey: the scheme-switching keys, then the trace keys.  ctOut of
    EncryptFFTGGSWPoly is a fresh ciphertext. *)
Definition GenSchemeSwitchKey (U G : nat -> Z) (sk fsk : list (list Z)) (buf : list (list Z)) (st : rst) : list (list (list (list (list Z)))) * (list (list Z) * rst) :=
  forN 0 k (fun i s =>
    let '(o, (buf, st)) := s in
    let '(g, (buf, st)) := EncryptFFTGGSWPolyTo w (Z.of_nat logN) N k U G fsk pSS buf (repeat (repeat (repeat (repeat 0 N) (S k)) (g_level pSS)) (S k)) (nth i sk []) st in
    (upd o i g, (buf, st))) (repeat [] k, (buf, st)).
Definition GenCircuitBootstrapKey (U G : nat -> Z) (sk fsk : list (list Z)) (buf : list (list Z)) (st : rst) :=
  let '(ssk, (buf, st)) := GenSchemeSwitchKey U G sk fsk buf st in
  match GenGaloisKeysForPack w N k logN U G sk fsk pT buf st with
  | None => None
  | Some (gal, r) => Some (ssk, gal, r)
  end.
End CB.
