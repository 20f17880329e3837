(** Specification: FwdFFTTo, InvFFTTo, InvFFTAddTo and InvFFTSubTo (math/poly/fft.go:18-23, 136-200) as sequences of kernel calls on
    the memory, with T = uint32 or uint64. *)
From Coq Require Import Floats.SpecFloat.
From Verif Require Import Base ModelNum ModelAsm ModelAsmInt ModelAsmFlt ModelF64 ModelAsmFold SpecAsm SpecAsmFold ModelFFT ModelF64Arith ModelFusedMul SpecAsmFlt SpecFused.
Open Scope Z_scope.

(** The words p are folded into fp and transformed there; the table [tw] is the Evaluator's.  Nothing else changes. *)
Definition avx_forward (w : Z) (kn : prog) : Prop := forall cexp s fp p tw k e, let A := f64Arith cexp in
  fold_call s fp p (w / 8) -> fft_call A s fp tw k -> cvals A (mm s) tw = e_tw A e ->
  terminates F64 (mkEnv (frameTU fp 8 p (w / 8)) foldData) kn s (fun m1 => forall s1, mm s1 = m1 ->
    terminates F64 (mkEnv (frame2 fp tw) noData) fwdFFTInPlaceAVX2 s1
      (becomes A fp (avxFwd cexp e false w (fvals A (mm s) fp) (ivals (mm s) p)) (mm s))).

(** The floats fp (the buffer that fft.go copies the transform to) are transformed back in place, reduced in place and unfolded
    into the words p.  fp is overwritten, p becomes [avxInv], nothing else changes. *)
Definition avx_inverse (w : Z) (kn : prog) (kd : option bool) : Prop := forall cexp s fp p twi k e, let A := f64Arith cexp in
  fold_call s fp p (w / 8) -> fft_call A s fp twi k -> cvals A (mm s) twi = e_twInv A e ->
  List.Forall (fun c => valid_binary 53 1024 (fst c) = true /\ valid_binary 53 1024 (snd c) = true) (e_twInv A e) ->
  terminates F64 (mkEnv (frame2c fp twi 8 (ModelAsm.WF (avxScale (Z.to_nat (gn fp))))) noData) invFFTInPlaceAVX2 s (fun m1 => forall s1, mm s1 = m1 ->
    terminates F64 (mkEnv (frameQ fp (pow2F w) (goInv (pow2F w))) foldData) floatModQInPlaceAVX2 s1 (fun m2 => forall s2, mm s2 = m2 ->
      terminates F64 (mkEnv (frameTU p (w / 8) fp 8) foldData) kn s2 (fun m3 =>
        becomes A fp (avxInvv cexp e w (fvals A (mm s) fp)) (mm s) m2 /\
        window p (fun j => ModelAsm.WI (nthZ (avxInv cexp e kd false w (ivals (mm s) p) (fvals A (mm s) fp)) (Z.to_nat j))) m2 m3))).
