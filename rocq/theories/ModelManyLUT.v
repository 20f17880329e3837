(** xtfhe ManyLUT: several look-up tables in one blind rotation (xtfhe/manylut_bootstrap.go,
    manylut_params.go).  None is a run-time panic. *)
From Verif Require Import Base ModelNum ModelFloat ModelVec ModelPoly ModelGadget ModelEncoder ModelLWE ModelGLWE ModelBoot.

(** 85-103: fill the boxes.  yx x is the slice y in iteration x: entries below len(f) are overwritten in every
    iteration and the others stay zero.  The number of steps of [for xx := start; xx < end; xx += lutCount] is
    the rounded-up quotient (lutCount > 0). *)
Definition mlRow (C : nat) (f : list (Z -> Z)) (x : Z) : list Z := map (fun g => g x) f ++ repeat 0 (C - length f).
Definition mlFill (N C : nat) (mm : Z) (f : list (Z -> Z)) (lut : list Z) : option (list Z) :=
  forN 0 (Z.to_nat mm) (fun x r =>
    let start := DivRound (Z.of_nat x * Z.of_nat N) mm in
    let stop := DivRound ((Z.of_nat x + 1) * Z.of_nat N) mm in
    let y := mlRow C f (Z.of_nat x) in
    forN 0 (Z.to_nat ((stop - start + Z.of_nat C - 1) / Z.of_nat C)) (fun a r =>
      let xx := start + Z.of_nat a * Z.of_nat C in
      forN 0 C (fun i r => match r with None => None | Some lut => set_chk lut (xx + Z.of_nat i) (nthZ y i) end) r) r) (Some lut).
(** 82-109 GenLUTCustomFullTo; lut is lutOut.Value[0].Coeffs.  105-109 is the rotation of ModelBoot.lutRotate
    (bootstrap_lut.go:121-125) on the table itself. *)
Definition MLGenLUTCustomFullTo (w : Z) (N C : nat) (lut : list Z) (f : list (Z -> Z)) (mm : Z) : option (list Z) :=
  if Nat.ltb C (length f) then None
  else match mlFill N C mm f lut with None => None | Some lut => lutRotate w N mm lut end.
(** 59-69 GenLUTCustomTo. *)
Definition MLGenLUTCustomTo (w : Z) (N C : nat) (lut : list Z) (f : list (Z -> Z)) (mm scale : Z) : option (list Z) :=
  MLGenLUTCustomFullTo w N C lut (map (fun g x => EncodeLWECustom w (g x) mm scale) f) mm.

(** 159-161 ModSwitch. *)
Definition MLModSwitch (w logN logC x : Z) : Z := wrap w (Z.shiftl (DivRoundBits w x (w - logN - 1 + logC)) logC).

(** 171-178 BlindRotateTo.  182-269 (block and original) repeat tfhe/bootstrap.go:270-357 statement by statement
    with this ModSwitch, so the functions of ModelBoot are used. *)
Definition MLBlindRotateTo (w : Z) (N k : nat) (ms : Z -> Z) (p : gadget) (brk : list (list (list (list (list Z))))) (bs bc n : nat)
    (ctOut : list (list Z)) (ct lut : list Z) : list (list Z) :=
  if Nat.ltb 1 bs then blindRotateBlockTo w N k ms p brk bs bc ctOut ct lut else blindRotateOriginalTo w N k ms p brk n ctOut ct lut.

(** 141-156 BootstrapLUTTo. *)
Definition MLBootstrapLUTTo (w : Z) (N k C : nat) (ksFirst : bool) (ms : Z -> Z) (pBR pKS : gadget) (brk : list (list (list (list (list Z)))))
    (ksk : list (list (list Z))) (bs bc n : nat) (rotBuf : list (list Z)) (ksBuf extBuf : list Z) (ctOut : list (list Z)) (ct lut : list Z) : option (list (list Z)) :=
  if Nat.ltb (length ctOut) C then None
  else if ksFirst then
    let c := DefaultKeySwitchTo w n (k * N) pKS ksBuf ct ksk in
    let r := MLBlindRotateTo w N k ms pBR brk bs bc n rotBuf c lut in
    Some (forN 0 C (fun i o => upd o i (AsLWECiphertextTo w N i (nth i o []) r)) ctOut)
  else
    let r := MLBlindRotateTo w N k ms pBR brk bs bc n rotBuf ct lut in
    Some (snd (forN 0 C (fun i '(ext, o) =>
      let c := AsLWECiphertextTo w N i ext r in
      (c, upd o i (DefaultKeySwitchTo w n (k * N) pKS (nth i o []) c ksk))) (extBuf, ctOut))).
