(** A model of the x86-64 / AVX2 subset used by the generated assembly of /repo:
    math/vec/asm_vec_amd64.s, tfhe/asm_decompose_amd64.s, math/poly/asm_vec_cmplx_amd64.s,
    math/poly/asm_fft_amd64.s, math/poly/asm_fold_amd64.s.  Operands are in the order of the Go
    assembler (sources first, destination last).  No proofs in this file.

    Memory is a set of disjoint blocks (allocations); block b is an array of elements of [esz b]
    bytes.  A pointer is a block and a byte offset.  Every access must fall on whole elements
    inside its block, otherwise the machine faults: a theorem that a kernel ends without fault is
    also a statement of memory safety.  Floating point lanes have an abstract type with operations
    [fops]; bit patterns are exposed by [fbits]/[fofbits].  Simplifications: only comparisons set
    flags (no kernel branches on the flags of an arithmetic instruction, and the model faults if
    one did); alignment is irrelevant because all vector moves are unaligned ones. *)
From Coq Require Import String.
From Verif Require Import Base ModelNum.
Import ListNotations.
Open Scope string_scope.
Open Scope Z_scope.

Inductive reg := AX | CX | DX | BX | SI | DI | R8 | R9 | R10 | R11 | R12.
Definition rid (r : reg) : nat :=
  match r with AX => 0 | CX => 1 | DX => 2 | BX => 3 | SI => 4 | DI => 5 | R8 => 6 | R9 => 7 | R10 => 8 | R11 => 9 | R12 => 10 end%nat.

(** Operands: a general register, an immediate, an argument slot off(FP), a constant sym(SB), a memory operand disp(base) or
    disp(base)(index*scale), a 256-bit or a 128-bit vector register. *)
Inductive opnd :=
  | R (r : reg) | I (z : Z) | FP (o : Z) | SB (s : string)
  | M (disp : Z) (b : reg) | MI (disp : Z) (b i : reg) (s : Z)
  | Y (n : nat) | X (n : nat).

Inductive op :=
  | MOVQ | MOVL | ADDQ | SUBQ | IMULQ | ADDL | SUBL | IMULL | XORQ | SHRQ | SHLQ | CMPQ
  | VMOVDQU | VMOVUPD | VPBROADCASTD | VPBROADCASTQ | VBROADCASTSD
  | VPADDD | VPSUBD | VPMULLD | VPSRLVD | VPADDQ | VPSUBQ | VPMULUDQ | VPSRLVQ
  | VPAND | VANDPD | VORPD | VPXOR | VXORPD
  | VPSLLD | VPSRLD | VPSLLQ | VPSRLQ | VPSHUFD | VPBLENDD | VPBLENDVB
  | VADDPD | VSUBPD | VMULPD | VFMADD231PD | VFNMADD231PD | VFMADDSUB231PD | VADDSUBPD | VHADDPD | VSHUFPD
  | VROUNDPD | VCVTDQ2PD | VCVTPD2DQY.

Inductive instr :=
  | Ins (o : op) (args : list opnd)
  | JMP (l : string) | JL (l : string) | JLE (l : string) | JGE (l : string) | RET.

(** A function is a list of labelled blocks; control falls through from one to the next. *)
Definition prog := list (string * list instr).

Record fops (A : Type) := mkFops {
  fadd : A -> A -> A; fsub : A -> A -> A; fmul : A -> A -> A;
  ffma : A -> A -> A -> A;       (* ffma a b c = a * b + c, one rounding *)
  ffms : A -> A -> A -> A;       (* a * b - c *)
  ffnma : A -> A -> A -> A;      (* - (a * b) + c *)
  fround : A -> A;               (* to the nearest integral value, ties to even *)
  fbits : A -> Z; fofbits : Z -> A;
  fofint : Z -> A;               (* from a signed 32-bit integer *)
  ftoint : A -> Z                (* to a signed 32-bit integer, as a word *)
}.
Arguments fadd {A}. Arguments fsub {A}. Arguments fmul {A}. Arguments ffma {A}. Arguments ffms {A}. Arguments ffnma {A}.
Arguments fround {A}. Arguments fbits {A}. Arguments fofbits {A}. Arguments fofint {A}. Arguments ftoint {A}.

Section Machine.
Context {A : Type}.
Variable F : fops A.

(** A memory element or the content of a general register: an integer, a pointer or a float. *)
Inductive word := WI (z : Z) | WP (b : nat) (o : Z) | WF (a : A).
(** A vector register: 8 double words (least significant first) or 4 floats. *)
Inductive yval := YI (l : list Z) | YF (l : list A).

Record mem := mkMem { esz : nat -> Z; getm : nat -> Z -> option word }.
Record state := mkSt { rg : reg -> word; vr : nat -> yval; fl : option (Z * Z); mm : mem }.
(** Arguments: the frame gives size and content of the slot at an offset; the constants are 64-bit patterns. *)
Record env := mkEnv { frame : Z -> option (Z * word); data : string -> option Z }.
Variable E : env.

Definition putm (m : mem) (b : nat) (i : Z) (v : word) : mem :=
  mkMem (esz m) (fun b' i' => if Nat.eqb b' b && (i' =? i) then Some v else getm m b' i').
Definition setr (s : state) (r : reg) (v : word) : state :=
  mkSt (fun r' => if Nat.eqb (rid r') (rid r) then v else rg s r') (vr s) (fl s) (mm s).
Definition setvr (s : state) (n : nat) (v : yval) : state :=
  mkSt (rg s) (fun n' => if Nat.eqb n' n then v else vr s n') (fl s) (mm s).
Definition setfl (s : state) (f : option (Z * Z)) : state := mkSt (rg s) (vr s) f (mm s).
Definition setmm (s : state) (m : mem) : state := mkSt (rg s) (vr s) (fl s) m.

(** The address of a memory operand. *)
Definition addr (s : state) (o : opnd) : option (nat * Z) :=
  match o with
  | M d b => match rg s b with WP k p => Some (k, p + d) | _ => None end
  | MI d b i c => match rg s b, rg s i with WP k p, WI z => Some (k, p + swrap 64 z * c + d) | _, _ => None end
  | _ => None
  end.
(** One element of size n at an address. *)
Definition ldw (m : mem) (n : Z) (a : nat * Z) : option word :=
  let '(b, p) := a in if (esz m b =? n) && (p mod n =? 0) then getm m b (p / n) else None.
Definition stw (m : mem) (n : Z) (a : nat * Z) (v : word) : option mem :=
  let '(b, p) := a in
  if (esz m b =? n) && (p mod n =? 0) then match getm m b (p / n) with Some _ => Some (putm m b (p / n) v) | None => None end else None.
(** k consecutive elements. *)
Fixpoint ldn (m : mem) (b : nat) (i : Z) (k : nat) : option (list word) :=
  match k with
  | O => Some []
  | S k => match getm m b i, ldn m b (i + 1) k with Some x, Some l => Some (x :: l) | _, _ => None end
  end.
Fixpoint stn (m : mem) (b : nat) (i : Z) (l : list word) : option mem :=
  match l with
  | [] => Some m
  | x :: l => match getm m b i with Some _ => stn (putm m b i x) b (i + 1) l | None => None end
  end.

(** Double words and quad words. *)
Definition splitq (q : Z) : list Z := [q mod 2 ^ 32; q / 2 ^ 32].
Fixpoint joinq (l : list Z) : list Z := match l with a :: b :: l => a + 2 ^ 32 * b :: joinq l | _ => [] end.
Definition splitl (l : list Z) : list Z := flat_map splitq l.

Fixpoint allI (l : list word) : option (list Z) :=
  match l with [] => Some [] | WI z :: l => match allI l with Some r => Some (z :: r) | None => None end | _ => None end.
Fixpoint allF (l : list word) : option (list A) :=
  match l with [] => Some [] | WF z :: l => match allF l with Some r => Some (z :: r) | None => None end | _ => None end.

Definition asI (y : yval) : list Z := match y with YI l => l | YF l => splitl (map (fbits F) l) end.
Definition asF (y : yval) : list A := match y with YF l => l | YI l => map (fofbits F) (joinq l) end.

(** Vector loads and stores of n bytes (32 or 16). *)
Definition vld (m : mem) (n : Z) (a : nat * Z) : option yval :=
  let '(b, p) := a in
  if (esz m b =? 4) && (p mod 4 =? 0) then
    match ldn m b (p / 4) (Z.to_nat (n / 4)) with
    | Some l => match allI l with Some r => Some (YI r) | None => None end
    | None => None
    end
  else if (esz m b =? 8) && (p mod 8 =? 0) then
    match ldn m b (p / 8) (Z.to_nat (n / 8)) with
    | Some l =>
        match allI l with
        | Some r => Some (YI (splitl r))
        | None => match allF l with Some r => Some (YF r) | None => None end
        end
    | None => None
    end
  else None.
Definition vst (m : mem) (n : Z) (a : nat * Z) (y : yval) : option mem :=
  let '(b, p) := a in
  if (esz m b =? 4) && (p mod 4 =? 0) then
    stn m b (p / 4) (map WI (firstn (Z.to_nat (n / 4)) (asI y)))
  else if (esz m b =? 8) && (p mod 8 =? 0) then
    stn m b (p / 8)
      (firstn (Z.to_nat (n / 8)) (match y with YI l => map WI (joinq l) | YF l => map WF l end))
  else None.

(** Vector registers as operands; writing an X register clears the upper half. *)
Definition vget (s : state) (o : opnd) : option yval :=
  match o with
  | Y n => Some (vr s n)
  | X n => Some (match vr s n with YI l => YI (firstn 4 l) | YF l => YF (firstn 2 l) end)
  | _ => None
  end.
Definition vset (s : state) (o : opnd) (v : yval) : option state :=
  match o with
  | Y n => Some (setvr s n v)
  | X n => Some (setvr s n (match v with YI l => YI (l ++ repeat 0 4) | YF l => YF (l ++ repeat (fofbits F 0) 2) end))
  | _ => None
  end.
Definition vwidth (o : opnd) : Z := match o with X _ => 16 | _ => 32 end.

Fixpoint map2 {B C D} (f : B -> C -> D) (l : list B) (r : list C) : list D :=
  match l, r with x :: l, y :: r => f x y :: map2 f l r | _, _ => [] end.
Fixpoint map3 {B C D G} (f : B -> C -> D -> G) (l : list B) (r : list C) (t : list D) : list G :=
  match l, r, t with x :: l, y :: r, z :: t => f x y z :: map3 f l r t | _, _, _ => [] end.
(** f on lanes 0, 2, ..., g on lanes 1, 3, ... *)
Fixpoint altmap {B C} (f g : B -> C) (l : list B) : list C := match l with x :: l => f x :: altmap g f l | [] => [] end.
Definition bit (z : Z) (i : nat) : bool := Z.testbit z (Z.of_nat i).

(** Lane-wise integer operations, [a] the first and [b] the second operand: the result is b op a. *)
Definition dop (o : op) : option (Z -> Z -> Z) :=
  match o with
  | VPADDD => Some (fun a b => wrap 32 (b + a))
  | VPSUBD => Some (fun a b => wrap 32 (b - a))
  | VPMULLD => Some (fun a b => wrap 32 (b * a))
  | VPSRLVD => Some (fun a b => if a <? 32 then Z.shiftr b a else 0)
  | VPAND | VANDPD => Some (fun a b => Z.land b a)
  | VORPD => Some (fun a b => Z.lor b a)
  | VPXOR | VXORPD => Some (fun a b => Z.lxor b a)
  | _ => None
  end.
Definition qop (o : op) : option (Z -> Z -> Z) :=
  match o with
  | VPADDQ => Some (fun a b => wrap 64 (b + a))
  | VPSUBQ => Some (fun a b => wrap 64 (b - a))
  | VPMULUDQ => Some (fun a b => (b mod 2 ^ 32) * (a mod 2 ^ 32))
  | VPSRLVQ => Some (fun a b => if a <? 64 then Z.shiftr b a else 0)
  | _ => None
  end.
Definition fop2 (o : op) : option (A -> A -> A) :=
  match o with
  | VADDPD => Some (fun a b => fadd F b a)
  | VSUBPD => Some (fun a b => fsub F b a)
  | VMULPD => Some (fun a b => fmul F b a)
  | _ => None
  end.
(** Three-operand float operations on (a, b, destination). *)
Definition fop3 (o : op) : option (list A -> list A -> list A -> list A) :=
  match o with
  | VFMADD231PD => Some (map3 (fun a b d => ffma F b a d))
  | VFNMADD231PD => Some (map3 (fun a b d => ffnma F b a d))
  | VFMADDSUB231PD => Some (fun a b d => altmap (fun p => ffms F (fst (fst p)) (snd (fst p)) (snd p)) (fun p => ffma F (fst (fst p)) (snd (fst p)) (snd p)) (combine (combine b a) d))
  | VADDSUBPD => Some (fun a b _ => altmap (fun p => fsub F (fst p) (snd p)) (fun p => fadd F (fst p) (snd p)) (combine b a))
  | VHADDPD => Some (fun a b _ =>
      match a, b with
      | [a0; a1; a2; a3], [b0; b1; b2; b3] => [fadd F b0 b1; fadd F a0 a1; fadd F b2 b3; fadd F a2 a3]
      | _, _ => []
      end)
  | _ => None
  end.
Definition shuf (i : Z) (a b : list A) : list A :=
  match a, b with
  | [a0; a1], [b0; b1] => [if bit i 0 then b1 else b0; if bit i 1 then a1 else a0]
  | [a0; a1; a2; a3], [b0; b1; b2; b3] =>
      [if bit i 0 then b1 else b0; if bit i 1 then a1 else a0; if bit i 2 then b3 else b2; if bit i 3 then a3 else a2]
  | _, _ => []
  end.
(** Shifts of lanes by an immediate. *)
Definition shop (o : op) (c : Z) : option (list Z -> list Z) :=
  match o with
  | VPSLLD => Some (map (fun x => if c <? 32 then wrap 32 (Z.shiftl x c) else 0))
  | VPSRLD => Some (map (fun x => if c <? 32 then Z.shiftr x c else 0))
  | VPSLLQ => Some (fun l => splitl (map (fun x => if c <? 64 then wrap 64 (Z.shiftl x c) else 0) (joinq l)))
  | VPSRLQ => Some (fun l => splitl (map (fun x => if c <? 64 then Z.shiftr x c else 0) (joinq l)))
  | _ => None
  end.
(** Selection of double words in each half by 2-bit fields. *)
Definition pshufd (i : Z) (l : list Z) : list Z :=
  let f h := map (fun k => nth (h + Z.to_nat ((i / 2 ^ (2 * Z.of_nat k)) mod 4)) l 0) [0; 1; 2; 3]%nat in
  (f 0%nat ++ match l with _ :: _ :: _ :: _ :: _ :: _ => f 4%nat | _ => [] end)%list.
Definition pblendd (i : Z) (a b : list Z) : list Z :=
  map (fun p => if bit i (fst p) then fst (snd p) else snd (snd p)) (combine (seq 0 8) (combine a b)).
(** Byte-wise selection by the sign bits of the mask bytes. *)
Definition blendb (m a b : Z) : Z :=
  fold_right Z.add 0 (map (fun k => let w := 2 ^ (8 * Z.of_nat k) in
    (if Z.testbit m (8 * Z.of_nat k + 7) then (a / w) mod 256 else (b / w) mod 256) * w) [0; 1; 2; 3]%nat).

(** Source operands of general instructions, n bytes wide. *)
Definition src (s : state) (n : Z) (o : opnd) : option word :=
  match o with
  | R r => match rg s r with WI z => Some (WI (if n =? 4 then wrap 32 z else z)) | v => if n =? 8 then Some v else None end
  | I z => Some (WI (wrap 64 z))
  | FP p => match frame E p with Some (k, v) => if k =? n then Some v else None | None => None end
  | M _ _ | MI _ _ _ _ => match addr s o with Some a => ldw (mm s) n a | None => None end
  | _ => None
  end.
Definition dst (s : state) (n : Z) (o : opnd) (v : word) : option state :=
  match o with
  | R r => Some (setr s r v)
  | M _ _ | MI _ _ _ _ =>
      match addr s o with Some a => match stw (mm s) n a v with Some m => Some (setmm s m) | None => None end | None => None end
  | _ => None
  end.
(** Integer arithmetic destination op= source. *)
Definition arith (s : state) (n : Z) (f : Z -> Z -> Z) (a d : opnd) : option state :=
  match src s n a, src s n d with
  | Some (WI x), Some (WI y) => match dst s n d (WI (wrap (8 * n) (f y x))) with Some s => Some (setfl s None) | None => None end
  | _, _ => None
  end.
(** A broadcast source of n bytes: an integer or a float. *)
Definition bsrc (s : state) (n : Z) (o : opnd) : option word :=
  match o with
  | SB x => match data E x with Some z => Some (WI (z mod 2 ^ (8 * n))) | None => None end
  | FP _ | M _ _ | MI _ _ _ _ => src s n o
  | _ => None
  end.

Definition exec1 (s : state) (o : op) (args : list opnd) : option state :=
  match o, args with
  | MOVQ, [a; d] => match src s 8 a with Some v => dst s 8 d v | None => None end
  | MOVL, [a; d] => match src s 4 a with Some v => dst s 4 d v | None => None end
  | ADDQ, [a; d] => arith s 8 Z.add a d
  | SUBQ, [a; d] => arith s 8 Z.sub a d
  | IMULQ, [a; d] => arith s 8 Z.mul a d
  | ADDL, [a; d] => arith s 4 Z.add a d
  | SUBL, [a; d] => arith s 4 Z.sub a d
  | IMULL, [a; d] => arith s 4 Z.mul a d
  | SHRQ, [I c; d] => arith s 8 Z.shiftr (I c) d
  | SHLQ, [I c; d] => arith s 8 Z.shiftl (I c) d
  | XORQ, [R a; R d] =>
      if Nat.eqb (rid a) (rid d) then Some (setfl (setr s d (WI 0)) None) else arith s 8 Z.lxor (R a) (R d)
  | CMPQ, [a; b] =>
      match src s 8 a, src s 8 b with Some (WI x), Some (WI y) => Some (setfl s (Some (swrap 64 x, swrap 64 y))) | _, _ => None end
  | (VMOVDQU | VMOVUPD), [a; d] =>
      match a, d with
      | (M _ _ | MI _ _ _ _), _ => match addr s a with Some p => match vld (mm s) (vwidth d) p with Some v => vset s d v | None => None end | None => None end
      | _, (M _ _ | MI _ _ _ _) =>
          match vget s a, addr s d with Some v, Some p => match vst (mm s) (vwidth a) p v with Some m => Some (setmm s m) | None => None end | _, _ => None end
      | _, _ => None
      end
  | VPBROADCASTD, [a; d] => match bsrc s 4 a with Some (WI z) => vset s d (YI (repeat z 8)) | _ => None end
  | (VPBROADCASTQ | VBROADCASTSD), [a; d] =>
      match bsrc s 8 a with Some (WI z) => vset s d (YI (splitl (repeat z 4))) | Some (WF x) => vset s d (YF (repeat x 4)) | _ => None end
  | (VPADDD | VPSUBD | VPMULLD | VPSRLVD | VPAND | VANDPD | VORPD), [a; b; d] =>
      match dop o, vget s a, vget s b with Some f, Some x, Some y => vset s d (YI (map2 f (asI x) (asI y))) | _, _, _ => None end
  | (VPXOR | VXORPD), [Y a; Y b; Y d] =>
      if Nat.eqb a b then vset s (Y d) (YI (repeat 0 8))
      else match dop o, vget s (Y a), vget s (Y b) with Some f, Some x, Some y => vset s (Y d) (YI (map2 f (asI x) (asI y))) | _, _, _ => None end
  | (VPADDQ | VPSUBQ | VPMULUDQ | VPSRLVQ), [a; b; d] =>
      match qop o, vget s a, vget s b with
      | Some f, Some x, Some y => vset s d (YI (splitl (map2 f (joinq (asI x)) (joinq (asI y)))))
      | _, _, _ => None
      end
  | (VPSLLD | VPSRLD | VPSLLQ | VPSRLQ), [I c; a; d] =>
      match shop o c, vget s a with Some f, Some x => vset s d (YI (f (asI x))) | _, _ => None end
  | VPSHUFD, [I c; a; d] => match vget s a with Some x => vset s d (YI (pshufd c (asI x))) | None => None end
  | VPBLENDD, [I c; a; b; d] => match vget s a, vget s b with Some x, Some y => vset s d (YI (pblendd c (asI x) (asI y))) | _, _ => None end
  | VPBLENDVB, [m; a; b; d] =>
      match vget s m, vget s a, vget s b with Some k, Some x, Some y => vset s d (YI (map3 blendb (asI k) (asI x) (asI y))) | _, _, _ => None end
  | (VADDPD | VSUBPD | VMULPD), [a; b; d] =>
      match fop2 o, vget s a, vget s b with Some f, Some x, Some y => vset s d (YF (map2 f (asF x) (asF y))) | _, _, _ => None end
  | (VFMADD231PD | VFNMADD231PD | VFMADDSUB231PD | VADDSUBPD | VHADDPD), [a; b; d] =>
      match fop3 o, vget s a, vget s b, vget s d with
      | Some f, Some x, Some y, Some z => vset s d (YF (f (asF x) (asF y) (asF z)))
      | _, _, _, _ => None
      end
  | VSHUFPD, [I c; a; b; d] => match vget s a, vget s b with Some x, Some y => vset s d (YF (shuf c (asF x) (asF y))) | _, _ => None end
  | VROUNDPD, [I 0; a; d] => match vget s a with Some x => vset s d (YF (map (fround F) (asF x))) | None => None end
  | VCVTDQ2PD, [X a; Y d] => match vget s (X a) with Some x => vset s (Y d) (YF (map (fun z => fofint F (swrap 32 z)) (asI x))) | None => None end
  | VCVTPD2DQY, [Y a; X d] => match vget s (Y a) with Some x => vset s (X d) (YI (map (ftoint F) (asF x))) | None => None end
  | _, _ => None
  end.

(** Straight-line execution of a block. *)
Inductive res := Next (s : state) | Goto (l : string) (s : state) | Done (s : state) | Fault.
Definition branch (s : state) (c : Z -> Z -> bool) (l : string) (k : state -> res) : res :=
  match fl s with Some (x, y) => if c x y then Goto l s else k s | None => Fault end.
Fixpoint ex (is : list instr) (s : state) : res :=
  match is with
  | [] => Next s
  | Ins o args :: is => match exec1 s o args with Some s => ex is s | None => Fault end
  | JMP l :: _ => Goto l s
  | JL l :: is => branch s Z.ltb l (ex is)
  | JLE l :: is => branch s Z.leb l (ex is)
  | JGE l :: is => branch s Z.geb l (ex is)
  | RET :: _ => Done s
  end.

(** Execution of a function; [sfx] is the rest of the block list. *)
Inductive outcome := OK (s : state) | Faulted | Timeout.
Fixpoint lookup (l : string) (p : prog) : prog :=
  match p with [] => [] | (n, b) :: q => if String.eqb l n then p else lookup l q end.
Fixpoint run (fuel : nat) (p : prog) (sfx : prog) (s : state) : outcome :=
  match fuel with
  | O => Timeout
  | S fuel =>
      match sfx with
      | [] => Faulted
      | (_, b) :: q =>
          match ex b s with
          | Next s => run fuel p q s
          | Goto l s => run fuel p (lookup l p) s
          | Done s => OK s
          | Fault => Faulted
          end
      end
  end.
End Machine.
Arguments word : clear implicits. Arguments yval : clear implicits. Arguments mem : clear implicits. Arguments state : clear implicits. Arguments env : clear implicits.
Arguments res : clear implicits. Arguments outcome : clear implicits.
