(** Model of goroutines.  No proofs in this file.

    A goroutine is a program of single reads and writes of memory cells ([prog]); a schedule picks which goroutine makes
    the next memory access.  Every access is a separate step, so all interleavings of the loads and stores of the Go code
    are covered.  The Go memory model promises this sequentially consistent semantics to programs without data races;
    the theorems show that there are none.

    The pool of tfhe/bootstrap_keygen.go:57-104, 130-170 and xtfhe/fhew_bootstrap_keygen.go:82-161 is a transition
    system over its unbuffered channel, the workers and the wait group. *)
From Verif Require Import Base ModelNum ModelVec ModelPoly ModelGadget ModelEncoder ModelLWE ModelGLWE ModelBoot ModelMK.

(* ------------------------------------------------------------------ *)
(** ** Programs over a shared memory *)

Inductive prog (L V A : Type) : Type :=
| Ret (a : A)
| Rd (l : L) (k : V -> prog L V A)
| Wr (l : L) (v : V) (k : prog L V A).
Arguments Ret {L V A} a.
Arguments Rd {L V A} l k.
Arguments Wr {L V A} l v k.

Fixpoint bind {L V A B} (p : prog L V A) (f : A -> prog L V B) : prog L V B :=
  match p with
  | Ret a => f a
  | Rd l k => Rd l (fun v => bind (k v) f)
  | Wr l v k => Wr l v (bind k f)
  end.
(** for i := 0; i < n; i++ { f i } *)
Fixpoint seqFrom {L V} (lo n : nat) (f : nat -> prog L V unit) : prog L V unit :=
  match n with O => Ret tt | S n => bind (f lo) (fun _ => seqFrom (S lo) n f) end.
Definition seqN {L V} (n : nat) (f : nat -> prog L V unit) := seqFrom 0 n f.
(** The list of the values of f lo, ..., in this order. *)
Fixpoint rdFrom {L V A} (lo n : nat) (f : nat -> prog L V A) : prog L V (list A) :=
  match n with O => Ret [] | S n => bind (f lo) (fun a => bind (rdFrom (S lo) n f) (fun r => Ret (a :: r))) end.
Definition rdList {L V A} (n : nat) (f : nat -> prog L V A) := rdFrom 0 n f.
Definition rd1 {L V} (l : L) : prog L V V := Rd l (fun v => Ret v).
Definition wr1 {L V} (l : L) (v : V) : prog L V unit := Wr l v (Ret tt).
Definition rdVec {L V} (f : nat -> L) (n : nat) : prog L V (list V) := rdList n (fun t => rd1 (f t)).
Definition rdMat {L V} (f : nat -> nat -> L) (r n : nat) : prog L V (list (list V)) := rdList r (fun c => rdVec (f c) n).
Definition wrVec {L} (f : nat -> L) (n : nat) (v : list Z) : prog L Z unit := seqN n (fun t => wr1 (f t) (nthZ v t)).
Definition wrMat {L} (f : nat -> nat -> L) (r n : nat) (v : list (list Z)) : prog L Z unit := seqN r (fun c => wrVec (f c) n (nth c v [])).
(** copy: each element is read and written in turn. *)
Definition cpVec {L V} (dst src : nat -> L) (n : nat) : prog L V unit := seqN n (fun t => Rd (src t) (fun v => wr1 (dst t) v)).

Section Run.
Variables (L V : Type) (leq : forall a b : L, {a = b} + {a <> b}).
Definition mem := L -> V.
Definition mset (m : mem) (l : L) (v : V) : mem := fun x => if leq x l then v else m x.
(** One memory access. *)
Definition step1 {A} (p : prog L V A) (m : mem) : prog L V A * mem :=
  match p with
  | Ret a => (Ret a, m)
  | Rd l k => (k (m l), m)
  | Wr l v k => (k, mset m l v)
  end.
(** Running alone to the end. *)
Fixpoint solo {A} (p : prog L V A) (m : mem) : A * mem :=
  match p with
  | Ret a => (a, m)
  | Rd l k => solo (k (m l)) m
  | Wr l v k => solo k (mset m l v)
  end.
(** Running several under a schedule: each entry names the goroutine whose next access happens.  Entries that name a
    finished or an unknown goroutine do nothing. *)
Fixpoint runS {A} (ps : list (prog L V A)) (m : mem) (sched : list nat) : list (prog L V A) * mem :=
  match sched with
  | [] => (ps, m)
  | i :: s =>
    match nth_error ps i with
    | Some p => let '(p, m) := step1 p m in runS (upd ps i p) m s
    | None => runS ps m s
    end
  end.
End Run.
Arguments solo {L V} leq {A} p m.
Arguments runS {L V} leq {A} ps m sched.
Arguments step1 {L V} leq {A} p m.
Arguments mset {L V} leq m l v.

(* ------------------------------------------------------------------ *)
(** ** The worker pool *)

(** What a worker is doing: waiting for a job, working on one, or gone (wg.Done called). *)
Inductive wst := WIdle | WBusy (i j : nat) | WExit.
(** One step of the system.  [EHand t]: the feeder goroutine sends its next job and worker t receives it (the channel is
    unbuffered, so these are one step); [EDone t]: worker t finishes its job; [EClose]: the feeder closes the channel;
    [EExit t]: worker t sees the closed channel and calls wg.Done. *)
Inductive event := EHand (t : nat) | EDone (t : nat) | EClose | EExit (t : nat).

Section Pool.
(** S is a worker's private state (its encryptor copy), R a key entry; [work t i j s r] is the job body of worker t run on
    its state s and the old entry r. *)
Variables (St R : Type) (r0 : R).
Variable work : nat -> nat -> nat -> St -> R -> R * St.

Record pool := mkPool { p_todo : list (nat * nat); p_closed : bool; p_ws : list (wst * St); p_mem : list (list R); p_log : list (nat * nat * nat) }.
Definition entry (m : list (list R)) (i j : nat) : R := nth j (nth i m []) r0.
Definition store (m : list (list R)) (i j : nat) (r : R) : list (list R) := upd m i (upd (nth i m []) j r).
Definition pstep (s : pool) (e : event) : option pool :=
  match e with
  | EHand t =>
    match p_todo s, nth_error (p_ws s) t with
    | (i, j) :: rest, Some (WIdle, c) => Some (mkPool rest (p_closed s) (upd (p_ws s) t (WBusy i j, c)) (p_mem s) (p_log s))
    | _, _ => None
    end
  | EDone t =>
    match nth_error (p_ws s) t with
    | Some (WBusy i j, c) =>
      let '(r, c) := work t i j c (entry (p_mem s) i j) in
      Some (mkPool (p_todo s) (p_closed s) (upd (p_ws s) t (WIdle, c)) (store (p_mem s) i j r) (p_log s ++ [(i, j, t)]))
    | _ => None
    end
  | EClose =>
    match p_todo s, p_closed s with
    | [], false => Some (mkPool [] true (p_ws s) (p_mem s) (p_log s))
    | _, _ => None
    end
  | EExit t =>
    match p_closed s, nth_error (p_ws s) t with
    | true, Some (WIdle, c) => Some (mkPool (p_todo s) true (upd (p_ws s) t (WExit, c)) (p_mem s) (p_log s))
    | _, _ => None
    end
  end.
Fixpoint prun (s : pool) (es : list event) : option pool :=
  match es with
  | [] => Some s
  | e :: es => match pstep s e with Some s => prun s es | None => None end
  end.
(** The jobs in the feeder's order: for i < n, for j < m. *)
Definition jobsOf (n m : nat) : list (nat * nat) := flat_map (fun i => map (fun j => (i, j)) (seq 0 m)) (seq 0 n).
Definition pinit (n m : nat) (ss : list St) (mem0 : list (list R)) : pool := mkPool (jobsOf n m) false (map (fun s => (WIdle, s)) ss) mem0 [].
(** wg.Wait returns: every worker has called wg.Done. *)
Definition pfinal (s : pool) : Prop := forall t c, nth_error (p_ws s) t = Some c -> fst c = WExit.
(** Number of workers: num.Min(runtime.NumCPU(), num.Sqrt(workSize)). *)
Definition chunkCount (ncpu workSize : Z) : res Z :=
  match Sqrt workSize with Ok s => Ok (Z.min ncpu s) | r => r end.
End Pool.
Arguments p_todo {St R}.
Arguments p_closed {St R}.
Arguments p_ws {St R}.
Arguments p_mem {St R}.
Arguments p_log {St R}.
Arguments mkPool {St R}.
Arguments pstep {St R}.
Arguments prun {St R}.
Arguments pinit {St R}.
Arguments pfinal {St R}.
Arguments entry {R}.
Arguments store {R}.

(* ------------------------------------------------------------------ *)
(** ** tfhe/bootstrap_keygen.go, parallel versions *)

Section KeyGen.
Variables (w logN : Z) (N k : nat).
(** The samplers of worker t's encryptor copy (SafeCopy makes new ones). *)
Variables U G : nat -> nat -> Z.

(** 84-96: the body of job (i, j); the state is buf.ctGLWE and the number of samples drawn. *)
Definition brkJob (fsk sk : list (list Z)) (lwe : list Z) (p : gadget) (t i j : nat) (s : list (list Z) * rst) (row : list (list (list Z))) : list (list (list Z)) * (list (list Z) * rst) :=
  let pt := brkMessage w N sk (nthZ lwe i) j in
  forN 0 (g_level p) (fun l s =>
    let '(r, (buf, st)) := s in
    let '(b, st) := EncryptGLWEBody w logN N k (U t) (G t) fsk (upd buf 0 (vscale w (BaseQ w p l) pt)) st in
    (upd r l (FwdFFTGLWECiphertextTo w (nth l r []) b), (b, st))) (row, s).
(** 57-104 GenBlindRotateKeyParallel, up to the start of the goroutines: c workers on c copies of the encryptor. *)
Definition brkPool (c : nat) (n l : nat) : pool (list (list Z) * rst) (list (list (list Z))) :=
  pinit n (S k) (repeat (repeat (repeat 0 N) (S k), (0, 0)%nat) c) (repeat (repeat (repeat (repeat (repeat 0 N) (S k)) l) (S k)) n).
(** 158-162: the body of job (i, j). *)
Definition kskJob (lwe skIn : list Z) (p : gadget) (t i j : nat) (st : rst) (ct : list Z) : list Z * rst :=
  let b0 := wrap w (Z.shiftl (nthZ skIn i) (LogBaseQ p j)) in
  let '(mask, st) := sampleVec w (U t) (length ct - 1) st in
  let b1 := wrap w (b0 + wrap w (- dot w mask lwe)) in
  let '(e, st) := sampleG w (G t) st in
  (wrap w (b1 + e) :: mask, st).
(** 130-170 GenDefaultKeySwitchKeyParallel likewise. *)
Definition kskPool (c : nat) (n nIn l : nat) : pool rst (list Z) :=
  pinit nIn l (repeat (0, 0)%nat c) (repeat (repeat (repeat 0 (S n)) l) nIn).
End KeyGen.

(* ------------------------------------------------------------------ *)
(** ** mktfhe/bootstrap.go:109-139 BlindRotateParallelTo *)

(** The cells: the input ciphertext, the gadget tables, party i's blind rotation key, and party i's buffers ctRotateIn[i],
    ctAccs[i], ctFFTAccs[i] and those inside SubEvaluators[i]. *)
Inductive loc :=
| LCt (t : nat) | LLut (j t : nat) | LBrk (i a b c d t : nat)
| LRin (i t : nat) | LAcc (i c t : nat) | LFacc (i j c t : nat) | LSub (i t : nat).
Definition loc_dec (a b : loc) : {a = b} + {a <> b}.
Proof. decide equality; apply Nat.eq_dec. Defined.

Section Par.
Variables (w : Z) (N P : nat).
(** 118-127: the goroutine of party i.  The evaluator reads its input, table and key and the old accumulator, and writes the
    accumulator. *)
Definition goParty (ms : Z -> Z) (pa pBR : gadget) (bs bc n : nat) (acc0 : list (list Z)) (i : nat) : prog loc Z unit :=
  bind (wr1 (LRin i 0) 0) (fun _ =>
  bind (cpVec (fun t => LRin i (S t)) (fun t => LCt (1 + i * n + t)) n) (fun _ =>
  seqN (g_level pa) (fun j =>
    bind (rdVec (LRin i) (S n)) (fun c =>
    bind (rdVec (LLut j) N) (fun lut =>
    bind (rdList n (fun a => rdList 2 (fun b => rdList (g_level pBR) (fun c => rdMat (LBrk i a b c) 2 N)))) (fun brk =>
    bind (rdMat (LAcc i) 2 N) (fun acc =>
    bind (wrMat (LAcc i) 2 N (BlindRotateTo w N 1 1 ms pBR brk bs bc n acc0 acc c [lut])) (fun _ =>
    bind (rdMat (LFacc i j) 2 N) (fun f =>
    bind (rdMat (LAcc i) 2 N) (fun a =>
    wrMat (LFacc i j) 2 N (FwdFFTGLWECiphertextTo w f a))))))))))).
Definition goroutines (ms : Z -> Z) (pa pBR : gadget) (bm : list bool) (bs bc n : nat) (acc0s : list (list (list Z))) : list (prog loc Z unit) :=
  tab P (fun i => if active bm i then goParty ms pa pBR bs bc n (nth i acc0s []) i else Ret tt).
(** What the cells hold. *)
Definition memVec (m : mem loc Z) (f : nat -> loc) (n : nat) : list Z := tab n (fun t => m (f t)).
Definition memMat (m : mem loc Z) (f : nat -> nat -> loc) (r n : nat) : list (list Z) := tab r (fun c => memVec m (f c) n).
Definition memAccs (pa : gadget) (m : mem loc Z) (i : nat) : list (list (list Z)) := tab (g_level pa) (fun j => memMat m (LFacc i j) 2 N).
(** 110-112 before the goroutines start, 134-138 after wg.Wait; gs are the goroutines, m the memory when they start.  None: some goroutine
    has not finished, so wg.Wait still blocks. *)
Definition finished {A} (p : prog loc Z A) : bool := match p with Ret _ => true | _ => false end.
Definition BlindRotateParallelTo (gs : list (prog loc Z unit)) (ms : Z -> Z) (pa pr : gadget) (bm : list bool) (eks : list evalKey)
    (buf rbuf ctOut : list (list Z)) (ct lut0 : list Z) (m : mem loc Z) (sched : list nat) : option (list (list Z)) :=
  let out := gclear ctOut in
  let out := upd out 0 (MonomialMulPolyTo w N (nth 0 out []) lut0 (- ms (nthZ ct 0))) in
  let '(gs, m) := runS loc_dec gs m sched in
  if forallb finished gs then
    Some (forN 0 P (fun i out =>
      if active bm i then
        let ek := nth i eks noKey in
        MKExternalProdGLWETo w N P pa pr bm (map ek_crs eks) i (ek_u0 ek) (ek_u1 ek) buf rbuf (memAccs pa m i) out out
      else out) out)
  else None.
(** 65-77 BootstrapLUTParallelTo; m is the memory when the goroutines start. *)
Definition BootstrapLUTParallelTo (ksFirst : bool) (gs : list (prog loc Z unit)) (ms : Z -> Z) (pa pr pKS : gadget) (bm : list bool) (eks : list evalKey) (n : nat)
    (buf rbuf rotBuf : list (list Z)) (ksBuf extBuf ctOut ct : list Z) (lut : list (list Z)) (m : mem loc Z) (sched : list nat) : option (list Z) :=
  let br c := BlindRotateParallelTo gs ms pa pr bm eks buf rbuf rotBuf c (nth 0 lut []) m sched in
  if ksFirst then
    match br (MKDefaultKeySwitchTo w P n N pKS bm (map ek_ksk eks) ksBuf ct) with Some r => Some (AsLWECiphertextTo w N 0 ctOut r) | None => None end
  else
    match br ct with Some r => Some (MKDefaultKeySwitchTo w P n N pKS bm (map ek_ksk eks) ctOut (AsLWECiphertextTo w N 0 extBuf r)) | None => None end.
End Par.
