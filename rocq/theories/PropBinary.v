(** Properties C35, C36: boolean gates, programs of gates, bit vectors. *)
From Verif Require Import Base NegaRing SpecNum ModelNum PfNum ModelVec ModelPoly ModelGadget SpecGadget ModelEncoder ModelLWE SpecLWE ModelParams ModelGLWE SpecGLWE ModelBoot SpecBoot PfBoot PfBoot4 ModelBinary SpecBinary PfBinary PropLWE PropGLWE PropBoot.

(** C35.  A fresh encryption of a boolean has the sampled error, and decrypts while the error is below Q/8. *)
Theorem C35_encrypt : forall w U G sk out m st ct' st', 3 <= w -> length out = S (length sk) -> EncryptLWEBoolTo w U G sk out m st = (ct', st') ->
  bool_enc w sk (Z.abs (G (snd st))) ct' m /\ st' = ((fst st + length sk)%nat, S (snd st)).
Proof. exact EncryptLWEBoolTo_spec. Qed.
Print Assumptions C35_encrypt.
Theorem C35_decrypt : forall w s B ct b, 3 <= w -> bool_enc w s B ct b -> B < 2 ^ (w - 3) -> DecryptLWEBool w s ct = b.
Proof. exact (fun w s B ct b Hw H HB => decryptBool w Hw s ct b B H HB). Qed.
Print Assumptions C35_decrypt.

(** NOT keeps the noise, in any register, also in place. *)
Theorem C35_NOT : forall w s B (st : store) out a v, 3 <= w -> length (st out) = S (length s) -> bool_enc w s B (st a) v ->
  let st' := NOTTo w (length s) st out a in bool_enc w s B (st' out) (negb v) /\ forall x, x <> out -> st' x = st x.
Proof. exact (fun w s B st out a v Hw H1 H2 => NOTTo_spec w Hw s B st out a v H1 H2). Qed.
Print Assumptions C35_NOT.

(** The six bootstrapped gates, both bootstrap orders (true: key switch first, ciphertexts under the large
    key), any registers, also out = a, b, or a = b, any old contents of out and of the buffers: the result
    encrypts the truth table with a noise that mentions only the keys. *)
Theorem C35_gate : forall w N k E p pKS sk s large brk ksk bs bc Ek Eks mu ms (order : bool) B, 3 <= w -> (0 < N)%nat ->
  boot_keys w N k E p pKS sk s large brk ksk bs bc Ek Eks -> ms_err w (Z.of_nat (E * N)) mu ms ->
  mu * (1 + zsum (length s) (nthZ s)) + 2 * extSlack E * 2 ^ w
    + 4 * Z.of_nat (E * N) * (2 ^ (w - 3) + 2 * B + (if order then ksNoise w pKS (length large - length s) Eks else 0)) < Z.of_nat (E * N) * 2 ^ w ->
  2 * B <= 2 ^ (w - 3) -> forall bufs g (st : store) o a b va vb, let key := if order then large else s in
  bufs_ok N k E (length s) bufs -> length (st o) = S (length key) -> bool_enc w key B (st a) va -> bool_enc w key B (st b) vb ->
  let st' := runGate w (length key) (bootSign w N k E order ms p pKS brk ksk bs bc (length s) bufs) g st o a b in
  bool_enc w key (brNoise w N k p bc (length s) Ek + (if order then 0 else ksNoise w pKS (length large - length s) Eks)) (st' o) (truth g va vb) /\
  forall x, x <> o -> st' x = st x.
Proof. exact ev_gate. Qed.
Print Assumptions C35_gate.

(** Any program of gates, of any length, evaluates the boolean program when the output noise of a gate is at
    most the input bound B: every register decrypts to its boolean value. *)
Theorem C35_program : forall w N k E p pKS sk s large brk ksk bs bc Ek Eks mu ms (order : bool) B, 3 <= w -> (0 < N)%nat ->
  boot_keys w N k E p pKS sk s large brk ksk bs bc Ek Eks -> ms_err w (Z.of_nat (E * N)) mu ms ->
  mu * (1 + zsum (length s) (nthZ s)) + 2 * extSlack E * 2 ^ w
    + 4 * Z.of_nat (E * N) * (2 ^ (w - 3) + 2 * B + (if order then ksNoise w pKS (length large - length s) Eks else 0)) < Z.of_nat (E * N) * 2 ^ w ->
  2 * B <= 2 ^ (w - 3) -> forall prog : list (instr * bootBufs), let key := if order then large else s in
  Forall (fun ib => bufs_ok N k E (length s) (snd ib)) prog ->
  brNoise w N k p bc (length s) Ek + (if order then 0 else ksNoise w pKS (length large - length s) Eks) <= B ->
  forall (st : store) v, (forall x, bool_enc w key B (st x) (v x)) ->
  let st' := runC w (length key) (map (fun ib => (fst ib, bootSign w N k E order ms p pKS brk ksk bs bc (length s) (snd ib))) prog) st in
  forall x, bool_enc w key B (st' x) (bprog (map fst prog) v x) /\ DecryptLWEBool w key (st' x) = bprog (map fst prog) v x.
Proof. exact ev_prog. Qed.
Print Assumptions C35_program.

(** Generated keys of PropBoot (rank 8, table 8, two ones in the LWE key): all hypotheses hold in both orders
    with B = 2^25 - 1 ... *)
Definition pbufs : bootBufs := (repeat (repeat 9 8) 1, bbuf, repeat 9 5, repeat 9 9).
Example C35_hyps : let B := brNoise 32 8 1 exgad 2 4 3 + ksNoise 32 exgad 4 3 in
  boot_keys 32 8 1 1 exgad exgad bsk bs4 (hd [] bsk) bbrk bksk 2 2 3 3 /\ ms_err 32 (Z.of_nat (1 * 8)) (2 ^ 32) (ModSwitch 32 8) /\ bufs_ok 8 1 1 4 pbufs /\ 0 <= B /\
  2 ^ 32 * (1 + zsum 4 (nthZ bs4)) + 2 * extSlack 1 * 2 ^ 32 + 4 * 8 * (2 ^ 29 + 2 * B + ksNoise 32 exgad 4 3) < 8 * 2 ^ 32 /\ 2 * B <= 2 ^ 29.
Proof.
  split; [apply bkeys; now left|]. split; [apply ms_err_exact; try lia; exists (2 ^ 28); reflexivity|].
  split; [|vm_compute; repeat split; discriminate].
  unfold bufs_ok, pbufs, boot_bufs. repeat split; try reflexivity; try (cbn; lia); intros i Hi; try (assert (i = 0 \/ i = 1)%nat as [-> | ->] by (cbn in Hi; lia); reflexivity); assert (i = 0)%nat as -> by (cbn in Hi; lia); reflexivity.
Qed.
(** ... and runs of the six gates on fresh ciphertexts give the truth tables in both orders, and so does
    NOT (a XOR (a AND b)) computed in place. *)
Definition bfresh (order : bool) (m : bool) (i : nat) : list Z :=
  let key := if order then hd [] bsk else bs4 in fst (EncryptLWEBoolTo 32 exU exG key (repeat 7 (S (length key))) m (20 + 10 * i, 40 + i)%nat).
Definition bgate (order : bool) (p : list instr) (va vb : bool) (r : nat) : bool :=
  let key := if order then hd [] bsk else bs4 in
  DecryptLWEBool 32 key (runC 32 (length key) (map (fun i => (i, bootSign 32 8 1 1 order (ModSwitch 32 8) exgad exgad bbrk bksk 2 2 4 pbufs)) p)
    (fun x => match x with 0%nat => bfresh order va 0 | 1%nat => bfresh order vb 1 | _ => repeat 7 (S (length key)) end) r).
Example C35_run : forallb (fun order => forallb (fun g => forallb (fun va => forallb (fun vb =>
    Bool.eqb (bgate order [IGate g 2 0 1] va vb 2) (truth g va vb)) [true; false]) [true; false]) [gAND; gNAND; gOR; gNOR; gXOR; gXNOR]) [true; false] = true.
Proof. vm_compute. reflexivity. Qed.
Example C35_chain : forallb (fun order => forallb (fun va => forallb (fun vb =>
    Bool.eqb (bgate order [IGate gAND 1 0 1; IGate gXOR 0 0 1; INot 0 0] va vb 0) (negb (xorb va (va && vb)))) [true; false]) [true; false]) [true; false] = true.
Proof. vm_compute. reflexivity. Qed.

(** C36.  Bit vectors, any int x and any length: what DecryptLWEBits returns is the int whose value is
    x mod 2^n, reduced to the 64-bit int range ... *)
Theorem C36_wrap : forall w U G sk x n st, 3 <= w -> (forall i, (i < n)%nat -> Z.abs (G (snd st + i)%nat) < 2 ^ (w - 3)) ->
  DecryptLWEBits w sk (EncryptLWEBits w U G sk x n st) = swrap 64 (x mod 2 ^ Z.of_nat n).
Proof. exact bits_roundtrip. Qed.
Print Assumptions C36_wrap.
(** ... so it is x mod 2^n up to 63 bits, and x itself from 64 bits on. *)
Theorem C36_roundtrip : forall w U G sk x n st, 3 <= w -> (forall i, (i < n)%nat -> Z.abs (G (snd st + i)%nat) < 2 ^ (w - 3)) -> (n <= 63)%nat ->
  DecryptLWEBits w sk (EncryptLWEBits w U G sk x n st) = x mod 2 ^ Z.of_nat n.
Proof. exact bits_roundtrip63. Qed.
Print Assumptions C36_roundtrip.
Theorem C36_full : forall w U G sk x n st, 3 <= w -> (forall i, (i < n)%nat -> Z.abs (G (snd st + i)%nat) < 2 ^ (w - 3)) -> (64 <= n)%nat -> - 2 ^ 63 <= x < 2 ^ 63 ->
  DecryptLWEBits w sk (EncryptLWEBits w U G sk x n st) = x.
Proof. exact bits_roundtrip64. Qed.
Print Assumptions C36_full.
(** The ciphertexts are the bits, least significant first, and decryption reads any such vector, whatever
    computed it. *)
Theorem C36_encrypt : forall w U G sk x n st B, 3 <= w -> (forall i, (i < n)%nat -> Z.abs (G (snd st + i)%nat) <= B) ->
  length (EncryptLWEBits w U G sk x n st) = n /\
  forall i, (i < n)%nat -> bool_enc w sk B (nth i (EncryptLWEBits w U G sk x n st) []) (Z.testbit x (Z.of_nat i)).
Proof. exact EncryptLWEBits_spec. Qed.
Print Assumptions C36_encrypt.
Theorem C36_decrypt : forall w sk cts B (b : nat -> bool), 3 <= w -> B < 2 ^ (w - 3) -> (forall i, (i < length cts)%nat -> bool_enc w sk B (nth i cts []) (b i)) ->
  DecryptLWEBits w sk cts = swrap 64 (zsum (length cts) (fun i => (if b i then 1 else 0) * 2 ^ Z.of_nat i)).
Proof. exact bits_decrypt. Qed.
Print Assumptions C36_decrypt.
Example C36_ex : DecryptLWEBits 32 exsk (EncryptLWEBits 32 exU exG exsk 1234 10 (2, 4)%nat) = 210 /\
  DecryptLWEBits 32 exsk (EncryptLWEBits 32 exU exG exsk (-1) 5 (2, 4)%nat) = 31 /\
  DecryptLWEBits 32 exsk (EncryptLWEBits 32 exU exG exsk (-5) 64 (2, 4)%nat) = -5 /\
  DecryptLWEBits 32 exsk (EncryptLWEBits 32 exU exG exsk (-5) 70 (2, 4)%nat) = -5.
Proof. vm_compute. repeat split. Qed.
(** Finding: with 64 bits the value of a negative x is not x modulo 2^64 (it cannot be: an int). *)
Theorem C36_64_bits_refuted : exists w U G sk x n st, 3 <= w /\ (forall i, Z.abs (G i) < 2 ^ (w - 3)) /\
  DecryptLWEBits w sk (EncryptLWEBits w U G sk x n st) <> x mod 2 ^ Z.of_nat n.
Proof.
  exists 32, exU, exG, exsk, (-5), 64%nat, (2, 4)%nat. split; [lia|]. split; [intros i; pose proof (exG_bound i); lia|].
  vm_compute. discriminate.
Qed.
Print Assumptions C36_64_bits_refuted.
