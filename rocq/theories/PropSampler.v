(** Properties C16, C17, C18 and C19: samplers. *)
From Verif Require Import Base ModelNum SpecNum ModelSampler SpecSampler PfSampler.

Definition exks (p : nat) : Z := (Z.of_nat p * 7 + 13 * (Z.of_nat p / 5)) mod 256.
Lemma exks_byte : forall p, byte (exks p).
Proof. intros p. apply Z.mod_pos_bound. reflexivity. Qed.
Definition b8 : 8%nat = 1%nat \/ 8%nat = 2%nat \/ 8%nat = 4%nat \/ 8%nat = 8%nat := or_intror (or_intror (or_intror eq_refl)).

(** The value of a call and the generator position and buffer offset afterwards. *)
Definition val {A} (o : outcome (A * ust)) : option (A * nat * nat) := match o with Ret (x, s) => Some (x, upos s, uptr s) | _ => None end.
Definition st8 : nat := Z.to_nat 8192.

(** ** C16
    [uinv ks q s]: the sampler is in the state reached after q bytes were used (see C17 for reachability). *)
Theorem C16_first_accepted : forall ks sg bs N fuel n s x s', (forall p, byte (ks p)) -> bs = 1%nat \/ bs = 2%nat \/ bs = 4%nat \/ bs = 8%nat -> 0 < N ->
  uinv ks (n * bs) s -> SampleN ks sg bs fuel N s = Ret (x, s') ->
  exists k, (k < fuel)%nat /\ (forall j, (j < k)%nat -> ~ accept (maxT sg bs) N (word bufSize ks sg bs (n + j))) /\
    accept (maxT sg bs) N (word bufSize ks sg bs (n + k)) /\ x = word bufSize ks sg bs (n + k) mod N /\ uinv ks ((n + S k) * bs) s'.
Proof. intros ks sg bs N fuel n s x s' Hk Hb HN. exact (SampleN_spec ks sg bs Hk Hb N fuel n s x s' HN). Qed.
Print Assumptions C16_first_accepted.
Theorem C16_range : forall ks sg bs N fuel n s x s', (forall p, byte (ks p)) -> bs = 1%nat \/ bs = 2%nat \/ bs = 4%nat \/ bs = 8%nat -> 0 < N ->
  uinv ks (n * bs) s -> SampleN ks sg bs fuel N s = Ret (x, s') -> 0 <= x < N.
Proof. exact SampleN_range. Qed.
Print Assumptions C16_range.
(** An accepted word within the fuel makes the call return; it never panics. *)
Theorem C16_returns : forall ks sg bs N fuel n s k, (forall p, byte (ks p)) -> bs = 1%nat \/ bs = 2%nat \/ bs = 4%nat \/ bs = 8%nat -> 0 < N ->
  uinv ks (n * bs) s -> (k < fuel)%nat -> accept (maxT sg bs) N (word bufSize ks sg bs (n + k)) -> exists r, SampleN ks sg bs fuel N s = Ret r.
Proof. intros ks sg bs N fuel n s k Hk Hb HN. exact (SampleN_total ks sg bs Hk Hb N fuel n s k HN). Qed.
Print Assumptions C16_returns.
(** Exactly maxT/N accepted words map to each value, whatever the value. *)
Theorem C16_uniform : forall biggest N v, 0 < N <= biggest -> 0 <= v < N ->
  0 < biggest / N /\ forall x, (accept biggest N x /\ x mod N = v) <-> exists i, 0 <= i < biggest / N /\ x = v + i * N.
Proof. exact accept_uniform'. Qed.
Print Assumptions C16_uniform.
(** More than half of the nonnegative words are accepted. *)
Theorem C16_accept_half : forall biggest N, 0 < N <= biggest -> biggest < 2 * (biggest - biggest mod N).
Proof. exact accept_half'. Qed.
Print Assumptions C16_accept_half.
Example ex_C16 : val (SampleN exks true 1 20 100 newUst) = Some (0, st8, 1%nat) /\ val (urun exks true 1 20 [UN 100; UN 100; UN 100; UN 50] newUst) = Some ([UNR 0; UNR 7; UNR 14; UNR 21], st8, 4%nat).
Proof. split; vm_compute; reflexivity. Qed.
Example ex_C16_rejects : accept (maxT false 1) 100 199 /\ ~ accept (maxT false 1) 100 200 /\ ~ accept (maxT true 1) 100 (-3).
Proof. unfold accept. vm_compute. repeat split; congruence || (intros (A & B); congruence). Qed.
Example ex_C16_inv : uinv exks (0 * 8) newUst.
Proof. exact (uinv_new exks). Qed.
Example ex_C16_zero : SampleN exks false 8 20 0 newUst = Panic.
Proof. reflexivity. Qed.

(** ** C17 *)
Theorem C17_history : forall ks sg bs fuel cs rs s', (forall p, byte (ks p)) -> bs = 1%nat \/ bs = 2%nat \/ bs = 4%nat \/ bs = 8%nat ->
  (forall N, In (UN N) cs -> 0 < N) -> urun ks sg bs fuel cs newUst = Ret (rs, s') ->
  exists n, history (maxT sg bs) (word bufSize ks sg bs) cs 0 rs n /\ (n * bs <= upos s' < n * bs + bufSize)%nat /\ exists R, upos s' = (R * bufSize)%nat.
Proof. exact fresh_history. Qed.
Print Assumptions C17_history.
(** Results are determined by the key stream bytes generated so far. *)
Theorem C17_reproducible : forall k1 k2 sg bs fuel cs s rs s', urun k1 sg bs fuel cs s = Ret (rs, s') ->
  (forall p, (p < upos s')%nat -> k1 p = k2 p) -> urun k2 sg bs fuel cs s = Ret (rs, s').
Proof. exact urun_agree. Qed.
Print Assumptions C17_reproducible.
(** Refilling by xor onto the old buffer is a bijection of byte streams: uniform key streams give uniform words. *)
Theorem C17_stream_injective : forall k1 k2 n, (forall p, (p < n)%nat -> stream bufSize k1 p = stream bufSize k2 p) -> forall p, (p < n)%nat -> k1 p = k2 p.
Proof. intros k1 k2 n. exact (stream_inj bufSize k1 k2 n bufSize_pos). Qed.
Print Assumptions C17_stream_injective.
Theorem C17_stream_surjective : forall t, (forall p, byte (t p)) -> exists ks, (forall p, byte (ks p)) /\ forall p, stream bufSize ks p = t p.
Proof. intros t. exact (stream_surj bufSize t bufSize_pos). Qed.
Print Assumptions C17_stream_surjective.
Example ex_C17 : val (urun exks false 4 10 [USample; UVec [0; 0]; UN 1000; USample] newUst) = Some ([UWord 353240832; UVecR [1043804188; 1734364229]; UNR 630; UWord 2896535191], st8, 20%nat).
Proof. vm_compute. reflexivity. Qed.
Example ex_C17_refill : match urun exks false 8 10 [UVec (repeat 0 (Z.to_nat 1023)); USample; USample] newUst with
  | Ret ([UVecR v; UWord a; UWord b], s) => Some (nthZ v 0, a, b, upos s, uptr s) | _ => None end = Some (4483104851241076480, 2819266586625962204, 5931924928762884654, (2 * st8)%nat, 8%nat).
Proof. vm_compute. reflexivity. Qed.

(** ** C18 *)
Theorem C18_binary : forall ks n s out, (forall p, byte (ks p)) -> uinv ks (n * 8) s ->
  exists s', BSampleVecTo ks out s = (tab (length out) (fun i => Z.b2z (Z.testbit (word bufSize ks false 8 (n + i / 64)) (Z.of_nat (i mod 64)))), s')
    /\ uinv ks ((n + (length out + 63) / 64) * 8) s'.
Proof. intros ks n s out Hk. exact (BSampleVecTo_spec ks Hk n s out). Qed.
Print Assumptions C18_binary.
Theorem C18_bit : forall ks n s, (forall p, byte (ks p)) -> uinv ks (n * 8) s ->
  exists s', BSample ks s = (Z.b2z (Z.testbit (word bufSize ks false 8 n) 0), s') /\ uinv ks (S n * 8) s'.
Proof. intros ks n s Hk. exact (BSample_spec ks Hk n s). Qed.
Print Assumptions C18_bit.
Theorem C18_blocks : forall ks fuel out bsz n s v s', (forall p, byte (ks p)) -> 0 < bsz < 2 ^ 63 -> uinv ks (n * 8) s ->
  SampleBlockVecTo ks fuel out bsz s = Ret (v, s') ->
  exists os n', nchain (word bufSize ks false 8) (bsz + 1) n os n' /\ uinv ks (n' * 8) s' /\ length v = length out /\ blocks (Z.to_nat bsz) os v.
Proof. intros ks fuel out bsz n s v s' Hk. exact (SampleBlockVecTo_spec ks Hk fuel out bsz n s v s'). Qed.
Print Assumptions C18_blocks.
Theorem C18_block_shape : forall ks fuel out bsz n s v s', (forall p, byte (ks p)) -> 0 < bsz < 2 ^ 63 -> uinv ks (n * 8) s ->
  SampleBlockVecTo ks fuel out bsz s = Ret (v, s') ->
  (forall i, (i < length v)%nat -> nthZ v i = 0 \/ nthZ v i = 1) /\
  (forall k i j, (k < length v / Z.to_nat bsz)%nat -> (i < Z.to_nat bsz)%nat -> (j < Z.to_nat bsz)%nat ->
     nthZ v (k * Z.to_nat bsz + i) = 1 -> nthZ v (k * Z.to_nat bsz + j) = 1 -> i = j).
Proof. exact SampleBlock_shape. Qed.
Print Assumptions C18_block_shape.
Theorem C18_block_panic : forall ks fuel out bsz s, (forall p, byte (ks p)) -> 0 <= bsz < 2 ^ 63 ->
  (SampleBlockVecTo ks fuel out bsz s = Panic <-> (bsz = 0 \/ Z.of_nat (length out) mod bsz <> 0)).
Proof. intros ks fuel out bsz s Hk. exact (SampleBlockVecTo_panic ks Hk fuel out bsz s). Qed.
Print Assumptions C18_block_panic.
(** With block size 1 every entry is the complement of a uniform bit. *)
Theorem C18_block_one : forall ks fuel out n s v s', (forall p, byte (ks p)) -> uinv ks (n * 8) s -> SampleBlockVecTo ks fuel out 1 s = Ret (v, s') ->
  exists os n', nchain (word bufSize ks false 8) 2 n os n' /\ length v = length out /\ length os = length out /\
    forall i, (i < length out)%nat -> nthZ v i = 1 - nthZ os i.
Proof. exact SampleBlock_one. Qed.
Print Assumptions C18_block_one.
Example ex_C18_binary : fst (BSampleVecTo exks [9; 9; 9; 9; 9; 9; 9; 9; 9; 9; 9] newUst) = [0; 0; 0; 0; 0; 0; 0; 0; 1; 1; 1].
Proof. vm_compute. reflexivity. Qed.
Example ex_C18_block : val (SampleBlockVecTo exks 10 [9; 9; 9; 9; 9; 9; 9; 9; 9] 3 newUst) = Some ([1; 0; 0; 0; 1; 0; 0; 0; 0], st8, 24%nat).
Proof. vm_compute. reflexivity. Qed.
Example ex_C18_panic : SampleBlockVecTo exks 10 [9; 9; 9; 9] 3 newUst = Panic.
Proof. reflexivity. Qed.

(** ** C19 *)
Theorem C19_value : forall table offset r, nondecreasing table -> CDTSample table offset r = offset + below table r.
Proof. exact CDTSample_eq. Qed.
Print Assumptions C19_value.
Theorem C19_monotone : forall table offset r r', nondecreasing table -> r <= r' -> CDTSample table offset r <= CDTSample table offset r'.
Proof. exact CDTSample_mono. Qed.
Print Assumptions C19_monotone.
(** Inside the table's interval whenever the word is below the last entry. *)
Theorem C19_range_partial : forall table offset r, nondecreasing table -> (0 < length table)%nat -> r < nthZ table (length table - 1) ->
  offset <= CDTSample table offset r <= offset + Z.of_nat (length table) - 1.
Proof. exact CDTSample_range. Qed.
Print Assumptions C19_range_partial.
(** Centre 0: the tail interval is respected, again for words below the last entry. *)
Theorem C19_tail_partial : forall cdf sd r, 0 <= sd -> (forall x y, x <= y -> cdf x <= cdf y) -> r < cdf (cdtHi 0 sd) ->
  let '(table, offset) := NewCDT cdf 0 sd in cdtLo 0 sd <= CDTSample table offset r <= cdtHi 0 sd.
Proof. exact NewCDT_range. Qed.
Print Assumptions C19_tail_partial.
(** Findings: the largest word leaves the table, and a nonzero centre is counted twice. *)
Theorem C19_range_refuted : exists table offset r, nondecreasing table /\ 0 <= r < 2 ^ 64 /\ nthZ table (length table - 1) = 2 ^ 64 - 1 /\
  offset + Z.of_nat (length table) - 1 < CDTSample table offset r.
Proof.
  exists [5; 2 ^ 64 - 1], (-1), (2 ^ 64 - 1). split; [|vm_compute; repeat split; congruence].
  intros [|[|i]] [|[|j]] H; cbn [length] in H; try (exfalso; lia); unfold nthZ; cbn [nth]; lia.
Qed.
Print Assumptions C19_range_refuted.
Theorem C19_center_refuted : exists center sd, 0 < sd /\ forall cdf r, let '(table, offset) := NewCDT cdf center sd in cdtHi center sd < CDTSample table offset r.
Proof. exists 100, 1. split; [reflexivity|]. intros cdf r. unfold NewCDT, CDTSample, cdtLo, cdtHi. match goal with |- context [Z.of_nat ?x] => pose proof (Nat2Z.is_nonneg x) end. lia. Qed.
Print Assumptions C19_center_refuted.
Example ex_C19 : map (CDTSample [3; 10; 10; 50] (-2)) [0; 3; 9; 10; 49] = [-2; -1; -1; 1; 1].
Proof. reflexivity. Qed.
