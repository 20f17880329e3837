(** Properties C06-C08: vector kernels, permutations, complex layout (math/vec). *)
From Verif Require Import Base ModelNum ModelVec SpecVec PfNum PfVec.

(** C06. For any element type and operation: the unrolled loop is the pointwise operation, for every
    length, for outputs that coincide with, are disjoint from, or start before the inputs; nothing
    outside the output window changes. *)
Theorem C06_kernel2 : forall (A : Type) (d : A) op m vOut v0 v1,
  valid m vOut -> valid m v0 -> valid m v1 ->
  no_forward_overlap vOut v0 -> no_forward_overlap vOut v1 ->
  slen v0 = slen vOut -> slen v1 = slen vOut -> (0 < slen vOut)%nat ->
  exists m', kernel2 d op m vOut v0 v1 = Some m' /\ pointwise d op vOut v0 v1 m m'.
Proof. exact @kernel2_spec. Qed.
Print Assumptions C06_kernel2.
Theorem C06_kernel1 : forall (A : Type) (d : A) op m vOut v0,
  valid m vOut -> valid m v0 -> no_forward_overlap vOut v0 ->
  slen v0 = slen vOut -> (0 < slen vOut)%nat ->
  exists m', kernel1 d op m vOut v0 = Some m' /\ pointwise d (fun o a _ => op o a) vOut v0 v0 m m'.
Proof. exact @kernel1_spec. Qed.
Print Assumptions C06_kernel1.

Theorem C06_AddTo : forall w m vOut v0 v1,
  valid m vOut -> valid m v0 -> valid m v1 -> no_forward_overlap vOut v0 -> no_forward_overlap vOut v1 ->
  slen v0 = slen vOut -> slen v1 = slen vOut -> (0 < slen vOut)%nat ->
  exists m', AddTo w m vOut v0 v1 = Some m' /\ pointwise 0 (fun _ a b => (a + b) mod 2 ^ w) vOut v0 v1 m m'.
Proof. exact AddTo_spec. Qed.
Print Assumptions C06_AddTo.
Theorem C06_SubTo : forall w m vOut v0 v1,
  valid m vOut -> valid m v0 -> valid m v1 -> no_forward_overlap vOut v0 -> no_forward_overlap vOut v1 ->
  slen v0 = slen vOut -> slen v1 = slen vOut -> (0 < slen vOut)%nat ->
  exists m', SubTo w m vOut v0 v1 = Some m' /\ pointwise 0 (fun _ a b => (a - b) mod 2 ^ w) vOut v0 v1 m m'.
Proof. exact SubTo_spec. Qed.
Print Assumptions C06_SubTo.
Theorem C06_MulTo : forall w m vOut v0 v1,
  valid m vOut -> valid m v0 -> valid m v1 -> no_forward_overlap vOut v0 -> no_forward_overlap vOut v1 ->
  slen v0 = slen vOut -> slen v1 = slen vOut -> (0 < slen vOut)%nat ->
  exists m', MulTo w m vOut v0 v1 = Some m' /\ pointwise 0 (fun _ a b => (a * b) mod 2 ^ w) vOut v0 v1 m m'.
Proof. exact MulTo_spec. Qed.
Print Assumptions C06_MulTo.
Theorem C06_MulAddTo : forall w m vOut v0 v1,
  valid m vOut -> valid m v0 -> valid m v1 -> no_forward_overlap vOut v0 -> no_forward_overlap vOut v1 ->
  slen v0 = slen vOut -> slen v1 = slen vOut -> (0 < slen vOut)%nat ->
  exists m', MulAddTo w m vOut v0 v1 = Some m' /\ pointwise 0 (fun o a b => (o + a * b) mod 2 ^ w) vOut v0 v1 m m'.
Proof. exact MulAddTo_spec. Qed.
Print Assumptions C06_MulAddTo.
Theorem C06_MulSubTo : forall w m vOut v0 v1,
  valid m vOut -> valid m v0 -> valid m v1 -> no_forward_overlap vOut v0 -> no_forward_overlap vOut v1 ->
  slen v0 = slen vOut -> slen v1 = slen vOut -> (0 < slen vOut)%nat ->
  exists m', MulSubTo w m vOut v0 v1 = Some m' /\ pointwise 0 (fun o a b => (o - a * b) mod 2 ^ w) vOut v0 v1 m m'.
Proof. exact MulSubTo_spec. Qed.
Print Assumptions C06_MulSubTo.
Theorem C06_ScalarMulTo : forall w m vOut v c,
  valid m vOut -> valid m v -> no_forward_overlap vOut v -> slen v = slen vOut -> (0 < slen vOut)%nat ->
  exists m', ScalarMulTo w m vOut v c = Some m' /\ pointwise 0 (fun _ a _ => (c * a) mod 2 ^ w) vOut v v m m'.
Proof. exact ScalarMulTo_spec. Qed.
Print Assumptions C06_ScalarMulTo.
Theorem C06_ScalarMulAddTo : forall w m vOut v c,
  valid m vOut -> valid m v -> no_forward_overlap vOut v -> slen v = slen vOut -> (0 < slen vOut)%nat ->
  exists m', ScalarMulAddTo w m vOut v c = Some m' /\ pointwise 0 (fun o a _ => (o + c * a) mod 2 ^ w) vOut v v m m'.
Proof. exact ScalarMulAddTo_spec. Qed.
Print Assumptions C06_ScalarMulAddTo.
Theorem C06_ScalarMulSubTo : forall w m vOut v c,
  valid m vOut -> valid m v -> no_forward_overlap vOut v -> slen v = slen vOut -> (0 < slen vOut)%nat ->
  exists m', ScalarMulSubTo w m vOut v c = Some m' /\ pointwise 0 (fun o a _ => (o - c * a) mod 2 ^ w) vOut v v m m'.
Proof. exact ScalarMulSubTo_spec. Qed.
Print Assumptions C06_ScalarMulSubTo.
Theorem C06_NegTo : forall w m vOut v,
  valid m vOut -> valid m v -> no_forward_overlap vOut v -> slen v = slen vOut ->
  exists m', NegTo w m vOut v = Some m' /\ pointwise 0 (fun _ a _ => (- a) mod 2 ^ w) vOut v v m m'.
Proof. exact NegTo_spec. Qed.
Print Assumptions C06_NegTo.
Theorem C06_Dot : forall w v0 v1, length v1 = length v0 -> 0 <= w ->
  exists r, Dot w v0 v1 = Some r /\ r = zsum (length v0) (fun i => nthZ v0 i * nthZ v1 i) mod 2 ^ w.
Proof. exact Dot_spec. Qed.
Print Assumptions C06_Dot.
Theorem C06_Fill : forall (A : Type) (v : list A) x, Fill v x = repeat x (length v).
Proof. exact @Fill_spec. Qed.
Print Assumptions C06_Fill.
Theorem C06_Equals : forall (A : Type) (eqb : A -> A -> bool), (forall a b, eqb a b = true <-> a = b) ->
  forall v0 v1, Equals eqb v0 v1 = true <-> v0 = v1.
Proof. exact @Equals_spec. Qed.
Print Assumptions C06_Equals.

(** Panics: exactly on length mismatch or a zero-capacity argument. *)
Theorem C06_panics : forall (A : Type) (d : A) op m vOut v0 v1,
  kernel2 d op m vOut v0 v1 = None <->
  (slen v0 <> slen vOut \/ slen v1 <> slen vOut \/ scap vOut = 0 \/ scap v0 = 0 \/ scap v1 = 0)%nat.
Proof. exact @kernel2_panics. Qed.
Print Assumptions C06_panics.

(** An 11-element vector added in place to an overlapping later window. *)
Definition C06_m : list Z := map Z.of_nat (seq 0 20).
Definition C06_out := {| soff := 1; slen := 11; scap := 19 |}.
Definition C06_in := {| soff := 5; slen := 11; scap := 15 |}.
Example C06_case : valid C06_m C06_out /\ valid C06_m C06_in /\ no_forward_overlap C06_out C06_in /\
  AddTo 4 C06_m C06_out C06_out C06_in = Some [0;6;8;10;12;14;0;2;4;6;8;10;12;13;14;15;16;17;18;19].
Proof. split; [vm_compute; lia|]. split; [vm_compute; lia|]. split; [left; vm_compute; lia|vm_compute; reflexivity]. Qed.

(** Finding: the package comment allows overlap "in most cases"; an output starting inside an input
    is not pointwise. *)
Theorem C06_forward_overlap_refuted : exists m vOut v m',
  valid m vOut /\ valid m v /\ slen v = slen vOut /\ AddTo 32 m vOut v v = Some m' /\
  ~ pointwise 0 (fun _ a b => (a + b) mod 2 ^ 32) vOut v v m m'.
Proof.
  exists [1;1;1], {| soff := 1; slen := 2; scap := 2 |}, {| soff := 0; slen := 2; scap := 3 |}, [1;2;4].
  split; [vm_compute; lia|]. split; [vm_compute; lia|]. split; [reflexivity|]. split; [vm_compute; reflexivity|].
  intros (_ & H & _). specialize (H 1%nat ltac:(vm_compute; lia)). vm_compute in H. discriminate H.
Qed.
Print Assumptions C06_forward_overlap_refuted.
(** Finding: the kernels panic on empty vectors (asm_vec.go takes the address of element 0). *)
Theorem C06_empty_refuted : exists vOut, slen vOut = 0%nat /\ AddTo 32 [] vOut vOut vOut = None.
Proof. exists {| soff := 0; slen := 0; scap := 0 |}. split; reflexivity. Qed.
Print Assumptions C06_empty_refuted.

(** C07. *)
Theorem C07_RotateTo : forall (A : Type) (d : A) vOut v l, length vOut = length v -> (0 < length v)%nat ->
  exists v', RotateTo vOut v l = Some v' /\ rotated d l v v'.
Proof. exact @RotateTo_spec. Qed.
Print Assumptions C07_RotateTo.
Theorem C07_RotateInPlace : forall (A : Type) (d : A) v l, (0 < length v)%nat ->
  exists v', RotateInPlace d v l = Some v' /\ rotated d l v v'.
Proof. exact @RotateInPlace_spec. Qed.
Print Assumptions C07_RotateInPlace.
Theorem C07_rotated_unique : forall (A : Type) (d : A) l v v1 v2, (0 < length v)%nat ->
  rotated d l v v1 -> rotated d l v v2 -> v1 = v2.
Proof. exact @rotated_unique. Qed.
Print Assumptions C07_rotated_unique.
Theorem C07_ReverseInPlace : forall (A : Type) (d : A) v, ReverseInPlace d v = rev v.
Proof. exact @ReverseInPlace_spec. Qed.
Print Assumptions C07_ReverseInPlace.
Theorem C07_ReverseTo : forall (A : Type) (d : A) vOut v, length v = length vOut -> ReverseTo d vOut v = Some (rev v).
Proof. exact @ReverseTo_spec. Qed.
Print Assumptions C07_ReverseTo.
Theorem C07_BitReverse : forall (A : Type) (d : A) k v, length v = (2 ^ k)%nat ->
  exists v', BitReverseInPlace d v = Ok v' /\ length v' = length v /\
    forall i, (i < length v)%nat -> nth i v' d = nth (bitrev k i) v d.
Proof. exact @BitReverseInPlace_spec. Qed.
Print Assumptions C07_BitReverse.
Theorem C07_bitrev_meaning : forall k i, is_bitrev k i (bitrev k i).
Proof. exact bitrev_spec. Qed.
Print Assumptions C07_bitrev_meaning.
Theorem C07_bitrev_involutive : forall k i, (i < 2 ^ k)%nat -> bitrev k (bitrev k i) = i.
Proof. exact bitrev_involutive. Qed.
Print Assumptions C07_bitrev_involutive.
Example C07_case : RotateTo [0;0;0;0;0] [1;2;3;4;5] (-7) = Some [3;4;5;1;2] /\
  RotateInPlace 0 [1;2;3;4;5] (-7) = Some [3;4;5;1;2] /\ RotateInPlace 0 [1;2;3] (-3) = Some [1;2;3] /\
  BitReverseInPlace 0 [0;1;2;3;4;5;6;7] = Ok [0;4;2;6;1;5;3;7].
Proof. vm_compute. repeat split. Qed.
(** Finding: on a length that is not a power of two the loop does not terminate (length 3: after
    i = 1, j = 1, the inner loop reaches j = bit = 0 and spins for ever, whatever the fuel). *)
Theorem C07_BitReverse_diverges_refuted : forall fuel, br_inner fuel 1 1 = OutOfFuel.
Proof. intros [|fuel]; [reflexivity|]. exact (br_inner_diverges fuel). Qed.
Print Assumptions C07_BitReverse_diverges_refuted.

(** C08. *)
Theorem C08_roundtrip : forall (F : Type) (f0 : F) v vOut1 vOut2, (length v mod 4 = 0)%nat ->
  length vOut1 = (2 * length v)%nat -> length vOut2 = length v ->
  exists o, CmplxToFloat4To f0 vOut1 v = Some o /\ Float4ToCmplxTo f0 vOut2 o = Some v.
Proof. exact @float4_roundtrip. Qed.
Print Assumptions C08_roundtrip.
Theorem C08_roundtrip_back : forall (F : Type) (f0 : F) v vOut1 vOut2, (length v mod 8 = 0)%nat ->
  (length vOut1 * 2 = length v)%nat -> length vOut2 = length v ->
  exists o, Float4ToCmplxTo f0 vOut1 v = Some o /\ CmplxToFloat4To f0 vOut2 o = Some v.
Proof. exact @float4_roundtrip'. Qed.
Print Assumptions C08_roundtrip_back.
Theorem C08_layout : forall (F : Type) (f0 : F) vOut v, (length v mod 4 = 0)%nat -> length vOut = (2 * length v)%nat ->
  exists o, CmplxToFloat4To f0 vOut v = Some o /\ length o = (2 * length v)%nat /\
    forall e, (e < length v)%nat ->
      nth (8 * (e / 4) + e mod 4) o f0 = fst (nth e v (f0, f0)) /\
      nth (8 * (e / 4) + e mod 4 + 4) o f0 = snd (nth e v (f0, f0)).
Proof. exact @CmplxToFloat4To_spec. Qed.
Print Assumptions C08_layout.
Example C08_case : CmplxToFloat4To 0 (repeat 9 8) [(1,2);(3,4);(5,6);(7,8)] = Some [1;3;5;7;2;4;6;8].
Proof. vm_compute. reflexivity. Qed.
