(** C74: the Gaussian sampler. *)
From Coq Require Import Floats.SpecFloat.
From Verif Require Import Base ModelNum ModelAsm ModelF64 ModelF64Arith ModelGauss SpecNum SpecRound SpecGauss PfRound PfGauss PfGauss2.
From Coq Require Import Reals Lra Lia.
Open Scope Z_scope.

(** uniformFloat is exact: 23 bits of the word, over 2^23. *)
Theorem C74_uniform : forall h, 0 <= h < 2 ^ 32 ->
  (h < 512 -> uniformFloat h = S754_zero false) /\ finF (uniformFloat h) /\ val (uniformFloat h) = (IZR (h / 512) * powerRZ 2 (-23))%R.
Proof. exact uniform_spec. Qed.
Print Assumptions C74_uniform.

(** Inverting the lowest bit of every word negates the sample and uses the same number of words: the distribution is symmetric. *)
Theorem C74_symmetric : forall lg ex s fuel pos,
  normFloat lg ex (fun n => flip (s n)) fuel pos = option_map (fun r => (SFopp (fst r), snd r)) (normFloat lg ex s fuel pos).
Proof. exact norm_flip. Qed.
Print Assumptions C74_symmetric.

Theorem C74_sample_symmetric : forall lg ex s sg w sd fuel pos, 0 <= w <= 64 ->
  sample1 lg ex (fun n => flip (s n)) sg w sd fuel pos = option_map (fun r => (twrap sg w (- fst r), snd r)) (sample1 lg ex s sg w sd fuel pos).
Proof. exact sample_flip. Qed.
Print Assumptions C74_sample_symmetric.

(** REFUTED: a sample can be infinite.  Two zero uniforms in the tail give x = y = +Inf, and Inf >= Inf ends the loop; as an
    unsigned 64-bit error it is 2^63, for every standard deviation. *)
Theorem C74_finite_refuted : exists s, (forall n, 0 <= s n < 2 ^ 32) /\ forall lg ex fuel m e, lg (S754_zero false) = S754_infinity true -> (2 <= fuel)%nat ->
  normFloat lg ex s fuel 0 = Some (S754_infinity false, 3%nat) /\
  Sample lg ex s false 64 (S754_finite false m e) fuel 0 = Some (Some (2 ^ 63, 3%nat)).
Proof.
  exists badStream. split; [intros [|n]; cbn [badStream]; lia|]. intros lg ex fuel m e H1 H2. split; [now apply infinite|now apply infinite_sample].
Qed.
Print Assumptions C74_finite_refuted.

(** With no two neighbouring zero uniforms, samples are finite and at most 8.2; scaled and rounded, at most 8.3 sd + 1. *)
Theorem C74_bounded : forall lg ex s, log_ok lg -> good_words s -> forall fuel pos x p,
  normFloat lg ex s fuel pos = Some (x, p) -> finF x /\ (Rabs (val x) <= 8.2)%R.
Proof. exact norm_bound. Qed.
Print Assumptions C74_bounded.

Theorem C74_sample_bounded : forall lg ex s, log_ok lg -> good_words s -> forall sg w sd fuel pos v p,
  finF sd -> (0 <= val sd <= powerRZ 2 59)%R -> sample1 lg ex s sg w sd fuel pos = Some (v, p) ->
  exists n, v = twrap sg w n /\ (Rabs (IZR n) <= 8.3 * val sd + 1)%R.
Proof. exact sample_bound. Qed.
Print Assumptions C74_sample_bounded.

Theorem C74_vectors : forall lg ex s, log_ok lg -> good_words s -> forall sg w sd fuel v pos v' p, 0 <= w -> finF sd -> (0 <= val sd <= powerRZ 2 59)%R ->
  (SampleVecTo lg ex s sg w sd fuel v pos = Some (Some (v', p)) ->
     length v' = length v /\ forall i, (i < length v)%nat -> exists n, (Rabs (IZR n) <= 8.3 * val sd + 1)%R /\ nthZ v' i = twrap sg w n) /\
  (SamplePolyAddTo lg ex s sg w sd fuel v pos = Some (Some (v', p)) ->
     length v' = length v /\ forall i, (i < length v)%nat -> exists n, (Rabs (IZR n) <= 8.3 * val sd + 1)%R /\ nthZ v' i = twrap sg w (nthZ v i + n)) /\
  (SamplePolySubTo lg ex s sg w sd fuel v pos = Some (Some (v', p)) ->
     length v' = length v /\ forall i, (i < length v)%nat -> exists n, (Rabs (IZR n) <= 8.3 * val sd + 1)%R /\ nthZ v' i = twrap sg w (nthZ v i - n)).
Proof. exact vec_all. Qed.
Print Assumptions C74_vectors.

(** A sample depends on the words from pos up to p only, and takes at least one; the entries of a vector take consecutive runs. *)
Theorem C74_words : forall lg ex s s' sg w sd fuel pos v p, sample1 lg ex s sg w sd fuel pos = Some (v, p) -> (pos < p)%nat /\
  ((forall n, (pos <= n < p)%nat -> s' n = s n) -> sample1 lg ex s' sg w sd fuel pos = Some (v, p)).
Proof. exact sample_words. Qed.
Print Assumptions C74_words.

Theorem C74_vector_words : forall lg ex s acc sg w sd fuel v pos v' p, sampleVec lg ex s acc sg w sd fuel v pos = Some (Some (v', p)) ->
  exists P : nat -> nat, P 0%nat = pos /\ P (length v) = p /\ length v' = length v /\ forall i, (i < length v)%nat -> exists e,
    sample1 lg ex s sg w sd fuel (P i) = Some (e, P (S i)) /\ (P i < P (S i))%nat /\ nthZ v' i = twrap sg w (acc (nthZ v i) e).
Proof. exact vec_words. Qed.
Print Assumptions C74_vector_words.

(** The tail is the first pair of words that passes 2y >= x^2. *)
Theorem C74_tail : forall lg s fuel pos x p, tailLoop lg s fuel pos = Some (x, p) ->
  exists n, p = (pos + 2 * n + 2)%nat /\ x = SFmul 53 1024 nrnInvC (lg (uniformFloat (s (pos + 2 * n)%nat))) /\
    tail_accept lg uniformFloat nrnInvC s (pos + 2 * n) /\ forall j, (j < n)%nat -> ~ tail_accept lg uniformFloat nrnInvC s (pos + 2 * j).
Proof. exact (fun lg => tail_first lg lg). Qed.
Print Assumptions C74_tail.

(** Sample panics exactly for a negative standard deviation. *)
Theorem C74_panics : forall lg ex s sg w sd fuel pos, finF sd -> (Sample lg ex s sg w sd fuel pos = None <-> (val sd < 0)%R).
Proof. exact panics. Qed.
Print Assumptions C74_panics.

(** The tables: a point accepted without a test lies left of the next narrower layer (for layer 0, left of the tail), ... *)
Theorem C74_layers : forall i u, 0 <= i < 128 -> 0 <= u < kn i ->
  if i =? 0 then (IZR u * val (wn 0) < val rnC)%R else 2 <= i /\ (IZR u * val (wn i) < 16777216 * val (wn (i - 1)))%R.
Proof. exact layers. Qed.
Print Assumptions C74_layers.

(** ... the layers widen as the density falls, ... *)
Theorem C74_monotone : forall i, 1 <= i < 128 -> (val (fn i) < val (fn (i - 1)))%R /\ (2 <= i -> (val (wn (i - 1)) < val (wn i))%R).
Proof. exact monotone. Qed.
Print Assumptions C74_monotone.

(** ... and all have the same area up to 1.2e-11. *)
Theorem C74_areas : forall i, 0 <= i < 128 ->
  (Rabs (16777216 * val (wn i) * (if (i =? 0)%Z then val (fn 127) else val (fn (i - 1)) - val (fn i)) - 0.00991256303526217) <= 0.000000000012)%R.
Proof. exact areas. Qed.
Print Assumptions C74_areas.

(** Non-vacuity: an admissible logarithm and stream, and samples from the body and from the tail. *)
Definition exLog (x : f64) : f64 := match x with S754_zero _ => S754_infinity true | _ => S754_finite true 4503599627370496 (-52) end.
Example C74_log : log_ok exLog.
Proof.
  split; [reflexivity|]. intros x F B. assert (H : exLog x = S754_finite true 4503599627370496 (-52)).
  { destruct x as [a|a| |a m e]; try contradiction; [|reflexivity]. cbn [val] in B. pose proof (pw_pos (-23)). lra. }
  rewrite H. split; [exact Logic.I|]. rewrite val_fin. cbn [sgR]. assert (E : (4503599627370496 * powerRZ 2 (-52) = 1)%R) by (change 4503599627370496%R with (IZR (2 ^ 52)); rewrite pw_IZR by lia; rewrite <- pw_add; reflexivity). lra.
Qed.
Definition exWords (n : nat) : Z := match n with O => 4294967041 | _ => 256011 end.
Example C74_stream : good_words exWords.
Proof. intros [|n]; cbn [exWords]; lia. Qed.
(** Word 4294967041 = (u = 2^24-1, layer 0, negative): the tail, one round, -(1/rn + rn). *)
Example C74_ex_tail : normFloat exLog (fun x => x) exWords 3 0 = Some (S754_finite true 8406185569728535 (-51), 3%nat).
Proof. vm_compute. reflexivity. Qed.
(** Word 256011 = (u = 1000, layer 5, negative): the body. *)
Example C74_ex_body : normFloat exLog (fun x => x) exWords 3 1 = Some (SFopp (SFmul 53 1024 (BN 1000 0 false) (wn 5)), 2%nat) /\
  sample1 exLog (fun x => x) exWords false 32 (BN 1000000 0 false) 3 0 = Some (2 ^ 32 - 3733096, 3%nat).
Proof. vm_compute. split; reflexivity. Qed.
Example C74_uniform_ex : uniformFloat (2 ^ 31 + 511) = BN 1 (-1) false.
Proof. vm_compute. reflexivity. Qed.
Example C74_ex_vec : SampleVecTo exLog (fun x => x) exWords false 32 (BN 1000000 0 false) 3 [5; 5] 0 = Some (Some ([2 ^ 32 - 3733096; 2 ^ 32 - 31], 4%nat)).
Proof. vm_compute. reflexivity. Qed.
