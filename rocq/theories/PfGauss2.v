(** Lemmas: which words the Gaussian sampler uses. *)
From Coq Require Import Floats.SpecFloat.
From Verif Require Import Base ModelNum ModelAsm ModelF64 ModelF64Arith ModelGauss SpecNum SpecGauss PfNum.
From Coq Require Import Lia.
Open Scope Z_scope.

Section Words.
Variables lg ex : f64 -> f64.
Lemma tail_words s s' fuel : forall pos x p, tailLoop lg s fuel pos = Some (x, p) -> (pos < p)%nat /\
  ((forall n, (pos <= n < p)%nat -> s' n = s n) -> tailLoop lg s' fuel pos = Some (x, p)).
Proof.
  induction fuel as [|fuel IH]; intros pos x p; [discriminate|]. cbn [tailLoop]. destruct (SFleb _ _) eqn:C.
  - intros [= <- <-]. split; [lia|]. intros H. rewrite !H by lia. rewrite C. reflexivity.
  - intros H. destruct (IH _ _ _ H) as [H1 H2]. split; [lia|]. intros E. rewrite !E by lia. rewrite C. apply H2. intros. apply E. lia.
Qed.
Lemma norm_words s s' fuel : forall pos x p, normFloat lg ex s fuel pos = Some (x, p) -> (pos < p)%nat /\
  ((forall n, (pos <= n < p)%nat -> s' n = s n) -> normFloat lg ex s' fuel pos = Some (x, p)).
Proof.
  induction fuel as [|fuel IH]; intros pos x p; [discriminate|]. cbn [normFloat]. destruct (Z.shiftr (s pos) 8 <? kn (Z.land (Z.shiftr (s pos) 1) 127)) eqn:C1.
  - intros [= <- <-]. split; [lia|]. intros H. rewrite !H by lia. rewrite C1. reflexivity.
  - destruct (Z.land (Z.shiftr (s pos) 1) 127 =? 0) eqn:C2.
    + destruct (tailLoop lg s fuel (S pos)) as [[x' p']|] eqn:T; [|discriminate]. intros [= <- <-]. destruct (tail_words s s' fuel _ _ _ T) as [T1 T2].
      split; [lia|]. intros H. rewrite !(H pos) by lia. rewrite C1, C2, T2; [reflexivity|]. intros. apply H. lia.
    + destruct (SFltb _ _) eqn:C3.
      * intros [= <- <-]. split; [lia|]. intros H. rewrite !(H pos), (H (S pos)) by lia. rewrite C1, C2, C3. reflexivity.
      * intros H. destruct (IH _ _ _ H) as [H1 H2]. split; [lia|]. intros E. rewrite !(E pos), (E (S pos)) by lia. rewrite C1, C2, C3. apply H2. intros. apply E. lia.
Qed.
Lemma sample_words s s' sg w sd fuel pos v p : sample1 lg ex s sg w sd fuel pos = Some (v, p) -> (pos < p)%nat /\
  ((forall n, (pos <= n < p)%nat -> s' n = s n) -> sample1 lg ex s' sg w sd fuel pos = Some (v, p)).
Proof.
  unfold sample1. destruct (normFloat lg ex s fuel pos) as [[x p']|] eqn:E; [|discriminate]. intros [= <- <-]. destruct (norm_words s s' fuel _ _ _ E) as [H1 H2].
  split; [exact H1|]. intros H. now rewrite (H2 H).
Qed.
Lemma tail_first s fuel : forall pos x p, tailLoop lg s fuel pos = Some (x, p) ->
  exists n, p = (pos + 2 * n + 2)%nat /\ x = SFmul 53 1024 nrnInvC (lg (uniformFloat (s (pos + 2 * n)%nat))) /\
    tail_accept lg uniformFloat nrnInvC s (pos + 2 * n) /\ forall j, (j < n)%nat -> ~ tail_accept lg uniformFloat nrnInvC s (pos + 2 * j).
Proof.
  induction fuel as [|fuel IH]; intros pos x p; [discriminate|]. cbn [tailLoop]. destruct (SFleb _ _) eqn:C.
  - intros [= <- <-]. exists 0%nat. rewrite Nat.mul_0_r, Nat.add_0_r. split; [lia|]. split; [reflexivity|]. split; [exact C|intros; lia].
  - intros H. destruct (IH _ _ _ H) as (n & H1 & H2 & H3 & H4). exists (S n). replace (pos + 2 * S n)%nat with (S (S pos) + 2 * n)%nat by lia. split; [lia|]. split; [exact H2|]. split; [exact H3|].
    intros [|j] Hj; [rewrite Nat.mul_0_r, Nat.add_0_r; unfold tail_accept; cbv zeta; rewrite C; discriminate|]. replace (pos + 2 * S j)%nat with (S (S pos) + 2 * j)%nat by lia. apply H4. lia.
Qed.
Lemma loop_words s acc sg w sd fuel : forall v pos v' p, sampleLoop lg ex s acc sg w sd fuel v pos = Some (v', p) ->
  exists P : nat -> nat, P 0%nat = pos /\ P (length v) = p /\ length v' = length v /\ forall i, (i < length v)%nat -> exists e,
    sample1 lg ex s sg w sd fuel (P i) = Some (e, P (S i)) /\ (P i < P (S i))%nat /\ nthZ v' i = twrap sg w (acc (nthZ v i) e).
Proof.
  induction v as [|x v IH]; intros pos v' p.
  - intros [= <- <-]. exists (fun _ => pos). repeat split. cbn [length]. intros; lia.
  - cbn [sampleLoop]. destruct (sample1 lg ex s sg w sd fuel pos) as [[e p1]|] eqn:E1; [|discriminate]. destruct (sampleLoop lg ex s acc sg w sd fuel v p1) as [[v1 p2]|] eqn:E2; [|discriminate].
    intros [= <- <-]. destruct (IH _ _ _ E2) as (P & H1 & H2 & H3 & H4). exists (fun n => match n with O => pos | S n => P n end). split; [reflexivity|]. split; [exact H2|]. split; [cbn [length]; lia|].
    intros [|i] Hi.
    + exists e. rewrite H1. split; [exact E1|]. split; [apply (sample_words s s _ _ _ _ _ _ _ E1)|reflexivity].
    + cbn [length] in Hi. destruct (H4 i ltac:(lia)) as (e' & G). exists e'. exact G.
Qed.
Lemma vec_words s acc sg w sd fuel v pos v' p : sampleVec lg ex s acc sg w sd fuel v pos = Some (Some (v', p)) ->
  exists P : nat -> nat, P 0%nat = pos /\ P (length v) = p /\ length v' = length v /\ forall i, (i < length v)%nat -> exists e,
    sample1 lg ex s sg w sd fuel (P i) = Some (e, P (S i)) /\ (P i < P (S i))%nat /\ nthZ v' i = twrap sg w (acc (nthZ v i) e).
Proof. unfold sampleVec. destruct (SFltb sd (S754_zero false)); [discriminate|]. intros [= H]. exact (loop_words s acc sg w sd fuel v pos v' p H). Qed.
End Words.
