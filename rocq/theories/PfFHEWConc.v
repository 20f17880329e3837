(** Parallel generation of FHEW blind rotation keys. *)
From Coq Require Import Permutation.
From Verif Require Import Base NegaRing ModelNum SpecNum PfNum ModelVec ModelPoly SpecPoly ModelGadget SpecGadget ModelLWE SpecLWE ModelGLWE SpecGLWE PfGLWE ModelBoot SpecBoot ModelConc SpecConc PfConc PfConc2 ModelFHEW SpecFHEW PfFHEW6 ModelFHEWConc.

Section Par.
Variables (w : Z) (N k : nat) (n : Z).
Hypothesis Hw : 0 < w.
Hypothesis Hn : 1 <= n <= 30.
Hypothesis HNn : Z.of_nat N = 2 ^ n.
Variables (sk : list (list Z)) (p : gadget).
Hypothesis Hok : gadget_ok w p.
Hypothesis Hsk : skey N k sk.
Hypothesis Hwk : forall i, (i < k)%nat -> wpoly w N (nth i sk []).
Variables (logN : Z) (U G : nat -> nat -> Z) (E : Z).
Hypothesis HlN : 0 < splitBitsShort logN.
Hypothesis HG : forall t i, Z.abs (G t i) <= E.
Variable lwe : list Z.
Notation fsk := (map (fwdFFT w) sk).
Notation job := (fhewJob w logN N k U G fsk sk lwe p).
Notation good := (fun _ i j r => exists e, row_ok w N k sk p E (swrap w (nthZ lwe i)) j r e).
Notation ws c := (repeat (repeat (repeat 0 N) (S k), (0, 0)%nat) c).
Notation mem0 := (repeat (repeat (repeat (repeat (repeat 0 N) (S k)) (g_level p)) (S k)) (length lwe)).
Notation start c := (fhewPool N k c (length lwe) (g_level p)).
Notation pr := (prun [] job).

Local Lemma Npos : (0 < N)%nat.
Proof. assert (0 < 2 ^ n) by (apply Z.pow_pos_nonneg; lia). lia. Qed.
Lemma fhew_work c t i j s r r' s' : (t < length (ws c))%nat -> (i < length lwe)%nat -> (j < S k)%nat ->
  gshape N k (fst s) -> lshape N k p r -> job t i j s r = (r', s') -> good t i j r' /\ gshape N k (fst s').
Proof.
  intros _ _ Hj Hs Hr H. pose proof (HG t O).
  destruct (fhewRow_spec w N k n Hw Hn HNn sk p Hok Hsk Hwk logN (U t) (G t) E HlN ltac:(lia) (HG t) (swrap w (nthZ lwe i)) j r (fst s) (snd s) ltac:(lia) Hs Hr) as (row' & buf' & st' & e & E1 & E2 & E3).
  unfold fhewJob in H. rewrite E1 in H. injection H as <- <-. split; [exists e; exact E3|exact E2].
Qed.
Lemma fhew_inv c t s : nth_error (ws c) t = Some s -> gshape N k (fst s).
Proof. intros X. apply nth_error_In, repeat_spec in X. subst s. exact (zero_gshape U G E HG N Npos k). Qed.
Lemma fhew_mem : length mem0 = length lwe /\ forall i, (i < length lwe)%nat -> length (nth i mem0 []) = S k /\ forall j, (j < S k)%nat -> lshape N k p (entry [] mem0 i j).
Proof. exact (start_mem U G E HG N Npos k p lwe). Qed.

Lemma fhew_parallel c :
  (forall b j, (j <= k)%nat -> fhewMessage w N sk b j <> None) /\
  (forall es s, pr (start c) es = Some s -> (length es <= 2 * (length lwe * S k) + c + 1)%nat /\ (pfinal s \/ exists e s', pstep [] job s e = Some s')) /\
  ((0 < c)%nat -> forall es s, pr (start c) es = Some s -> pfinal s ->
    Permutation (map fst (p_log s)) (jobsOf (length lwe) (S k)) /\ NoDup (map fst (p_log s)) /\ mono_keys w N k p sk lwe (p_mem s) E).
Proof.
  split; [|split].
  - intros b j Hj X. destruct (fhewMessage_spec w N k n Hw Hn HNn sk Hwk (U O) (G O) E (HG O) b j Hj) as (pt & Y & _). congruence.
  - intros es s H. split.
    + apply pool_bound in H. rewrite repeat_length in H. exact H.
    + apply (pool_progress _ _ [] job (length lwe) (S k) (ws c) mem0 (fun _ s => gshape N k (fst s)) (fun _ _ r => lshape N k p r) good (fhew_work c) (fhew_inv c) fhew_mem es s H).
  - intros Hc es s H Hf.
    destruct (pool_final _ _ [] job (length lwe) (S k) (ws c) mem0 (fun _ s => gshape N k (fst s)) (fun _ _ r => lshape N k p r) good (fhew_work c) (fhew_inv c) fhew_mem es s H Hf) as (A & B & (C1 & C2) & D).
    { destruct c; [lia|discriminate]. }
    split; [exact A|]. split; [exact B|]. split; [exact C1|]. intros i Hi.
    destruct (choice_fun (fun _ => pzero) (fun a e => row_ok w N k sk p E (swrap w (nthZ lwe i)) a (nth a (nth i (p_mem s) []) []) e) (S k)) as (e & He).
    { intros a Ha. destruct (D i a Hi Ha) as (t & _ & _ & X). exact X. }
    exists e. split.
    + split; [exact (C2 i Hi)|]. split; [exact (proj1 (He O ltac:(lia)))|]. intros a Ha. exact (proj1 (He (S a) ltac:(lia))).
    + intros a b Ha Hb. exact (proj2 (He a ltac:(lia)) b Hb).
Qed.
End Par.
