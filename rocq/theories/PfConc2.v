(** Parallel key generation. *)
From Coq Require Import Permutation.
From Verif Require Import Base NegaRing ModelNum SpecNum PfNum ModelVec ModelPoly SpecPoly ModelGadget SpecGadget ModelEncoder ModelLWE SpecLWE PfLWE PfKS ModelGLWE SpecGLWE PfGLWE ModelBoot SpecBoot PfBoot4 ModelConc SpecConc PfConc.

Section W.
Variable w : Z.
Hypothesis Hw : 0 < w.
Notation Q := (2 ^ w).
Variables (U G : nat -> nat -> Z) (Eg : Z).
Hypothesis HG : forall t i, Z.abs (G t i) <= Eg.

(** ** Blind rotation keys *)
Section BRK.
Variable N : nat.
Hypothesis HN : (0 < N)%nat.
Variables (k : nat) (sk : list (list Z)) (p : gadget) (logN : Z).
Hypothesis Hok : gadget_ok w p.
Hypothesis HlN : 0 < splitBitsShort logN.
Hypothesis Hsk : skey N k sk.
Variable lwe : list Z.
Notation fsk := (map (fwdFFT w) sk).
Notation job := (brkJob w logN N k U G fsk sk lwe p).
Notation msg i j := (match j with O => pconst (nthZ lwe i) | S a => pmul (pconst (nthZ lwe i)) (pol N (nth a sk [])) end).
Definition brkGood (t i j : nat) (r : list (list (list Z))) : Prop :=
  exists e, glev_enc w N k p sk r (msg i j) e /\ forall b, (b < g_level p)%nat -> pbound Eg (e b).

Lemma brkJob_good t i j s r r' s' : (j <= k)%nat -> gshape N k (fst s) -> lshape N k p r -> job t i j s r = (r', s') -> brkGood t i j r' /\ gshape N k (fst s').
Proof.
  intros Hj Hs Hr H. destruct s as (buf, st), s' as (buf', st').
  assert (EncryptFFTGLevPolyTo w logN N k (U t) (G t) fsk p buf r (brkMessage w N sk (nthZ lwe i) j) st = (r', (buf', st'))) as H' by exact H.
  destruct (brkMessage_spec w N HN k sk (U t) (G t) Hsk (nthZ lwe i) j Hj) as (M1 & M2).
  apply (EncryptFFTGLevPolyTo_spec w Hw N HN k sk logN HlN (U t) (G t) p Hok) in H'; [|assumption..]. destruct H' as (X & Y & _). split; [|exact Y].
  eexists. split; [eapply glev_enc_peq; [exact M2|exact X]|]. intros b Hb. cbv beta. pose proof (HG t O). apply noisep_bound; [exact HN| |lia]. intros; apply HG.
Qed.

Notation start c := (brkPool N k c (length lwe) (g_level p)).
Notation pr := (prun [] job).

Lemma start_mem : let mem0 := repeat (repeat (repeat (repeat (repeat 0 N) (S k)) (g_level p)) (S k)) (length lwe) in
  length mem0 = length lwe /\ forall i, (i < length lwe)%nat -> length (nth i mem0 []) = S k /\ forall j, (j < S k)%nat -> lshape N k p (entry [] mem0 i j).
Proof.
  cbv zeta. split; [apply repeat_length|]. intros i Hi. rewrite nth_repeat_lt by exact Hi. split; [apply repeat_length|]. intros j Hj. unfold entry. rewrite nth_repeat_lt by exact Hi. rewrite nth_repeat_lt by exact Hj.
  split; [apply repeat_length|]. intros a Ha. rewrite nth_repeat_lt by exact Ha. split; [apply repeat_length|]. intros b Hb. rewrite nth_repeat_lt by lia. apply repeat_length.
Qed.
Lemma zero_gshape : gshape N k (repeat (repeat 0 N) (S k)).
Proof. split; [apply repeat_length|]. intros i Hi. rewrite nth_repeat_lt by lia. apply repeat_length. Qed.

Lemma brk_work c t i j s r r' s' : (t < length (repeat (repeat (repeat 0%Z N) (S k), (0, 0)%nat) c))%nat -> (i < length lwe)%nat -> (j < S k)%nat ->
  gshape N k (fst s) -> lshape N k p r -> job t i j s r = (r', s') -> brkGood t i j r' /\ gshape N k (fst s').
Proof. intros _ _ Hj. apply brkJob_good. lia. Qed.
Lemma brk_inv c t s : nth_error (repeat (repeat (repeat 0 N) (S k), (0, 0)%nat) c) t = Some s -> gshape N k (fst s).
Proof. intros E. apply nth_error_In, repeat_spec in E. subst s. apply zero_gshape. Qed.

Lemma brk_parallel c : 
  (forall es s, pr (start c) es = Some s -> (length es <= 2 * (length lwe * S k) + c + 1)%nat /\ (pfinal s \/ exists e s', pstep [] job s e = Some s')) /\
  ((0 < c)%nat -> forall es s, pr (start c) es = Some s -> pfinal s ->
    Permutation (map fst (p_log s)) (jobsOf (length lwe) (S k)) /\ NoDup (map fst (p_log s)) /\
    exists e, brk_enc w N k p sk lwe (p_mem s) e /\ forall i a b, (i < length lwe)%nat -> (a <= k)%nat -> (b < g_level p)%nat -> pbound Eg (e i a b)).
Proof.
  split.
  - intros es s H. split.
    + apply pool_bound in H. rewrite repeat_length in H. exact H.
    + apply (pool_progress _ _ [] job (length lwe) (S k) (repeat (repeat (repeat 0 N) (S k), (0, 0)%nat) c) (repeat (repeat (repeat (repeat (repeat 0 N) (S k)) (g_level p)) (S k)) (length lwe)) (fun _ s => gshape N k (fst s)) (fun _ _ r => lshape N k p r) brkGood (brk_work c) (brk_inv c) start_mem es s H).
  - intros Hc es s H Hf.
    destruct (pool_final _ _ [] job (length lwe) (S k) (repeat (repeat (repeat 0 N) (S k), (0, 0)%nat) c) (repeat (repeat (repeat (repeat (repeat 0 N) (S k)) (g_level p)) (S k)) (length lwe)) (fun _ s => gshape N k (fst s)) (fun _ _ r => lshape N k p r) brkGood (brk_work c) (brk_inv c) start_mem es s H Hf) as (A & B & (C1 & C2) & D).
    { destruct c; [lia|discriminate]. }
    split; [exact A|]. split; [exact B|].
    assert (forall i, exists e : nat -> nat -> npoly N, (i < length lwe)%nat -> forall j, (j < S k)%nat -> glev_enc w N k p sk (entry [] (p_mem s) i j) (msg i j) (e j) /\ forall b, (b < g_level p)%nat -> pbound Eg (e j b)) as Hrow.
    { intros i. destruct (lt_dec i (length lwe)) as [Hi|]; [|exists (fun _ _ => pzero); intros; contradiction].
      assert (forall m, (m <= S k)%nat -> exists e : nat -> nat -> npoly N, forall j, (j < m)%nat -> glev_enc w N k p sk (entry [] (p_mem s) i j) (msg i j) (e j) /\ forall b, (b < g_level p)%nat -> pbound Eg (e j b)) as X.
      { induction m as [|m IH]; intros Hm; [exists (fun _ _ => pzero); intros; lia|]. destruct (IH ltac:(lia)) as (e & He). destruct (D i m Hi ltac:(lia)) as (t & _ & _ & (em & Hem)).
        exists (fun j => if Nat.eqb j m then em else e j). intros j Hj. destruct (Nat.eqb_spec j m) as [->|]; [exact Hem|]. apply He. lia. }
      destruct (X (S k) (le_n _)) as (e & He). exists e. intros _. exact He. }
    assert (forall m, exists e : nat -> nat -> nat -> npoly N, forall i, (i < m)%nat -> (i < length lwe)%nat -> forall j, (j < S k)%nat -> glev_enc w N k p sk (entry [] (p_mem s) i j) (msg i j) (e i j) /\ forall b, (b < g_level p)%nat -> pbound Eg (e i j b)) as Hall.
    { induction m as [|m (e & He)]; [exists (fun _ _ _ => pzero); intros; lia|]. destruct (Hrow m) as (em & Hem). exists (fun i => if Nat.eqb i m then em else e i). intros i Hi. destruct (Nat.eqb_spec i m) as [->|]; [exact Hem|]. apply He. lia. }
    destruct (Hall (length lwe)) as (e & He). exists e. split.
    + split; [exact C1|]. intros i Hi. split; [now apply C2|]. split; [apply (He i Hi Hi O); lia|]. intros a Ha. apply (He i Hi Hi (S a)). lia.
    + intros i a b Hi Ha Hb. apply (He i Hi Hi a); [lia|exact Hb].
Qed.
End BRK.

(** ** Key switching keys *)
Section KSK.
Variables (p : gadget) (lwe skIn : list Z).
Hypothesis Hok : gadget_ok w p.
Notation job := (kskJob w U G lwe skIn p).
Notation n := (length lwe).
Definition kskGood (t i j : nat) (r : list Z) : Prop :=
  exists e, lwe_ct w n r /\ eqm Q (phase lwe r) (nthZ skIn i * 2 ^ (w - (Z.of_nat j + 1) * g_logBase p) + e) /\ Z.abs e <= Eg.
Lemma kskJob_good t i j s r r' s' : (j < g_level p)%nat -> length r = S n -> job t i j s r = (r', s') -> kskGood t i j r'.
Proof.
  intros Hj L H. assert (EncryptLWEBody w (U t) (G t) lwe (upd r 0 (wrap w (Z.shiftl (nthZ skIn i) (LogBaseQ p j)))) s = (r', s')) as H'.
  { rewrite <- H. unfold kskJob, EncryptLWEBody. rewrite upd_length, nthZ_upd by lia. reflexivity. }
  apply (EncryptLWEBody_spec w Hw) in H'; [|now rewrite upd_length]. destruct H' as (A & B & _ & _). rewrite nthZ_upd in B by lia. cbn [Nat.eqb] in B.
  exists (G t (snd s)). split; [exact A|]. split; [|apply HG]. rewrite B, (shl_eqm w p Hok (U t) (G t)) by exact Hj. rewrite (LogBaseQ_eq w p Hok). reflexivity.
Qed.
Notation start c := (kskPool c n (length skIn) (g_level p)).
Notation pr := (prun [] job).
Lemma ksk_mem : let mem0 := repeat (repeat (repeat 0 (S n)) (g_level p)) (length skIn) in
  length mem0 = length skIn /\ forall i, (i < length skIn)%nat -> length (nth i mem0 []) = g_level p /\ forall j, (j < g_level p)%nat -> length (entry [] mem0 i j) = S n.
Proof.
  cbv zeta. split; [apply repeat_length|]. intros i Hi. rewrite nth_repeat_lt by exact Hi. split; [apply repeat_length|]. intros j Hj. unfold entry. rewrite nth_repeat_lt by exact Hi. rewrite nth_repeat_lt by exact Hj. apply repeat_length.
Qed.
Lemma ksk_parallel c :
  (forall es s, pr (start c) es = Some s -> (length es <= 2 * (length skIn * g_level p) + c + 1)%nat /\ (pfinal s \/ exists e s', pstep [] job s e = Some s')) /\
  ((0 < c)%nat -> forall es s, pr (start c) es = Some s -> pfinal s ->
    Permutation (map fst (p_log s)) (jobsOf (length skIn) (g_level p)) /\ NoDup (map fst (p_log s)) /\
    exists e, ksk_enc w p lwe skIn (p_mem s) e /\ forall i j, (i < length skIn)%nat -> (j < g_level p)%nat -> Z.abs (e i j) <= Eg).
Proof.
  assert (forall t i j s r r' s', (t < length (repeat (0, 0)%nat c))%nat -> (i < length skIn)%nat -> (j < g_level p)%nat -> True -> length r = S n -> job t i j s r = (r', s') -> kskGood t i j r' /\ True) as Hwk.
  { intros t i j s r r' s' _ _ Hj _ L E. split; [|exact I]. now apply (kskJob_good t i j s r r' s'). }
  split.
  - intros es s H. split.
    + apply pool_bound in H. rewrite repeat_length in H. exact H.
    + apply (pool_progress _ _ [] job (length skIn) (g_level p) (repeat (0, 0)%nat c) (repeat (repeat (repeat 0 (S n)) (g_level p)) (length skIn)) (fun _ _ => True) (fun _ _ r => length r = S n) kskGood Hwk (fun _ _ _ => I) ksk_mem es s H).
  - intros Hc es s H Hf.
    destruct (pool_final _ _ [] job (length skIn) (g_level p) (repeat (0, 0)%nat c) (repeat (repeat (repeat 0 (S n)) (g_level p)) (length skIn)) (fun _ _ => True) (fun _ _ r => length r = S n) kskGood Hwk (fun _ _ _ => I) ksk_mem es s H Hf) as (A & B & (C1 & C2) & D).
    { destruct c; [lia|discriminate]. }
    split; [exact A|]. split; [exact B|].
    assert (forall i m, (i < length skIn)%nat -> (m <= g_level p)%nat -> exists e : nat -> Z, forall j, (j < m)%nat -> lwe_ct w n (entry [] (p_mem s) i j) /\ eqm Q (phase lwe (entry [] (p_mem s) i j)) (nthZ skIn i * 2 ^ (w - (Z.of_nat j + 1) * g_logBase p) + e j) /\ Z.abs (e j) <= Eg) as Hrow.
    { intros i m Hi. induction m as [|m IH]; intros Hm; [exists (fun _ => 0); intros; lia|]. destruct (IH ltac:(lia)) as (e & He). destruct (D i m Hi ltac:(lia)) as (t & _ & _ & (em & Hem)).
      exists (fun j => if Nat.eqb j m then em else e j). intros j Hj. destruct (Nat.eqb_spec j m) as [->|]; [exact Hem|]. apply He. lia. }
    assert (forall m, (m <= length skIn)%nat -> exists e : nat -> nat -> Z, forall i j, (i < m)%nat -> (j < g_level p)%nat -> lwe_ct w n (entry [] (p_mem s) i j) /\ eqm Q (phase lwe (entry [] (p_mem s) i j)) (nthZ skIn i * 2 ^ (w - (Z.of_nat j + 1) * g_logBase p) + e i j) /\ Z.abs (e i j) <= Eg) as Hall.
    { induction m as [|m IH]; intros Hm; [exists (fun _ _ => 0); intros; lia|]. destruct (IH ltac:(lia)) as (e & He). destruct (Hrow m (g_level p) ltac:(lia) (le_n _)) as (em & Hem). exists (fun i => if Nat.eqb i m then em else e i). intros i j Hi. destruct (Nat.eqb_spec i m) as [->|]; [apply Hem|]. apply He. lia. }
    destruct (Hall (length skIn) (le_n _)) as (e & He). exists e. split.
    + split; [exact C1|]. intros i Hi. split; [now apply C2|]. intros j Hj. destruct (He i j Hi Hj) as (X & Y & _). split; [exact X|exact Y].
    + intros i j Hi Hj. apply (He i j Hi Hj).
Qed.
End KSK.
End W.
