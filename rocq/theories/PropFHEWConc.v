(** C45, continued: parallel generation of FHEW blind rotation keys. *)
From Coq Require Import Permutation.
From Verif Require Import Base NegaRing ModelNum SpecNum ModelVec ModelPoly SpecPoly ModelGadget SpecGadget ModelLWE SpecLWE ModelGLWE SpecGLWE ModelBoot SpecBoot ModelConc SpecConc ModelFHEW SpecFHEW ModelFHEWConc PfFHEWConc PropLWE PropBoot PropFHEW.

(** xtfhe's GenBlindRotateKeyParallel with any number of workers, any samplers with noise at most E, any schedule: the monomial product
    never fails, every run is finite, some step is possible until all workers have returned, and then every entry has been generated exactly
    once and the key encrypts the monomials X^s of the sequential one (mono_keys is the specification of FHEWGenBlindRotateKey). *)
Theorem C45_fhew_blind_rotate_key : forall w N k n, 0 < w -> 1 <= n <= 30 -> Z.of_nat N = 2 ^ n -> forall sk p, gadget_ok w p -> skey N k sk ->
  (forall i, (i < k)%nat -> wpoly w N (nth i sk [])) -> forall logN (U G : nat -> nat -> Z) E, 0 < splitBitsShort logN -> (forall t i, Z.abs (G t i) <= E) -> forall lwe c,
  let work := fhewJob w logN N k U G (map (fwdFFT w) sk) sk lwe p in let start := fhewPool N k c (length lwe) (g_level p) in
  (forall b j, (j <= k)%nat -> fhewMessage w N sk b j <> None) /\
  (forall es s, prun [] work start es = Some s ->
    (length es <= 2 * (length lwe * S k) + c + 1)%nat /\ (pfinal s \/ exists e s', pstep [] work s e = Some s')) /\
  ((0 < c)%nat -> forall es s, prun [] work start es = Some s -> pfinal s ->
    Permutation (map fst (p_log s)) (jobsOf (length lwe) (S k)) /\ NoDup (map fst (p_log s)) /\ mono_keys w N k p sk lwe (p_mem s) E).
Proof. exact fhew_parallel. Qed.
Print Assumptions C45_fhew_blind_rotate_key.
(** Rank 2, key word -1: two runs of two jobs on two workers. *)
Example C45_fhew_ex : forall es, es = [EHand 0; EHand 1; EDone 1; EClose; EDone 0; EExit 0; EExit 1]%nat \/ es = [EHand 1; EDone 1; EHand 1; EClose; EExit 0; EDone 1; EExit 1]%nat ->
  exists s, prun [] (fhewJob 32 1 2 1 (fun t => exU) (fun t => exG) [fwdFFT 32 [1; 1]] [[1; 1]] [2 ^ 32 - 1] exgad) (fhewPool 2 1 2 1 3) es = Some s /\ pfinal s /\
    mono_keys 32 2 1 exgad [[1; 1]] [2 ^ 32 - 1] (p_mem s) 3.
Proof.
  intros es Hes.
  destruct (fhew_parallel 32 2 1 1 ltac:(lia) ltac:(lia) eq_refl [[1; 1]] exgad exgad_ok) with (logN := 1) (U := fun _ : nat => exU) (G := fun _ : nat => exG) (E := 3) (lwe := [2 ^ 32 - 1]) (c := 2%nat) as (_ & _ & F).
  - split; [reflexivity|]. intros i Hi. assert (i = 0)%nat as -> by lia. reflexivity.
  - intros i Hi. assert (i = 0)%nat as -> by lia. split; [reflexivity|]. repeat (apply Forall_cons; [unfold uword; cbn; lia|]); apply Forall_nil.
  - reflexivity.
  - intros t. exact exG_bound.
  - specialize (F ltac:(lia) es). change (length [2 ^ 32 - 1]) with 1%nat in F. cbn [g_level exgad] in F.
    assert (X : exists s, prun [] (fhewJob 32 1 2 1 (fun t => exU) (fun t => exG) [fwdFFT 32 [1; 1]] [[1; 1]] [2 ^ 32 - 1] exgad) (fhewPool 2 1 2 1 3) es = Some s /\ pfinal s).
    { destruct Hes as [-> | ->]; (eexists; split; [vm_compute; reflexivity|]); intros [|[|t]] c E; cbn in E; try (injection E as <-; reflexivity); destruct t; discriminate. }
    destruct X as (s & X1 & X2). exists s. split; [exact X1|]. split; [exact X2|]. apply (F s X1 X2).
Qed.
