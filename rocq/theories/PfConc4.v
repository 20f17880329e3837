(** Corollaries and concrete runs for the concurrency properties. *)
From Verif Require Import Base NegaRing ModelNum ModelVec ModelPoly ModelGadget ModelEncoder ModelLWE ModelGLWE ModelBoot ModelMK ModelConc ModelCopy.
From Verif Require Import SpecPoly SpecGadget SpecLWE SpecGLWE SpecBoot SpecMK SpecConc SpecCopy.
From Verif Require Import ModelMKBin PfConc PfConc2 PfConc3 PfCopy PfMK6 PfMK7.

Lemma isolated_tfhe :
  isolated PolyEvaluator_SafeCopy pe_ro pe_rw /\ isolated Decomposer_SafeCopy dc_ro dc_rw /\ isolated GLWETransformer_SafeCopy pe_ro pe_rw /\
  isolated Evaluator_SafeCopy ev_ro ev_rw /\ isolated Encryptor_SafeCopy en_ro en_rw /\ isolated PublicEncryptor_SafeCopy pu_ro pu_rw /\
  isolated BinaryEvaluator_SafeCopy be_ro be_rw /\ isolated BinaryEncryptor_SafeCopy en_ro en_rw /\ isolated BinaryPublicEncryptor_SafeCopy pu_ro pu_rw.
Proof.
  exact (conj PolyEvaluator_isolated (conj Decomposer_isolated (conj GLWETransformer_isolated (conj Evaluator_isolated (conj Encryptor_isolated
    (conj PublicEncryptor_isolated (conj BinaryEvaluator_isolated (conj Encryptor_isolated PublicEncryptor_isolated)))))))).
Qed.
Lemma isolated_mktfhe :
  isolated MKEvaluator_SafeCopy me_ro me_rw /\ isolated MKEncryptor_SafeCopy mn_ro mn_rw /\ isolated MKPublicEncryptor_SafeCopy mp_ro mp_rw /\
  isolated MKBinaryEvaluator_SafeCopy mb_ro mb_rw /\ isolated MKBinaryEncryptor_SafeCopy mn_ro mn_rw /\ isolated MKBinaryPublicEncryptor_SafeCopy mp_ro mp_rw.
Proof. exact (conj MKEvaluator_isolated (conj MKEncryptor_isolated (conj MKPublicEncryptor_isolated (conj MKBinaryEvaluator_isolated (conj MKEncryptor_isolated MKPublicEncryptor_isolated))))). Qed.
Lemma isolated_xtfhe :
  isolated FHEWEncryptor_SafeCopy fn_ro fn_rw /\ isolated FHEWEvaluator_SafeCopy fe_ro fe_rw /\ isolated BFVKeyGenerator_SafeCopy bk_ro bk_rw /\
  isolated BFVEvaluator_SafeCopy bv_ro bv_rw /\ isolated ManyLUTEvaluator_SafeCopy ml_ro ml_rw /\ isolated CircuitBootstrapper_SafeCopy cb_ro cb_rw /\
  isolated CircuitBootstrapKeyGenerator_SafeCopy bk_ro bk_rw /\ isolated Sanitizer_SafeCopy sn_ro sn_rw.
Proof.
  exact (conj FHEWEncryptor_isolated (conj FHEWEvaluator_isolated (conj BFVKeyGenerator_isolated (conj BFVEvaluator_isolated
    (conj ManyLUTEvaluator_isolated (conj CircuitBootstrapper_isolated (conj BFVKeyGenerator_isolated Sanitizer_isolated))))))).
Qed.

(** A decryptor of one party, the arguments of up to ten goroutines, and the decryption each of them runs. *)
Definition cdec : mkDecryptor := {| md_shared := [0]%nat; md_tr := {| pe_tabs := [1; 2; 3; 4]%nat; pe_buf := seq 5 6 |}; md_subs := [None]; md_vecs := [11; 12; 13]%nat; md_buf := seq 14 4 |}.
Definition cmem : mem cell Z := fun c => match c with UArg i t => if Nat.ltb t 16 then Z.of_nat (1000 * i + 10 * t + 7) else 0 | UReg _ _ => 0 end.
Definition cprog (d : mkDecryptor) (i : nat) := decPhase 32 3 8 1 [true] [[1; 0; 0; 0; 0; 0; 0; 0]] d i.
Definition cout (m : mem cell Z) (i : nat) := tab 8 (fun t => m (UArg i (16 + t)%nat)).
Definition cobjs := fst (copies MKDecryptor_SafeCopy_fixed [cdec] 18 [0; 1; 0]%nat).

Lemma cdec_made : wellMade md_ro md_rw cdec 18.
Proof. split; cbn; intros a H; lia. Qed.
Lemma ex_copies : wellMade md_ro md_rw cdec 18 /\ length cobjs = 4%nat /\
  callsOn md_ro md_rw cobjs (tab 4 (fun i => cprog (nth i cobjs cdec) i)) /\
  let '(ps, m) := runS cell_dec (tab 4 (fun i => cprog (nth i cobjs cdec) i)) cmem (flat_map (fun _ => [0; 1; 2; 3]%nat) (seq 0 72)) in
  ps = repeat (Ret tt) 4 /\ cout m 2 = tab 8 (fun t => Z.of_nat (4000 + 20 * t + 94)) /\
  cout m 2 = fst (MKDecryptGLWEPhaseTo 32 3 8 [true] [[1; 0; 0; 0; 0; 0; 0; 0]] (repeat (repeat 5 8) 2) (repeat 6 8) [tab 8 (fun t => Z.of_nat (2000 + 10 * t + 7)); tab 8 (fun t => Z.of_nat (2080 + 10 * t + 7))]).
Proof.
  split; [exact cdec_made|]. split; [reflexivity|]. split.
  - split; [reflexivity|]. intros i o p Eo Ep.
    destruct i as [|[|[|[|i]]]]; try (injection Eo as <-; injection Ep as <-; apply decPhase_fp; cbn; lia).
    exfalso. apply (proj1 (nth_error_None cobjs (4 + i)%nat)) in Eo || (cbn in Eo; destruct i; discriminate).
  - vm_compute. repeat split.
Qed.
Lemma Decryptor_refuted : ~ isolated MKDecryptor_SafeCopy md_ro md_rw /\
  exists d n ps0 m0 s, wellMade md_ro md_rw d n /\ let objs := fst (copies MKDecryptor_SafeCopy [d] n [0%nat]) in
  ps0 = tab 2 (fun i => cprog (nth i objs d) i) /\ callsOn md_ro md_rw objs ps0 /\
  let '(ps, m) := runS cell_dec ps0 m0 s in
  ps = repeat (Ret tt) 2 /\ cout m 0 <> cout (snd (solo cell_dec (nth 0 ps0 (Ret tt)) m0)) 0.
Proof.
  split.
  - intros H. specialize (H cdec 18%nat). destruct H as (_ & _ & H & _). specialize (H 17%nat). cbn in H. lia.
  - exists cdec, 18%nat, (tab 2 (fun i => cprog (nth i (fst (copies MKDecryptor_SafeCopy [cdec] 18 [0%nat])) cdec) i)), cmem, (repeat 0%nat 16 ++ repeat 1%nat 72 ++ repeat 0%nat 56).
    split; [exact cdec_made|]. split; [reflexivity|]. split.
    + split; [reflexivity|]. intros i o p Eo Ep.
      destruct i as [|[|i]]; try (injection Eo as <-; injection Ep as <-; apply decPhase_fp; cbn; lia).
      exfalso. cbn in Eo. destruct i; discriminate.
    + vm_compute. split; [reflexivity|]. intros H. discriminate.
Qed.

(* ------------------------------------------------------------------ *)
(** ** The parallel blind rotation and bootstrapping *)

Section Par.
Variables (w : Z) (Hw : 0 < w) (N : nat) (HN : (0 < N)%nat) (P n : nat) (pa pr pBR pKS : gadget) (bm : list bool) (keys : list (list Z)) (eks : list evalKey) (bs bc : nat) (Ebr Ek Eks : Z).
Hypothesis HK : mk_keys w N P n pa pr pBR pKS bm keys (map ek_brk eks) (map ek_ksk eks) (map ek_crs eks) (map ek_u0 eks) (map ek_u1 eks) bs bc Ebr Ek Eks.
Variables (ms : Z -> Z) (rins : list (list Z)) (acc0s accbs : list (list (list Z))) (faccbs : list (list (list (list Z)))) (buf rbuf ctOut : list (list Z)).
Hypothesis Hb : mk_bufs N P n pa bm rins accbs faccbs buf rbuf.
Notation gs := (goroutines w N P ms pa pBR bm bs bc n acc0s).

Lemma parBlindRotate ct lut0 m sched : length ct = S (P * n) -> parMem w N P n pa pBR bm eks ct m ->
  (forall r, BlindRotateParallelTo w N P gs ms pa pr bm eks buf rbuf ctOut ct lut0 m sched = Some r ->
    r = MKBlindRotateTo w N P ms pa pr pBR bm eks bs bc n rins acc0s accbs faccbs buf rbuf ctOut ct lut0) /\
  ((forall i p, nth_error gs i = Some p -> (steps loc_dec p m <= turns i sched)%nat) ->
    exists r, BlindRotateParallelTo w N P gs ms pa pr bm eks buf rbuf ctOut ct lut0 m sched = Some r) /\
  ~ race (fst (runS loc_dec gs m sched)).
Proof.
  intros Hct Hm. apply (parallel_eq w Hw N HN P n pa pr pBR pKS bm keys eks bs bc Ebr Ek Eks HK ms ct Hct rins acc0s accbs faccbs buf rbuf ctOut Hb gs).
  - apply tab_length.
  - intros i p E. pose proof (proj1 (nth_error_Some gs i) ltac:(congruence)) as Hi. unfold goroutines in Hi. rewrite tab_length in Hi.
    apply nth_error_nth with (d := Ret tt) in E. unfold goroutines in E. rewrite nth_tab in E by exact Hi. subst p. unfold active.
    destruct (nth i bm false) eqn:Ei; [|reflexivity]. exact (goParty_party w Hw N HN P n pa pr pBR pKS bm keys eks bs bc Ebr Ek Eks HK ms ct Hct (nth i acc0s []) i Ei).
  - exact Hm.
Qed.
Lemma parBlindRotate_phase ct lut0 m sched r : ms 0 = 0 -> gshape N P ctOut -> length ct = S (P * n) -> wpoly w N lut0 -> parMem w N P n pa pBR bm eks ct m ->
  BlindRotateParallelTo w N P gs ms pa pr bm eks buf rbuf ctOut ct lut0 m sched = Some r ->
  glwe_ct w N P r /\ gsupp bm N P r /\
  pdist_le (2 ^ w) (gphase N P (jkey N bm keys) r) (pshift (- rotSum ms (ljkey n bm (map (firstn n) keys)) ct) (pol N lut0)) (mkBrNoise w N P n pa pr pBR bm bc Ebr Ek).
Proof.
  intros Hms Ho Hct Hl Hm E. destruct (parBlindRotate ct lut0 m sched Hct Hm) as (H & _). rewrite (H r E).
  exact (MKBlindRotate_spec w Hw N HN P n pa pr pBR pKS bm keys eks bs bc Ebr Ek Eks HK ms Hms rins acc0s accbs faccbs buf rbuf ctOut Hb Ho ct lut0 Hct Hl).
Qed.
End Par.

Section ParBoot.
Variables (w : Z) (Hw : 0 < w) (N : nat) (HN : (0 < N)%nat) (P n : nat) (pa pr pBR pKS : gadget) (bm : list bool) (keys : list (list Z)) (eks : list evalKey) (bs bc : nat) (Ebr Ek Eks : Z).
Hypothesis HK : mk_keys w N P n pa pr pBR pKS bm keys (map ek_brk eks) (map ek_ksk eks) (map ek_crs eks) (map ek_u0 eks) (map ek_u1 eks) bs bc Ebr Ek Eks.
Variables (ms : Z -> Z) (b : mkBootBufs).
Hypothesis Hb : mk_bufs_ok N P n pa bm b.
Notation gs := (goroutines w N P ms pa pBR bm bs bc n (mb_acc0s b)).
Lemma parBootstrap (ksFirst : bool) ctOut ct lut m sched : lwe_ct w (P * (if ksFirst then N else n)) ct ->
  parMem w N P n pa pBR bm eks (if ksFirst then MKDefaultKeySwitchTo w P n N pKS bm (map ek_ksk eks) (mb_ks b) ct else ct) m ->
  let par := BootstrapLUTParallelTo w N P ksFirst gs ms pa pr pKS bm eks n (mb_buf b) (mb_rbuf b) (mb_rot b) (mb_ks b) (mb_ext b) ctOut ct lut m sched in
  (forall r, par = Some r ->
    r = MKBootstrapLUTTo w N P ksFirst ms pa pr pBR pKS bm eks bs bc n (mb_rins b) (mb_acc0s b) (mb_accbs b) (mb_faccbs b) (mb_buf b) (mb_rbuf b) (mb_rot b) (mb_ks b) (mb_ext b) ctOut ct lut) /\
  ((forall i p, nth_error gs i = Some p -> (steps loc_dec p m <= turns i sched)%nat) -> exists r, par = Some r) /\
  ~ race (fst (runS loc_dec gs m sched)).
Proof.
  intros Hct Hm. pose proof Hb as (Hb1 & Hb2 & Hb3 & Hb4). unfold BootstrapLUTParallelTo, MKBootstrapLUTTo. destruct ksFirst; cbv zeta.
  - destruct (mk_keyswitch w Hw N HN P n pa pr pBR pKS bm keys eks bs bc Ebr Ek Eks HK b Hb (mb_ks b) ct Hb3 Hct) as ((L & _) & _). 
    destruct (parBlindRotate w Hw N HN P n pa pr pBR pKS bm keys eks bs bc Ebr Ek Eks HK ms _ (mb_acc0s b) _ _ _ _ (mb_rot b) Hb1 _ (nth 0 lut []) m sched L Hm) as (X & Y & Z1).
    split; [|split; [|exact Z1]].
    + intros r E. match type of E with match ?x with _ => _ end = _ => destruct x as [r'|] eqn:Er; [|discriminate] end. injection E as E. rewrite <- E, (X r' eq_refl). reflexivity.
    + intros Ht. destruct (Y Ht) as (r & ->). eauto.
  - destruct (parBlindRotate w Hw N HN P n pa pr pBR pKS bm keys eks bs bc Ebr Ek Eks HK ms _ (mb_acc0s b) _ _ _ _ (mb_rot b) Hb1 ct (nth 0 lut []) m sched (proj1 Hct) Hm) as (X & Y & Z1).
    split; [|split; [|exact Z1]].
    + intros r E. match type of E with match ?x with _ => _ end = _ => destruct x as [r'|] eqn:Er; [|discriminate] end. injection E as E. rewrite <- E, (X r' eq_refl). reflexivity.
    + intros Ht. destruct (Y Ht) as (r & ->). eauto.
Qed.
End ParBoot.

(* ------------------------------------------------------------------ *)
(** ** Number of workers *)

(** A memory holding given keys and ciphertext. *)
Definition xmem (w : Z) (N : nat) (pa : gadget) (eks : list evalKey) (ct : list Z) : mem loc Z := fun l =>
  match l with
  | LCt t => nthZ ct t
  | LLut j t => nthZ (nth 0 (gadgetLUT w N pa j) []) t
  | LBrk i a b c d t => nthZ (nth d (nth c (nth b (nth a (ek_brk (nth i eks noKey)) []) []) []) []) t
  | _ => 9
  end.
Lemma xmem_ok w N P n pa pBR bm eks ct : parMem w N P n pa pBR bm eks ct (xmem w N pa eks ct).
Proof. repeat split; intros; reflexivity. Qed.
(** Round robin. *)
Lemma rr_turns P k i : (i < P)%nat -> turns i (flat_map (fun _ => seq 0 P) (seq 0 k)) = k.
Proof.
  intros Hi. assert (count_occ Nat.eq_dec (seq 0 P) i = 1%nat) as H1.
  { assert (count_occ Nat.eq_dec (seq 0 P) i <= 1)%nat as U by (apply NoDup_count_occ; apply seq_NoDup).
    assert (count_occ Nat.eq_dec (seq 0 P) i > 0)%nat as V by (apply count_occ_In; apply in_seq; lia). lia. }
  unfold turns. generalize 0%nat at 2 as lo. induction k as [|k IH]; intros lo; [reflexivity|]. cbn [seq flat_map]. rewrite count_occ_app, H1, IH. reflexivity.
Qed.
Lemma rr_enough (gs : list (prog loc Z unit)) m : exists k, forall i p, nth_error gs i = Some p -> (steps loc_dec p m <= turns i (flat_map (fun _ => seq 0 (length gs)) (seq 0 k)))%nat.
Proof.
  exists (list_max (map (fun p => steps loc_dec p m) gs)). intros i p E. rewrite rr_turns by (apply nth_error_Some; congruence).
  assert (Forall (fun x => x <= list_max (map (fun p => steps loc_dec p m) gs))%nat (map (fun p => steps loc_dec p m) gs)) as F by (apply list_max_le; lia).
  rewrite Forall_forall in F. apply F. apply in_map_iff. exists p. split; [reflexivity|]. apply nth_error_In in E. exact E.
Qed.
