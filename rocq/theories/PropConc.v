(** C44, C45, C50: copies, worker pools and the parallel blind rotation under every schedule. *)
From Verif Require Import Base NegaRing ModelNum ModelVec ModelPoly ModelGadget ModelEncoder ModelLWE ModelGLWE ModelBoot ModelMK ModelConc ModelCopy.
From Verif Require Import SpecPoly SpecGadget SpecLWE SpecGLWE SpecBoot SpecMK SpecConc SpecCopy.
From Verif Require Import PfConc PfConc2 PfConc3 PfCopy PfConc4 ExMK PropLWE PropMK ModelMKBin PfMK7.
Require Import Permutation.

(* ------------------------------------------------------------------ *)
(** ** C44: SafeCopy *)

(** Every SafeCopy method except mktfhe's Decryptor allocates everything it writes. *)
Theorem C44_isolated_tfhe :
  isolated PolyEvaluator_SafeCopy pe_ro pe_rw /\ isolated Decomposer_SafeCopy dc_ro dc_rw /\ isolated GLWETransformer_SafeCopy pe_ro pe_rw /\
  isolated Evaluator_SafeCopy ev_ro ev_rw /\ isolated Encryptor_SafeCopy en_ro en_rw /\ isolated PublicEncryptor_SafeCopy pu_ro pu_rw /\
  isolated BinaryEvaluator_SafeCopy be_ro be_rw /\ isolated BinaryEncryptor_SafeCopy en_ro en_rw /\ isolated BinaryPublicEncryptor_SafeCopy pu_ro pu_rw.
Proof. exact isolated_tfhe. Qed.
Print Assumptions C44_isolated_tfhe.
Theorem C44_isolated_mktfhe :
  isolated MKEvaluator_SafeCopy me_ro me_rw /\ isolated MKEncryptor_SafeCopy mn_ro mn_rw /\ isolated MKPublicEncryptor_SafeCopy mp_ro mp_rw /\
  isolated MKBinaryEvaluator_SafeCopy mb_ro mb_rw /\ isolated MKBinaryEncryptor_SafeCopy mn_ro mn_rw /\ isolated MKBinaryPublicEncryptor_SafeCopy mp_ro mp_rw.
Proof. exact isolated_mktfhe. Qed.
Print Assumptions C44_isolated_mktfhe.
Theorem C44_isolated_xtfhe :
  isolated FHEWEncryptor_SafeCopy fn_ro fn_rw /\ isolated FHEWEvaluator_SafeCopy fe_ro fe_rw /\ isolated BFVKeyGenerator_SafeCopy bk_ro bk_rw /\
  isolated BFVEvaluator_SafeCopy bv_ro bv_rw /\ isolated ManyLUTEvaluator_SafeCopy ml_ro ml_rw /\ isolated CircuitBootstrapper_SafeCopy cb_ro cb_rw /\
  isolated CircuitBootstrapKeyGenerator_SafeCopy bk_ro bk_rw /\ isolated Sanitizer_SafeCopy sn_ro sn_rw.
Proof. exact isolated_xtfhe. Qed.
Print Assumptions C44_isolated_xtfhe.
Example C44_ex_isolated : exists e : decomposer, wellMade dc_ro dc_rw e 13%nat /\ Decomposer_SafeCopy e 13%nat =
  ({| dc_pe := {| pe_tabs := [0; 1; 2; 3]%nat; pe_buf := seq 16 6 |}; dc_buf := seq 13 3 |}, 22%nat).
Proof.
  exists {| dc_pe := {| pe_tabs := [0; 1; 2; 3]%nat; pe_buf := seq 4 6 |}; dc_buf := seq 10 3 |}. split; [|reflexivity].
  split; cbn; intros a H; [lia|]. lia.
Qed.

(** Any history of isolated copies; any methods that stay within their object and their caller's arguments; any schedule: each goroutine
    ends with exactly the result it computes alone, shared regions are never changed, every goroutine that is scheduled often enough ends, and
    no two goroutines ever race. *)
Theorem C44_copies : forall O (copy : O -> M O) ro rw, isolated copy ro rw ->
  forall A o n hist (ps0 : list (prog cell Z A)) m0 s,
  wellMade ro rw o n -> let objs := fst (copies copy [o] n hist) in callsOn ro rw objs ps0 ->
  let '(ps, m) := runS cell_dec ps0 m0 s in
  length ps = length ps0 /\
  (forall i a p0, nth_error ps i = Some (Ret a) -> nth_error ps0 i = Some p0 ->
     a = fst (solo cell_dec p0 m0) /\ (forall t, m (UArg i t) = snd (solo cell_dec p0 m0) (UArg i t)) /\
     forall o r t, nth_error objs i = Some o -> In r (rw o) -> m (UReg r t) = snd (solo cell_dec p0 m0) (UReg r t)) /\
  (forall i o r t, nth_error objs i = Some o -> In r (ro o) -> m (UReg r t) = m0 (UReg r t)) /\
  (forall i p p0, nth_error ps i = Some p -> nth_error ps0 i = Some p0 -> (steps cell_dec p0 m0 <= turns i s)%nat -> exists a, p = Ret a) /\
  ~ race ps.
Proof. exact @copies_interleave. Qed.
Print Assumptions C44_copies.

(** Non-vacuity: three copies (one of them a copy of a copy) decrypting side by side. *)
Example C44_ex_copies : wellMade md_ro md_rw cdec 18 /\ length cobjs = 4%nat /\
  callsOn md_ro md_rw cobjs (tab 4 (fun i => cprog (nth i cobjs cdec) i)) /\
  let '(ps, m) := runS cell_dec (tab 4 (fun i => cprog (nth i cobjs cdec) i)) cmem (flat_map (fun _ => [0; 1; 2; 3]%nat) (seq 0 72)) in
  ps = repeat (Ret tt) 4 /\ cout m 2 = tab 8 (fun t => Z.of_nat (4000 + 20 * t + 94)) /\
  cout m 2 = fst (MKDecryptGLWEPhaseTo 32 3 8 [true] [[1; 0; 0; 0; 0; 0; 0; 0]] (repeat (repeat 5 8) 2) (repeat 6 8) [tab 8 (fun t => Z.of_nat (2000 + 10 * t + 7)); tab 8 (fun t => Z.of_nat (2080 + 10 * t + 7))]).
Proof. exact ex_copies. Qed.

(** FINDING mktfhe/decryptor.go:117: SafeCopy hands its own buffers to the copy.  Two goroutines decrypting with a decryptor and its
    safe copy: a schedule under which the first one returns a phase different from the correct one. *)
Theorem C44_Decryptor_refuted : ~ isolated MKDecryptor_SafeCopy md_ro md_rw /\
  exists d n ps0 m0 s, wellMade md_ro md_rw d n /\ let objs := fst (copies MKDecryptor_SafeCopy [d] n [0%nat]) in
  ps0 = tab 2 (fun i => cprog (nth i objs d) i) /\ callsOn md_ro md_rw objs ps0 /\
  let '(ps, m) := runS cell_dec ps0 m0 s in
  ps = repeat (Ret tt) 2 /\ cout m 0 <> cout (snd (solo cell_dec (nth 0 ps0 (Ret tt)) m0)) 0.
Proof. exact Decryptor_refuted. Qed.
Print Assumptions C44_Decryptor_refuted.
(** With fresh buffers the copy is isolated, and joint decryption stays inside its decryptor. *)
Theorem C44_Decryptor_fixed : isolated MKDecryptor_SafeCopy_fixed md_ro md_rw /\
  forall w logN N P bm fsks d i, (3 < length (md_buf d))%nat -> fp (mayRead md_ro d) (mayWrite md_rw d i) (decPhase w logN N P bm fsks d i).
Proof. exact (conj MKDecryptor_fixed_isolated decPhase_fp). Qed.
Print Assumptions C44_Decryptor_fixed.

(* ------------------------------------------------------------------ *)
(** ** C45: parallel key generation *)

(** GenBlindRotateKeyParallel with any number of workers, any samplers with noise at most Eg, any schedule of the channel and the workers:
    every run is finite, some step is possible until all workers have returned, and then every entry has been generated exactly once and the
    key encrypts the same bits as the sequential one (brk_enc is the specification of GenBlindRotateKey). *)
Theorem C45_blind_rotate_key : forall w, 0 < w -> forall (U G : nat -> nat -> Z) Eg, (forall t i, Z.abs (G t i) <= Eg) -> forall N, (0 < N)%nat ->
  forall k sk p logN, gadget_ok w p -> 0 < splitBitsShort logN -> skey N k sk -> forall lwe c,
  let work := brkJob w logN N k U G (map (fwdFFT w) sk) sk lwe p in let start := brkPool N k c (length lwe) (g_level p) in
  (forall es s, prun [] work start es = Some s ->
    (length es <= 2 * (length lwe * S k) + c + 1)%nat /\ (pfinal s \/ exists e s', pstep [] work s e = Some s')) /\
  ((0 < c)%nat -> forall es s, prun [] work start es = Some s -> pfinal s ->
    Permutation (map fst (p_log s)) (jobsOf (length lwe) (S k)) /\ NoDup (map fst (p_log s)) /\
    exists e, brk_enc w N k p sk lwe (p_mem s) e /\ forall i a b, (i < length lwe)%nat -> (a <= k)%nat -> (b < g_level p)%nat -> pbound Eg (e i a b)).
Proof. exact brk_parallel. Qed.
Print Assumptions C45_blind_rotate_key.
Theorem C45_key_switch_key : forall w, 0 < w -> forall (U G : nat -> nat -> Z) Eg, (forall t i, Z.abs (G t i) <= Eg) ->
  forall p lwe skIn, gadget_ok w p -> forall c,
  let work := kskJob w U G lwe skIn p in let start := kskPool c (length lwe) (length skIn) (g_level p) in
  (forall es s, prun [] work start es = Some s ->
    (length es <= 2 * (length skIn * g_level p) + c + 1)%nat /\ (pfinal s \/ exists e s', pstep [] work s e = Some s')) /\
  ((0 < c)%nat -> forall es s, prun [] work start es = Some s -> pfinal s ->
    Permutation (map fst (p_log s)) (jobsOf (length skIn) (g_level p)) /\ NoDup (map fst (p_log s)) /\
    exists e, ksk_enc w p lwe skIn (p_mem s) e /\ forall i j, (i < length skIn)%nat -> (j < g_level p)%nat -> Z.abs (e i j) <= Eg).
Proof. exact ksk_parallel. Qed.
Print Assumptions C45_key_switch_key.
(** There is at least one worker, and not more than CPUs, whatever the (non-empty) amount of work. *)
Theorem C45_workers : forall ncpu ws c, 1 <= ncpu -> 1 <= ws < 2 ^ 64 -> chunkCount ncpu ws = Ok c -> 1 <= c <= ncpu.
Proof. exact chunkCount_pos. Qed.
Print Assumptions C45_workers.
Example C45_ex_workers : chunkCount 8 600 = Ok 8 /\ chunkCount 64 600 = Ok 24.
Proof. vm_compute. repeat split. Qed.
(** Two complete runs of three jobs on two workers that share the work differently. *)
Example C45_ex_run : forall es, es = [EHand 0; EHand 1; EDone 1; EHand 1; EClose; EDone 0; EExit 0; EDone 1; EExit 1]%nat \/
    es = [EHand 1; EDone 1; EHand 1; EDone 1; EHand 1; EClose; EExit 0; EDone 1; EExit 1]%nat ->
  exists s, prun [] (kskJob 32 (fun t => exU) (fun t => exG) [1; 0; 1] [1] exgad) (kskPool 2 3 1 3) es = Some s /\
    pfinal s /\ map (fun c => phase [1; 0; 1] c) (nth 0 (p_mem s) []) <> [].
Proof.
  intros es [-> | ->]; (eexists; split; [vm_compute; reflexivity|]; split; [|vm_compute; discriminate]);
  intros [|[|t]] c E; cbn in E; try (injection E as <-; reflexivity); destruct t; discriminate.
Qed.

(* ------------------------------------------------------------------ *)
(** ** C50: the parallel multi-key blind rotation *)

(** Whatever the schedule of the parties' goroutines: if BlindRotateParallelTo returns, it returns what BlindRotateTo returns; it does
    return once every goroutine has been scheduled often enough; and the goroutines never race. *)
Theorem C50_equal : forall w, 0 < w -> forall N, (0 < N)%nat -> forall P n pa pr pBR pKS bm keys eks bs bc Ebr Ek Eks,
  mk_keys w N P n pa pr pBR pKS bm keys (map ek_brk eks) (map ek_ksk eks) (map ek_crs eks) (map ek_u0 eks) (map ek_u1 eks) bs bc Ebr Ek Eks ->
  forall ms rins acc0s accbs faccbs buf rbuf ctOut, mk_bufs N P n pa bm rins accbs faccbs buf rbuf ->
  forall ct lut0 m sched, length ct = S (P * n) -> parMem w N P n pa pBR bm eks ct m ->
  let gs := goroutines w N P ms pa pBR bm bs bc n acc0s in
  let par := BlindRotateParallelTo w N P gs ms pa pr bm eks buf rbuf ctOut ct lut0 m sched in
  (forall r, par = Some r -> r = MKBlindRotateTo w N P ms pa pr pBR bm eks bs bc n rins acc0s accbs faccbs buf rbuf ctOut ct lut0) /\
  ((forall i p, nth_error gs i = Some p -> (steps loc_dec p m <= turns i sched)%nat) -> exists r, par = Some r) /\
  ~ race (fst (runS loc_dec gs m sched)).
Proof. exact parBlindRotate. Qed.
Print Assumptions C50_equal.
Theorem C50_phase : forall w, 0 < w -> forall N, (0 < N)%nat -> forall P n pa pr pBR pKS bm keys eks bs bc Ebr Ek Eks,
  mk_keys w N P n pa pr pBR pKS bm keys (map ek_brk eks) (map ek_ksk eks) (map ek_crs eks) (map ek_u0 eks) (map ek_u1 eks) bs bc Ebr Ek Eks ->
  forall ms rins acc0s accbs faccbs buf rbuf ctOut, mk_bufs N P n pa bm rins accbs faccbs buf rbuf ->
  forall ct lut0 m sched r, ms 0 = 0 -> gshape N P ctOut -> length ct = S (P * n) -> wpoly w N lut0 -> parMem w N P n pa pBR bm eks ct m ->
  BlindRotateParallelTo w N P (goroutines w N P ms pa pBR bm bs bc n acc0s) ms pa pr bm eks buf rbuf ctOut ct lut0 m sched = Some r ->
  glwe_ct w N P r /\ gsupp bm N P r /\
  pdist_le (2 ^ w) (gphase N P (jkey N bm keys) r) (pshift (- rotSum ms (ljkey n bm (map (firstn n) keys)) ct) (pol N lut0)) (mkBrNoise w N P n pa pr pBR bm bc Ebr Ek).
Proof. exact parBlindRotate_phase. Qed.
Print Assumptions C50_phase.
(** Likewise BootstrapLUTParallelTo and BootstrapLUTTo, in both orders. *)
Theorem C50_bootstrap : forall w, 0 < w -> forall N, (0 < N)%nat -> forall P n pa pr pBR pKS bm keys eks bs bc Ebr Ek Eks,
  mk_keys w N P n pa pr pBR pKS bm keys (map ek_brk eks) (map ek_ksk eks) (map ek_crs eks) (map ek_u0 eks) (map ek_u1 eks) bs bc Ebr Ek Eks ->
  forall ms b, mk_bufs_ok N P n pa bm b -> forall (ksFirst : bool) ctOut ct lut m sched, lwe_ct w (P * (if ksFirst then N else n)) ct ->
  parMem w N P n pa pBR bm eks (if ksFirst then MKDefaultKeySwitchTo w P n N pKS bm (map ek_ksk eks) (mb_ks b) ct else ct) m ->
  let gs := goroutines w N P ms pa pBR bm bs bc n (mb_acc0s b) in
  let par := BootstrapLUTParallelTo w N P ksFirst gs ms pa pr pKS bm eks n (mb_buf b) (mb_rbuf b) (mb_rot b) (mb_ks b) (mb_ext b) ctOut ct lut m sched in
  (forall r, par = Some r ->
    r = MKBootstrapLUTTo w N P ksFirst ms pa pr pBR pKS bm eks bs bc n (mb_rins b) (mb_acc0s b) (mb_accbs b) (mb_faccbs b) (mb_buf b) (mb_rbuf b) (mb_rot b) (mb_ks b) (mb_ext b) ctOut ct lut) /\
  ((forall i p, nth_error gs i = Some p -> (steps loc_dec p m <= turns i sched)%nat) -> exists r, par = Some r) /\
  ~ race (fst (runS loc_dec gs m sched)).
Proof. exact parBootstrap. Qed.
Print Assumptions C50_bootstrap.
(** The hypotheses hold for the three-party example, and round robin is a schedule under which it returns. *)
Example C50_ex : forall ct, length ct = 13%nat -> exists sched r,
  mk_keys 64 8 3 4 xpa xpr xpB xpK xbm xkeys (map ek_brk xeks) (map ek_ksk xeks) (map ek_crs xeks) (map ek_u0 xeks) (map ek_u1 xeks) 2 2 3 3 3 /\
  mk_bufs 8 3 4 xpa xbm (mb_rins xbufs) (mb_accbs xbufs) (mb_faccbs xbufs) (mb_buf xbufs) (mb_rbuf xbufs) /\
  parMem 64 8 3 4 xpa xpB xbm xeks ct (xmem 64 8 xpa xeks ct) /\
  BlindRotateParallelTo 64 8 3 (goroutines 64 8 3 (ModSwitch 64 8) xpa xpB xbm 2 2 4 []) (ModSwitch 64 8) xpa xpr xbm xeks (mb_buf xbufs) (mb_rbuf xbufs) (mb_rot xbufs) ct (repeat (2 ^ 61) 8) (xmem 64 8 xpa xeks ct) sched = Some r.
Proof.
  intros ct Hct. pose proof (xmem_ok 64 8 3 4 xpa xpB xbm xeks ct) as Hm. destruct C51_hyps as (_ & _ & (Hb & _) & _).
  destruct (rr_enough (goroutines 64 8 3 (ModSwitch 64 8) xpa xpB xbm 2 2 4 []) (xmem 64 8 xpa xeks ct)) as (k & Hk).
  destruct (proj1 (proj2 (C50_equal 64 ltac:(lia) 8%nat ltac:(lia) 3%nat 4%nat xpa xpr xpB xpK xbm xkeys xeks 2%nat 2%nat 3 3 3 xkeys_ok (ModSwitch 64 8) _ [] _ _ _ _ (mb_rot xbufs) Hb ct (repeat (2 ^ 61) 8) _ _ Hct Hm)) Hk) as (r & Hr).
  do 2 eexists. split; [exact xkeys_ok|]. split; [exact Hb|]. split; [exact Hm|]. exact Hr.
Qed.
