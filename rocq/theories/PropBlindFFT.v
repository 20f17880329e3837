(** C69: blind rotation of tfhe/bootstrap.go as it is computed, on binary64 transforms. *)
From Coq Require Import Floats.SpecFloat.
From Verif Require Import Base NegaRing ModelNum ModelVec ModelPoly ModelAsm ModelF64 ModelFFT ModelF64Arith ModelSplitFFT ModelFused ModelFusedMul ModelGadget ModelLWE ModelGLWE ModelBoot ModelProdFFT ModelBlindFFT
  SpecNum SpecVec SpecPoly SpecFFT SpecRound SpecGadget SpecLWE SpecGLWE SpecBoot SpecProdFFT SpecBlindFFT PfPoly PfRoundEx PfSplitF64 PfSplitF64b PfProdFFT2 PfBoot4 PfBlindFFT5 PropLWE.
From Coq Require Import Reals Lra Lia.
Import ListNotations.
Open Scope Z_scope.

(** ** C69 *)
(** blindRotateBlockTo, portable loops or AVX2 kernels, every key and every ciphertext: the output has phase the look-up table rotated by
    the switched phase of the input, up to C32's noise and D (1 + k N) per block. [left] is what InvFFTAddToUnsafe leaves in its argument. *)
Theorem C69_block : forall cexp, cexp_near_full (f64Arith cexp) finF val 17 (5 * powerRZ 2 (-52)) -> cexp_valid cexp ->
  forall N logN, Z.of_nat N = 2 ^ logN -> 4 <= logN <= 15 -> forall e, NewEvaluator (f64Arith cexp) N = Ok e ->
  forall K, K = goKern (f64Arith cexp) e \/ K = avxKern cexp e -> forall left, (forall v, valid64 N v -> valid64 N (left v)) ->
  forall w k sk p s bk Ek bs bc, w <= 64 -> br_setting w N k sk p s (map (map (map (map (fwdFFT w)))) bk) Ek bs bc ->
  (forall j r l i, (j < length s)%nat -> (r <= k)%nat -> (l < g_level p)%nat -> (i <= k)%nat -> wpoly w N (nth i (nth l (nth r (nth j bk []) []) []) [])) ->
  forall D, Z.of_nat (S k * g_level p + bs) <= 1000000 -> rotErr_le w (g_logBase p) logN N (S k * g_level p) bs D ->
  forall ms b ctOut ct lut0, gshape N k ctOut -> wpoly w N lut0 -> rot_bufs N k (g_level p) b ->
  let r := blindRotateBlockToK K w N k (MonomialSubOneFwdFFTTo (f64Arith cexp) e) left ms p (map (toFFTGGSW K w) bk) bs bc b ctOut ct lut0 in
  glwe_ct w N k r /\
  pdist_le (2 ^ w) (gphase N k sk r) (pshift (- rotSum ms s ct) (pol N lut0)) (brNoise w N k p bc (length s) Ek + Z.of_nat bc * (D * (1 + Z.of_nat k * Z.of_nat N))).
Proof. exact block_main. Qed.
Print Assumptions C69_block.
(** blindRotateOriginalTo: blocks of one. *)
Theorem C69_original : forall cexp, cexp_near_full (f64Arith cexp) finF val 17 (5 * powerRZ 2 (-52)) -> cexp_valid cexp ->
  forall N logN, Z.of_nat N = 2 ^ logN -> 4 <= logN <= 15 -> forall e, NewEvaluator (f64Arith cexp) N = Ok e ->
  forall K, K = goKern (f64Arith cexp) e \/ K = avxKern cexp e -> forall left, (forall v, valid64 N v -> valid64 N (left v)) ->
  forall w k sk p s bk Ek n, w <= 64 -> br_setting w N k sk p s (map (map (map (map (fwdFFT w)))) bk) Ek 1 n ->
  (forall j r l i, (j < length s)%nat -> (r <= k)%nat -> (l < g_level p)%nat -> (i <= k)%nat -> wpoly w N (nth i (nth l (nth r (nth j bk []) []) []) [])) ->
  forall D, Z.of_nat (S k * g_level p + 1) <= 1000000 -> rotErr_le w (g_logBase p) logN N (S k * g_level p) 1 D ->
  forall ms b ctOut ct lut0, gshape N k ctOut -> wpoly w N lut0 -> rot_bufs N k (g_level p) b ->
  let r := blindRotateOriginalToK K w N k (MonomialSubOneFwdFFTTo (f64Arith cexp) e) left ms p (map (toFFTGGSW K w) bk) n b ctOut ct lut0 in
  glwe_ct w N k r /\
  pdist_le (2 ^ w) (gphase N k sk r) (pshift (- rotSum ms s ct) (pol N lut0)) (brNoise w N k p n (length s) Ek + Z.of_nat n * (D * (1 + Z.of_nat k * Z.of_nat N))).
Proof. exact original_main. Qed.
Print Assumptions C69_original.

(** Keys of rank 16, LWE dimension 2 in one block, base 2^4, level 2: at most 2 per coefficient is lost to rounding. *)
Definition gad16 : gadget := mkGadget 16 4 2 32.
Definition sk16 : list (list Z) := [[1; 0; 0; 1; 1; 0; 1; 0; 0; 0; 1; 1; 0; 1; 0; 0]].
Definition s2 : list Z := [0; 1].
Definition brk16 := fst (GenBlindRotateKey 32 4 16 1 exU exG (map (fwdFFT 32) sk16) sk16 s2 gad16 [repeat 7 16; repeat 7 16] (2, 4)%nat).
Definition key16 := map (map (map (map (map (wrap 32))))) brk16.
Lemma s2_blocks : block_binary 2 s2.
Proof.
  split; [repeat (apply Forall_cons; [auto|]); apply Forall_nil|]. intros i j H1 H2 H3. change (length s2) with 2%nat in H2. unfold s2, nthZ.
  assert (j = 1)%nat as -> by lia. assert (i = 0)%nat as -> by lia. first [left; reflexivity|right; reflexivity].
Qed.
Lemma key16_fft : map (map (map (map (fwdFFT 32)))) key16 = brk16.
Proof. vm_compute. reflexivity. Qed.
Lemma key16_w : forall j r l i, (j < 2)%nat -> (r <= 1)%nat -> (l < 2)%nat -> (i <= 1)%nat -> length (nth i (nth l (nth r (nth j key16 []) []) []) []) = 16%nat.
Proof.
  intros j r l i Hj Hr Hl Hi. assert (j = 0 \/ j = 1)%nat as [-> | ->] by lia; assert (r = 0 \/ r = 1)%nat as [-> | ->] by lia; assert (l = 0 \/ l = 1)%nat as [-> | ->] by lia; assert (i = 0 \/ i = 1)%nat as [-> | ->] by lia; vm_compute; reflexivity.
Qed.
Example C69_setting : br_setting 32 16 1 sk16 gad16 s2 (map (map (map (map (fwdFFT 32)))) key16) 3 2 1.
Proof.
  rewrite key16_fft. unfold brk16. destruct (GenBlindRotateKey 32 4 16 1 exU exG (map (fwdFFT 32) sk16) sk16 s2 gad16 [repeat 7 16; repeat 7 16] (2, 4)%nat) as (a & (b & c)) eqn:EK. cbn [fst].
  eapply (setting_keygen 32 16 1 sk16 gad16 s2 exU exG 3 2 1 4); [lia|lia| | | | | |lia|lia|reflexivity|exact s2_blocks| | |exact EK].
  - exists 4. split; [lia|reflexivity].
  - unfold gadget_ok, gad16. cbn. lia.
  - reflexivity.
  - split; [reflexivity|]. intros i Hi. assert (i = 0%nat) as -> by lia. reflexivity.
  - intros i Hi. assert (i = 0%nat) as -> by lia. cbn. repeat (apply Forall_cons; [auto|]); apply Forall_nil.
  - intros i. unfold exG. pose proof (Z.mod_pos_bound (Z.of_nat i * 5) 7 ltac:(lia)). lia.
  - split; [reflexivity|]. intros i Hi. assert (i = 0 \/ i = 1)%nat as [-> | ->] by lia; reflexivity.
Qed.
Lemma map_wrap_word : forall l, Forall (uword 32) (map (wrap 32) l).
Proof. induction l as [|x l IH]; constructor; [|exact IH]. apply Z.mod_pos_bound. lia. Qed.
Lemma key16_word : forall j r l i, Forall (uword 32) (nth i (nth l (nth r (nth j key16 []) []) []) []).
Proof.
  intros j r l i. unfold key16.
  change (@nil (list (list (list Z)))) with (map (map (map (map (wrap 32)))) []). rewrite map_nth.
  change (@nil (list (list Z))) with (map (map (map (wrap 32))) []). rewrite map_nth.
  change (@nil (list Z)) with (map (map (wrap 32)) []). rewrite map_nth.
  change (@nil Z) with (map (wrap 32) []). rewrite map_nth.
  apply map_wrap_word.
Qed.
Definition z16 : list spec_float := repeat (S754_zero false) 16.
Definition buf16 : brBuf spec_float := mkBrBuf [[z16; z16]; [z16; z16]] [z16; z16] z16 [z16; z16].
(** The switched ciphertext (13, 4, 21): 13 + 0 * 4 + 1 * 21 = 34 of 32, so the table is rotated by 2, up to 2^28.1 of 2^32. *)
Example C69_ex : rotSum (fun x => x) s2 [13; 4; 21] = 34 /\
  exists e, NewEvaluator (f64Arith cexpT) 16 = Ok e /\ forall K, K = goKern (f64Arith cexpT) e \/ K = avxKern cexpT e -> forall lut0, wpoly 32 16 lut0 ->
  let r := blindRotateBlockToK K 32 16 1 (MonomialSubOneFwdFFTTo (f64Arith cexpT) e) (fun v => v) (fun x => x) gad16 (map (toFFTGGSW K 32) key16) 2 1 buf16 [repeat 0 16; repeat 0 16] [13; 4; 21] lut0 in
  glwe_ct 32 16 1 r /\ pdist_le (2 ^ 32) (gphase 16 1 sk16 r) (pshift (- (34)) (pol 16 lut0)) 285218850.
Proof.
  split; [reflexivity|]. destruct (NewEvaluator64 cexpT 16 4 eq_refl ltac:(lia)) as (e & He & _). exists e. split; [exact He|]. intros K HK lut0 Hl. cbv zeta.
  assert (V : valid64 16 z16) by (split; [reflexivity|repeat constructor]).
  pose proof (block_main cexpT (cexpT_full 17) cexpT_valid 16 4 eq_refl ltac:(lia) e He K HK (fun v => v) (fun v H => H) 32 1 sk16 gad16 s2 key16 3 2 1 ltac:(lia) C69_setting) as M.
  assert (Q : 285218850 = brNoise 32 16 1 gad16 1 (length s2) 3 + Z.of_nat 1 * (2 * (1 + Z.of_nat 1 * Z.of_nat 16))) by reflexivity.
  rewrite Q. change (pshift (- (34)) (pol 16 lut0)) with (pshift (- rotSum (fun x => x) s2 [13; 4; 21]) (pol 16 lut0)). apply M; clear M Q.
  - intros j r l i Hj Hr Hl2 Hi. split; [now apply key16_w|apply key16_word].
  - cbn. lia.
  - unfold rotErr_le, rotErr. rewrite !INR_IZR_INZ. rewrite pw_m53. cbn [g_level g_logBase gad16].
    change (Z.of_nat 16) with 16. change (Z.of_nat (2 * 2)) with 4. change (Z.of_nat 2) with 2. change (2 ^ (32 - 1)) with 2147483648. change (2 ^ (4 - 1)) with 8. change (2 + 1) with 3. lra.
  - split; [reflexivity|]. intros i Hi. assert (i = 0 \/ i = 1)%nat as [-> | ->] by lia; reflexivity.
  - exact Hl.
  - split; [split; [reflexivity|intros i j Hi Hj; assert (i = 0 \/ i = 1)%nat as [-> | ->] by lia; assert (j = 0 \/ j = 1)%nat as [-> | ->] by (cbn in Hj; lia); exact V]|].
    split; [intros i Hi; assert (i = 0 \/ i = 1)%nat as [-> | ->] by lia; exact V|]. split; [exact V|]. intros i Hi; assert (i = 0 \/ i = 1)%nat as [-> | ->] by lia; exact V.
Qed.
(** Worst case of one block for ParamsBinary (62640 of 2^32) and ParamsUint2 (1523 * 2^48 of 2^64), params_list.go:5-30, 81-105. *)
Example C69_ex_Params : rotErr_le 32 6 9 512 9 3 62640 /\ rotErr_le 64 18 9 512 4 3 (1523 * 2 ^ 48).
Proof.
  unfold rotErr_le, rotErr. rewrite !INR_IZR_INZ. rewrite pw_m53.
  change (Z.of_nat 512) with 512. change (Z.of_nat 9) with 9. change (Z.of_nat 4) with 4. change (Z.of_nat 3) with 3. change (2 ^ (32 - 1)) with 2147483648. change (2 ^ (6 - 1)) with 32. change (2 ^ (64 - 1)) with 9223372036854775808. change (2 ^ (18 - 1)) with 131072.
  change (62640 + 1) with 62641. change (1523 * 2 ^ 48 + 1) with (428686389530329089). split; lra.
Qed.
