(** C30-C34: modulus switching, look-up tables, blind rotation, bootstrapping. *)
From Verif Require Import Base NegaRing SpecNum ModelNum PfNum ModelFloat ModelVec SpecVec ModelPoly SpecPoly PfPoly ModelGadget SpecGadget ModelEncoder ModelLWE SpecLWE PfLWE PfLWE2 ModelParams PfParams PfEncoder ModelGLWE SpecGLWE PfGLWE ModelBoot SpecBoot PfBoot PfBoot2 PfBoot3 PfBoot4 PropLWE.

(** ** C30 *)
Theorem C30_range : forall w L x, 0 < w -> 0 < L < 2 ^ 52 -> 0 <= x -> 0 <= ModSwitch w L x < 2 * L.
Proof. exact ModSwitch_range. Qed.
Print Assumptions C30_range.
(** Exactly round-half-up when 2L/2^w = m'/q' in lowest terms and x*m' has 52 bits; uint32 with L a power of
    two: m' = 1. *)
Theorem C30_exact : forall w L x g m' q', 0 < w -> 0 < L < 2 ^ 52 -> 0 <= x -> 0 < g -> 2 * L = m' * g -> 2 ^ w = q' * g -> x * m' < 2 ^ 52 ->
  exists R, is_round_half_up (x * (2 * L)) (2 ^ w) R /\ ModSwitch w L x = R mod (2 * L).
Proof. exact ModSwitch_exact. Qed.
Print Assumptions C30_exact.
(** The general error: half a step plus a relative 2^-52 of the value. *)
Theorem C30_general : forall w L x, 0 < w -> 0 < L < 2 ^ 52 -> 0 <= x -> exists R, 0 <= R /\ ModSwitch w L x = R mod (2 * L) /\
  2 ^ 106 * (2 * Z.abs (R * 2 ^ w - x * (2 * L)) - 2 ^ w) <= 2 * (x * (2 * L)) * (2 ^ 54 + 1).
Proof. exact ModSwitch_general. Qed.
Print Assumptions C30_general.
(** For words and tables up to 2^21: at most (1 + 2^-28)/2 steps. *)
Theorem C30_error : forall w L x, 0 < w -> 0 < L <= 2 ^ 21 -> 0 <= x < 2 ^ w -> exists R, ModSwitch w L x = R mod (2 * L) /\
  2 ^ 28 * (2 * Z.abs (R * 2 ^ w - x * (2 * L))) <= (2 ^ 28 + 1) * 2 ^ w.
Proof. exact ModSwitch_error. Qed.
Print Assumptions C30_error.
(** The two cases in the form bootstrapping uses. *)
Theorem C30_ms_err_exact : forall w L, 0 < w -> 0 < L -> 2 * L < 2 ^ w -> (2 * L | 2 ^ w) -> w <= 52 -> ms_err w L (2 ^ w) (ModSwitch w L).
Proof. exact ms_err_exact. Qed.
Print Assumptions C30_ms_err_exact.
Theorem C30_ms_err_any : forall w L, 0 < w -> 0 < L <= 2 ^ 21 -> 28 <= w -> ms_err w L (2 ^ w + 2 ^ (w - 28)) (ModSwitch w L).
Proof. exact ms_err_any. Qed.
Print Assumptions C30_ms_err_any.
Example C30_ex : ModSwitch 32 2048 (5 * 2 ^ 20 + 2 ^ 19) = 6 /\ ModSwitch 32 2048 (5 * 2 ^ 20 + 2 ^ 19 - 1) = 5 /\ ModSwitch 32 2048 (2 ^ 32 - 1) = 0 /\
  ModSwitch 64 2048 (2 ^ 64 - 1) = 0 /\ ModSwitch 64 3072 (7 * 2 ^ 60) = 2688.
Proof. vm_compute. repeat split. Qed.
(** On the 64-bit torus half a step is exceeded by the conversion to float64. *)
Theorem C30_half_step_refuted : exists x, 0 <= x < 2 ^ 64 /\ ~ exists R, is_round_half_up (x * (2 * 2048)) (2 ^ 64) R /\ ModSwitch 64 2048 x = R mod (2 * 2048).
Proof.
  exists (4095 * 2 ^ 52 + 2 ^ 51 - 1). split; [lia|]. intros (R & (H1 & H2) & H3).
  assert (ModSwitch 64 2048 (4095 * 2 ^ 52 + 2 ^ 51 - 1) = 0) as E by (vm_compute; reflexivity). rewrite E in H3. clear E.
  assert (R = 4095) as -> by (clear H3; lia). discriminate H3.
Qed.
Print Assumptions C30_half_step_refuted.

(** ** C31 *)
(** GenLUTCustomFullTo succeeds and holds f m at every position of the box of m. *)
Theorem C31_GenLUT : forall w N E mm f lutOut raw, 0 < w -> (0 < N)%nat -> (0 < E)%nat -> 0 < mm < 2 ^ 52 -> 2 * mm < 2 ^ w -> mm * Z.of_nat (E * N) < 2 ^ 52 ->
  length raw = (E * N)%nat -> length lutOut = E -> (forall i, (i < E)%nat -> length (nth i lutOut []) = N) ->
  exists lut raw', GenLUTCustomFullTo w N E lutOut raw f mm = Some (lut, raw') /\ length raw' = (E * N)%nat /\
    ((forall m, 0 <= m < mm -> uword w (f m)) -> lut_ok w N E lut) /\ lut_holds N E (2 ^ w) mm lut f.
Proof. exact GenLUT_holds. Qed.
Print Assumptions C31_GenLUT.
(** Every position is assigned: position i - o, with o = round(L/2mm), holds f of the message whose interval
    [round(mL/mm), round((m+1)L/mm)) contains i. *)
Theorem C31_every_position : forall w N E mm f lutOut raw, 0 < w -> (0 < N)%nat -> (0 < E)%nat -> 0 < mm < 2 ^ 52 -> 2 * mm < 2 ^ w -> mm * Z.of_nat (E * N) < 2 ^ 52 ->
  length raw = (E * N)%nat -> length lutOut = E -> (forall i, (i < E)%nat -> length (nth i lutOut []) = N) ->
  exists lut raw' o, GenLUTCustomFullTo w N E lutOut raw f mm = Some (lut, raw') /\ is_round_half_up (Z.of_nat (E * N)) (2 * mm) o /\
    forall i, 0 <= i < Z.of_nat (E * N) -> exists m r r', 0 <= m < mm /\ is_round_half_up (m * Z.of_nat (E * N)) mm r /\
      is_round_half_up ((m + 1) * Z.of_nat (E * N)) mm r' /\ r <= i < r' /\ eqm (2 ^ w) (cf (tableOf N E lut) (i - o)) (f m).
Proof. exact GenLUT_every. Qed.
Print Assumptions C31_every_position.
(** The result does not depend on the scratch buffer or the old table. *)
Theorem C31_independent : forall w N E mm f lutOut lutOut' raw raw', 0 < w -> (0 < N)%nat -> (0 < E)%nat -> 0 < mm < 2 ^ 52 -> 2 * mm < 2 ^ w -> mm * Z.of_nat (E * N) < 2 ^ 52 ->
  length raw = (E * N)%nat -> length raw' = (E * N)%nat -> length lutOut = E -> (forall i, (i < E)%nat -> length (nth i lutOut []) = N) ->
  length lutOut' = E -> (forall i, (i < E)%nat -> length (nth i lutOut' []) = N) ->
  GenLUTCustomFullTo w N E lutOut raw f mm = GenLUTCustomFullTo w N E lutOut' raw' f mm.
Proof. intros w N E mm f lutOut lutOut' raw raw' H1 H2 H3 H4 H5 H6. exact (GenLUT_indep w N E mm H1 H2 H3 H4 H5 H6 f lutOut lutOut' raw raw'). Qed.
Print Assumptions C31_independent.
(** LUTSize 8 over rank 4, modulus 4, table of 3x. *)
Example C31_ex : let f x := 3 * x in
  GenLUTCustomFullTo 32 4 2 [[9; 9; 9; 9]; [9; 9; 9; 9]] (repeat 77 8) f 4 = Some ([[0; 3; 6; 9]; [3; 6; 9; 0]], [0; 3; 3; 6; 6; 9; 9; 0]) /\
  in_box 8 4 2 3 /\ in_box 8 4 2 4 /\ ~ in_box 8 4 2 5 /\ cf (tableOf 4 2 [[0; 3; 6; 9]; [3; 6; 9; 0]]) 3 = f 2 /\
  GenLUTCustomFullTo 32 8 1 [repeat 9 8] (repeat 77 8) f 3 = Some ([[0; 0; 3; 3; 6; 6; 6; 0]], [0; 0; 3; 3; 6; 6; 6; 0]).
Proof.
  cbv zeta. split; [vm_compute; reflexivity|]. split; [right; split; [exists 1; reflexivity|lia]|]. split; [right; split; [exists 1; reflexivity|lia]|].
  split; [unfold in_box; lia|]. split; vm_compute; reflexivity.
Qed.

(** ** C32 *)
Theorem C32_block : forall w N k sk p s brk Ek bs bc ms ctOut ct lut0, br_setting w N k sk p s brk Ek bs bc -> gshape N k ctOut -> wpoly w N lut0 ->
  let r := blindRotateBlockTo w N k ms p brk bs bc ctOut ct lut0 in
  glwe_ct w N k r /\ pdist_le (2 ^ w) (gphase N k sk r) (pshift (- rotSum ms s ct) (pol N lut0)) (brNoise w N k p bc (length s) Ek).
Proof.
  intros w N k sk p s brk Ek bs bc ms ctOut ct lut0 (Hw & HN & (n0 & Hn0 & HNn) & Hskb & Hok & (e & Hbrk & He) & HEk & Hbs & Hbc & Hlen & Hblk).
  exact (blindRotateBlock_spec w Hw N HN n0 Hn0 HNn k sk Hskb p Hok ms s brk e Ek Hbrk HEk He bs bc Hbs Hbc Hlen Hblk ctOut ct lut0).
Qed.
Print Assumptions C32_block.
Theorem C32_original : forall w N k sk p s brk Ek ms ctOut ct lut0, br_setting w N k sk p s brk Ek 1 (length s) -> gshape N k ctOut -> wpoly w N lut0 ->
  let r := blindRotateOriginalTo w N k ms p brk (length s) ctOut ct lut0 in
  glwe_ct w N k r /\ pdist_le (2 ^ w) (gphase N k sk r) (pshift (- rotSum ms s ct) (pol N lut0)) (brNoise w N k p (length s) (length s) Ek).
Proof.
  intros w N k sk p s brk Ek ms ctOut ct lut0 (Hw & HN & (n0 & Hn0 & HNn) & Hskb & Hok & (e & Hbrk & He) & HEk & Hbs & Hbc & Hlen & Hblk).
  exact (blindRotateOriginal_spec w Hw N HN n0 Hn0 HNn k sk Hskb p Hok ms s brk e Ek ctOut ct lut0 Hbrk HEk He (proj1 Hblk) Hbc).
Qed.
Print Assumptions C32_original.
(** Keys made by GenBlindRotateKey meet the hypotheses. *)
Theorem C32_GenBlindRotateKey : forall w N k sk p U G logN lwe buf st brk buf' st', 0 < w -> (0 < N)%nat -> gadget_ok w p -> 0 < splitBitsShort logN -> skey N k sk -> gshape N k buf ->
  GenBlindRotateKey w logN N k U G (map (fwdFFT w) sk) sk lwe p buf st = (brk, (buf', st')) ->
  brk_enc w N k p sk lwe brk (fun b i j => noisep N G (snd st + (b * (S k * g_level p) + (i * g_level p + j)) * N)%nat) /\ gshape N k buf' /\
  st' = ((fst st + length lwe * (S k * (g_level p * (k * N))))%nat, (snd st + length lwe * (S k * (g_level p * N)))%nat).
Proof. intros w N k sk p U G logN lwe buf st brk buf' st' Hw HN Hok HlN Hsk. exact (GenBlindRotateKey_spec w Hw N HN k sk p Hok logN HlN U G Hsk lwe buf st brk buf' st'). Qed.
Print Assumptions C32_GenBlindRotateKey.
Theorem C32_keygen : forall w N k sk p s U G Eg bs bc logN buf st brk buf' st', 0 < w -> (0 < N)%nat ->
  (exists n0, 0 <= n0 /\ Z.of_nat N = 2 ^ n0) -> gadget_ok w p -> 0 < splitBitsShort logN -> skey N k sk -> (forall i, (i < k)%nat -> binary (nth i sk [])) ->
  (0 < bs)%nat -> (0 < bc)%nat -> length s = (bc * bs)%nat -> block_binary bs s -> (forall i, Z.abs (G i) <= Eg) -> gshape N k buf ->
  GenBlindRotateKey w logN N k U G (map (fwdFFT w) sk) sk s p buf st = (brk, (buf', st')) -> br_setting w N k sk p s brk Eg bs bc.
Proof. exact setting_keygen. Qed.
Print Assumptions C32_keygen.

(** Example keys: rank 8, LWE dimension 4 in two blocks. *)
Definition bsk : list (list Z) := [[1; 0; 0; 1; 1; 0; 1; 0]].
Definition bs4 : list Z := [1; 0; 0; 1].
Definition bbuf : list (list Z) := [repeat 7 8; repeat 7 8].
Definition bbrk := fst (GenBlindRotateKey 32 3 8 1 exU exG (map (fwdFFT 32) bsk) bsk bs4 exgad bbuf (2, 4)%nat).
Definition bksk := fst (GenDefaultKeySwitchKey 32 exU exG bs4 (skipn 4 (hd [] bsk)) exgad (500, 600)%nat).
Lemma exG_bound i : Z.abs (exG i) <= 3.
Proof. unfold exG. pose proof (Z.mod_pos_bound (Z.of_nat i * 5) 7 ltac:(lia)). lia. Qed.
Lemma bs4_blocks : block_binary 2 bs4.
Proof.
  split; [repeat (apply Forall_cons; [auto|]); apply Forall_nil|]. intros i j H1 H2 H3. change (length bs4) with 4%nat in H2. unfold bs4, nthZ.
  assert (j = 1 \/ j = 2 \/ j = 3)%nat as [-> | [-> | ->]] by lia; assert (i = 0 \/ i = 1 \/ i = 2)%nat as [-> | [-> | ->]] by lia; first [lia|discriminate H3|left; reflexivity|right; reflexivity].
Qed.
Example C32_setting : br_setting 32 8 1 bsk exgad bs4 bbrk 3 2 2.
Proof.
  unfold bbrk. destruct (GenBlindRotateKey 32 3 8 1 exU exG (map (fwdFFT 32) bsk) bsk bs4 exgad bbuf (2, 4)%nat) as (a & (b & c)) eqn:EK. cbn [fst].
  apply (setting_keygen 32 8 1 bsk exgad bs4 exU exG 3 2 2 3 bbuf (2, 4)%nat a b c); first [lia|exact exgad_ok|exact exG_bound|exact bs4_blocks|idtac].
  - exists 3. split; [lia|reflexivity].
  - reflexivity.
  - split; [reflexivity|]. intros i Hi. assert (i = 0%nat) as -> by lia. reflexivity.
  - intros i Hi. assert (i = 0%nat) as -> by lia. cbn. repeat (apply Forall_cons; [auto|]); apply Forall_nil.
  - reflexivity.
  - split; [reflexivity|]. intros i Hi. assert (i = 0 \/ i = 1)%nat as [-> | ->] by lia; reflexivity.
  - exact EK.
Qed.
(** Rotating by 2 + 4 + 7 = 13 positions out of 16; high bits of the phase. *)
Definition bct := [2 * 2 ^ 28; 4 * 2 ^ 28; 3 * 2 ^ 28; 5 * 2 ^ 28; 7 * 2 ^ 28].
Definition btab := map (fun x => x * 2 ^ 28) [1; 2; 3; 4; 5; 6; 7; 8].
Definition bdec (ct : list (list Z)) := map (fun x => DivRoundBits 32 x 28 mod 16) (DecryptGLWEPhaseTo 32 3 8 1 (map (fwdFFT 32) bsk) (repeat 0 8) ct).
Example C32_ex : rotSum (ModSwitch 32 8) bs4 bct = 13 /\
  bdec (blindRotateBlockTo 32 8 1 (ModSwitch 32 8) exgad bbrk 2 2 bbuf bct btab) = map (fun x => x mod 16) [-6; -7; -8; 1; 2; 3; 4; 5] /\
  bdec (blindRotateOriginalTo 32 8 1 (ModSwitch 32 8) exgad bbrk 4 bbuf bct btab) = map (fun x => x mod 16) [-6; -7; -8; 1; 2; 3; 4; 5].
Proof. vm_compute. repeat split. Qed.

(** ** C33 *)
(** Every coefficient is a table entry at the rotated position, up to 2E-2 positions away; exact when E
    divides the switched body.  At least two blocks. *)
Theorem C33_position : forall w N k E sk p s brk Ek bs bc acc0 ct lut ms, br_setting w N k sk p s brk Ek bs bc -> (2 <= bc)%nat -> (0 < E)%nat ->
  (forall j, 0 <= ms (nthZ ct j) <= 2 * Z.of_nat (E * N)) -> (length acc0 = E /\ forall i, (i < E)%nat -> length (nth i acc0 []) = N) -> lut_ok w N E lut ->
  let r := blindRotateExtendedTo w N k E ms p brk bs bc (length s) acc0 ct lut in
  glwe_ct w N k r /\
  forall t, exists d, Z.abs d <= extSlack E /\ ((Z.of_nat E | ms (nthZ ct 0)) -> d = 0) /\
    dist_le (2 ^ w) (cf (gphase N k sk r) t) (cf (tableOf N E lut) (Z.of_nat E * t + rotSum ms s ct + d)) (brNoise w N k p bc (length s) Ek).
Proof.
  intros w N k E sk p s brk Ek bs bc acc0 ct lut ms H1 H2 H3 H4 H5 H6.
  exact (conj (proj1 (ext_at w N k E sk p s brk Ek bs bc acc0 ct lut ms H1 H2 H3 H4 H5 H6)) (proj1 (proj2 (ext_at w N k E sk p s brk Ek bs bc acc0 ct lut ms H1 H2 H3 H4 H5 H6)))).
Qed.
Print Assumptions C33_position.
Theorem C33_exact_partial : forall w N k E sk p s brk Ek bs bc acc0 ct lut ms, br_setting w N k sk p s brk Ek bs bc -> (2 <= bc)%nat -> (0 < E)%nat ->
  (forall j, 0 <= ms (nthZ ct j) <= 2 * Z.of_nat (E * N)) -> (length acc0 = E /\ forall i, (i < E)%nat -> length (nth i acc0 []) = N) -> lut_ok w N E lut ->
  (Z.of_nat E | ms (nthZ ct 0)) ->
  pdist_le (2 ^ w) (gphase N k sk (blindRotateExtendedTo w N k E ms p brk bs bc (length s) acc0 ct lut))
    (comp (pshift (- rotSum ms s ct) (tableOf N E lut)) 0) (brNoise w N k p bc (length s) Ek).
Proof. intros w N k E sk p s brk Ek bs bc acc0 ct lut ms H1 H2 H3 H4 H5 H6. exact (proj2 (proj2 (ext_at w N k E sk p s brk Ek bs bc acc0 ct lut ms H1 H2 H3 H4 H5 H6))). Qed.
Print Assumptions C33_exact_partial.

(** Table of 16 entries over rank 8. *)
Definition etab := [map (fun x => x * 2 ^ 28) [1; 2; 3; 4; 5; 6; 7; 8]; map (fun x => x * 2 ^ 28) [9; 10; 11; 12; 13; 14; 15; 15]].
Example C33_ex : lut_ok 32 8 2 etab /\ rotSum (ModSwitch 32 16) bs4 [2 * 2 ^ 27; 4 * 2 ^ 27; 3 * 2 ^ 27; 5 * 2 ^ 27; 7 * 2 ^ 27] = 13 /\
  bdec (blindRotateExtendedTo 32 8 1 2 (ModSwitch 32 16) exgad bbrk 2 2 4 bbuf [2 * 2 ^ 27; 4 * 2 ^ 27; 3 * 2 ^ 27; 5 * 2 ^ 27; 7 * 2 ^ 27] etab)
  = map (fun x => x mod 16) [15; 15; -9; -10; -11; -12; -13; -14].
Proof.
  split; [|vm_compute; repeat split]. split; [reflexivity|]. intros i Hi. assert (i = 0 \/ i = 1)%nat as [-> | ->] by lia; (split; [reflexivity|]); repeat constructor; vm_compute; intuition discriminate.
Qed.

(** REFUTED for an odd switched body (bootstrap.go:72-77 exchange source and destination of the initial
    rotation): noise-free key, zero error allowed, wrong table entry. *)
Definition zgad : gadget := {| g_base := 2 ^ 16; g_logBase := 16; g_level := 2; g_sizeT := 32 |}.
Definition zbrk (s : list Z) := fst (GenBlindRotateKey 32 3 2 1 (fun _ => 0) (fun _ => 0) (map (fwdFFT 32) [[1; 0]]) [[1; 0]] s zgad [[0; 0]; [0; 0]] (0, 0)%nat).
Lemma zsetting s bs bc : (0 < bs)%nat -> (0 < bc)%nat -> length s = (bc * bs)%nat -> block_binary bs s -> br_setting 32 2 1 [[1; 0]] zgad s (zbrk s) 0 bs bc.
Proof.
  intros H1 H2 H3 H4. unfold zbrk. destruct (GenBlindRotateKey 32 3 2 1 (fun _ => 0) (fun _ => 0) (map (fwdFFT 32) [[1; 0]]) [[1; 0]] s zgad [[0; 0]; [0; 0]] (0, 0)%nat) as (a & (b & c)) eqn:EK. cbn [fst].
  apply (setting_keygen 32 2 1 [[1; 0]] zgad s (fun _ => 0) (fun _ => 0) 0 bs bc 3 [[0; 0]; [0; 0]] (0, 0)%nat a b c); first [assumption|lia|idtac].
  - exists 1. split; [lia|reflexivity].
  - repeat split; cbn; lia.
  - reflexivity.
  - split; [reflexivity|]. intros i Hi. assert (i = 0%nat) as -> by lia. reflexivity.
  - intros i Hi. assert (i = 0%nat) as -> by lia. cbn. repeat (apply Forall_cons; [auto|]); apply Forall_nil.
  - split; [reflexivity|]. intros i Hi. assert (i = 0 \/ i = 1)%nat as [-> | ->] by lia; reflexivity.
Qed.
Theorem C33_initial_rotation_refuted : exists w N k E sk p s brk Ek bs bc acc0 ct lut, br_setting w N k sk p s brk Ek bs bc /\ (2 <= bc)%nat /\ (0 < E)%nat /\
  lwe_ct w (length s) ct /\ (length acc0 = E /\ forall i, (i < E)%nat -> length (nth i acc0 []) = N) /\ lut_ok w N E lut /\
  let ms := ModSwitch w (Z.of_nat (E * N)) in
  ~ pdist_le (2 ^ w) (gphase N k sk (blindRotateExtendedTo w N k E ms p brk bs bc (length s) acc0 ct lut))
      (comp (pshift (- rotSum ms s ct) (tableOf N E lut)) 0) (brNoise w N k p bc (length s) Ek).
Proof.
  exists 32, 2%nat, 1%nat, 2%nat, [[1; 0]], zgad, [0; 0], (zbrk [0; 0]), 0, 1%nat, 2%nat, [[0; 0]; [0; 0]], [2 ^ 29; 0; 0], [[10; 30]; [20; 40]].
  split; [apply zsetting; try lia; [reflexivity|]; split; [repeat (apply Forall_cons; [auto|]); apply Forall_nil|]; intros i j; rewrite !Nat.div_1_r; lia|].
  split; [lia|]. split; [lia|]. split; [split; [reflexivity|]; repeat constructor; lia|]. split; [split; [reflexivity|]; intros i Hi; assert (i = 0 \/ i = 1)%nat as [-> | ->] by lia; reflexivity|].
  split. { split; [reflexivity|]. intros i Hi. assert (i = 0 \/ i = 1)%nat as [-> | ->] by lia; (split; [reflexivity|]); repeat constructor; lia. }
  intros ms H. apply (pdist_cf _ _ _ _ 0) in H. destruct H as (e & (q & Hq) & He). change (Z.abs e <= 0) in He.
  match type of Hq with ?a - (?b + e) = _ => assert (a = 40 /\ b = 20) as (Ha & Hb) by (vm_compute; split; reflexivity); rewrite Ha, Hb in Hq end.
  assert (e = 0) as -> by lia. lia.
Qed.
Print Assumptions C33_initial_rotation_refuted.
(** REFUTED with a single block, even for an even switched body: block 0 is processed twice. *)
Theorem C33_single_block_refuted : exists w N k E sk p s brk Ek bs bc acc0 ct lut, br_setting w N k sk p s brk Ek bs bc /\ bc = 1%nat /\ (0 < E)%nat /\
  lwe_ct w (length s) ct /\ (length acc0 = E /\ forall i, (i < E)%nat -> length (nth i acc0 []) = N) /\ lut_ok w N E lut /\
  let ms := ModSwitch w (Z.of_nat (E * N)) in (Z.of_nat E | ms (nthZ ct 0)) /\
  ~ pdist_le (2 ^ w) (gphase N k sk (blindRotateExtendedTo w N k E ms p brk bs bc (length s) acc0 ct lut))
      (comp (pshift (- rotSum ms s ct) (tableOf N E lut)) 0) (brNoise w N k p bc (length s) Ek).
Proof.
  exists 32, 2%nat, 1%nat, 2%nat, [[1; 0]], zgad, [1], (zbrk [1]), 0, 1%nat, 1%nat, [[0; 0]; [0; 0]], [0; 2 ^ 30], [[10; 30]; [20; 40]].
  split; [apply zsetting; try lia; [reflexivity|]; split; [repeat (apply Forall_cons; [auto|]); apply Forall_nil|]; intros i j; rewrite !Nat.div_1_r; lia|].
  split; [reflexivity|]. split; [lia|]. split; [split; [reflexivity|]; repeat constructor; lia|]. split; [split; [reflexivity|]; intros i Hi; assert (i = 0 \/ i = 1)%nat as [-> | ->] by lia; reflexivity|].
  split. { split; [reflexivity|]. intros i Hi. assert (i = 0 \/ i = 1)%nat as [-> | ->] by lia; (split; [reflexivity|]); repeat constructor; lia. }
  split; [exists 0; vm_compute; reflexivity|].
  intros H. apply (pdist_cf _ _ _ _ 0) in H. destruct H as (e & (q & Hq) & He). change (Z.abs e <= 0) in He.
  match type of Hq with ?a - (?b + e) = _ => let a' := eval vm_compute in a in let b' := eval vm_compute in b in
    assert (a = a' /\ b = b') as (Ha & Hb) by (vm_compute; split; reflexivity); rewrite Ha, Hb in Hq end.
  assert (e = 0) as -> by lia. lia.
Qed.
Print Assumptions C33_single_block_refuted.

(** ** C34 *)
(** Phase form: any table holding f, both orders. *)
Theorem C34_phase : forall w N k E p pKS sk s large brk ksk bs bc Ek Eks, 0 < w -> (0 < N)%nat ->
  boot_keys w N k E p pKS sk s large brk ksk bs bc Ek Eks ->
  forall acc0 rotBuf ksBuf extBuf lut f mm scale mu ms, boot_bufs N k E (length s) acc0 rotBuf ksBuf extBuf -> lut_ok w N E lut -> 0 < mm -> lut_holds N E (2 ^ w) mm lut f ->
  ms_err w (Z.of_nat (E * N)) mu ms -> forall m ee ct out, 0 <= m < mm ->
  (length out = S (length s) -> lwe_ct w (length s) ct -> eqm (2 ^ w) (phase s ct) (scale * m + ee) ->
   boot_margin (2 ^ w) (Z.of_nat (E * N)) mm scale m (Z.abs ee) mu (zsum (length s) (nthZ s)) (extSlack E) ->
   let r := BootstrapLUTTo w N k E false ms p pKS brk ksk bs bc (length s) acc0 rotBuf ksBuf extBuf out ct lut in
   lwe_ct w (length s) r /\ dist_le (2 ^ w) (phase s r) (f m) (brNoise w N k p bc (length s) Ek + ksNoise w pKS (length large - length s) Eks)) /\
  (length out = S (length large) -> lwe_ct w (length large) ct -> eqm (2 ^ w) (phase large ct) (scale * m + ee) ->
   boot_margin (2 ^ w) (Z.of_nat (E * N)) mm scale m (Z.abs ee + ksNoise w pKS (length large - length s) Eks) mu (zsum (length s) (nthZ s)) (extSlack E) ->
   let r := BootstrapLUTTo w N k E true ms p pKS brk ksk bs bc (length s) acc0 rotBuf ksBuf extBuf out ct lut in
   lwe_ct w (length large) r /\ dist_le (2 ^ w) (phase large r) (f m) (brNoise w N k p bc (length s) Ek)).
Proof. exact boot_phase. Qed.
Print Assumptions C34_phase.
(** Message form: table generated from f, modulus 2^kk, decryption returns f m, both orders. *)
Theorem C34_message : forall w N k E p pKS sk s large brk ksk bs bc Ek Eks, 0 < w -> (0 < N)%nat ->
  boot_keys w N k E p pKS sk s large brk ksk bs bc Ek Eks ->
  forall acc0 rotBuf ksBuf extBuf lutOut raw kk mu f, boot_bufs N k E (length s) acc0 rotBuf ksBuf extBuf ->
  length raw = (E * N)%nat -> length lutOut = E -> (forall i, (i < E)%nat -> length (nth i lutOut []) = N) ->
  0 <= kk <= w - 2 -> 2 ^ kk * Z.of_nat (E * N) < 2 ^ 52 -> let mm := 2 ^ kk in let scale := scaleOf w mm in let ms := ModSwitch w (Z.of_nat (E * N)) in
  ms_err w (Z.of_nat (E * N)) mu ms ->
  exists lut raw', GenLUTCustomTo w N E lutOut raw f mm scale = Some (lut, raw') /\ forall m ee ct out, 0 <= m < mm ->
  (length out = S (length s) -> lwe_ct w (length s) ct -> eqm (2 ^ w) (phase s ct) (scale * m + ee) ->
   boot_margin (2 ^ w) (Z.of_nat (E * N)) mm scale m (Z.abs ee) mu (zsum (length s) (nthZ s)) (extSlack E) ->
   decodes w scale (brNoise w N k p bc (length s) Ek + ksNoise w pKS (length large - length s) Eks) ->
   DecryptLWE w mm scale s (BootstrapLUTTo w N k E false ms p pKS brk ksk bs bc (length s) acc0 rotBuf ksBuf extBuf out ct lut) = Some (f m mod mm)) /\
  (length out = S (length large) -> lwe_ct w (length large) ct -> eqm (2 ^ w) (phase large ct) (scale * m + ee) ->
   boot_margin (2 ^ w) (Z.of_nat (E * N)) mm scale m (Z.abs ee + ksNoise w pKS (length large - length s) Eks) mu (zsum (length s) (nthZ s)) (extSlack E) ->
   decodes w scale (brNoise w N k p bc (length s) Ek) ->
   DecryptLWE w mm scale large (BootstrapLUTTo w N k E true ms p pKS brk ksk bs bc (length s) acc0 rotBuf ksBuf extBuf out ct lut) = Some (f m mod mm)).
Proof. exact boot_message. Qed.
Print Assumptions C34_message.
(** Generated keys meet the hypotheses. *)
Theorem C34_keygen : forall w N k E p pKS sk s large U G Eg bs bc logN buf st1 st2 brk buf' st1' ksk st2', 0 < w -> (0 < N)%nat ->
  (exists n0, 0 <= n0 /\ Z.of_nat N = 2 ^ n0) -> (0 < E)%nat /\ (E = 1%nat \/ (2 <= bc)%nat) -> gadget_ok w p -> gadget_ok w pKS -> 0 < splitBitsShort logN ->
  length sk = k -> (forall i, (i < k)%nat -> length (nth i sk []) = N) -> flat N sk large -> binary large -> s = firstn (length s) large -> (length s <= length large)%nat ->
  (0 < bs)%nat /\ (0 < bc)%nat /\ length s = (bc * bs)%nat /\ block_binary bs s -> (forall i, Z.abs (G i) <= Eg) -> gshape N k buf ->
  GenBlindRotateKey w logN N k U G (map (fwdFFT w) sk) sk s p buf st1 = (brk, (buf', st1')) ->
  GenDefaultKeySwitchKey w U G s (skipn (length s) large) pKS st2 = (ksk, st2') ->
  boot_keys w N k E p pKS sk s large brk ksk bs bc Eg Eg.
Proof. exact keygen_boot_keys. Qed.
Print Assumptions C34_keygen.

(** Generated keys, modulus 2, NOT as a table: hypotheses hold, and the runs decrypt to 1 - m in both orders,
    also with a table larger than the rank. *)
Lemma bkeys E : E = 1%nat \/ E = 2%nat -> boot_keys 32 8 1 E exgad exgad bsk bs4 (hd [] bsk) bbrk bksk 2 2 3 3.
Proof.
  intros HE. unfold bbrk, bksk.
  destruct (GenBlindRotateKey 32 3 8 1 exU exG (map (fwdFFT 32) bsk) bsk bs4 exgad bbuf (2, 4)%nat) as (brk & (buf' & st1')) eqn:E1.
  destruct (GenDefaultKeySwitchKey 32 exU exG bs4 (skipn 4 (hd [] bsk)) exgad (500, 600)%nat) as (ksk & st2') eqn:E2. cbn [fst].
  eapply (keygen_boot_keys 32 8 1 E exgad exgad bsk bs4 (hd [] bsk) exU exG 3 2 2 3 bbuf (2, 4)%nat (500, 600)%nat brk buf' st1' ksk st2'); try lia; try reflexivity; try exact exgad_ok; try exact exG_bound; try assumption.
  - exists 3. split; [lia|reflexivity].
  - intros i Hi. assert (i = 0%nat) as -> by lia. reflexivity.
  - split; [reflexivity|]. intros i j Hi Hj. change (length bsk) with 1%nat in Hi. assert (i = 0%nat) as -> by lia. reflexivity.
  - cbn. repeat (apply Forall_cons; [auto|]); apply Forall_nil.
  - cbn. lia.
  - split; [lia|]. split; [lia|]. split; [reflexivity|exact bs4_blocks].
  - split; [reflexivity|]. intros i Hi. assert (i = 0 \/ i = 1)%nat as [-> | ->] by lia; reflexivity.
Qed.
Definition brun (E : nat) (order : bool) (m : Z) : option Z :=
  let key := if order then hd [] bsk else bs4 in let ms := ModSwitch 32 (8 * Z.of_nat E) in
  let ct := fst (EncryptLWETo 32 exU exG 2 (scaleOf 32 2) key (repeat 9 (S (length key))) m (20, 40)%nat) in
  match GenLUTCustomTo 32 8 E (repeat (repeat 9 8) E) (repeat 9 (8 * E)) (fun x => 1 - x) 2 (scaleOf 32 2) with
  | None => None
  | Some (lut, _) => DecryptLWE 32 2 (scaleOf 32 2) key
      (BootstrapLUTTo 32 8 1 E order ms exgad exgad bbrk bksk 2 2 4 (repeat (repeat 9 8) E) bbuf (repeat 9 5) (repeat 9 9) (repeat 9 (S (length key))) ct lut)
  end.
Example C34_run : brun 1 false 0 = Some 1 /\ brun 1 false 1 = Some 0 /\ brun 1 true 0 = Some 1 /\ brun 1 true 1 = Some 0 /\
  brun 2 false 0 = Some 1 /\ brun 2 false 1 = Some 0 /\ brun 2 true 0 = Some 1 /\ brun 2 true 1 = Some 0.
Proof. vm_compute. repeat split. Qed.
Example C34_hyps : ms_err 32 8 (2 ^ 32) (ModSwitch 32 8) /\ ms_err 32 16 (2 ^ 32) (ModSwitch 32 16) /\
  (forall m ee, 0 <= m < 2 -> Z.abs ee <= 3 -> boot_margin (2 ^ 32) 8 2 (scaleOf 32 2) m (Z.abs ee + ksNoise 32 exgad 4 3) (2 ^ 32) 2 (extSlack 1)) /\
  (forall m ee, 0 <= m < 2 -> Z.abs ee <= 3 -> boot_margin (2 ^ 32) 16 2 (scaleOf 32 2) m (Z.abs ee + ksNoise 32 exgad 4 3) (2 ^ 32) 2 (extSlack 2)) /\
  decodes 32 (scaleOf 32 2) (brNoise 32 8 1 exgad 2 4 3 + ksNoise 32 exgad 4 3) /\ zsum 4 (nthZ bs4) = 2.
Proof.
  assert (scaleOf 32 2 = 2 ^ 30) as -> by (vm_compute; reflexivity). assert (ksNoise 32 exgad 4 3 = 2097440) as -> by (vm_compute; reflexivity).
  split; [apply ms_err_exact; try lia; exists (2 ^ 28); reflexivity|]. split; [apply ms_err_exact; try lia; exists (2 ^ 27); reflexivity|].
  split; [intros m ee Hm He; right; split; [exists 2; reflexivity|change (extSlack 1) with 0; lia]|].
  split; [intros m ee Hm He; right; split; [exists 4; reflexivity|change (extSlack 2) with 2; lia]|].
  split; [left; split; [lia|vm_compute; reflexivity]|reflexivity].
Qed.
