(** Property C57: re-randomisation and sanitisation (xtfhe/sanitization.go). *)
From Verif Require Import Base NegaRing SpecNum ModelNum ModelVec ModelPoly SpecPoly ModelGadget SpecGadget ModelEncoder ModelLWE SpecLWE ModelParams ModelGLWE SpecGLWE PfBoot4
  ModelPub SpecPub PfPub3 ModelSanit SpecSanit PfSanit PfSanit2 PropLWE PropGLWE PropBoot PropManyLUT ModelBoot SpecBoot.

(** ** The table sampler: the sample is offset + x for the only x whose interval of the cumulative table holds the uniform word. *)
Theorem C57_Sample : forall w table offset r, 0 < w -> (forall i j, (i <= j < length table)%nat -> nthZ table i <= nthZ table j) -> - 2 ^ 63 <= offset -> offset + Z.of_nat (length table) < 2 ^ 63 ->
  exists x, cdtRange table x r /\ (forall y, cdtRange table y r -> y = x) /\ CDTSample w table offset r = wrap w (offset + Z.of_nat x).
Proof. exact CDTSample_spec. Qed.
Print Assumptions C57_Sample.
(** Words below, between and above the table. *)
Example C57_Sample_ex : map (CDTSample 32 [10; 20; 20; 50; 90] (-2)) [0; 9; 10; 19; 20; 49; 50; 89; 90; 4294967295] = map (wrap 32) [-2; -2; -1; -1; 1; 1; 2; 2; 3; 3].
Proof. vm_compute. reflexivity. Qed.

(** ** Re-randomisation adds an encryption of zero made of fresh samples; the message stays. *)
Theorem C57_ReRandGLWE : forall w logN N, 0 < w -> (0 < N)%nat -> 0 < splitBits logN -> forall D R sk gpk e, pk_enc w N 1 sk gpk e ->
  forall pG cR out ct st, length pG = N -> gshape N 1 cR -> gshape N 1 out -> glwe_ct w N 1 ct ->
  let r := fst (ReRandGLWETo w logN N 1 D R gpk pG cR out ct st) in let z := fst (snd (ReRandGLWETo w logN N 1 D R gpk pG cR out ct st)) in
  let err := padd (reRandErr N sk (e 0%nat) D (fst st)) (noisep N R (snd st)) in
  glwe_ct w N 1 z /\ peq (2 ^ w) (gphase N 1 sk z) err /\ glwe_ct w N 1 r /\ (forall i, (i <= 1)%nat -> nth i r [] = vadd w (nth i ct []) (nth i z [])) /\ peq (2 ^ w) (gphase N 1 sk r) (padd (gphase N 1 sk ct) err).
Proof. exact ReRandGLWETo_spec. Qed.
Print Assumptions C57_ReRandGLWE.
Theorem C57_ReRandLWE : forall w logN N, 0 < w -> (0 < N)%nat -> 0 < splitBits logN -> forall D R sk gpk e, pk_enc w N 1 sk gpk e ->
  forall large pG cR lR out ct st, flat N sk large -> length sk = 1%nat -> length pG = N -> gshape N 1 cR -> length lR = S (1 * N) -> length out = S (1 * N) -> lwe_ct w (1 * N) ct ->
  let r := fst (ReRandLWETo w logN N D R gpk pG cR lR out ct st) in let z := fst (snd (snd (ReRandLWETo w logN N D R gpk pG cR lR out ct st))) in
  let err := cf (reRandErr N sk (e 0%nat) D (fst st)) 0 in
  lwe_ct w (1 * N) z /\ eqm (2 ^ w) (phase large z) err /\ lwe_ct w (1 * N) r /\ (forall i, (i < N)%nat -> nthZ r (S i) = wrap w (nthZ ct (S i) + nthZ z (S i))) /\
  eqm (2 ^ w) (phase large r) (phase large ct + (err + R (snd st))).
Proof. exact ReRandLWETo_spec. Qed.
Print Assumptions C57_ReRandLWE.
Theorem C57_bound : forall N, (0 < N)%nat -> forall D sk e E Bd d, 0 <= E -> 0 <= Bd -> pbound E (e 0%nat) -> (forall i, Z.abs (D i) <= Bd) -> pbound 1 (pol N (nth 0 sk [])) -> pbound (reRandBound N E Bd) (reRandErr N sk (e 0%nat) D d).
Proof. exact reRandErr_bound. Qed.
Print Assumptions C57_bound.

(** ** Sanitisation looks the table up at the position of the input's phase and stays within sanitNoise of the entry,
    whatever the old buffers hold.  The table must consist of multiples of Q / 2mm, up to delta. *)
Theorem C57_position : forall w logN N, 0 < w -> (0 < N)%nat -> 0 < splitBits logN ->
  forall p pKS sk s large brk ksk bs bc Ek Eks gpk e E, boot_keys w N 1 1 p pKS sk s large brk ksk bs bc Ek Eks -> pk_enc w N 1 sk gpk e -> pbound E (e 0%nat) ->
  forall (D R L1 L0 RL : nat -> Z) Bd Br Bl BL, 0 <= Bd -> 0 <= Bl -> (forall i, Z.abs (D i) <= Bd) -> (forall i, Z.abs (R i) <= Br) -> (forall i, Z.abs (L1 i) <= Bl) -> (forall i, Z.abs (L0 i) <= Bl) -> (forall i, Z.abs (RL i) <= BL) ->
  forall mm mu ms lut delta, 0 < mm -> ms_err w (Z.of_nat N) mu ms -> lut_ok w N 1 lut -> lut_steps (2 ^ w) N mm delta (nth 0 lut []) ->
  forall pG cR lR reBuf ksBuf rotBuf ctOut ct st l phi, length pG = N -> gshape N 1 cR -> length lR = S N -> length reBuf = S N -> length ksBuf = S (length s) -> gshape N 1 rotBuf -> length ctOut = S N ->
  lwe_ct w N ct -> eqm (2 ^ w) (phase large ct) phi ->
  exists r, SanitizeLUTTo w logN N 1 D R L1 L0 RL mm ms p pKS brk ksk bs bc (length s) gpk pG cR lR reBuf ksBuf rotBuf ctOut ct lut st l = Some r /\
  lwe_ct w N r /\ exists pos, 2 * Z.abs (pos * 2 ^ w - 2 * Z.of_nat N * phi) <= mu * (2 + zsum (length s) (nthZ s)) + 4 * Z.of_nat N * (reRandBound N E Bd + Br + ksNoise w pKS (N - length s) Eks) /\
  dist_le (2 ^ w) (phase large r) (cf (pol N (nth 0 lut [])) pos) (sanitNoise N mm (brNoise w N 1 p bc (length s) Ek) Bl delta BL).
Proof. exact sanit_position. Qed.
Print Assumptions C57_position.

(** ** SanitizeFuncTo applies f to the message, for a power-of-two message modulus. *)
Theorem C57_message : forall w logN N, 0 < w -> (0 < N)%nat -> 0 < splitBits logN ->
  forall p pKS sk s large brk ksk bs bc Ek Eks gpk e E, boot_keys w N 1 1 p pKS sk s large brk ksk bs bc Ek Eks -> pk_enc w N 1 sk gpk e -> pbound E (e 0%nat) ->
  forall (D R L1 L0 RL : nat -> Z) Bd Br Bl BL, 0 <= Bd -> 0 <= Bl -> (forall i, Z.abs (D i) <= Bd) -> (forall i, Z.abs (R i) <= Br) -> (forall i, Z.abs (L1 i) <= Bl) -> (forall i, Z.abs (L0 i) <= Bl) -> (forall i, Z.abs (RL i) <= BL) ->
  forall pG cR lR reBuf ksBuf rotBuf ctOut, length pG = N -> gshape N 1 cR -> length lR = S N -> length reBuf = S N -> length ksBuf = S (length s) -> gshape N 1 rotBuf -> length ctOut = S N ->
  forall kk mu f lutBuf raw, 0 <= kk <= w - 2 -> 2 ^ kk * Z.of_nat N < 2 ^ 52 -> length raw = N -> length lutBuf = 1%nat -> length (nth 0 lutBuf []) = N ->
  let mm := 2 ^ kk in let scale := scaleOf w mm in let ms := ModSwitch w (Z.of_nat N) in ms_err w (Z.of_nat N) mu ms ->
  forall ct st l m ee, lwe_ct w N ct -> 0 <= m < mm -> eqm (2 ^ w) (phase large ct) (scale * m + ee) ->
  boot_margin (2 ^ w) (Z.of_nat N) mm scale m (Z.abs ee + reRandBound N E Bd + Br + ksNoise w pKS (N - length s) Eks) mu (1 + zsum (length s) (nthZ s)) 0 ->
  decodes w scale (sanitNoise N mm (brNoise w N 1 p bc (length s) Ek) Bl 0 BL) ->
  exists r, SanitizeFuncTo w logN N 1 D R L1 L0 RL mm scale ms p pKS brk ksk bs bc (length s) gpk pG cR lR reBuf ksBuf rotBuf ctOut ct lutBuf raw f st l = Some r /\
  lwe_ct w N r /\ DecryptLWE w mm scale large r = Some (f m mod mm).
Proof. exact sanit_message. Qed.
Print Assumptions C57_message.

(** A rank-16 run with the keys of C53 and a generated public key: every sample within 3, both messages negated. *)
Definition sngpk := snd (fst (GenPublicKey 32 4 16 1 exU exG mlsk (700, 800)%nat)).
Definition snct (m : Z) : list Z := fst (EncryptLWETo 32 exU exG 2 (scaleOf 32 2) (hd [] mlsk) (repeat 9 17) m (20, 40)%nat).
Lemma snct_ok m : m = 0 \/ m = 1 -> lwe_ct 32 16 (snct m) /\ Z.abs (phase (hd [] mlsk) (snct m) - scaleOf 32 (2 ^ 1) * m) mod 2 ^ 32 <= 3.
Proof.
  intros [-> | ->]; (split; [|vm_compute; discriminate]).
  - assert (exists c, snct 0 = c /\ lwe_ct 32 16 c) as (c & -> & Hc); [|exact Hc].
    eexists. split; [vm_compute; reflexivity|]. split; [reflexivity|]. repeat (apply Forall_cons; [split; [discriminate|reflexivity]|]); apply Forall_nil.
  - assert (exists c, snct 1 = c /\ lwe_ct 32 16 c) as (c & -> & Hc); [|exact Hc].
    eexists. split; [vm_compute; reflexivity|]. split; [reflexivity|]. repeat (apply Forall_cons; [split; [discriminate|reflexivity]|]); apply Forall_nil.
Qed.
Lemma sngpk_ok : pk_enc 32 16 1 mlsk sngpk (fun i => noisep 16 exG (800 + i * 16)).
Proof.
  unfold sngpk. destruct (GenPublicKey 32 4 16 1 exU exG mlsk (700, 800)%nat) as [[l g] t] eqn:E.
  destruct (GenPublicKey_spec 32 ltac:(lia) 16 ltac:(lia) 1 4 ltac:(reflexivity) exU exG mlsk ltac:(split; [reflexivity|intros i Hi; replace i with 0%nat by lia; reflexivity]) (700, 800)%nat l g t E) as (A & _). exact A.
Qed.
Example C57_run : forall m, m = 0 \/ m = 1 -> exists r,
  SanitizeFuncTo 32 4 16 1 exG exG exG exG exG 2 (scaleOf 32 2) (ModSwitch 32 16) mlgad mlgad mlbrk mlksk 2 2 4 sngpk (repeat 9 16) mlbuf (repeat 9 17) (repeat 9 17) (repeat 9 5) mlbuf (repeat 9 17)
    (snct m) [repeat 9 16] (repeat 9 16) (fun x => 1 - x) (11, 12)%nat 5 = Some r /\ DecryptLWE 32 2 (scaleOf 32 2) (hd [] mlsk) r = Some (1 - m).
Proof.
  intros m Hm. destruct (snct_ok m Hm) as (Hct & B).
  assert (exists ee, eqm (2 ^ 32) (phase (hd [] mlsk) (snct m)) (scaleOf 32 (2 ^ 1) * m + ee) /\ Z.abs ee <= 3) as (ee & He & Be).
  { set (x := phase (hd [] mlsk) (snct m) - scaleOf 32 (2 ^ 1) * m) in *. exists ((Z.sgn x) * (Z.abs x mod 2 ^ 32)). split.
    - exists (Z.sgn x * (Z.abs x / 2 ^ 32)). pose proof (Z.div_mod (Z.abs x) (2 ^ 32) ltac:(lia)) as D. assert (x = Z.sgn x * Z.abs x) as E by (destruct x; cbn; lia). unfold x in E at 1. nia.
    - pose proof (Z.mod_pos_bound (Z.abs x) (2 ^ 32)). destruct x; cbn [Z.sgn Z.abs] in *; lia. }
  assert (gshape 16 1 mlbuf) as Hb by (split; [reflexivity|intros i Hi; assert (i = 0 \/ i = 1)%nat as [-> | ->] by lia; reflexivity]).
  destruct (C57_message 32 4 16 ltac:(lia) ltac:(lia) ltac:(reflexivity) mlgad mlgad mlsk bs4 (hd [] mlsk) mlbrk mlksk 2 2 3 3 sngpk _ 3 mlkeys sngpk_ok
    (noisep_le 16 ltac:(lia) exG (800 + 0 * 16) 3 ltac:(lia) exG_bound) exG exG exG exG exG 3 3 3 3 ltac:(lia) ltac:(lia) exG_bound exG_bound exG_bound exG_bound exG_bound
    (repeat 9 16) mlbuf (repeat 9 17) (repeat 9 17) (repeat 9 5) mlbuf (repeat 9 17) eq_refl Hb eq_refl eq_refl eq_refl Hb eq_refl
    1 (2 ^ 32) (fun x => 1 - x) [repeat 9 16] (repeat 9 16) ltac:(lia) ltac:(reflexivity) eq_refl eq_refl eq_refl
    (ms_err_exact 32 16 ltac:(lia) ltac:(lia) ltac:(reflexivity) (ex_intro _ (2 ^ 27) eq_refl) ltac:(lia)) (snct m) (11, 12)%nat 5%nat m ee Hct ltac:(change (2 ^ 1) with 2; lia) He) as (r & R1 & _ & R2).
  - unfold boot_margin. right. split; [exists 4; reflexivity|].
    change (Z.of_nat 16) with 16. change (2 ^ 1) with 2. change (Z.abs (2 ^ 32 - 2 * 2 * scaleOf 32 2)) with 0. rewrite Z.mul_0_r, Z.add_0_l.
    assert (Z.abs ee + reRandBound 16 3 3 + 3 + ksNoise 32 mlgad (16 - length bs4) 3 <= 3 + reRandBound 16 3 3 + 3 + ksNoise 32 mlgad (16 - length bs4) 3) as H0 by lia.
    assert (4 * 16 * 2 * (3 + reRandBound 16 3 3 + 3 + ksNoise 32 mlgad (16 - length bs4) 3) + 2 * 2 ^ 32 * (1 + (1 + zsum (length bs4) (nthZ bs4))) + 2 * 2 * 0 * 2 ^ 32 < 16 * 2 ^ 32) as H1 by (vm_compute; reflexivity).
    lia.
  - left. vm_compute. split; [discriminate|reflexivity].
  - exists r. split; [exact R1|]. change (2 ^ 1) with 2 in R2. rewrite R2. f_equal. destruct Hm as [-> | ->]; reflexivity.
Qed.
