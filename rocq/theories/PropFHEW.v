(** C56: FHEW blind rotation and bootstrapping (xtfhe/fhew_evaluator.go, fhew_bootstrap.go, fhew_bootstrap_keygen.go). *)
From Verif Require Import Base NegaRing SpecNum ModelNum ModelVec ModelPoly SpecPoly ModelGadget SpecGadget ModelEncoder ModelLWE SpecLWE ModelGLWE SpecGLWE ModelBoot SpecBoot ModelBFV SpecBFV ModelFHEW SpecFHEW
  PfFHEW PfFHEW4 PfFHEW5 PfFHEW6 ModelParams PropLWE PropGLWE PropBoot PropManyLUT.

(** The table gives the discrete logarithm of every odd residue mod 2N: i for 5^i, -i for -5^i, 2N for -1 and 0 for 1. *)
Theorem C56_autIdxMap : forall N n, 1 <= n -> Z.of_nat N = 2 ^ n -> forall a, 0 <= a < 2 * Z.of_nat N -> Z.odd a = true ->
  let v := nthZ (autIdxMap N) (Z.to_nat a) in
  (exists i, (1 <= i < N / 2)%nat /\ v = Z.of_nat i /\ eqm (2 * Z.of_nat N) a (5 ^ Z.of_nat i)) \/
  (exists i, (1 <= i < N / 2)%nat /\ v = - Z.of_nat i /\ eqm (2 * Z.of_nat N) a (- 5 ^ Z.of_nat i)) \/
  (v = 2 * Z.of_nat N /\ eqm (2 * Z.of_nat N) a (-1)) \/ (v = 0 /\ eqm (2 * Z.of_nat N) a 1).
Proof. exact autIdxMap_spec. Qed.
Print Assumptions C56_autIdxMap.
Example C56_autIdxMap_ex : map (fun a => nthZ (autIdxMap 8) a) [1; 3; 5; 7; 9; 11; 13; 15]%nat = [0; -3; 1; -2; 2; -1; 3; 16].
Proof. vm_compute. reflexivity. Qed.

(** The accumulator ends as an encryption of X^oddRot times the table, oddRot being the sum over every mask word, each
    switched to an odd residue exactly once: for every mask, key, window size and content of the buffers. *)
Theorem C56_BlindRotate : forall w N k n, 0 < w -> 1 <= n <= 30 -> Z.of_nat N = 2 ^ n -> forall sk p, gadget_ok w p -> (1 <= k)%nat -> (forall i, (i < k)%nat -> length (nth i sk []) = N) ->
  forall b, key_small w N k sk b -> 0 <= b -> forall s brk Ek, mono_keys w N k p sk s brk Ek -> 0 <= Ek -> forall W glk Eg, (1 <= W)%nat -> window_keys w N k p sk W glk Eg -> 0 <= Eg ->
  forall ms perm ctOut ct lut, (forall x, uword w x -> 0 <= ms x < 2 * Z.of_nat N) -> gshape N k ctOut -> glwe_ct w N k perm -> wpoly w N lut ->
  exists r perm', FHEWBlindRotateTo w N k ms p brk glk W (length s) perm ctOut ct lut = Some (r, perm') /\ glwe_ct w N k perm' /\ glwe_ct w N k r /\
    pdist_le (2 ^ w) (gphase N k sk r) (pmul (pmono (oddRot w ms s ct)) (pol N lut)) (fhewNoise w N k p W (length s) b Ek Eg).
Proof. exact FHEWBlindRotateTo_spec. Qed.
Print Assumptions C56_BlindRotate.

(** Bootstrapping computes the function of the table, in both orders of key switching.  mu + 2 * 2^w is the error of the
    mod switch to odd residues. *)
Theorem C56_phase : forall w N k p pKS sk s large brk glk ksk W b Ek Eg Eks, 0 < w -> fhew_keys w N k p pKS sk s large brk glk ksk W b Ek Eg Eks ->
  forall perm rotBuf ksBuf extBuf lut f mm scale mu ms m ee ct out, glwe_ct w N k perm -> gshape N k rotBuf -> length ksBuf = S (length s) -> length extBuf = S (k * N) -> wpoly w N lut ->
  0 <= m < mm -> lut_holds N 1 (2 ^ w) mm [lut] f -> ms_err w (Z.of_nat N) mu ms ->
  (length out = S (length s) -> lwe_ct w (length s) ct -> eqm (2 ^ w) (phase s ct) (scale * m + ee) ->
   boot_margin (2 ^ w) (Z.of_nat N) mm scale m (Z.abs ee) (mu + 2 * 2 ^ w) (absSum w s) 0 ->
   exists r, FHEWBootstrapLUTTo w N k false ms p pKS brk glk ksk W (length s) perm rotBuf ksBuf extBuf out ct lut = Some r /\ lwe_ct w (length s) r /\
     dist_le (2 ^ w) (phase s r) (f m) (fhewNoise w N k p W (length s) b Ek Eg + ksNoiseB w pKS (length large - length s) b Eks)) /\
  (length out = S (length large) -> lwe_ct w (length large) ct -> eqm (2 ^ w) (phase large ct) (scale * m + ee) ->
   boot_margin (2 ^ w) (Z.of_nat N) mm scale m (Z.abs ee + ksNoiseB w pKS (length large - length s) b Eks) (mu + 2 * 2 ^ w) (absSum w s) 0 ->
   exists r, FHEWBootstrapLUTTo w N k true ms p pKS brk glk ksk W (length s) perm rotBuf ksBuf extBuf out ct lut = Some r /\ lwe_ct w (length large) r /\
     dist_le (2 ^ w) (phase large r) (f m) (fhewNoise w N k p W (length s) b Ek Eg)).
Proof. exact fhew_boot_phase. Qed.
Print Assumptions C56_phase.

(** From the table generator to the decryption. *)
Theorem C56_message : forall w N k p pKS sk s large brk glk ksk W b Ek Eg Eks, 0 < w -> fhew_keys w N k p pKS sk s large brk glk ksk W b Ek Eg Eks ->
  forall perm rotBuf ksBuf extBuf lutOut raw kk mu f, glwe_ct w N k perm -> gshape N k rotBuf -> length ksBuf = S (length s) -> length extBuf = S (k * N) -> length raw = N -> length lutOut = N ->
  0 <= kk <= w - 2 -> 2 ^ kk * Z.of_nat N < 2 ^ 52 ->
  let mm := 2 ^ kk in let scale := scaleOf w mm in let ms := ModSwitch w (Z.of_nat N) in ms_err w (Z.of_nat N) mu ms ->
  exists lut raw', GenLUTCustomTo w N 1 [lutOut] raw f mm scale = Some ([lut], raw') /\ forall m ee ct out, 0 <= m < mm ->
  (length out = S (length s) -> lwe_ct w (length s) ct -> eqm (2 ^ w) (phase s ct) (scale * m + ee) ->
   boot_margin (2 ^ w) (Z.of_nat N) mm scale m (Z.abs ee) (mu + 2 * 2 ^ w) (absSum w s) 0 ->
   decodes w scale (fhewNoise w N k p W (length s) b Ek Eg + ksNoiseB w pKS (length large - length s) b Eks) ->
   exists r, FHEWBootstrapLUTTo w N k false ms p pKS brk glk ksk W (length s) perm rotBuf ksBuf extBuf out ct lut = Some r /\ DecryptLWE w mm scale s r = Some (f m mod mm)) /\
  (length out = S (length large) -> lwe_ct w (length large) ct -> eqm (2 ^ w) (phase large ct) (scale * m + ee) ->
   boot_margin (2 ^ w) (Z.of_nat N) mm scale m (Z.abs ee + ksNoiseB w pKS (length large - length s) b Eks) (mu + 2 * 2 ^ w) (absSum w s) 0 ->
   decodes w scale (fhewNoise w N k p W (length s) b Ek Eg) ->
   exists r, FHEWBootstrapLUTTo w N k true ms p pKS brk glk ksk W (length s) perm rotBuf ksBuf extBuf out ct lut = Some r /\ DecryptLWE w mm scale large r = Some (f m mod mm)).
Proof. exact fhew_boot_message. Qed.
Print Assumptions C56_message.

(** Key generation meets fhew_keys: the Gaussian secret key, its monomial encryptions, the automorphism keys of the
    window and the key switching key. *)
Theorem C56_keygen : forall w N k n p pKS Gs U G b E ns g large s sk logN W buf skp st0 st1 st2 ksk st2', 0 < w -> 1 <= n <= 30 -> Z.of_nat N = 2 ^ n -> (1 <= k)%nat -> (1 <= W)%nat -> Z.of_nat W < 2 ^ 62 ->
  gadget_ok w p -> gadget_ok w pKS -> 0 < splitBitsShort logN -> (forall i, Z.abs (Gs i) <= b) -> b < 2 ^ (w - 1) -> (forall i, Z.abs (G i) <= E) -> (ns <= k * N)%nat ->
  gshape N k buf -> length skp = k -> (forall i, (i < k)%nat -> length (nth i skp []) = N) ->
  FHEWGenSecretKey w N k Gs ns g = (large, s, sk) ->
  GenDefaultKeySwitchKey w U G s (skipn (length s) large) pKS st2 = (ksk, st2') ->
  length s = ns /\ exists brk r glk r', FHEWGenBlindRotateKey w N k logN U G (map (fwdFFT w) sk) sk s p buf st0 = Some (brk, r) /\
    FHEWGenGaloisKey w N k logN U G sk (map (fwdFFT w) sk) p W skp buf st1 = Some (glk, r') /\
    fhew_keys w N k p pKS sk s large brk glk ksk W b E E E.
Proof. exact fhew_keygen. Qed.
Print Assumptions C56_keygen.

(** Rank 32, window 4, Gaussian key with first words 1 and -1. *)
Definition fwlarge := fst (fst (FHEWGenSecretKey 32 32 1 exG 2 5)).
Definition fws := snd (fst (FHEWGenSecretKey 32 32 1 exG 2 5)).
Definition fwsk := snd (FHEWGenSecretKey 32 32 1 exG 2 5).
Definition fwksk := fst (GenDefaultKeySwitchKey 32 exU exG fws (skipn (length fws) fwlarge) mlgad (500, 600)%nat).
Definition fwbuf : list (list Z) := [repeat 7 32; repeat 7 32].
Example fws_val : fws = [1; 2 ^ 32 - 1].
Proof. vm_compute. reflexivity. Qed.
Example C56_keys_ex : exists brk r glk r', FHEWGenBlindRotateKey 32 32 1 5 exU exG (map (fwdFFT 32) fwsk) fwsk fws mlgad fwbuf (2, 4)%nat = Some (brk, r) /\
  FHEWGenGaloisKey 32 32 1 5 exU exG fwsk (map (fwdFFT 32) fwsk) mlgad 4 [repeat 7 32] fwbuf (60, 70)%nat = Some (glk, r') /\
  fhew_keys 32 32 1 mlgad mlgad fwsk fws fwlarge brk glk fwksk 4 3 3 3 3.
Proof.
  unfold fwksk. destruct (GenDefaultKeySwitchKey 32 exU exG fws (skipn (length fws) fwlarge) mlgad (500, 600)%nat) as (ksk & st2') eqn:E2. cbn [fst].
  refine (proj2 (C56_keygen 32 32 1 5 mlgad mlgad exG exU exG 3 3 2 5 fwlarge fws fwsk 5 4 fwbuf [repeat 7 32] (2, 4)%nat (60, 70)%nat (500, 600)%nat ksk st2' _ _ _ _ _ _ _ _ _ _ _ _ _ _ _ _ _ E2));
    try lia; try reflexivity; try exact mlgad_ok; try exact exG_bound.
  - split; [reflexivity|]. intros i Hi. assert (i = 0 \/ i = 1)%nat as [-> | ->] by lia; reflexivity.
  - intros i Hi. assert (i = 0)%nat as -> by lia. reflexivity.
Qed.
Definition fwct (key : list Z) (m : Z) : list Z := fst (EncryptLWETo 32 exU exG 2 (scaleOf 32 2) key (repeat 9 (S (length key))) m (20, 40)%nat).
Lemma fwct_ok key m : key = fws \/ key = fwlarge -> m = 0 \/ m = 1 -> lwe_ct 32 (length key) (fwct key m) /\ Z.abs (phase key (fwct key m) - scaleOf 32 (2 ^ 1) * m) mod 2 ^ 32 <= 3.
Proof.
  assert (forall c d, length c = S d -> forallb (fun x => (0 <=? x) && (x <? 2 ^ 32)) c = true -> lwe_ct 32 d c) as X.
  { intros c d Hl Hc. split; [exact Hl|]. apply Forall_forall. intros x Hx. rewrite forallb_forall in Hc. specialize (Hc x Hx). unfold uword. lia. }
  intros [-> | ->] [-> | ->]; (split; [apply X; vm_compute; reflexivity|vm_compute; discriminate]).
Qed.
(** Both messages and both orders: the hypotheses of C56_message hold and 1 - m is decrypted. *)
Example C56_run : forall brk glk, fhew_keys 32 32 1 mlgad mlgad fwsk fws fwlarge brk glk fwksk 4 3 3 3 3 -> forall m, m = 0 \/ m = 1 -> exists lut raw r r',
  GenLUTCustomTo 32 32 1 [repeat 9 32] (repeat 9 32) (fun x => 1 - x) 2 (scaleOf 32 2) = Some ([lut], raw) /\
  FHEWBootstrapLUTTo 32 32 1 false (ModSwitch 32 32) mlgad mlgad brk glk fwksk 4 2 fwbuf fwbuf (repeat 9 3) (repeat 9 33) (repeat 9 3) (fwct fws m) lut = Some r /\
  DecryptLWE 32 2 (scaleOf 32 2) fws r = Some (1 - m) /\
  FHEWBootstrapLUTTo 32 32 1 true (ModSwitch 32 32) mlgad mlgad brk glk fwksk 4 2 fwbuf fwbuf (repeat 9 3) (repeat 9 33) (repeat 9 33) (fwct fwlarge m) lut = Some r' /\
  DecryptLWE 32 2 (scaleOf 32 2) fwlarge r' = Some (1 - m).
Proof.
  intros brk glk HK m Hm. destruct (C56_message 32 32 1 mlgad mlgad fwsk fws fwlarge brk glk fwksk 4 3 3 3 3 ltac:(lia) HK fwbuf fwbuf (repeat 9 3) (repeat 9 33) (repeat 9 32) (repeat 9 32) 1 (2 ^ 32) (fun x => 1 - x)) as (lut & raw & El & X); try reflexivity; try lia.
  - split; [reflexivity|]. intros i Hi. assert (i = 0 \/ i = 1)%nat as [-> | ->] by lia; (split; [reflexivity|]); repeat (apply Forall_cons; [split; [discriminate|reflexivity]|]); apply Forall_nil.
  - split; [reflexivity|]. intros i Hi. assert (i = 0 \/ i = 1)%nat as [-> | ->] by lia; reflexivity.
  - apply C30_ms_err_exact; try reflexivity; try lia. now exists (2 ^ 26).
  - assert (forall key, key = fws \/ key = fwlarge -> exists ee, eqm (2 ^ 32) (phase key (fwct key m)) (scaleOf 32 (2 ^ 1) * m + ee) /\ Z.abs ee <= 3) as XE.
    { intros key Hkey. destruct (fwct_ok key m Hkey Hm) as (_ & B). set (x := phase key (fwct key m) - scaleOf 32 (2 ^ 1) * m) in *. exists ((Z.sgn x) * (Z.abs x mod 2 ^ 32)). split.
      - exists (Z.sgn x * (Z.abs x / 2 ^ 32)). pose proof (Z.div_mod (Z.abs x) (2 ^ 32) ltac:(lia)) as D. assert (x = Z.sgn x * Z.abs x) as E by (destruct x; cbn; lia). unfold x in E at 1. nia.
      - pose proof (Z.mod_pos_bound (Z.abs x) (2 ^ 32)). destruct x; cbn [Z.sgn Z.abs] in *; lia. }
    assert (forall e, 0 <= e <= 3 + ksNoiseB 32 mlgad 30 3 3 -> boot_margin (2 ^ 32) 32 2 (scaleOf 32 2) m e (2 ^ 32 + 2 * 2 ^ 32) (absSum 32 fws) 0) as XM.
    { intros e He. assert (scaleOf 32 2 = 2 ^ 30) as -> by (vm_compute; reflexivity). assert (absSum 32 fws = 2) as -> by (vm_compute; reflexivity).
      assert (ksNoiseB 32 mlgad 30 3 3 = 23040) as Ek by (vm_compute; reflexivity). right. split; [now exists 8|]. destruct Hm as [-> | ->]; lia. }
    assert (0 <= ksNoiseB 32 mlgad 30 3 3) as HK0 by (vm_compute; discriminate).
    change (2 ^ 1) with 2 in *. change (Z.of_nat 32) with 32 in *. change (length fws) with 2%nat in *. change (length fwlarge) with 32%nat in *. change (32 - 2)%nat with 30%nat in *.
    destruct (XE fws (or_introl eq_refl)) as (e1 & E1 & B1). destruct (XE fwlarge (or_intror eq_refl)) as (e2 & E2 & B2).
    destruct (proj1 (X m e1 (fwct fws m) (repeat 9 3%nat) ltac:(lia)) eq_refl (proj1 (fwct_ok fws m (or_introl eq_refl) Hm)) E1) as (r & R1 & R2).
    { apply XM. lia. } { left. vm_compute. split; [discriminate|reflexivity]. }
    destruct (proj2 (X m e2 (fwct fwlarge m) (repeat 9 33%nat) ltac:(lia)) eq_refl (proj1 (fwct_ok fwlarge m (or_intror eq_refl) Hm)) E2) as (r' & R1' & R2').
    { apply XM. lia. } { left. vm_compute. split; [discriminate|reflexivity]. }
    exists lut, raw, r, r'. split; [exact El|]. split; [exact R1|]. split; [rewrite R2; f_equal; destruct Hm as [-> | ->]; reflexivity|]. split; [exact R1'|]. rewrite R2'. f_equal. destruct Hm as [-> | ->]; reflexivity.
Qed.
