(** C55: circuit bootstrapping (xtfhe/circuit_bootstrap.go, circuit_bootstrap_key.go). *)
From Verif Require Import Base NegaRing SpecNum ModelNum ModelVec ModelPoly SpecPoly ModelGadget SpecGadget ModelEncoder ModelLWE SpecLWE ModelGLWE SpecGLWE ModelBoot SpecBoot ModelManyLUT SpecManyLUT ModelBFV SpecBFV ModelCB SpecCB PfCB2 PfCB3
  ModelParams PropLWE PropGLWE PropBoot PropManyLUT.

(** Key generation gives GGSW encryptions of every key polynomial and the automorphism keys of the trace, and no others. *)
Theorem C55_GenCircuitBootstrapKey : forall w N k (logN : nat) sk U G pSS pT E buf st, 0 < w -> Z.of_nat logN <= 61 -> Z.of_nat N = 2 ^ Z.of_nat logN -> 0 < splitBitsShort (Z.of_nat logN) ->
  gadget_ok w pSS -> gadget_ok w pT -> 0 <= E -> (forall i, Z.abs (G i) <= E) -> skey N k sk -> (forall i, (i < k)%nat -> wpoly w N (nth i sk [])) -> gshape N k buf ->
  exists ssk gal r, GenCircuitBootstrapKey w N k logN pSS pT U G sk (map (fwdFFT w) sk) buf st = Some (ssk, gal, r) /\ scheme_key w N k pSS sk ssk E /\
    (forall d, In d (packAuts logN) -> exists ksk, gal d = Some ksk /\ galois_key w N k pT sk d ksk E) /\ (forall d, ~ In d (packAuts logN) -> gal d = None).
Proof. exact GenCircuitBootstrapKey_spec. Qed.
Print Assumptions C55_GenCircuitBootstrapKey.

(** The output is a GGSW encryption of the constant m under the GLWE key, whatever the buffers held before: the rows of
    the message have errors of at most R, the rows of the message times a key polynomial of at most schemeNoise R.  Both
    orders of key switching.  The buffers can be used again. *)
Theorem C55_CircuitBootstrap : forall w N k (logN C : nat) logC pOut pSS pT pBR pKS sk s large brk ksk bs bc Ek Eks ssk Es gal Et,
  0 < w -> Z.of_nat logN <= 61 -> Z.of_nat logN + 1 < w -> Z.of_nat N = 2 ^ Z.of_nat logN -> Z.of_nat C = 2 ^ logC -> 0 <= logC <= Z.of_nat logN -> (1 <= k)%nat ->
  gadget_ok w pOut -> gadget_ok w pSS -> gadget_ok w pT -> boot_keys w N k 1 pBR pKS sk s large brk ksk bs bc Ek Eks -> scheme_key w N k pSS sk ssk Es ->
  (forall d, In d (packAuts logN) -> exists ksk, gal d = Some ksk /\ galois_key w N k pT sk d ksk Et) ->
  forall mm scale m ee ksFirst ct b, 0 < mm < 2 ^ 52 -> 2 * mm < 2 ^ w -> mm * Z.of_nat N < 2 ^ 52 -> (2 * mm * Z.of_nat C | Z.of_nat N) -> 0 <= m < mm ->
  cb_input w N C pKS s large Eks mm scale m ee ksFirst ct -> cb_buf_ok w N k C (g_level pOut) (length s) b ->
  exists o b', CircuitBootstrapTo w N k logN C pOut pSS pT mm ksFirst (MLModSwitch w (Z.of_nat logN) logC) pBR pKS brk ksk bs bc (length s) ssk gal b ct = Some (o, b') /\
    cb_buf_ok w N k C (g_level pOut) (length s) b' /\
    let R := traceNoise w N k pT (brNoise w N k pBR bc (length s) Ek) Et in
    exists e, ggsw_enc w N k pOut sk o (pconst m) e /\ (forall j, (j < g_level pOut)%nat -> pbound R (e 0%nat j)) /\
      (forall i j, (i < k)%nat -> (j < g_level pOut)%nat -> pbound (schemeNoise w N k pSS R Es) (e (S i) j)).
Proof. exact CircuitBootstrap_spec. Qed.
Print Assumptions C55_CircuitBootstrap.

(** So an external product with the output multiplies any ciphertext by m. *)
Theorem C55_ExternalProd : forall w N k (logN C : nat) logC pOut pSS pT pBR pKS sk s large brk ksk bs bc Ek Eks ssk Es gal Et,
  0 < w -> Z.of_nat logN <= 61 -> Z.of_nat logN + 1 < w -> Z.of_nat N = 2 ^ Z.of_nat logN -> Z.of_nat C = 2 ^ logC -> 0 <= logC <= Z.of_nat logN -> (1 <= k)%nat ->
  gadget_ok w pOut -> gadget_ok w pSS -> gadget_ok w pT -> boot_keys w N k 1 pBR pKS sk s large brk ksk bs bc Ek Eks -> scheme_key w N k pSS sk ssk Es ->
  (forall d, In d (packAuts logN) -> exists ksk, gal d = Some ksk /\ galois_key w N k pT sk d ksk Et) ->
  forall mm scale m ee ksFirst ct b c, 0 < mm < 2 ^ 52 -> 2 * mm < 2 ^ w -> mm * Z.of_nat N < 2 ^ 52 -> (2 * mm * Z.of_nat C | Z.of_nat N) -> 0 <= m < mm ->
  cb_input w N C pKS s large Eks mm scale m ee ksFirst ct -> cb_buf_ok w N k C (g_level pOut) (length s) b -> glwe_ct w N k c ->
  let R := traceNoise w N k pT (brNoise w N k pBR bc (length s) Ek) Et in let E := Z.max R (schemeNoise w N k pSS R Es) in
  exists o b', CircuitBootstrapTo w N k logN C pOut pSS pT mm ksFirst (MLModSwitch w (Z.of_nat logN) logC) pBR pKS brk ksk bs bc (length s) ssk gal b ct = Some (o, b') /\
    pdist_le (2 ^ w) (gphase N k sk (ExternalProdGLWETo w N k pOut o c)) (pscale m (gphase N k sk c)) (externalNoise w N k pOut m E).
Proof. exact CircuitBootstrap_use. Qed.
Print Assumptions C55_ExternalProd.

(** Fresh buffers meet the hypothesis. *)
Theorem C55_buffers : forall w N k C pOut n, 0 < w -> cb_buf_ok w N k C (g_level pOut) n (newCBBuf N k C pOut n).
Proof. exact newCBBuf_ok. Qed.
Print Assumptions C55_buffers.

(** ** Concrete case: w = 32, N = 16, k = 1, two levels per rotation, three output levels of base 4. *)
Definition cbgad : gadget := {| g_base := 4; g_logBase := 2; g_level := 3; g_sizeT := 32 |}.
Example cbgad_ok : gadget_ok 32 cbgad.
Proof. unfold gadget_ok. vm_compute. repeat split; discriminate || lia. Qed.
Example mlsk_words : forall i, (i < 1)%nat -> wpoly 32 16 (nth i mlsk []).
Proof. intros i Hi. assert (i = 0%nat) as -> by lia. split; [reflexivity|]. cbn. repeat (apply Forall_cons; [split; [discriminate|reflexivity]|]); apply Forall_nil. Qed.
Example C55_run : exists ssk gal r, GenCircuitBootstrapKey 32 16 1 4 mlgad mlgad exU exG mlsk (map (fwdFFT 32) mlsk) mlbuf (0, 0)%nat = Some (ssk, gal, r) /\
  forall m, m = 0 \/ m = 1 -> forall ee, eqm (2 ^ 32) (phase bs4 (mlct m)) (scaleOf 32 2 * m + ee) -> Z.abs ee <= 3 ->
  exists o b', CircuitBootstrapTo 32 16 1 4 2 cbgad mlgad mlgad 2 false (MLModSwitch 32 4 1) mlgad mlgad mlbrk mlksk 2 2 4 ssk gal (newCBBuf 16 1 2 cbgad 4) (mlct m) = Some (o, b') /\
    exists e, ggsw_enc 32 16 1 cbgad mlsk o (pconst m) e /\ (forall i j, (i <= 1)%nat -> (j < 3)%nat -> pbound (2 ^ 25) (e i j)).
Proof.
  destruct (C55_GenCircuitBootstrapKey 32 16 1 4 mlsk exU exG mlgad mlgad 3 mlbuf (0, 0)%nat) as (ssk & gal & r & E1 & K1 & K2 & _); try lia; try reflexivity; try exact mlgad_ok; try exact exG_bound; try exact mlsk_words.
  { split; [reflexivity|]. intros i Hi. apply mlsk_words. exact Hi. }
  { split; [reflexivity|]. intros i Hi. assert (i = 0 \/ i = 1)%nat as [-> | ->] by lia; reflexivity. }
  exists ssk, gal, r. split; [exact E1|]. intros m Hm ee He Be.
  destruct (C55_CircuitBootstrap 32 16 1 4 2 1 cbgad mlgad mlgad mlgad mlgad mlsk bs4 (hd [] mlsk) mlbrk mlksk 2 2 3 3 ssk 3 gal 3 ltac:(lia) ltac:(lia) ltac:(lia) eq_refl (eq_refl : Z.of_nat 2 = 2 ^ 1) ltac:(lia) ltac:(lia) cbgad_ok mlgad_ok mlgad_ok mlkeys K1 K2
    2 (scaleOf 32 2) m ee false (mlct m) (newCBBuf 16 1 2 cbgad 4)) as (o & b' & Eo & _ & (e & H1 & H2 & H3)); try lia.
  - exists 2. reflexivity.
  - split; [exact (proj1 (mlct_ok m Hm))|]. split; [exact He|]. unfold many_margin. destruct C53_ex as (_ & _ & H3 & _).
    unfold many_margin in H3. change (2 ^ 1) with 2 in *. change (Z.of_nat 16) with 16 in *. change (Z.of_nat 2) with 2 in *. change (length bs4) with 4%nat.
    assert (0 <= ksNoise 32 mlgad 12 3) by (vm_compute; discriminate). assert (0 <= Z.abs (2 ^ 32 - 2 * 2 * scaleOf 32 2)) by apply Z.abs_nonneg.
    set (A := Z.abs (2 ^ 32 - 2 * 2 * scaleOf 32 2)) in *. assert (2 * 16 * m * A <= 2 * 16 * 1 * A) by (destruct Hm as [-> | ->]; lia).
    eapply Z.le_lt_trans; [|exact H3]. apply Z.add_le_mono_r. apply Z.add_le_mono; [assumption|]. apply Z.mul_le_mono_nonneg_l; lia.
  - apply C55_buffers. lia.
  - exists o, b'. split; [exact Eo|]. exists e. split; [exact H1|]. intros [|i] j Hi Hj x.
    + eapply Z.le_trans; [apply (H2 j Hj)|]. vm_compute. discriminate.
    + assert (i = 0%nat) as -> by lia. eapply Z.le_trans; [apply (H3 0%nat j ltac:(lia) Hj)|]. vm_compute. discriminate.
Qed.
(** Such an input error exists. *)
Example C55_run_input : forall m, m = 0 \/ m = 1 -> exists ee, eqm (2 ^ 32) (phase bs4 (mlct m)) (scaleOf 32 2 * m + ee) /\ Z.abs ee <= 3.
Proof.
  intros m Hm. destruct (mlct_ok m Hm) as (_ & B). change (2 ^ 1) with 2 in B. set (x := phase bs4 (mlct m) - scaleOf 32 2 * m) in *. exists ((Z.sgn x) * (Z.abs x mod 2 ^ 32)). split.
  - exists (Z.sgn x * (Z.abs x / 2 ^ 32)). pose proof (Z.div_mod (Z.abs x) (2 ^ 32) ltac:(lia)) as D. assert (x = Z.sgn x * Z.abs x) as E by (destruct x; cbn; lia). unfold x in E at 1. nia.
  - pose proof (Z.mod_pos_bound (Z.abs x) (2 ^ 32)). destruct x; cbn [Z.sgn Z.abs] in *; lia.
Qed.
