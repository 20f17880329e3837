From Verif Require Import Base NegaRing SpecNum ModelNum PfNum ModelVec SpecVec PfVec ModelPoly SpecPoly PfPoly PfPerm PfSplit ModelGadget SpecGadget PfGadget ModelEncoder ModelLWE SpecLWE PfLWE PfLWE2 PfKS PfKS2 ModelGLWE SpecGLWE PfGLWE PfGLWE2 PfGLWE3 PfGLWE4
  ModelBoot SpecBoot PfBoot PfBoot2 PfBoot4 ModelManyLUT SpecManyLUT PfManyLUT ModelBFV SpecBFV PfBFV PfBFV2 PfBFV4 ModelCB SpecCB PfCB PfCB2.

Lemma CircuitBootstrap_spec : forall w N k (logN C : nat) logC pOut pSS pT pBR pKS sk s large brk ksk bs bc Ek Eks ssk Es gal Et,
  0 < w -> Z.of_nat logN <= 61 -> Z.of_nat logN + 1 < w -> Z.of_nat N = 2 ^ Z.of_nat logN -> Z.of_nat C = 2 ^ logC -> 0 <= logC <= Z.of_nat logN -> (1 <= k)%nat ->
  gadget_ok w pOut -> gadget_ok w pSS -> gadget_ok w pT -> boot_keys w N k 1 pBR pKS sk s large brk ksk bs bc Ek Eks -> scheme_key w N k pSS sk ssk Es ->
  (forall d, In d (packAuts logN) -> exists ksk, gal d = Some ksk /\ galois_key w N k pT sk d ksk Et) ->
  forall mm scale m ee ksFirst ct b, 0 < mm < 2 ^ 52 -> 2 * mm < 2 ^ w -> mm * Z.of_nat N < 2 ^ 52 -> (2 * mm * Z.of_nat C | Z.of_nat N) -> 0 <= m < mm ->
  cb_input w N C pKS s large Eks mm scale m ee ksFirst ct -> cb_buf_ok w N k C (g_level pOut) (length s) b ->
  exists o b', CircuitBootstrapTo w N k logN C pOut pSS pT mm ksFirst (MLModSwitch w (Z.of_nat logN) logC) pBR pKS brk ksk bs bc (length s) ssk gal b ct = Some (o, b') /\
    cb_buf_ok w N k C (g_level pOut) (length s) b' /\
    let R := traceNoise w N k pT (brNoise w N k pBR bc (length s) Ek) Et in
    exists e, ggsw_enc w N k pOut sk o (pconst m) e /\ (forall j, (j < g_level pOut)%nat -> pbound R (e 0%nat j)) /\
      (forall i j, (i < k)%nat -> (j < g_level pOut)%nat -> pbound (schemeNoise w N k pSS R Es) (e (S i) j)).
Proof.
  intros * Hw Hn Hnw HNn HC HlC Hk HokO HokS HokT HB Hss Hgal * Hmm Hmw Hsz Hdiv Hm Hin Hb.
  assert (forall i, (i < k)%nat -> pbound 1 (pol N (nth i sk []))) as Hs.
  { destruct HB as [_ _ _ (Lk & Hfl & Hbin) _ _ _ _ _]. apply (flat_bound N k sk large); try assumption. exact (TN N logN HNn). }
  exact (CB_spec w N k logN Hw Hn Hnw HNn sk Hs Hk pOut pSS pT HokO HokS HokT gal Et ssk Es Hgal Hss C logC HC HlC pBR pKS s large brk ksk bs bc Ek Eks HB mm scale m ee Hmm Hmw Hsz Hdiv Hm ksFirst ct Hin b Hb).
Qed.

Lemma CircuitBootstrap_use : forall w N k (logN C : nat) logC pOut pSS pT pBR pKS sk s large brk ksk bs bc Ek Eks ssk Es gal Et,
  0 < w -> Z.of_nat logN <= 61 -> Z.of_nat logN + 1 < w -> Z.of_nat N = 2 ^ Z.of_nat logN -> Z.of_nat C = 2 ^ logC -> 0 <= logC <= Z.of_nat logN -> (1 <= k)%nat ->
  gadget_ok w pOut -> gadget_ok w pSS -> gadget_ok w pT -> boot_keys w N k 1 pBR pKS sk s large brk ksk bs bc Ek Eks -> scheme_key w N k pSS sk ssk Es ->
  (forall d, In d (packAuts logN) -> exists ksk, gal d = Some ksk /\ galois_key w N k pT sk d ksk Et) ->
  forall mm scale m ee ksFirst ct b c, 0 < mm < 2 ^ 52 -> 2 * mm < 2 ^ w -> mm * Z.of_nat N < 2 ^ 52 -> (2 * mm * Z.of_nat C | Z.of_nat N) -> 0 <= m < mm ->
  cb_input w N C pKS s large Eks mm scale m ee ksFirst ct -> cb_buf_ok w N k C (g_level pOut) (length s) b -> glwe_ct w N k c ->
  let R := traceNoise w N k pT (brNoise w N k pBR bc (length s) Ek) Et in let E := Z.max R (schemeNoise w N k pSS R Es) in
  exists o b', CircuitBootstrapTo w N k logN C pOut pSS pT mm ksFirst (MLModSwitch w (Z.of_nat logN) logC) pBR pKS brk ksk bs bc (length s) ssk gal b ct = Some (o, b') /\
    pdist_le (2 ^ w) (gphase N k sk (ExternalProdGLWETo w N k pOut o c)) (pscale m (gphase N k sk c)) (externalNoise w N k pOut m E).
Proof.
  intros * Hw Hn Hnw HNn HC HlC Hk HokO HokS HokT HB Hss Hgal * Hmm Hmw Hsz Hdiv Hm Hin Hb Hc R E.
  assert (forall i, (i < k)%nat -> pbound 1 (pol N (nth i sk []))) as Hs.
  { destruct HB as [_ _ _ (Lk & Hfl & Hbin) _ _ _ _ _]. apply (flat_bound N k sk large); try assumption. exact (TN N logN HNn). }
  destruct (CircuitBootstrap_spec w N k logN C logC pOut pSS pT pBR pKS sk s large brk ksk bs bc Ek Eks ssk Es gal Et Hw Hn Hnw HNn HC HlC Hk HokO HokS HokT HB Hss Hgal mm scale m ee ksFirst ct b Hmm Hmw Hsz Hdiv Hm Hin Hb) as (o & b' & E1 & _ & (e & H1 & H2 & H3)).
  exists o, b'. split; [exact E1|]. apply (ExternalProd_bound_const w Hw N (TN N logN HNn) k sk pOut HokO o m e c E H1 Hc Hs).
  intros i j Hi Hj. destruct i as [|i].
  - intros x. specialize (H2 j Hj x). unfold E. fold R in H2. lia.
  - intros x. specialize (H3 i j ltac:(lia) Hj x). unfold E. fold R in H3. lia.
Qed.
