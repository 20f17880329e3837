From Verif Require Import Base NegaRing SpecNum ModelNum PfNum ModelVec SpecVec PfVec ModelPoly SpecPoly PfPoly PfPerm PfSplit ModelGadget SpecGadget PfGadget ModelParams ModelEncoder PfEncoder ModelLWE SpecLWE PfLWE PfLWE2 PfKS PfKS2 ModelGLWE SpecGLWE PfGLWE PfGLWE2 PfGLWE3 PfGLWE4 ModelBoot SpecBoot PfBoot2 PfBoot4 ModelPub SpecPub PfPub ModelMK SpecMK PfMK.

Lemma actLoop {A} (d : A) P bm (f : nat -> A -> A) out : length out = S P ->
  let r := forN 0 P (fun i o => if active bm i then upd o (S i) (f i (nth (S i) o d)) else o) out in
  length r = S P /\ nth 0 r d = nth 0 out d /\ forall i, (i < P)%nat -> nth (S i) r d = if nth i bm false then f i (nth (S i) out d) else nth (S i) out d.
Proof.
  intros L. pose (J := fun (m : nat) r => length r = S P /\ nth 0 r d = nth 0 out d /\ (forall i, (i < m)%nat -> nth (S i) r d = if nth i bm false then f i (nth (S i) out d) else nth (S i) out d) /\ forall i, (m <= i)%nat -> nth (S i) r d = nth (S i) out d).
  cut (J P (forN 0 P (fun i o => if active bm i then upd o (S i) (f i (nth (S i) o d)) else o) out)); [intros (a & b & c & _); auto|].
  apply (forN_ind J); unfold J.
  - repeat split; auto. intros; lia.
  - intros m r Hm (X & Y & Z1 & Z2). cbn [Nat.add]. change (active bm m) with (nth m bm false). destruct (nth m bm false) eqn:E.
    + rewrite upd_length. split; [exact X|]. split; [rewrite nth_upd_other by lia; exact Y|]. split.
      * intros i Hi. destruct (Nat.eq_dec i m) as [->|]; [rewrite nth_upd_same, E, Z2 by lia; reflexivity|]. rewrite nth_upd_other by lia. apply Z1. lia.
      * intros i Hi. rewrite nth_upd_other by lia. apply Z2. lia.
    + split; [exact X|]. split; [exact Y|]. split; [|intros; apply Z2; lia]. intros i Hi. destruct (Nat.eq_dec i m) as [->|]; [rewrite E; apply Z2; lia|apply Z1; lia].
Qed.
Lemma allLoop {A} (d : A) P (f : nat -> A -> A) out : length out = S P ->
  let r := forN 0 P (fun i o => upd o (S i) (f i (nth (S i) o d))) out in
  length r = S P /\ nth 0 r d = nth 0 out d /\ forall i, (i < P)%nat -> nth (S i) r d = f i (nth (S i) out d).
Proof.
  intros L. destruct (actLoop d P (repeat true P) f out L) as (a & b & c). cbv zeta.
  assert (forN 0 P (fun i o => upd o (S i) (f i (nth (S i) o d))) out = forN 0 P (fun i o => if active (repeat true P) i then upd o (S i) (f i (nth (S i) o d)) else o) out) as ->.
  { apply forN_ext. intros i s Hi. unfold active. rewrite nth_repeat_lt by lia. reflexivity. }
  split; [exact a|]. split; [exact b|]. intros i Hi. rewrite (c i Hi), nth_repeat_lt by lia. reflexivity.
Qed.

Section W.
Variable w : Z.
Hypothesis Hw : 0 < w.
Notation Q := (2 ^ w).
Variable N : nat.
Hypothesis HN : (0 < N)%nat.
Add Ring nring : (@npoly_ring N Q) (setoid (@peq_equiv N Q) (@npoly_ring_ext N Q)).
Notation NZ := (Z.of_nat N).
Variable P : nat.
Variable p : gadget.
Hypothesis Hok : gadget_ok w p.
Notation l := (g_level p).
Variable bm : list bool.
Hypothesis Lbm : length bm = P.
Variable crspk : list (list (list (list Z))).
Variable idx : nat.
Hypothesis Hidx : nth idx bm false = true.
Variables u0 u1 : list (list (list Z)).
Variable keys : list (list Z).
Notation sk := (jkey N bm keys).
Notation gph := (gphase N P sk).
Variables (a : nat -> npoly N) (r m : npoly N) (e e' : nat -> npoly N) (ep : nat -> nat -> npoly N).
Hypothesis Huni : uni_enc w N p a (nth idx keys []) r u0 u1 m e e'.
Hypothesis Hcrs : forall i, nth i bm false = true -> crs_enc w N p a (nth i keys []) (nth i crspk []) (ep i).

Lemma gph_ext x y : (forall i, (i <= P)%nat -> used bm i -> peq Q (pol N (nth i x [])) (pol N (nth i y []))) -> peq Q (gph x) (gph y).
Proof. intros H. rewrite !gphase_ksum. apply (ksum_ext w N HN P bm Lbm keys). exact H. Qed.
Lemma gph_add x y z : (forall i, (i <= P)%nat -> used bm i -> peq Q (pol N (nth i x [])) (padd (pol N (nth i y [])) (pol N (nth i z [])))) -> peq Q (gph x) (padd (gph y) (gph z)).
Proof. intros H. rewrite !gphase_ksum, <- (ksum_add w N P bm keys). apply (ksum_ext w N HN P bm Lbm keys). exact H. Qed.
Lemma gph_sub x y z : (forall i, (i <= P)%nat -> used bm i -> peq Q (pol N (nth i x [])) (psub (pol N (nth i y [])) (pol N (nth i z [])))) -> peq Q (gph x) (psub (gph y) (gph z)).
Proof. intros H. rewrite !gphase_ksum, <- (ksum_sub w N P bm keys). apply (ksum_ext w N HN P bm Lbm keys). exact H. Qed.

Lemma hybrid_exact buf ct : length buf = S P -> (forall i, (i <= P)%nat -> used bm i -> wpoly w N (nth i ct [])) ->
  exists D R v Dv rv val, (forall i, (i <= P)%nat -> used bm i -> is_pdcmp w N p (nth i ct []) (D i) (R i)) /\ wpoly w N v /\ is_pdcmp w N p v Dv rv /\
    val = hybridVal N P p bm sk (gph ct) m r e e' ep D R Dv rv /\
    (forall out, gshape N P out -> let o := HybridProdGLWETo w N P p bm crspk idx u0 u1 buf ct out in glwe_ct w N P o /\ gsupp bm N P o /\ peq Q (gph o) val) /\
    (forall out, glwe_ct w N P out -> let o := HybridProdAddGLWETo w N P p bm crspk idx u0 u1 buf ct out in glwe_ct w N P o /\
       (forall i, (i < P)%nat -> nth i bm false = false -> nth (S i) o [] = nth (S i) out []) /\ peq Q (gph o) (padd (gph out) val)) /\
    (forall out, glwe_ct w N P out -> let o := HybridProdSubGLWETo w N P p bm crspk idx u0 u1 buf ct out in glwe_ct w N P o /\
       (forall i, (i < P)%nat -> nth i bm false = false -> nth (S i) o [] = nth (S i) out []) /\ peq Q (gph o) (psub (gph out) val)).
Proof.
  intros Lb Hct. pose (D := fun i => dpol w p N (nth i ct [])). pose (R := fun i => gerrp w p N (nth i ct [])).
  assert (forall i, (i <= P)%nat -> used bm i -> is_pdcmp w N p (nth i ct []) (D i) (R i)) as HR.
  { intros i Hi Hu. apply pdcmp_spec; auto. }
  assert (forall i, used bm i -> isd w N p (D i) (fdigits w p (nth i ct []))) as HD.
  { intros i Hu. apply isd_fdigits; [exact HN|exact Hok|]. destruct i as [|i]; [apply Hct; [lia|exact I]|]. destruct (Nat.lt_ge_cases i P); [apply Hct; [lia|exact Hu]|]. cbn in Hu. rewrite nth_overflow in Hu by lia. discriminate. }
  destruct (hybrid_value w Hw N HN P p Hok bm Lbm crspk idx Hidx u0 u1 buf ct Lb D HD keys a r m e e' ep R Huni Hcrs HR) as (v & Hv & HV).
  exists D, R, v, (dpol w p N v), (gerrp w p N v). eexists. pose proof (pdcmp_spec w N HN p Hok v Hv) as Hdv.
  split; [exact HR|]. split; [exact Hv|]. split; [exact Hdv|]. split; [reflexivity|].
  destruct (HV _ _ (isd_fdigits w N HN p Hok v (proj1 Hv)) Hdv) as (L & LA & E). clear HV.
  unfold HybridProdGLWETo, HybridProdAddGLWETo, HybridProdSubGLWETo. cbv zeta. set (acc := hybridFFT w N P p bm crspk idx u0 u1 buf ct) in *.
  split; [|split].
  - intros out (Lo & Ho). 
    destruct (allLoop [] P (fun i o => if active bm i then invFFT w (nth (S i) acc []) else repeat 0 (length o)) (upd out 0 (invFFT w (nth 0 acc []))) ltac:(now rewrite upd_length)) as (X & Y & Z0).
    set (o := forN 0 P _ _) in *. rewrite nth_upd_same in Y by lia.
    assert (forall i, (i < P)%nat -> nth (S i) o [] = if nth i bm false then invFFT w (nth (S i) acc []) else repeat 0 N) as Z.
    { intros i Hi. rewrite (Z0 i Hi), nth_upd_other by lia. rewrite (Ho (S i)) by lia. reflexivity. } clear Z0.
    split; [split; [exact X|]|split].
    + intros [|i] Hi; [rewrite Y; apply wpoly_invFFT; auto; apply LA; [lia|exact I]|]. rewrite (Z i) by lia. destruct (nth i bm false) eqn:Ei; [apply wpoly_invFFT; auto|].
      split; [apply repeat_length|]. apply Forall_forall. intros x Hx. apply repeat_spec in Hx. subst x. split; [lia|apply pow2_pos; lia].
    + intros i Hi Ei. rewrite (Z i Hi), Ei. reflexivity.
    + rewrite <- E. apply gph_ext. intros [|i] Hi Hu; [rewrite Y; apply pol_invFFT; auto|]. rewrite (Z i) by lia. cbn in Hu. rewrite Hu. apply pol_invFFT; auto.
  - intros out (Lo & Ho).
    destruct (actLoop [] P bm (fun i o => invFFTAdd w o (nth (S i) acc [])) (upd out 0 (invFFTAdd w (nth 0 out []) (nth 0 acc []))) ltac:(now rewrite upd_length)) as (X & Y & Z0).
    set (o := forN 0 P _ _) in *. rewrite nth_upd_same in Y by lia.
    assert (forall i, (i < P)%nat -> nth (S i) o [] = if nth i bm false then invFFTAdd w (nth (S i) out []) (nth (S i) acc []) else nth (S i) out []) as Z.
    { intros i Hi. rewrite (Z0 i Hi), nth_upd_other by lia. reflexivity. } clear Z0.
    split; [split; [exact X|]|split].
    + intros [|i] Hi; [rewrite Y; apply wpoly_vadd; auto; [apply Ho; lia|rewrite invFFT_length; apply LA; [lia|exact I]]|]. rewrite (Z i) by lia.
      destruct (nth i bm false) eqn:Ei; [apply wpoly_vadd; auto; [apply Ho; lia|rewrite invFFT_length; apply LA; [lia|exact Ei]]|apply Ho; lia].
    + intros i Hi Ei. rewrite (Z i Hi), Ei. reflexivity.
    + rewrite <- E. apply gph_add. assert (forall i, (i <= P)%nat -> used bm i -> peq Q (pol N (invFFTAdd w (nth i out []) (nth i acc []))) (padd (pol N (nth i out [])) (pol N (nth i acc [])))) as H1.
      { intros i Hi Hu. unfold invFFTAdd. rewrite pol_vadd, pol_invFFT; auto; try (rewrite invFFT_length); try (apply LA; assumption); try reflexivity. apply Ho; lia. }
      intros [|i] Hi Hu; [rewrite Y; apply H1; auto|]. rewrite (Z i) by lia. cbn in Hu. rewrite Hu. apply H1; auto.
  - intros out (Lo & Ho).
    destruct (actLoop [] P bm (fun i o => invFFTSub w o (nth (S i) acc [])) (upd out 0 (invFFTSub w (nth 0 out []) (nth 0 acc []))) ltac:(now rewrite upd_length)) as (X & Y & Z0).
    set (o := forN 0 P _ _) in *. rewrite nth_upd_same in Y by lia.
    assert (forall i, (i < P)%nat -> nth (S i) o [] = if nth i bm false then invFFTSub w (nth (S i) out []) (nth (S i) acc []) else nth (S i) out []) as Z.
    { intros i Hi. rewrite (Z0 i Hi), nth_upd_other by lia. reflexivity. } clear Z0.
    split; [split; [exact X|]|split].
    + intros [|i] Hi; [rewrite Y; apply wpoly_vsub; auto; [apply Ho; lia|rewrite invFFT_length; apply LA; [lia|exact I]]|]. rewrite (Z i) by lia.
      destruct (nth i bm false) eqn:Ei; [apply wpoly_vsub; auto; [apply Ho; lia|rewrite invFFT_length; apply LA; [lia|exact Ei]]|apply Ho; lia].
    + intros i Hi Ei. rewrite (Z i Hi), Ei. reflexivity.
    + rewrite <- E. apply gph_sub. assert (forall i, (i <= P)%nat -> used bm i -> peq Q (pol N (invFFTSub w (nth i out []) (nth i acc []))) (psub (pol N (nth i out [])) (pol N (nth i acc [])))) as H1.
      { intros i Hi Hu. unfold invFFTSub. rewrite pol_vsub, pol_invFFT; auto; try (rewrite invFFT_length); try (apply LA; assumption); try reflexivity. apply Ho; lia. }
      intros [|i] Hi Hu; [rewrite Y; apply H1; auto|]. rewrite (Z i) by lia. cbn in Hu. rewrite Hu. apply H1; auto.
Qed.

(** ** Bounds *)
Variables (M Ek : Z).
Hypothesis Hm : pbound M m.
Hypothesis Hr : pbound 1 r.
Hypothesis HEk : 0 <= Ek.
Hypothesis Hkeys : forall i, nth i bm false = true -> pbound 1 (pol N (nth i keys [])).
Hypothesis He : forall j, (j < l)%nat -> pbound Ek (e j) /\ pbound Ek (e' j).
Hypothesis Hep : forall i j, nth i bm false = true -> (j < l)%nat -> pbound Ek (ep i j).

Lemma jkey_bound i : (i < P)%nat -> pbound 1 (pol N (nth i sk [])).
Proof.
  intros Hi. destruct (nth i bm false) eqn:E; [rewrite (jkey_on N HN P bm Lbm keys i E); auto|].
  unfold jkey. rewrite nth_tab by lia. rewrite E. intros x. pose proof (pol_zero N HN x) as (k & Hk). cbn in Hk. replace (cf (pol N (repeat 0 N)) x) with 0 by (cbn; lia). lia.
Qed.
Lemma ksum_bound x b : 0 <= b -> (forall i, (i <= P)%nat -> used bm i -> pbound b (x i)) -> exists y, peq Q (ksum N P sk x) y /\ pbound (b * (1 + Z.of_nat P * NZ)) y.
Proof.
  intros Hb H. exists (padd (x O) (psum P (fun i => if nth i bm false then pmul (x (S i)) (pol N (nth i sk [])) else pzero))). split.
  - unfold ksum. apply padd_proper; [reflexivity|]. apply psum_proper. intros i Hi. destruct (nth i bm false) eqn:E; [reflexivity|]. rewrite (jkey_off w N HN P bm Lbm keys i E). ring.
  - eapply pbound_le; [|apply pbound_add; [apply H; [lia|exact I]|apply pbound_psum with (b := NZ * (b * 1)); intros i Hi]]; [nia|]. destruct (nth i bm false) eqn:E.
    + apply pbound_mul; [apply H; [lia|exact E]|apply jkey_bound; exact Hi].
    + eapply pbound_le; [|apply pbound_zero]. nia.
Qed.
Lemma eps_nonneg q : gadget_ok w q -> 0 <= gadEps w q.
Proof. intros H. unfold gadEps. apply Z.div_pos; [|lia]. apply Z.pow_nonneg. lia. Qed.
Lemma dsumS_bound q (c : list Z) D0 r0 e0 E : is_pdcmp w N q c D0 r0 -> (forall j, (j < g_level q)%nat -> pbound E (e0 j)) -> pbound (rowNoise N q 1 E) (dsumS q D0 e0).
Proof. intros H H0. unfold rowNoise, dsumS. rewrite Z.mul_1_l. apply (pbound_dsum w N q D0 e0 E c r0 H H0). Qed.

Lemma hybrid_bound ct D R v Dv rv : (forall i, (i <= P)%nat -> used bm i -> is_pdcmp w N p (nth i ct []) (D i) (R i)) -> is_pdcmp w N p v Dv rv ->
  pdist_le Q (hybridVal N P p bm sk (gph ct) m r e e' ep D R Dv rv) (pmul m (gph ct)) (hybridNoise w N P p M Ek).
Proof.
  intros HR Hv. pose proof (eps_nonneg p Hok) as H0. assert (0 <= rowNoise N p 1 Ek) as Hrow. { unfold rowNoise. pose proof (Z.pow_nonneg 2 (g_logBase p - 1)). nia. }
  destruct (ksum_bound R (gadEps w p) H0) as (y1 & E1 & B1). { intros i Hi Hu. apply (HR i Hi Hu). }
  destruct (ksum_bound (fun i => dsumS p (D i) e) (rowNoise N p 1 Ek) Hrow) as (y2 & E2 & B2). { intros i Hi Hu. apply (dsumS_bound p _ _ _ e Ek (HR i Hi Hu)). intros j Hj. apply He, Hj. }
  exists (padd (popp (pmul m y1)) (padd y2 (padd (pmul r (psum P (onActive bm (fun i => dsumS p (D (S i)) (ep i))))) (psub (dsumS p Dv e') (pmul r rv))))). split.
  - unfold hybridVal. rewrite E1, E2. ring.
  - unfold hybridNoise. cbv zeta. eapply pbound_le; [|apply pbound_add; [apply pbound_opp, pbound_mul; [exact Hm|exact B1]|apply pbound_add; [exact B2|apply pbound_add; [apply pbound_mul; [exact Hr|]|apply pbound_sub; [|apply pbound_mul; [exact Hr|]]]]]].
    2:{ apply pbound_psum with (b := rowNoise N p 1 Ek). intros i Hi. unfold onActive. destruct (nth i bm false) eqn:Ei; [|eapply pbound_le; [exact Hrow|apply pbound_zero]].
        apply (dsumS_bound p (nth (S i) ct []) _ (R (S i))); [apply HR; [lia|exact Ei]|]. intros j Hj. apply Hep; auto. }
    2:{ apply (dsumS_bound p v _ rv); [exact Hv|]. intros j Hj. apply He, Hj. }
    2:{ apply Hv. }
    replace (rowNoise N p (1 + Z.of_nat P * NZ) Ek) with (rowNoise N p 1 Ek * (1 + Z.of_nat P * NZ)) by (unfold rowNoise; ring). unfold gadEps. lia.
Qed.

(** ** External product *)
Variables (pa : gadget) (Hoka : gadget_ok w pa) (lev : list (list (list Z))) (mu : npoly N) (ea : nat -> npoly N) (A Ea : Z).
Hypothesis Hlev : glev_enc w N 1 pa [nth idx keys []] lev mu ea.
Hypothesis Hmk : peq Q m (pol N (nth idx keys [])).
Hypothesis HM : M = 1.
Hypothesis HEa : 0 <= Ea.
Hypothesis Hea : forall j, (j < g_level pa)%nat -> pbound Ea (ea j).
Hypothesis Hmu : grows A mu.

Lemma wpoly_go_copy dst src : length dst = N -> wpoly w N src -> go_copy dst src = src.
Proof. intros L (L1 & _). apply (go_copy_full 0). lia. Qed.

Lemma ext_spec buf rbuf ct : length buf = S P -> gshape N P rbuf -> (forall i, (i <= P)%nat -> used bm i -> wpoly w N (nth i ct [])) ->
  (forall out, gshape N P out -> let o := MKExternalProdGLWETo w N P pa p bm crspk idx u0 u1 buf rbuf lev ct out in
     glwe_ct w N P o /\ gsupp bm N P o /\ pdist_le Q (gph o) (pmul mu (gph ct)) (mkExtNoise w N P pa p A Ea Ek)) /\
  (forall out, glwe_ct w N P out -> let o := MKExternalProdAddGLWETo w N P pa p bm crspk idx u0 u1 buf rbuf lev ct out in
     glwe_ct w N P o /\ (forall i, (i < P)%nat -> nth i bm false = false -> nth (S i) o [] = nth (S i) out []) /\
     pdist_le Q (gph o) (padd (gph out) (pmul mu (gph ct))) (mkExtNoise w N P pa p A Ea Ek)).
Proof.
  intros Lb Hrb Hct. destruct Hrb as (Lrb & Hrb).
  assert (exists Da Ra, forall i, (i <= P)%nat -> used bm i -> is_pdcmp w N pa (nth i ct []) (Da i) (Ra i) /\ glwe_ct w N 1 (relinT w N pa lev ct i) /\
     peq Q (padd (pol N (nth 0 (relinT w N pa lev ct i) [])) (pmul (pol N (nth 1 (relinT w N pa lev ct i) [])) (pol N (nth idx keys []))))
       (padd (pmul mu (psub (pol N (nth i ct [])) (Ra i))) (dsumS pa (Da i) ea))) as (Da & Ra & HT).
  { exists (fun i => dpol w pa N (nth i ct [])), (fun i => gerrp w pa N (nth i ct [])). intros i Hi Hu. pose proof (Hct i Hi Hu) as Hc. pose proof (pdcmp_spec w N HN pa Hoka _ Hc) as Hd.
    split; [exact Hd|]. destruct (GadgetProdFFT_spec w Hw N HN 1 [nth idx keys []] pa Hoka lev mu ea _ _ _ (fdigits w pa (nth i ct [])) Hlev Hd (isd_fdigits w N HN pa Hoka _ (proj1 Hc))) as (X & Y).
    destruct (gInv_spec w Hw N HN 1 [nth idx keys []] _ X) as (X1 & Y1). unfold relinT, GadgetProdGLWETo. split; [exact X1|].
    revert Y1. rewrite Y. unfold gphase at 1. cbn [psum nth]. intros Y1. unfold dsumS. rewrite <- Y1. ring. }
  destruct (actLoop [] P bm (fun i o => go_copy o (nth 1 (relinT w N pa lev ct (S i)) [])) (upd rbuf 0 (go_copy (nth 0 rbuf []) (nth 1 (relinT w N pa lev ct 0) []))) ltac:(now rewrite upd_length)) as (X & Y & Z0).
  fold (relinIn w N P pa bm lev rbuf ct) in X, Y, Z0. set (y := relinIn w N P pa bm lev rbuf ct) in *.
  assert (forall i, (i <= P)%nat -> used bm i -> nth i y [] = nth 1 (relinT w N pa lev ct i) []) as Hy.
  { intros [|i] Hi Hu.
    - rewrite Y, nth_upd_same by lia. apply wpoly_go_copy; [apply Hrb; lia|]. apply (HT O Hi Hu). lia.
    - rewrite (Z0 i) by lia. cbn in Hu. rewrite Hu, nth_upd_other by lia. apply wpoly_go_copy; [apply Hrb; lia|]. apply (HT (S i) Hi Hu). lia. }
  clear X Y Z0. assert (forall i, (i <= P)%nat -> used bm i -> wpoly w N (nth i y [])) as Hyw. { intros i Hi Hu. rewrite (Hy i Hi Hu). apply (HT i Hi Hu). lia. }
  destruct (hybrid_exact buf y Lb Hyw) as (D & R & v & Dv & rv & val & HR & Hv & Hdv & Eval & HP & HA & _).
  destruct (hybrid_bound y D R v Dv rv HR Hdv) as (err & Eerr & Berr). rewrite <- Eval in Eerr. rewrite HM in Berr.
  set (xs := tab (S P) (fun i => nth 0 (relinT w N pa lev ct i) [])).
  assert (peq Q (padd (gph xs) (pmul m (gph y))) (padd (pmul mu (psub (gph ct) (ksum N P sk Ra))) (ksum N P sk (fun i => dsumS pa (Da i) ea)))) as EX.
  { rewrite !gphase_ksum, <- (ksum_mul w N P bm keys _ m), <- (ksum_sub w N P bm keys), <- (ksum_mul w N P bm keys _ mu), <- !(ksum_add w N P bm keys). apply (ksum_ext w N HN P bm Lbm keys). intros i Hi Hu.
    unfold xs. rewrite nth_tab by lia. rewrite (Hy i Hi Hu), Hmk. destruct (HT i Hi Hu) as (_ & _ & <-). ring. }
  destruct (ksum_bound Ra (gadEps w pa) (eps_nonneg pa Hoka)) as (y1 & E1 & B1). { intros i Hi Hu. apply (HT i Hi Hu). }
  assert (0 <= rowNoise N pa 1 Ea) as Hrow. { unfold rowNoise. pose proof (Z.pow_nonneg 2 (g_logBase pa - 1)). nia. }
  destruct (ksum_bound (fun i => dsumS pa (Da i) ea) (rowNoise N pa 1 Ea) Hrow) as (y2 & E2 & B2). { intros i Hi Hu. apply (dsumS_bound pa _ _ _ ea Ea (proj1 (HT i Hi Hu))). exact Hea. }
  set (E := padd (popp (pmul mu y1)) (padd y2 err)).
  assert (pbound (mkExtNoise w N P pa p A Ea Ek) E) as BE.
  { unfold mkExtNoise, E. cbv zeta. eapply pbound_le; [|apply pbound_add; [apply pbound_opp, Hmu, B1|apply pbound_add; [exact B2|exact Berr]]].
    replace (rowNoise N pa (1 + Z.of_nat P * NZ) Ea) with (rowNoise N pa 1 Ea * (1 + Z.of_nat P * NZ)) by (unfold rowNoise; ring). lia. }
  assert (peq Q (padd val (gph xs)) (padd (pmul mu (gph ct)) E)) as EV.
  { unfold E. rewrite <- E1, <- E2, <- Eerr. transitivity (padd (psub val (pmul m (gph y))) (padd (gph xs) (pmul m (gph y)))); [ring|]. rewrite EX. ring. }
  assert (forall h, glwe_ct w N P h -> let o := addBodies w N P pa bm lev ct h in glwe_ct w N P o /\ (forall i, (i < P)%nat -> nth i bm false = false -> nth (S i) o [] = nth (S i) h []) /\ peq Q (gph o) (padd (gph h) (gph xs))) as Hadd.
  { intros h (Lh & Hh). unfold addBodies. cbv zeta.
    destruct (actLoop [] P bm (fun i o => vadd w o (nth 0 (relinT w N pa lev ct (S i)) [])) (upd h 0 (vadd w (nth 0 h []) (nth 0 (relinT w N pa lev ct 0) []))) ltac:(now rewrite upd_length)) as (X & Y & Z0).
    set (o := forN 0 P _ _) in *. rewrite nth_upd_same in Y by lia.
    assert (forall i, (i < P)%nat -> nth (S i) o [] = if nth i bm false then vadd w (nth (S i) h []) (nth 0 (relinT w N pa lev ct (S i)) []) else nth (S i) h []) as Z.
    { intros i Hi. rewrite (Z0 i Hi), nth_upd_other by lia. reflexivity. } clear Z0.
    assert (forall i, (i <= P)%nat -> used bm i -> nth i o [] = vadd w (nth i h []) (nth 0 (relinT w N pa lev ct i) [])) as Z'.
    { intros [|i] Hi Hu; [exact Y|]. rewrite (Z i) by lia. cbn in Hu. now rewrite Hu. }
    assert (forall i, (i <= P)%nat -> used bm i -> length (nth 0 (relinT w N pa lev ct i) []) = N) as HL. { intros i Hi Hu. apply (HT i Hi Hu). lia. }
    split; [split; [exact X|]|split].
    - intros i Hi. destruct i as [|i]; [rewrite Y; apply wpoly_vadd; auto; [apply Hh; lia|apply HL; [lia|exact I]]|]. rewrite (Z i) by lia. destruct (nth i bm false) eqn:Ei; [|apply Hh; lia].
      apply wpoly_vadd; auto. apply Hh; lia.
    - intros i Hi Ei. rewrite (Z i Hi), Ei. reflexivity.
    - apply gph_add. intros i Hi Hu. rewrite (Z' i Hi Hu), (pol_vadd N HN w); [|apply Hh; lia|apply HL; assumption]. unfold xs. rewrite nth_tab by lia. reflexivity. }
  split.
  - intros out Ho. unfold MKExternalProdGLWETo. cbv zeta. fold y. destruct (HP out Ho) as (X & Y & Z). destruct (Hadd _ X) as (X1 & Y1 & Z1). split; [exact X1|]. split.
    + intros i Hi Ei. rewrite (Y1 i Hi Ei). apply Y; assumption.
    + exists E. split; [|exact BE]. rewrite Z1, Z, EV. ring.
  - intros out Ho. unfold MKExternalProdAddGLWETo. cbv zeta. fold y. destruct (HA out Ho) as (X & Y & Z). destruct (Hadd _ X) as (X1 & Y1 & Z1). split; [exact X1|]. split.
    + intros i Hi Ei. rewrite (Y1 i Hi Ei). apply Y; assumption.
    + exists E. split; [|exact BE]. rewrite Z1, Z. transitivity (psub (padd (gph out) (padd val (gph xs))) (padd (gph out) (pmul mu (gph ct)))); [ring|]. rewrite EV. ring.
Qed.
End W.
