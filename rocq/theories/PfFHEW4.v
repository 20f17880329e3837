From Verif Require Import Base NegaRing SpecNum ModelNum PfNum ModelVec SpecVec PfVec ModelPoly SpecPoly PfPoly PfPerm PfSplit ModelGadget SpecGadget PfGadget ModelEncoder ModelLWE SpecLWE PfLWE PfLWE2 PfKS PfKS2 ModelGLWE SpecGLWE PfGLWE PfGLWE2 PfGLWE3 PfGLWE4
  ModelBoot SpecBoot PfBoot PfBoot2 PfBoot4 ModelBFV SpecBFV PfBFV PfBFV2 PfBFV4 ModelFHEW SpecFHEW PfFHEW PfFHEW2 PfFHEW3.

Lemma gadEps_nonneg w p : 0 <= gadEps w p.
Proof. unfold gadEps. apply Z.div_pos; [apply Z.pow_nonneg; lia|lia]. Qed.
Lemma rowNoise_nonneg N p x E : 0 <= x -> 0 <= E -> 0 <= rowNoise N p x E.
Proof. intros. unfold rowNoise. repeat apply Z.mul_nonneg_nonneg; try lia; apply Z.pow_nonneg; lia. Qed.
Lemma pdist_mono_t {N} Q (x y : npoly N) t t' b : eqm (2 * Z.of_nat N) t t' -> pdist_le Q x (pmul (pmono t) y) b -> pdist_le Q x (pmul (pmono t') y) b.
Proof. intros Ht. apply pdist_le_peq; [reflexivity|]. now rewrite (pmono_eqm Q t t' Ht). Qed.

Section Rot.
Variables (w : Z) (N k : nat) (n : Z).
Hypothesis Hw : 0 < w.
Hypothesis Hn : 1 <= n <= 30.
Hypothesis HNn : Z.of_nat N = 2 ^ n.
Notation Q := (2 ^ w).
Notation NZ := (Z.of_nat N).
Notation M := (2 * NZ).
Notation HH := (N / 2 - 1)%nat.
Variables (sk : list (list Z)) (p : gadget).
Hypothesis Hok : gadget_ok w p.
Hypothesis Hk : (1 <= k)%nat.
Hypothesis Hsk : forall i, (i < k)%nat -> length (nth i sk []) = N.
Notation gph := (gphase N k sk).
Variable b : Z.
Hypothesis Hb : key_small w N k sk b.
Hypothesis Hb0 : 0 <= b.
Variables (s : list Z) (brk : list (list (list (list (list Z))))) (Ek : Z).
Hypothesis Hbrk : mono_keys w N k p sk s brk Ek.
Hypothesis HEk : 0 <= Ek.
Variables (W : nat) (glk : list (list (list (list (list Z))))) (Eg : Z).
Hypothesis HW : (1 <= W)%nat.
Hypothesis Hglk : window_keys w N k p sk W glk Eg.
Hypothesis HEg : 0 <= Eg.
Notation ep := (monoNoise w N k p b Ek).
Notation sw := (switchNoise w N k p b Eg).
Notation app := (app w N k sk).
Notation sg := (fun j => swrap w (nthZ s j)).

Local Lemma NP : (0 < N)%nat.
Proof. assert (0 < 2 ^ n) by (apply Z.pow_pos_nonneg; lia). lia. Qed.
Lemma ep_nonneg : 0 <= ep.
Proof. unfold monoNoise. pose proof (gadEps_nonneg w p). assert (0 <= rowNoise N p (Z.of_nat k + 1) Ek) by (apply rowNoise_nonneg; lia). assert (0 <= Z.of_nat k * NZ * b) by (repeat apply Z.mul_nonneg_nonneg; lia). nia. Qed.
Lemma sw_nonneg : 0 <= sw.
Proof.
  unfold switchNoise. assert (0 <= rowNoise N p (Z.of_nat k) Eg) by (apply rowNoise_nonneg; lia).
  assert (0 <= Z.of_nat k * (NZ * (b * (2 ^ (w - Z.of_nat (g_level p) * g_logBase p) / 2)))); [|lia]. repeat apply Z.mul_nonneg_nonneg; try lia.
Qed.

Add Ring nring : (@npoly_ring N Q) (setoid (@peq_equiv N Q) (@npoly_ring_ext N Q)).
Lemma gph_zero ct : (forall i, (0 < i <= k)%nat -> nth i ct [] = repeat 0 N) -> peq Q (gph ct) (pol N (nth 0 ct [])).
Proof.
  intros H0. unfold gphase. rewrite (psum_proper Q k _ (fun _ => pzero)).
  2:{ intros i Hi. rewrite (H0 (S i)) by lia. rewrite (peq_0_any Q _ _ (pol_zero N NP)). ring. }
  intros t. cbn. rewrite cf_psum. cbn [cf pzero]. rewrite zsum_zero. apply eqm_eq. lia.
Qed.
(** The first accumulator. *)
Lemma init_spec ctOut lut x : gshape N k ctOut -> wpoly w N lut ->
  exists r r', PermutePolyTo w N (nth 0 ctOut []) lut (-5) = Some r /\ MonomialMulPolyInPlace w N r x = Some r' /\
    app (pol N lut) (forN 1 k (fun i o => upd o i (repeat 0 (length (nth i o [])))) (upd ctOut 0 r')) x (-5) 0.
Proof.
  intros (Lo & Ho) Hl. destruct (PermutePolyTo_spec N n ltac:(lia) HNn w (nth 0 ctOut []) lut (-5) ltac:(lia) eq_refl (Ho O ltac:(lia)) Hl) as (r & E1 & W1 & P1).
  pose proof (MonomialMulPolyInPlace_eq N NP w n r r x ltac:(lia) ltac:(lia) HNn (proj1 W1) W1) as E2.
  destruct (MonomialMulPolyTo_spec N NP w n r r x ltac:(lia) ltac:(lia) HNn (proj1 W1) W1) as (W2 & P2). set (r' := MonomialMulPolyTo w N r r x) in *. clearbody r'.
  exists r, r'. split; [exact E1|]. split; [exact E2|].
  destruct (rows_loop [] (fun i o => repeat 0 (length o)) 1 k (upd ctOut 0 r') ltac:(rewrite upd_length; lia)) as (LL & V).
  set (acc := forN 1 k _ _) in *. assert (nth 0 acc [] = r') as A0 by (rewrite V; cbn [Nat.leb andb]; apply nth_upd_same; lia).
  assert (forall i, (1 <= i <= k)%nat -> nth i acc [] = repeat 0 N) as A1.
  { intros i Hi. rewrite V. replace ((1 <=? i)%nat && (i <? 1 + k)%nat) with true by (symmetry; apply andb_true_iff; split; [apply Nat.leb_le|apply Nat.ltb_lt]; lia).
    rewrite nth_upd_other by lia. now rewrite (Ho i ltac:(lia)). }
  split.
  - split; [rewrite LL, upd_length; lia|]. intros i Hi. destruct i as [|i]; [now rewrite A0|]. rewrite A1 by lia. split; [apply repeat_length|]. apply Forall_forall. intros y Hy. apply repeat_spec in Hy. subst y. split; [lia|apply Z.pow_pos_nonneg; lia].
  - assert (peq Q (gph acc) (pmul (pmono x) (psubst (-5) (pol N lut)))) as EG.
    { rewrite (gph_zero acc) by (intros i Hi; apply A1; lia). now rewrite A0, P2, P1. }
    eapply pdist_le_peq; [symmetry; exact EG|reflexivity|]. apply pdist_refl. lia.
Qed.

Lemma FHEWBlindRotateTo_spec ms perm ctOut ct lut : (forall x, uword w x -> 0 <= ms x < M) -> gshape N k ctOut -> glwe_ct w N k perm -> wpoly w N lut ->
  exists r perm', FHEWBlindRotateTo w N k ms p brk glk W (length s) perm ctOut ct lut = Some (r, perm') /\ glwe_ct w N k perm' /\ glwe_ct w N k r /\
    pdist_le Q (gph r) (pmul (pmono (oddRot w ms s ct)) (pol N lut)) (fhewNoise w N k p W (length s) b Ek Eg).
Proof.
  intros Hms Ho Hp Hl. unfold FHEWBlindRotateTo. set (m := autClasses w N ms (length s) ct). set (b' := FHEWModSwitch ms (wrap w (- nthZ ct 0))).
  assert (forall y, Forall (fun j => (j < length s)%nat) (m y)) as Hcls by (intros y; apply (autClasses_lt w N n); assumption || lia).
  destruct (init_spec ctOut lut (-5 * b') Ho Hl) as (r1 & r2 & E1 & E2 & HA0). rewrite E1, E2. cbv zeta. set (L := pol N lut) in *.
  set (acc0 := forN 1 k _ _) in *. clearbody acc0.
  destruct (loop_spec w N k n Hw Hn HNn sk p Hok Hk Hsk b Hb L s brk Ek Hbrk W glk Eg HW Hglk (fun i => m (- Z.of_nat i)) acc0 perm (-5 * b') (-5) 0 (fun i _ => Hcls _) HA0 Hp eq_refl)
    as (acc1 & perm1 & t1 & d1 & f1 & E3 & Hp1 & Hd1 & HA1 & Ht1 & Hdd1 & Hf1 & Hf1'). rewrite E3.
  pose proof (prods w N k n Hw Hn HNn sk p Hok Hk Hsk b Hb L s brk Ek Hbrk (m M) (Hcls M) acc1 t1 d1 _ HA1) as HA2.
  destruct (proj1 Hglk) as (ksk & Hnth & Hg).
  destruct (aut_spec w N k n Hw Hn HNn sk p Hok Hk Hsk b Hb L W glk Eg HW _ perm1 _ _ _ (-5) 0%nat ksk HA2 Hp1 Hd1 eq_refl Hnth Hg) as (acc3 & perm3 & E4 & Hp3 & HA3). rewrite E4.
  destruct (loop_spec w N k n Hw Hn HNn sk p Hok Hk Hsk b Hb L s brk Ek Hbrk W glk Eg HW Hglk (fun i => m (Z.of_nat i)) acc3 perm3 _ _ _ (fun i _ => Hcls _) HA3 Hp3 ltac:(rewrite Z.odd_mul, Hd1; reflexivity))
    as (acc4 & perm4 & t4 & d4 & f4 & E5 & Hp4 & Hd4 & HA4 & Ht4 & Hdd4 & Hf4 & Hf4'). rewrite E5.
  pose proof (prods w N k n Hw Hn HNn sk p Hok Hk Hsk b Hb L s brk Ek Hbrk (m 0) (Hcls 0) acc4 t4 d4 _ HA4) as HA5.
  eexists _, _. split; [reflexivity|]. split; [exact Hp4|]. destruct HA5 as (G5 & D5). split; [exact G5|].
  set (np1 := zsum HH (fun q => Z.of_nat (length (m (- Z.of_nat (HH - q)))))) in *. set (np4 := zsum HH (fun q => Z.of_nat (length (m (Z.of_nat (HH - q)))))) in *.
  set (S1 := zsum HH (fun q => 5 ^ Z.of_nat (HH - q) * lsum sg (m (- Z.of_nat (HH - q))))) in *. set (S4 := zsum HH (fun q => 5 ^ Z.of_nat (HH - q) * lsum sg (m (Z.of_nat (HH - q))))) in *.
  destruct (tN2 N n ltac:(lia) HNn) as (h & Eh & _ & Hh & EH).
  assert (eqm M (5 * 5 ^ Z.of_nat HH) 1) as F5. { rewrite <- (five_half N n ltac:(lia) HNn). rewrite <- Z.pow_succ_r by lia. apply eqm_eq. f_equal. lia. }
  assert (np1 + Z.of_nat (length (m M)) + np4 + Z.of_nat (length (m 0)) = Z.of_nat (length s)) as Ecnt.
  { pose proof (classSum_spec w N n ltac:(lia) HNn ms ct ltac:(lia) Hms (fun _ => 1) (fun _ => 1) (length s)) as X. fold m in X. unfold classSum in X. rewrite zsum_const in X. rewrite !lsum_one in X.
    rewrite (zsum_ext HH _ (fun q => Z.of_nat (length (m (- Z.of_nat (HH - q)))))) in X by (intros; rewrite lsum_one; ring).
    rewrite (zsum_ext HH (fun q => 1 * lsum (fun _ => 1) (m (Z.of_nat (HH - q)))) (fun q => Z.of_nat (length (m (Z.of_nat (HH - q)))))) in X by (intros; rewrite lsum_one; ring). fold np1 np4 in X. lia. }
  assert (eqm M (- S1 - lsum sg (m M) + S4 + lsum sg (m 0)) (zsum (length s) (fun i => oddAt w ms ct (S i) * sg i))) as Erot.
  { pose proof (classSum_spec w N n ltac:(lia) HNn ms ct ltac:(lia) Hms (clsMul N) sg (length s)) as X. fold m in X.
    transitivity (classSum N (clsMul N) sg m).
    - apply eqm_eq. unfold classSum. unfold clsMul at 2 4. rewrite Z.eqb_refl. rewrite (proj2 (Z.eqb_neq 0 M)) by lia. cbn [Z.ltb Z.compare]. change (5 ^ 0) with 1.
      rewrite (zsum_ext HH (fun q => clsMul N (- Z.of_nat (HH - q)) * lsum sg (m (- Z.of_nat (HH - q)))) (fun q => - (5 ^ Z.of_nat (HH - q) * lsum sg (m (- Z.of_nat (HH - q)))))).
      2:{ intros q Hq. unfold clsMul. rewrite (proj2 (Z.eqb_neq _ _)) by lia. rewrite (proj2 (Z.ltb_lt _ _)) by lia. rewrite Z.opp_involutive. ring. }
      rewrite (zsum_ext HH (fun q => clsMul N (Z.of_nat (HH - q)) * lsum sg (m (Z.of_nat (HH - q)))) (fun q => 5 ^ Z.of_nat (HH - q) * lsum sg (m (Z.of_nat (HH - q))))).
      2:{ intros q Hq. unfold clsMul. rewrite (proj2 (Z.eqb_neq _ _)) by lia. rewrite (proj2 (Z.ltb_ge _ _)) by lia. reflexivity. }
      rewrite zsum_opp. fold S1 S4. ring.
    - rewrite X. apply zsum_eqm. intros i Hi. now rewrite (clsMul_spec w N n ltac:(lia) HNn ms ct ltac:(lia) Hms i). }
  assert (eqm M (t4 + lsum sg (m 0)) (oddRot w ms s ct)) as ET.
  { unfold oddRot. cbv zeta. change (Z.lor (ms (wrap w (- nthZ ct 0))) 1) with b'. change (fun i => Z.lor (ms (wrap w (- nthZ ct (S i)))) 1 * sg i) with (fun i => oddAt w ms ct (S i) * sg i).
    rewrite <- Erot, Ht4, Ht1. set (P5 := 5 ^ Z.of_nat HH) in *. clearbody P5 S1 S4. set (lM := lsum sg (m M)). set (l0 := lsum sg (m 0)). clearbody lM l0.
    destruct F5 as (c & Ec). transitivity (P5 * (-5 * (P5 * (-5 * b') + S1 + lM)) + S4 + l0); [reflexivity|]. 
    replace (P5 * (-5 * (P5 * (-5 * b') + S1 + lM)) + S4 + l0) with ((5 * P5) * ((5 * P5) * b' - S1 - lM) + S4 + l0) by ring.
    assert (eqm M (5 * P5) 1) as F5 by (exists c; exact Ec). rewrite F5. rewrite Z.mul_1_l. apply eqm_eq. ring. }
  assert (eqm M d4 1) as ED.
  { rewrite Hdd4, Hdd1. set (P5 := 5 ^ Z.of_nat HH) in *. transitivity ((5 * P5) * (5 * P5)); [apply eqm_eq; ring|]. rewrite F5. reflexivity. }
  apply (pdist_mono_t Q _ _ _ _ _ ET). pose proof (psubst_1mod N n ltac:(lia) HNn Q d4 L ED) as EL. eapply pdist_le_peq; [reflexivity|apply pmul_proper; [reflexivity|exact EL]|].
  eapply pdist_le_le; [|exact D5]. unfold fhewNoise, autCount. cbv zeta. pose proof ep_nonneg as EP. pose proof sw_nonneg as SW.
  set (e1 := ep) in *. set (s1 := sw) in *. clearbody e1 s1 np1 np4. clear - Ecnt Hf1 Hf1' Hf4 Hf4' EP SW.
  replace (0 + np1 * e1 + f1 * s1 + Z.of_nat (length (m M)) * e1 + s1 + np4 * e1 + f4 * s1 + Z.of_nat (length (m 0)) * e1) with ((np1 + Z.of_nat (length (m M)) + np4 + Z.of_nat (length (m 0))) * e1 + (1 + (f1 + f4)) * s1) by ring.
  rewrite Ecnt. apply Zplus_le_compat_l. apply Z.mul_le_mono_nonneg_r; [exact SW|]. lia.
Qed.
End Rot.
