From Verif Require Import Base NegaRing SpecNum ModelNum PfNum ModelVec SpecVec PfVec ModelPoly SpecPoly PfPoly PfPerm PfSplit ModelGadget SpecGadget PfGadget ModelEncoder ModelLWE SpecLWE PfLWE PfLWE2 PfKS PfKS2 ModelGLWE SpecGLWE PfGLWE PfGLWE2 PfGLWE3 PfGLWE4
  ModelBoot SpecBoot PfBoot PfBoot2 PfBoot4 ModelBFV SpecBFV PfBFV PfBFV2 PfBFV4 ModelFHEW SpecFHEW PfFHEW PfFHEW2.

Section Loop.
Variables (w : Z) (N k : nat) (n : Z).
Hypothesis Hw : 0 < w.
Hypothesis Hn : 1 <= n <= 30.
Hypothesis HNn : Z.of_nat N = 2 ^ n.
Notation Q := (2 ^ w).
Notation NZ := (Z.of_nat N).
Notation M := (2 * NZ).
Notation H := (N / 2 - 1)%nat.
Variables (sk : list (list Z)) (p : gadget).
Hypothesis Hok : gadget_ok w p.
Hypothesis Hk : (1 <= k)%nat.
Notation S_ i := (pol N (nth i sk [])).
Notation gph := (gphase N k sk).
Hypothesis Hsk : forall i, (i < k)%nat -> length (nth i sk []) = N.
Variable b : Z.
Hypothesis Hb : key_small w N k sk b.
Add Ring nring : (@npoly_ring N Q) (setoid (@peq_equiv N Q) (@npoly_ring_ext N Q)).

Local Lemma Npos : (0 < N)%nat.
Proof. assert (0 < 2 ^ n) by (apply Z.pow_pos_nonneg; lia). lia. Qed.

Lemma key_signed i : (i < k)%nat -> peq Q (S_ i) (pol N (map (swrap w) (nth i sk []))).
Proof. intros Hi. symmetry. apply pol_fwdFFT; [exact Npos|now apply Hsk]. Qed.
Lemma mono_bound B t (q : npoly N) : pbound B q -> exists r, peq Q (pmul (pmono t) q) r /\ pbound B r.
Proof. intros HB. exists (pshift t q). split; [symmetry; apply pshift_mono|now apply pbound_shift]. Qed.

(** ** One product *)
Lemma prod_one ggsw sg e E ct : ggsw_enc w N k p sk ggsw (pmono sg) e -> (forall i j, (i <= k)%nat -> (j < g_level p)%nat -> pbound E (e i j)) -> glwe_ct w N k ct ->
  let o := gInv w k (ExternalProdFFTGLWETo N k p ggsw (fdAll w k p ct)) in
  glwe_ct w N k o /\ pdist_le Q (gph o) (pmul (pmono sg) (gph ct)) (monoNoise w N k p b E).
Proof.
  intros He HE Hc o. assert (o = ExternalProdGLWETo w N k p ggsw ct) as ->.
  { unfold o, ExternalProdGLWETo, fdAll. rewrite (extProd_eq w N Npos k p Hok) by apply Hc. reflexivity. }
  destruct (ExternalProdGLWETo_spec w Hw N Npos k sk p Hok ggsw (pmono sg) e ct He Hc) as (A & B). split; [exact A|].
  pose proof (decAll_dD w N Npos k p Hok ct Hc) as HD. set (D := dD w N p ct) in *. set (r := dR w N p ct) in *.
  eapply pdist_le_peq; [symmetry; exact B|reflexivity|].
  pose (rt := padd (r 0%nat) (psum k (fun i => pmul (r (S i)) (pol N (map (swrap w) (nth i sk [])))))).
  assert (peq Q (rsum N k sk r) rt) as ER by (unfold rsum, rt; apply padd_proper; [reflexivity|]; apply psum_proper; intros i Hi; now rewrite (key_signed i Hi)).
  assert (pbound (gadEps w p * (1 + Z.of_nat k * NZ * b)) rt) as BR.
  { replace (gadEps w p * (1 + Z.of_nat k * NZ * b)) with (gadEps w p + Z.of_nat k * (NZ * (gadEps w p * b))) by ring. apply pbound_add; [apply (HD O); lia|].
    apply pbound_psum. intros i Hi. apply pbound_mul; [apply (HD (S i)); lia|now apply Hb]. }
  destruct (mono_bound _ sg _ BR) as (s & Es & Bs).
  exists (padd (popp s) (psum (S k) (fun i => dsum N p (D i) (e i)))). split.
  - unfold epVal. fold (rsum N k sk r). rewrite <- Es, <- ER. ring.
  - apply pbound_add; [now apply pbound_opp|]. now apply (noise_bound w N Npos k p ct D r).
Qed.

(** ** The accumulator: X^t * L(X^d) up to B *)
Variable L : npoly N.
Definition app (acc : list (list Z)) (t d B : Z) : Prop := glwe_ct w N k acc /\ pdist_le Q (gph acc) (pmul (pmono t) (psubst d L)) B.

Variables (s : list Z) (brk : list (list (list (list (list Z))))) (Ek : Z).
Hypothesis Hbrk : mono_keys w N k p sk s brk Ek.
Notation sg j := (swrap w (nthZ s j)).
Notation ep := (monoNoise w N k p b Ek).

Lemma prods js : Forall (fun j => (j < length s)%nat) js -> forall acc t d B, app acc t d B ->
  app (fhewProd w N k p brk js acc) (t + lsum (fun j => sg j) js) d (B + Z.of_nat (length js) * ep).
Proof.
  intros Hjs. induction Hjs as [|j js Hj Hjs IH]; intros acc t d B HA.
  - cbn [lsum length fhewProd fold_left]. rewrite Z.add_0_r, Z.mul_0_l, Z.add_0_r. exact HA.
  - cbn [lsum length fhewProd fold_left]. destruct HA as (Hc & HB). destruct Hbrk as (_ & Hkey). destruct (Hkey j Hj) as (e & He & HE).
    destruct (prod_one _ _ e Ek acc He HE Hc) as (A1 & A2).
    replace (t + (sg j + lsum (fun j => sg j) js)) with (sg j + t + lsum (fun j => sg j) js) by ring.
    replace (B + Z.of_nat (S (length js)) * ep) with ((ep + B) + Z.of_nat (length js) * ep) by lia.
    apply IH. split; [exact A1|]. eapply pdist_trans; [exact A2|]. destruct HB as (r & Er & Br). destruct (mono_bound _ (sg j) _ Br) as (r' & Er' & Br').
    exists r'. split; [|exact Br']. rewrite <- Er', <- Er. rewrite <- (pmono_add Q (sg j) t). ring.
Qed.

(** ** One automorphism *)
Variables (W : nat) (glk : list (list (list (list (list Z))))) (Eg : Z).
Hypothesis HW : (1 <= W)%nat.
Hypothesis Hglk : window_keys w N k p sk W glk Eg.
Notation sw := (switchNoise w N k p b Eg).

Lemma galois_eqm d d' ksk E : eqm M d d' -> galois_key w N k p sk d ksk E -> galois_key w N k p sk d' ksk E.
Proof.
  intros Hd (sk' & e & L' & HP & X). exists sk', e. split; [exact L'|]. split; [|exact X]. intros i Hi. rewrite (HP i Hi). now apply psubst_eqm.
Qed.
Lemma aut_spec acc perm t d B dl idx ksk : app acc t d B -> glwe_ct w N k perm -> Z.odd d = true -> Z.odd dl = true -> nth_error glk idx = Some ksk -> galois_key w N k p sk dl ksk Eg ->
  exists acc' perm', fhewAut w N k p glk dl idx (acc, perm) = Some (acc', perm') /\ glwe_ct w N k perm' /\ app acc' (dl * t) (d * dl) (B + sw).
Proof.
  intros (Hc & HB) Hp Hd Hdl Hnth (sk' & e & L' & HP & He & HE). unfold fhewAut.
  destruct (PermuteGLWETo_spec w N k n dl Hw ltac:(lia) HNn Hdl sk sk' (fun y => if Nat.eqb y 0 then perm else acc) 0%nat 1%nat HP Hp Hc) as (s' & Es & G & P & _).
  cbn [Nat.eqb] in P. rewrite Es, Hnth. eexists _, _. split; [reflexivity|]. split; [exact G|].
  destruct (switch_bound w N k n Hw ltac:(lia) HNn sk p Hok sk' (fun i => psubst dl (pol N (map (swrap w) (nth i sk [])))) b acc (s' 0%nat) ksk e Eg) as (A & B'); rewrite ?L'; try assumption.
  - now apply glwe_shape in Hc.
  - intros i Hi. split; [|apply (pbound_subst N n ltac:(lia) HNn); [exact Hdl|now apply Hb]]. rewrite (HP i Hi). apply (psubst_proper N n); try assumption; try lia. now apply key_signed.
  - split; [exact A|]. rewrite L' in B'. rewrite Z.add_comm. eapply pdist_trans; [exact B'|].
    destruct HB as (r & Er & Br). exists (psubst dl r). split; [|apply (pbound_subst N n ltac:(lia) HNn); assumption].
    rewrite P. rewrite <- (psubst_mono N n ltac:(lia) HNn Q dl t Hdl), <- (psubst_compose N n ltac:(lia) HNn Q d dl L Hd Hdl).
    rewrite <- (psubst_mul N n ltac:(lia) HNn Q dl _ _ Hdl). rewrite <- (psubst_sub N n ltac:(lia) HNn Q dl _ _ Hdl). apply (psubst_proper N n); try assumption; lia.
Qed.
Lemma flush_spec acc perm t d B skip : app acc t d B -> glwe_ct w N k perm -> Z.odd d = true -> (1 <= skip <= W)%nat -> Z.of_nat skip < 2 ^ 63 ->
  exists acc' perm' dl, fhewFlush w N k p glk skip (acc, perm) = Some (acc', perm') /\ glwe_ct w N k perm' /\ Z.odd dl = true /\ eqm M dl (5 ^ Z.of_nat skip) /\ app acc' (dl * t) (d * dl) (B + sw).
Proof.
  intros HA Hp Hd Hs Hs63. unfold fhewFlush. destruct (tN2 N n ltac:(lia) HNn) as (h & Eh & _ & Hh & _).
  assert (NZ <= 2 ^ 30) as HN30 by (rewrite HNn; apply Z.pow_le_mono_r; lia). change (2 ^ 30) with 1073741824 in HN30.
  destruct (ModExp_nonneg true 64 5 (Z.of_nat skip) M) as (dl & Ed & Hdl & Qd); try lia; try (cbn; unfold sword; change (2 ^ (64 - 1)) with 9223372036854775808; try lia; nia).
  rewrite Ed. assert (Z.odd dl = true) as Ho.
  { destruct Qd as (c & Ec). replace dl with (5 ^ Z.of_nat skip + 2 * (c * NZ)) by lia. rewrite Z.odd_add_mul_2. apply five_odd. lia. }
  destruct (proj2 Hglk skip Hs) as (ksk & Hn1 & Hg).
  destruct (aut_spec acc perm t d B dl skip ksk HA Hp Hd Ho Hn1) as (acc' & perm' & E1 & E2 & E3); [eapply galois_eqm; [|exact Hg]; now rewrite Qd|].
  exists acc', perm', dl. split; [exact E1|]. split; [exact E2|]. split; [exact Ho|]. split; [exact Qd|exact E3].
Qed.

(** ** The loop over the classes *)
Lemma pow5_S x : 5 ^ Z.of_nat (S x) = 5 * 5 ^ Z.of_nat x.
Proof. rewrite Nat2Z.inj_succ, Z.pow_succ_r by lia. reflexivity. Qed.
Lemma pow5_add x y : 5 ^ Z.of_nat (x + y) = 5 ^ Z.of_nat x * 5 ^ Z.of_nat y.
Proof. rewrite Nat2Z.inj_add, Z.pow_add_r by lia. reflexivity. Qed.
Lemma HB30 : Z.of_nat H < 2 ^ 63.
Proof.
  assert (NZ <= 2 ^ 30) as X1 by (rewrite HNn; apply Z.pow_le_mono_r; lia). destruct (tN2 N n ltac:(lia) HNn) as (h & Eh & _ & Hh & EH).
  change (2 ^ 30) with 1073741824 in *. change (2 ^ 63) with 9223372036854775808. lia.
Qed.

Definition stepA (js : list nat) (st : list (list Z) * list (list Z) * nat) : option (list (list Z) * list (list Z) * nat) :=
  let '(st, skip) := st in
  match js with
  | [] => Some (st, skip)
  | _ => match (if Nat.eqb skip 0 then Some st else fhewFlush w N k p glk skip st) with
         | None => None
         | Some (acc, perm) => Some ((fhewProd w N k p brk js acc, perm), 0%nat)
         end
  end.
Lemma stepA_spec js acc perm skip t d B : Forall (fun j => (j < length s)%nat) js -> app acc t d B -> glwe_ct w N k perm -> Z.odd d = true -> (skip < W)%nat -> Z.of_nat skip < 2 ^ 63 -> 
  exists acc' perm' skip' t' d' f, stepA js ((acc, perm), skip) = Some ((acc', perm'), skip') /\ glwe_ct w N k perm' /\ Z.odd d' = true /\
    app acc' t' d' (B + Z.of_nat (length js) * ep + Z.of_nat f * sw) /\ (skip' < W)%nat /\
    eqm M (5 ^ Z.of_nat skip' * t') (5 ^ Z.of_nat skip * t + lsum (fun j => sg j) js) /\ eqm M (5 ^ Z.of_nat skip' * d') (5 ^ Z.of_nat skip * d) /\
    (f + skip' <= skip)%nat /\ (f <= length js)%nat.
Proof.
  intros Hjs HA Hp Hd Hs H63. destruct js as [|j0 js'].
  - exists acc, perm, skip, t, d, 0%nat. cbn [stepA length lsum]. split; [reflexivity|]. split; [exact Hp|]. split; [exact Hd|]. split; [replace (B + Z.of_nat 0 * ep + Z.of_nat 0 * sw) with B by ring; exact HA|].
    split; [exact Hs|]. split; [rewrite Z.add_0_r; reflexivity|]. split; [reflexivity|]. split; lia.
  - unfold stepA. set (js := j0 :: js') in *. assert (1 <= length js)%nat as Hl by (cbn; lia).
    assert (exists acc1 perm1 t1 d1 f, (if Nat.eqb skip 0 then Some (acc, perm) else fhewFlush w N k p glk skip (acc, perm)) = Some (acc1, perm1) /\ glwe_ct w N k perm1 /\ Z.odd d1 = true /\
      app acc1 t1 d1 (B + Z.of_nat f * sw) /\ eqm M t1 (5 ^ Z.of_nat skip * t) /\ eqm M d1 (5 ^ Z.of_nat skip * d) /\ (f <= skip)%nat /\ (f <= 1)%nat) as (acc1 & perm1 & t1 & d1 & f & E1 & Hp1 & Hd1 & HA1 & Ht1 & Hd1' & Hf & Hf1).
    { destruct (Nat.eqb_spec skip 0) as [->|Hne].
      - exists acc, perm, t, d, 0%nat. split; [reflexivity|]. split; [exact Hp|]. split; [exact Hd|]. split; [replace (B + Z.of_nat 0 * sw) with B by ring; exact HA|].
        change (5 ^ Z.of_nat 0) with 1. rewrite !Z.mul_1_l. split; [reflexivity|]. split; [reflexivity|]. split; lia.
      - destruct (flush_spec acc perm t d B skip HA Hp Hd ltac:(lia) H63) as (acc1 & perm1 & dl & E1 & E2 & E3 & E4 & E5).
        exists acc1, perm1, (dl * t), (d * dl), 1%nat. split; [exact E1|]. split; [exact E2|]. split; [rewrite Z.odd_mul, Hd, E3; reflexivity|]. split; [replace (B + Z.of_nat 1 * sw) with (B + sw) by ring; exact E5|].
        split; [now rewrite E4|]. split; [rewrite E4; apply eqm_eq; ring|]. split; lia. }
    rewrite E1. cbv iota. eexists _, _, 0%nat, _, d1, f. split; [reflexivity|]. split; [exact Hp1|]. split; [exact Hd1|].
    split; [replace (B + Z.of_nat (length js) * ep + Z.of_nat f * sw) with (B + Z.of_nat f * sw + Z.of_nat (length js) * ep) by ring; apply prods; [exact Hjs|exact HA1]|].
    split; [lia|]. change (5 ^ Z.of_nat 0) with 1. rewrite !Z.mul_1_l. split; [now rewrite Ht1|]. split; [exact Hd1'|]. split; lia.
Qed.

Lemma loop_spec cls acc0 perm0 t0 d0 B0 : (forall i, (1 <= i <= H)%nat -> Forall (fun j => (j < length s)%nat) (cls i)) ->
  app acc0 t0 d0 B0 -> glwe_ct w N k perm0 -> Z.odd d0 = true ->
  let np := zsum H (fun q => Z.of_nat (length (cls (H - q)%nat))) in
  exists acc perm t d f, fhewLoop w N k p brk glk W cls (Some ((acc0, perm0), 0%nat)) = Some ((acc, perm), 0%nat) /\ glwe_ct w N k perm /\ Z.odd d = true /\
    app acc t d (B0 + np * ep + f * sw) /\ eqm M t (5 ^ Z.of_nat H * t0 + zsum H (fun q => 5 ^ Z.of_nat (H - q) * lsum (fun j => sg j) (cls (H - q)%nat))) /\
    eqm M d (5 ^ Z.of_nat H * d0) /\ 0 <= f <= Z.of_nat H /\ f <= np + Z.of_nat (H / W + 1).
Proof.
  intros Hcls HA0 Hp0 Hd0 np.
  pose (NP := fun q => zsum q (fun q => Z.of_nat (length (cls (H - q)%nat)))).
  pose (TS := fun q => zsum q (fun q => 5 ^ Z.of_nat (H - q) * lsum (fun j => sg j) (cls (H - q)%nat))).
  pose (J := fun q st => (q <= H)%nat -> exists acc perm skip t d f v, st = Some ((acc, perm), skip) /\ glwe_ct w N k perm /\ Z.odd d = true /\
    app acc t d (B0 + NP q * ep + Z.of_nat f * sw) /\ (skip < W)%nat /\ (q = H -> skip = 0%nat) /\
    eqm M (5 ^ Z.of_nat (skip + (H - q)) * t) (5 ^ Z.of_nat H * t0 + TS q) /\ eqm M (5 ^ Z.of_nat (skip + (H - q)) * d) (5 ^ Z.of_nat H * d0) /\
    (f + skip <= q)%nat /\ (W * v + skip <= q)%nat /\ Z.of_nat f <= NP q + Z.of_nat v + (if Nat.eqb q H then 1 else 0)).
  unfold fhewLoop. match goal with |- exists acc perm t d f, ?g = _ /\ _ => enough (J H g) as X end.
  { destruct (X (le_n _)) as (acc & perm & skip & t & d & f & v & Eg' & A1 & A2 & A3 & A4 & A5 & A6 & A7 & A8 & A9 & A10). rewrite Eg'. specialize (A5 eq_refl). subst skip.
    rewrite Nat.sub_diag in A6, A7. change (5 ^ Z.of_nat (0 + 0)) with 1 in A6, A7. rewrite Z.mul_1_l in A6, A7. rewrite Nat.eqb_refl in A10.
    exists acc, perm, t, d, (Z.of_nat f). split; [reflexivity|]. split; [exact A1|]. split; [exact A2|]. split; [exact A3|]. split; [exact A6|]. split; [exact A7|]. split; [lia|].
    assert (v <= H / W)%nat as Xv by (apply Nat.div_le_lower_bound; lia). change (NP H) with np in A10. lia. }
  apply (forN_ind J); unfold J.
  - intros _. exists acc0, perm0, 0%nat, t0, d0, 0%nat, 0%nat. split; [reflexivity|]. split; [exact Hp0|]. split; [exact Hd0|].
    unfold NP, TS. cbn [zsum]. split; [replace (B0 + 0 * ep + Z.of_nat 0 * sw) with B0 by ring; exact HA0|]. split; [lia|]. split; [reflexivity|].
    rewrite Nat.add_0_l, Nat.sub_0_r, Z.add_0_r. split; [reflexivity|]. split; [reflexivity|]. split; [lia|]. split; [lia|]. destruct (Nat.eqb 0 H); lia.
  - intros q st Hq IH HSq. destruct (IH ltac:(lia)) as (acc & perm & skip & t & d & f & v & -> & A1 & A2 & A3 & A4 & A5 & A6 & A7 & A8 & A9 & A10). rewrite Nat.add_0_l. cbv zeta. set (js := cls (H - q)%nat).
    rewrite (proj2 (Nat.eqb_neq q H)) in A10 by lia. pose proof HB30 as H63.
    destruct (stepA_spec js acc perm skip t d _ ltac:(apply Hcls; lia) A3 A1 A2 A4 ltac:(lia)) as (acc1 & perm1 & skip1 & t1 & d1 & f1 & E1 & B1 & B2 & B3 & B4 & B5 & B6 & B7 & B8).
    unfold fhewStep. change (match js with [] => Some (acc, perm, skip) | _ :: _ => match (if (skip =? 0)%nat then Some (acc, perm) else fhewFlush w N k p glk skip (acc, perm)) with Some (acc, perm) => Some (fhewProd w N k p brk js acc, perm, 0%nat) | None => None end end) with (stepA js ((acc, perm), skip)).
    rewrite E1. cbv iota zeta.
    assert (NP (S q) = NP q + Z.of_nat (length js)) as ENP by reflexivity. assert (TS (S q) = TS q + 5 ^ Z.of_nat (H - q) * lsum (fun j => sg j) js) as ETS by reflexivity.
    assert (eqm M (5 ^ Z.of_nat (skip1 + (H - q)) * t1) (5 ^ Z.of_nat H * t0 + TS (S q))) as C5.
    { rewrite ETS, pow5_add. rewrite pow5_add in A6. transitivity (5 ^ Z.of_nat (H - q) * (5 ^ Z.of_nat skip1 * t1)); [apply eqm_eq; ring|]. rewrite B5. 
      transitivity (5 ^ Z.of_nat skip * 5 ^ Z.of_nat (H - q) * t + 5 ^ Z.of_nat (H - q) * lsum (fun j => sg j) js); [apply eqm_eq; ring|]. rewrite A6. apply eqm_eq. ring. }
    assert (eqm M (5 ^ Z.of_nat (skip1 + (H - q)) * d1) (5 ^ Z.of_nat H * d0)) as C6.
    { rewrite pow5_add. rewrite pow5_add in A7. transitivity (5 ^ Z.of_nat (H - q) * (5 ^ Z.of_nat skip1 * d1)); [apply eqm_eq; ring|]. rewrite B6. 
      transitivity (5 ^ Z.of_nat skip * 5 ^ Z.of_nat (H - q) * d); [apply eqm_eq; ring|]. exact A7. }
    assert (B0 + NP q * ep + Z.of_nat f * sw + Z.of_nat (length js) * ep + Z.of_nat f1 * sw = B0 + NP (S q) * ep + Z.of_nat (f + f1) * sw) as EB by (rewrite ENP, Nat2Z.inj_add; ring). rewrite EB in B3.
    destruct (orb (Nat.eqb (S skip1) W) (Nat.eqb (H - q) 1)) eqn:Eo.
    + destruct (flush_spec acc1 perm1 t1 d1 _ (S skip1) B3 B1 B2 ltac:(lia) ltac:(lia)) as (acc2 & perm2 & dl & E2 & D1 & D2 & D3 & D4).
      rewrite E2. cbn [option_map]. exists acc2, perm2, 0%nat, (dl * t1), (d1 * dl), (f + f1 + 1)%nat, (if Nat.eqb (S skip1) W then S v else v).
      split; [reflexivity|]. split; [exact D1|]. split; [rewrite Z.odd_mul, B2, D2; reflexivity|]. split; [replace (Z.of_nat (f + f1 + 1) * sw) with (Z.of_nat (f + f1) * sw + sw) by lia; rewrite Z.add_assoc; exact D4|].
      split; [lia|]. split; [reflexivity|].
      replace (skip1 + (H - q))%nat with (S skip1 + (0 + (H - S q)))%nat in C5, C6 by lia. rewrite pow5_add in C5, C6.
      split; [rewrite <- C5, D3; apply eqm_eq; ring|]. split; [rewrite <- C6, D3; apply eqm_eq; ring|]. split; [lia|].
      destruct (Nat.eqb_spec (S skip1) W) as [EW|NW]; cbn [orb] in Eo.
      * split; [nia|]. destruct (Nat.eqb (S q) H); lia.
      * apply Nat.eqb_eq in Eo. split; [lia|]. replace (S q) with H by lia. rewrite Nat.eqb_refl. replace H with (S q) by lia. lia.
    + apply orb_false_iff in Eo. destruct Eo as (EW & EL). apply Nat.eqb_neq in EW, EL.
      exists acc1, perm1, (S skip1), t1, d1, (f + f1)%nat, v. split; [reflexivity|]. split; [exact B1|]. split; [exact B2|]. split; [exact B3|]. split; [lia|]. split; [lia|].
      replace (skip1 + (H - q))%nat with (S skip1 + (H - S q))%nat in C5, C6 by lia. split; [exact C5|]. split; [exact C6|]. split; [lia|]. split; [lia|]. destruct (Nat.eqb (S q) H); lia.
Qed.
End Loop.
