(** Blind rotation: algebra of a block, original and block versions. *)
From Verif Require Import Base NegaRing SpecNum ModelNum PfNum ModelVec SpecVec PfVec ModelPoly SpecPoly PfPoly ModelGadget SpecGadget PfGadget ModelEncoder ModelLWE SpecLWE PfLWE ModelGLWE SpecGLWE PfGLWE PfGLWE2 PfGLWE3 PfGLWE4 ModelBoot SpecBoot.

Section Dist.
Context {M : nat}.
Variable Q : Z.
Add Ring nring : (@npoly_ring M Q) (setoid (@peq_equiv M Q) (@npoly_ring_ext M Q)).
Lemma pdist_refl (x : npoly M) b : 0 <= b -> pdist_le Q x x b.
Proof. intros Hb. exists pzero. split; [ring|]. apply (pbound_le 0); [exact Hb|apply pbound_zero]. Qed.
Lemma pdist_trans (x y z : npoly M) b c : pdist_le Q x y b -> pdist_le Q y z c -> pdist_le Q x z (b + c).
Proof. intros (r & A & B) (r' & A' & B'). exists (padd r r'). split; [rewrite <- A, <- A'; ring|now apply pbound_add]. Qed.
Lemma pdist_shift d (x y : npoly M) b : pdist_le Q x y b -> pdist_le Q (pshift d x) (pshift d y) b.
Proof. intros (r & A & B). exists (pshift d r). split; [|now apply pbound_shift]. intros t. cbn. apply A. Qed.
Lemma pdist_cf (x y : npoly M) b t : pdist_le Q x y b -> exists e, eqm Q (cf x t) (cf y t + e) /\ Z.abs e <= b.
Proof. intros (r & A & B). exists (cf r t). split; [|apply B]. rewrite <- (A t). apply eqm_eq. cbn. lia. Qed.

Definition onehot (n : nat) (s : nat -> Z) : Prop :=
  (forall j, (j < n)%nat -> s j = 0 \/ s j = 1) /\ forall i j, (i < j)%nat -> (j < n)%nat -> s i = 0 \/ s j = 0.
Lemma onehot_shift n s a (X : npoly M) : onehot n s ->
  peq Q (psum n (fun j => pscale (s j) (psub (pshift (a j) X) X))) (psub (pshift (zsum n (fun j => a j * s j)) X) X).
Proof.
  induction n as [|n IH]; intros (H1 & H2).
  - cbn [psum zsum]. rewrite pshift_0. ring.
  - cbn [psum zsum]. destruct (H1 n ltac:(lia)) as [Z0|O1].
    + rewrite IH by (split; intros; [apply H1|apply H2]; lia). rewrite Z0. rewrite Z.mul_0_r, Z.add_0_r. intros t. cbn. apply eqm_eq. lia.
    + assert (forall j, (j < n)%nat -> s j = 0) as Hz by (intros j Hj; destruct (H2 j n Hj ltac:(lia)); [assumption|lia]).
      rewrite O1. rewrite (zsum_ext n _ (fun _ => 0)) by (intros j Hj; rewrite (Hz j Hj); lia). rewrite zsum_zero, Z.mul_1_r, Z.add_0_l.
      rewrite (psum_proper Q n _ (fun _ => pzero)).
      2:{ intros j Hj t. rewrite (Hz j Hj). cbn. apply eqm_eq. lia. }
      intros t. cbn. rewrite cf_psum. cbn [cf pzero]. rewrite zsum_zero. apply eqm_eq. lia.
Qed.

(** One block: T_j = s_j (P - rho) + eta_j, the new value is P + sum_j (X^(a_j) T_j - T_j). *)
Lemma block_core n s a (P rho : npoly M) (eta T : nat -> npoly M) bR bE : onehot n s -> pbound bR rho -> (forall j, (j < n)%nat -> pbound bE (eta j)) ->
  (forall j, (j < n)%nat -> peq Q (T j) (padd (pscale (s j) (psub P rho)) (eta j))) ->
  pdist_le Q (padd P (psum n (fun j => psub (pshift (a j) (T j)) (T j)))) (pshift (zsum n (fun j => a j * s j)) P) (2 * bR + Z.of_nat n * (2 * bE)).
Proof.
  intros Hs HR HE HT. set (sg := zsum n (fun j => a j * s j)).
  exists (padd (psub rho (pshift sg rho)) (psum n (fun j => psub (pshift (a j) (eta j)) (eta j)))). split.
  - rewrite (psum_proper Q n (fun j => psub (pshift (a j) (T j)) (T j)) (fun j => padd (pscale (s j) (psub (pshift (a j) (psub P rho)) (psub P rho))) (psub (pshift (a j) (eta j)) (eta j)))).
    2:{ intros j Hj. rewrite (HT j Hj). intros t. cbn. apply eqm_eq. ring. }
    rewrite psum_add, (onehot_shift n s a (psub P rho) Hs). fold sg. intros t. cbn. apply eqm_eq. ring.
  - apply pbound_add.
    + replace (2 * bR) with (bR + bR) by lia. apply pbound_sub; [exact HR|now apply pbound_shift].
    + apply pbound_psum. intros j Hj. replace (2 * bE) with (bE + bE) by lia. apply pbound_sub; [apply pbound_shift|]; now apply HE.
Qed.
End Dist.

Lemma onehot_block bs s i : block_binary bs s -> (0 < bs)%nat -> ((i + 1) * bs <= length s)%nat -> onehot bs (fun j => nthZ s (i * bs + j)).
Proof.
  intros (Hb & H) Hbs Hl. split.
  - intros j Hj. apply (Forall_nth_lt _ s 0 (i * bs + j) Hb). lia.
  - intros a b Ha Hb'. apply H; [lia|lia|]. rewrite !(Nat.add_comm (i * bs)), !Nat.div_add, !Nat.div_small by lia. reflexivity.
Qed.

(** *** Monomials *)
Section Mono.
Variable N : nat.
Hypothesis HN : (0 < N)%nat.
Notation NZ := (Z.of_nat N).
Lemma pol_fmono d : peq 0 (pol N (fmono N d)) (pmono d).
Proof.
  apply (pol_peq N HN). intros i Hi. apply eqm_eq. unfold fmono, nthZ. rewrite nth_tab by exact Hi. unfold pmono. cbn [cf pshift pone]. unfold one_cf.
  destruct (Z.eqb_spec NZ 0); [lia|].
  assert ((Z.of_nat i - d) mod (2 * NZ) = (Z.of_nat i - d mod (2 * NZ)) mod (2 * NZ)) as -> by (rewrite Zminus_mod_idemp_r; reflexivity).
  pose proof (Z.mod_pos_bound d (2 * NZ) ltac:(lia)) as Hd. set (e := d mod (2 * NZ)) in *. clearbody e.
  destruct (Z_le_gt_dec e (Z.of_nat i)) as [C|C].
  - rewrite Z.mod_small by lia. destruct (Z.eqb_spec (Z.of_nat i) e), (Z.eqb_spec (Z.of_nat i + NZ) e), (Z.eqb_spec (Z.of_nat i - e) 0), (Z.eqb_spec (Z.of_nat i - e) NZ); lia.
  - rewrite <- (Z.mod_unique_pos (Z.of_nat i - e) (2 * NZ) (-1) (Z.of_nat i - e + 2 * NZ)) by lia.
    destruct (Z.eqb_spec (Z.of_nat i) e), (Z.eqb_spec (Z.of_nat i + NZ) e), (Z.eqb_spec (Z.of_nat i - e + 2 * NZ) 0), (Z.eqb_spec (Z.of_nat i - e + 2 * NZ) NZ); lia.
Qed.
Lemma pol_fmonoSubOne d : peq 0 (pol N (fmonoSubOne N d)) (psub (pmono d) pone).
Proof.
  apply (pol_peq N HN). intros i Hi. apply eqm_eq. unfold fmonoSubOne. unfold nthZ at 1. rewrite nth_tab by exact Hi.
  destruct (pol_fmono d (Z.of_nat i)) as (q & Hq). rewrite (cf_pol_at N HN) in Hq by exact Hi. cbn [cf psub]. cbn [cf pone]. rewrite one_cf_at by exact Hi. lia.
Qed.
Lemma fmono_length d : length (fmono N d) = N.
Proof. apply tab_length. Qed.
End Mono.

Section W.
Variable w : Z.
Hypothesis Hw : 0 < w.
Notation Q := (2 ^ w).
Variable N : nat.
Hypothesis HN : (0 < N)%nat.
Variable n0 : Z.
Hypothesis Hn0 : 0 <= n0.
Hypothesis HNn : Z.of_nat N = 2 ^ n0.
Variable k : nat.
Add Ring nring : (@npoly_ring N Q) (setoid (@peq_equiv N Q) (@npoly_ring_ext N Q)).
Variable sk : list (list Z).
Notation gph := (gphase N k sk).
Notation S_ i := (pol N (nth i sk [])).
Hypothesis Hsk : forall i, (i < k)%nat -> pbound 1 (S_ i).
Variable p : gadget.
Hypothesis Hok : gadget_ok w p.
Notation l := (g_level p).
Notation eps := (gadEps w p).
Notation NZ := (Z.of_nat N).
Notation kZ := (Z.of_nat k).

Lemma rotInit_spec lut0 d ctOut : wpoly w N lut0 -> gshape N k ctOut ->
  glwe_ct w N k (rotInit w N k lut0 d ctOut) /\
  (forall i, (0 < i <= k)%nat -> nth i (rotInit w N k lut0 d ctOut) [] = repeat 0 N) /\
  peq Q (pol N (nth 0 (rotInit w N k lut0 d ctOut) [])) (pshift d (pol N lut0)).
Proof.
  intros Hl (Lo & Ho). unfold rotInit. destruct (MonomialMulPolyTo_spec N HN w n0 (nth 0 ctOut []) lut0 d Hn0 ltac:(lia) HNn (Ho O ltac:(lia)) Hl) as (A & B).
  set (body := MonomialMulPolyTo w N (nth 0 ctOut []) lut0 d) in *. clearbody body.
  set (P := fun (m : nat) (o : list (list Z)) => (m <= k)%nat -> length o = S k /\ nth 0 o [] = body /\ (forall i, (0 < i <= m)%nat -> nth i o [] = repeat 0 N) /\ (forall i, (m < i <= k)%nat -> length (nth i o []) = N)).
  match goal with |- context [forN 1 k ?b ?s] => assert (P k (forN 1 k b s)) as HP end.
  { apply (forN_ind P); unfold P; clear P.
    - intros _. rewrite upd_length. split; [exact Lo|]. split; [apply nth_upd_same; lia|]. split; [intros; lia|]. intros i Hi. rewrite nth_upd_other by lia. apply Ho. lia.
    - intros m o Hm H Hm'. destruct (H ltac:(lia)) as (H1 & H2 & H3 & H4). replace (1 + m)%nat with (S m) by lia.
      split; [now rewrite upd_length|]. split; [rewrite nth_upd_other by lia; exact H2|]. split.
      + intros i Hi. rewrite nth_upd_if by lia. destruct (Nat.eqb_spec i (S m)) as [->|]; [f_equal; apply H4; lia|apply H3; lia].
      + intros i Hi. rewrite nth_upd_other by lia. apply H4. lia. }
  destruct (HP ltac:(lia)) as (H1 & H2 & H3 & _). match goal with |- context [forN 1 k ?b ?s] => set (r := forN 1 k b s) in * end. clearbody r.
  split; [|split].
  - split; [exact H1|]. intros i Hi. destruct i as [|i]; [rewrite H2; exact A|]. rewrite H3 by lia. split; [apply repeat_length|].
    apply Forall_forall. intros x Hx. apply repeat_spec in Hx. subst. pose proof (pow2_pos w ltac:(lia)). unfold uword. lia.
  - exact H3.
  - rewrite H2, B. now rewrite <- pshift_mono.
Qed.
Lemma gph_trivial ct : (forall i, (0 < i <= k)%nat -> nth i ct [] = repeat 0 N) -> peq Q (gph ct) (pol N (nth 0 ct [])).
Proof.
  intros H. unfold gphase. rewrite (psum_proper Q k _ (fun _ => pzero)).
  2:{ intros i Hi. rewrite (H (S i)) by lia. rewrite (peq_0_any Q _ _ (pol_zero N HN)). ring. }
  intros t. cbn. rewrite cf_psum. cbn [cf pzero]. rewrite zsum_zero. apply eqm_eq. lia.
Qed.

(** Sum of products with X^d - 1. *)
Lemma accLoop (prod : nat -> list (list Z)) (d : nat -> Z) lo m : (forall j, (j <= m)%nat -> gshape N k (prod (lo + j)%nat)) ->
  let r := forN (S lo) m (fun j acc => fgMulAdd N k acc (prod j) (fmonoSubOne N (d j))) (fgMul N k (prod lo) (fmonoSubOne N (d lo))) in
  gshape N k r /\ peq Q (gph r) (psum (S m) (fun j => psub (pshift (d (lo + j)%nat) (gph (prod (lo + j)%nat))) (gph (prod (lo + j)%nat)))).
Proof.
  intros Hp. cbv zeta.
  assert (forall j ct, peq Q (pmul (pol N (fmonoSubOne N (d j))) (gph ct)) (psub (pshift (d j) (gph ct)) (gph ct))) as Hm.
  { intros j ct. rewrite (peq_0_any Q _ _ (pol_fmonoSubOne N HN (d j))), pshift_mono. ring. }
  set (P := fun (c : nat) (r : list (list Z)) => (c <= m)%nat -> gshape N k r /\ peq Q (gph r) (psum (S c) (fun j => psub (pshift (d (lo + j)%nat) (gph (prod (lo + j)%nat))) (gph (prod (lo + j)%nat))))).
  match goal with |- gshape N k ?r /\ _ => assert (P m r) as HP; [|exact (HP ltac:(lia))] end.
  apply (forN_ind P); unfold P; clear P.
  - intros _. split; [now apply gshape_fgMul|].
 rewrite (gphase_fgMul w N HN k sk). rewrite Hm. cbn [psum]. rewrite Nat.add_0_r. ring.
  - intros c r Hc H Hc'. destruct (H ltac:(lia)) as (A & B). split; [now apply gshape_fgMulAdd|]. rewrite (gphase_fgMulAdd w N HN k sk) by exact A. rewrite B, Hm. 
    replace (S lo + c)%nat with (lo + S c)%nat by lia. cbn [psum]. ring.
Qed.

Notation bR := (eps * (1 + kZ * NZ)).
Notation bE Ek := (rowNoise N p (kZ + 1) Ek).
Lemma eps_nonneg : 0 <= eps.
Proof. unfold gadEps. apply Z.div_pos; [apply Z.pow_nonneg|]; lia. Qed.

(** The product with a later block's key. *)
Lemma ext_step s brk e Ek ct : brk_enc w N k p sk s brk e -> glwe_ct w N k ct -> (forall j a b, (j < length s)%nat -> (a <= k)%nat -> (b < l)%nat -> pbound Ek (e j a b)) ->
  exists rho eta, pbound bR rho /\ (forall j, (j < length s)%nat -> pbound (bE Ek) (eta j) /\
    gshape N k (ExternalProdFFTGLWETo N k p (nth j brk []) (fdAll w k p ct)) /\
    peq Q (gph (ExternalProdFFTGLWETo N k p (nth j brk []) (fdAll w k p ct))) (padd (pscale (nthZ s j) (psub (gph ct) rho)) (eta j))).
Proof.
  intros (Lb & Hb) Hc He. pose proof (decAll_dD w N HN k p Hok ct Hc) as Hd.
  exists (rsum N k sk (dR w N p ct)), (fun j => psum (S k) (fun i => dsum N p (dD w N p ct i) (e j i))). split.
  - apply (rsum_bound w N HN k sk p ct (dD w N p ct)); assumption.
  - intros j Hj. split; [apply (noise_bound w N HN k p ct _ (dR w N p ct)); [exact Hd|]; intros; now apply He|].
    destruct (ExternalProdFFT_spec w Hw N HN k sk p Hok (nth j brk []) (pconst (nthZ s j)) (e j) ct (dD w N p ct) (dR w N p ct) (fdAll w k p ct)) as (A & B).
    + now apply Hb.
    + intros i Hi. now apply (d_ok w N HN k p Hok).
    + split; [exact A|]. rewrite B. unfold epVal. fold (rsum N k sk (dR w N p ct)). rewrite pscale_mul. reflexivity.
Qed.
(** The product with the first block's key: only row 0, on a trivial ciphertext. *)
Lemma gad_step s brk e Ek c : brk_enc w N k p sk s brk e -> wpoly w N c -> 0 <= Ek -> (forall j a b, (j < length s)%nat -> (a <= k)%nat -> (b < l)%nat -> pbound Ek (e j a b)) ->
  exists rho eta, pbound bR rho /\ (forall j, (j < length s)%nat -> pbound (bE Ek) (eta j) /\
    gshape N k (GadgetProdFFTGLWETo N k p (nth 0 (nth j brk []) []) (fdigits w p c)) /\
    peq Q (gph (GadgetProdFFTGLWETo N k p (nth 0 (nth j brk []) []) (fdigits w p c))) (padd (pscale (nthZ s j) (psub (pol N c) rho)) (eta j))).
Proof.
  intros (Lb & Hb) Hc HEk He. pose proof (pdcmp_spec w N HN p Hok c Hc) as Hd. pose proof eps_nonneg as He0.
  exists (gerrp w p N c), (fun j => dsum N p (dpol w p N c) (e j O)). split.
  - apply (pbound_le eps); [nia|]. apply Hd.
  - intros j Hj. split.
    + apply (pbound_le (Z.of_nat l * (Z.of_nat N * (2 ^ (g_logBase p - 1) * Ek)))).
      * unfold rowNoise. assert (0 <= 2 ^ (g_logBase p - 1)) by (apply Z.pow_nonneg; lia). set (X := Z.of_nat l * (NZ * (2 ^ (g_logBase p - 1) * Ek))). assert (0 <= X) by (unfold X; nia). nia.
      * apply (pbound_dsum w N p _ _ Ek c (gerrp w p N c)); [exact Hd|]. intros b Hb'. apply He; lia.
    + destruct (Hb j Hj) as (_ & H0 & _).
      destruct (GadgetProdFFT_spec w Hw N HN k sk p Hok _ _ _ _ c _ (fdigits w p c) H0 Hd) as (A & B); [apply isd_fdigits; try assumption; apply Hc|].
      split; [exact A|]. rewrite B, pscale_mul. reflexivity.
Qed.

Definition psumTo (ms : Z -> Z) (s ct : list Z) (m : nat) : Z := ms (nthZ ct 0) + zsum m (fun i => ms (nthZ ct (S i)) * nthZ s i).

(** ** Block blind rotation *)
Section BR.
Variables (ms : Z -> Z) (s : list Z) (brk : list (list (list (list (list Z))))) (e : nat -> nat -> nat -> npoly N) (Ek : Z).
Hypothesis Hbrk : brk_enc w N k p sk s brk e.
Hypothesis HEk : 0 <= Ek.
Hypothesis He : forall j a b, (j < length s)%nat -> (a <= k)%nat -> (b < l)%nat -> pbound Ek (e j a b).
Variables (bs bc : nat).
Hypothesis Hbs : (0 < bs)%nat.
Hypothesis Hbc : (0 < bc)%nat.
Hypothesis Hlen : length s = (bc * bs)%nat.
Hypothesis Hblk : block_binary bs s.
Variables (ctOut : list (list Z)) (ct lut0 : list Z).
Hypothesis HctOut : gshape N k ctOut.
Hypothesis Hlut : wpoly w N lut0.

Definition blockBound (i : nat) : Z := Z.of_nat i * (2 * bR) + Z.of_nat (i * bs) * (2 * bE Ek).
Definition blockInv (i : nat) (out : list (list Z)) : Prop :=
  glwe_ct w N k out /\ pdist_le Q (gph out) (pshift (- psumTo ms s ct (i * bs)) (pol N lut0)) (blockBound i).

Lemma blockBound_S i : blockBound (S i) = blockBound i + (2 * bR + Z.of_nat bs * (2 * bE Ek)).
Proof. unfold blockBound. rewrite !Nat2Z.inj_mul, Nat2Z.inj_succ. ring. Qed.
Lemma psumTo_S i : psumTo ms s ct (S i * bs) = psumTo ms s ct (i * bs) + zsum bs (fun j => ms (nthZ ct (S (i * bs + j))) * nthZ s (i * bs + j)).
Proof. unfold psumTo. replace (S i * bs)%nat with (i * bs + bs)%nat by lia. rewrite zsum_app. lia. Qed.

(** A block step from products satisfying T_j = s_j (P - rho) + eta_j. *)
Lemma block_step i out (prod : nat -> list (list Z)) rho eta : (i < bc)%nat -> glwe_ct w N k out ->
  pdist_le Q (gph out) (pshift (- psumTo ms s ct (i * bs)) (pol N lut0)) (blockBound i) -> pbound bR rho ->
  (forall j, (j < length s)%nat -> pbound (bE Ek) (eta j) /\ gshape N k (prod j) /\ peq Q (gph (prod j)) (padd (pscale (nthZ s j) (psub (gph out) rho)) (eta j))) ->
  blockInv (S i) (gInvAdd w k out (forN (i * bs + 1) (bs - 1) (fun j acc => fgMulAdd N k acc (prod j) (fmonoSubOne N (- ms (nthZ ct (S j)))))
     (fgMul N k (prod (i * bs)%nat) (fmonoSubOne N (- ms (nthZ ct (S (i * bs)))))))).
Proof.
  intros Hi Ho Hd Hr Hp. replace (i * bs + 1)%nat with (S (i * bs)) by lia.
  assert (forall j, (j <= bs - 1)%nat -> (i * bs + j < length s)%nat) as Hidx by (intros j Hj; rewrite Hlen; nia).
  destruct (accLoop prod (fun j => - ms (nthZ ct (S j))) (i * bs) (bs - 1)) as (A & B).
  { intros j Hj. apply Hp. now apply Hidx. }
  replace (S (bs - 1)) with bs in B by lia.
  match goal with |- blockInv _ (gInvAdd w k out ?x) => set (acc := x) in * end. clearbody acc.
  destruct (gInvAdd_spec w Hw N HN k sk out acc (glwe_shape w N k out Ho) A) as (X & Y). split; [exact X|].
  rewrite blockBound_S, psumTo_S.
  set (sg := zsum bs (fun j => ms (nthZ ct (S (i * bs + j))) * nthZ s (i * bs + j))).
  apply (pdist_le_peq Q (gph (gInvAdd w k out acc)) _ (pshift (- sg) (pshift (- psumTo ms s ct (i * bs)) (pol N lut0))) _ _ (peq_refl Q _)).
  { rewrite pshift_add. replace (- sg + - psumTo ms s ct (i * bs)) with (- (psumTo ms s ct (i * bs) + sg)) by lia. reflexivity. }
  rewrite Z.add_comm. apply (pdist_trans Q _ (pshift (- sg) (gph out))); [|now apply pdist_shift].
  assert (- sg = zsum bs (fun j => - ms (nthZ ct (S (i * bs + j))) * nthZ s (i * bs + j))) as ->.
  { unfold sg. rewrite <- zsum_opp. apply zsum_ext. intros; lia. }
  eapply pdist_le_peq; [| |apply (block_core Q bs (fun j => nthZ s (i * bs + j)) (fun j => - ms (nthZ ct (S (i * bs + j)))) (gph out) rho (fun j => eta (i * bs + j)%nat) (fun j => gph (prod (i * bs + j)%nat)))].
  - rewrite Y, B. reflexivity.
  - reflexivity.
  - apply onehot_block; try assumption. rewrite Hlen. nia.
  - exact Hr.
  - intros j Hj. apply Hp. apply Hidx. lia.
  - intros j Hj. apply Hp. apply Hidx. lia.
Qed.

Lemma blockBound_0 : blockBound 0 = 0.
Proof. reflexivity. Qed.

Lemma first_block : let out := rotInit w N k lut0 (- ms (nthZ ct 0)) ctOut in let fd0 := fdigits w p (nth 0 out []) in
  let prod := fun j => GadgetProdFFTGLWETo N k p (nth 0 (nth j brk []) []) fd0 in
  blockInv 1 (gInvAdd w k out (forN 1 (bs - 1) (fun j acc => fgMulAdd N k acc (prod j) (fmonoSubOne N (- ms (nthZ ct (S j)))))
     (fgMul N k (prod 0%nat) (fmonoSubOne N (- ms (nthZ ct 1)))))).
Proof.
  cbv zeta. destruct (rotInit_spec lut0 (- ms (nthZ ct 0)) ctOut Hlut HctOut) as (A & B & C).
  set (out := rotInit w N k lut0 (- ms (nthZ ct 0)) ctOut) in *. clearbody out.
  destruct (gad_step s brk e Ek (nth 0 out []) Hbrk (proj2 A O ltac:(lia)) HEk He) as (rho & eta & Hr & Hp).
  apply (block_step 0 out (fun j => GadgetProdFFTGLWETo N k p (nth 0 (nth j brk []) []) (fdigits w p (nth 0 out []))) rho eta); try assumption.
  - rewrite blockBound_0. unfold psumTo. cbn [Nat.mul zsum]. rewrite Z.add_0_r. eapply pdist_le_peq; [symmetry; rewrite (gph_trivial out B), C; reflexivity|reflexivity|]. apply pdist_refl. lia.
  - intros j Hj. destruct (Hp j Hj) as (P1 & P2 & P3). split; [exact P1|]. split; [exact P2|]. rewrite P3, (gph_trivial out B). reflexivity.
Qed.

Lemma later_block i out : (i < bc)%nat -> blockInv i out -> let fd := fdAll w k p out in
  let prod := fun j => ExternalProdFFTGLWETo N k p (nth j brk []) fd in
  blockInv (S i) (gInvAdd w k out (forN (i * bs + 1) (bs - 1) (fun j acc => fgMulAdd N k acc (prod j) (fmonoSubOne N (- ms (nthZ ct (S j)))))
     (fgMul N k (prod (i * bs)%nat) (fmonoSubOne N (- ms (nthZ ct (S (i * bs)))))))).
Proof.
  intros Hi (A & B). cbv zeta. destruct (ext_step s brk e Ek out Hbrk A He) as (rho & eta & Hr & Hp).
  now apply (block_step i out (fun j => ExternalProdFFTGLWETo N k p (nth j brk []) (fdAll w k p out)) rho eta).
Qed.

Lemma final_bound : blockBound bc = brNoise w N k p bc (length s) Ek.
Proof. unfold blockBound, brNoise. now rewrite Hlen. Qed.

Lemma blindRotateBlock_spec : let r := blindRotateBlockTo w N k ms p brk bs bc ctOut ct lut0 in
  glwe_ct w N k r /\ pdist_le Q (gph r) (pshift (- rotSum ms s ct) (pol N lut0)) (brNoise w N k p bc (length s) Ek).
Proof.
  cbv zeta. unfold rotSum. rewrite <- final_bound. fold (psumTo ms s ct (length s)). rewrite Hlen.
  change (blockInv bc (blindRotateBlockTo w N k ms p brk bs bc ctOut ct lut0)). unfold blindRotateBlockTo. cbv zeta.
  set (P := fun (m : nat) out => (m <= bc - 1)%nat -> blockInv (S m) out).
  match goal with |- blockInv bc ?r => assert (P (bc - 1)%nat r) as HP; [|replace bc with (S (bc - 1)) at 1 by lia; exact (HP ltac:(lia))] end.
  apply (forN_ind P); unfold P; clear P.
  - intros _. exact first_block.
  - intros m out Hm H Hm'. specialize (H ltac:(lia)). cbn [Nat.add].
    pose proof (later_block (S m) out ltac:(lia) H) as X. cbv zeta in X.
    replace (S m * bs + 1)%nat with (S (S m * bs)) in * by lia.
    match type of X with blockInv _ ?a => match goal with |- blockInv _ ?b => replace b with a; [exact X|] end end.
    f_equal. apply forN_ext. intros j acc Hj. now rewrite Nat.add_1_r.
Qed.
End BR.

Lemma binary_block1 s : binary s -> block_binary 1 s.
Proof. intros H. split; [exact H|]. intros i j Hij Hj E. rewrite !Nat.div_1_r in E. lia. Qed.

(** The original version is the block version with blocks of one bit. *)
Lemma original_eq ms brk n ctOut ct lut0 : blindRotateOriginalTo w N k ms p brk n ctOut ct lut0 = blindRotateBlockTo w N k ms p brk 1 n ctOut ct lut0.
Proof.
  unfold blindRotateOriginalTo, blindRotateBlockTo. cbv zeta. cbn [Nat.sub forN]. apply forN_ext. intros i out Hi. rewrite Nat.mul_1_r. reflexivity.
Qed.
Lemma blindRotateOriginal_spec ms s brk e Ek ctOut ct lut0 : brk_enc w N k p sk s brk e -> 0 <= Ek ->
  (forall j a b, (j < length s)%nat -> (a <= k)%nat -> (b < l)%nat -> pbound Ek (e j a b)) -> binary s -> (0 < length s)%nat -> gshape N k ctOut -> wpoly w N lut0 ->
  let r := blindRotateOriginalTo w N k ms p brk (length s) ctOut ct lut0 in
  glwe_ct w N k r /\ pdist_le Q (gph r) (pshift (- rotSum ms s ct) (pol N lut0)) (brNoise w N k p (length s) (length s) Ek).
Proof.
  intros Hb HE He Hs Hl Ho Hlut. cbv zeta. rewrite original_eq.
  apply (blindRotateBlock_spec ms s brk e Ek Hb HE He 1 (length s)); try assumption; try lia. now apply binary_block1.
Qed.
End W.
