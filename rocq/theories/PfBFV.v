From Verif Require Import Base NegaRing SpecNum ModelNum PfNum ModelVec SpecVec PfVec ModelPoly SpecPoly PfPoly PfPerm PfSplit ModelGadget SpecGadget PfGadget ModelLWE SpecLWE PfLWE PfKS PfKS2 ModelGLWE SpecGLWE PfGLWE PfGLWE2 PfGLWE3 PfGLWE4 PfBoot2 ModelBFV SpecBFV.

Lemma upd_twice {A} (l : list A) i x y : upd (upd l i x) i y = upd l i y.
Proof. revert i. induction l as [|a l IH]; intros [|i]; cbn; try reflexivity. now rewrite IH. Qed.
Lemma upd_self {A} (d : A) l i : upd l i (nth i l d) = l.
Proof. revert i. induction l as [|a l IH]; intros [|i]; cbn; try reflexivity. now rewrite IH. Qed.
(** A loop rewriting one row. *)
Lemma row_loop {A} (d : A) (F : nat -> A -> A) j m : forall lo (o : list A), (j < length o)%nat ->
  forN lo m (fun l o => upd o j (F l (nth j o d))) o = upd o j (forN lo m F (nth j o d)).
Proof.
  induction m as [|m IH]; intros lo o Hj; cbn [forN]; [now rewrite upd_self|].
  rewrite IH by now rewrite upd_length. now rewrite nth_upd_same, upd_twice.
Qed.
(** A loop over all rows. *)
Lemma rows_loop {A} (d : A) (F : nat -> A -> A) lo m (o : list A) : (lo + m <= length o)%nat ->
  let r := forN lo m (fun i o => upd o i (F i (nth i o d))) o in
  length r = length o /\ forall i, nth i r d = if (lo <=? i)%nat && (i <? lo + m)%nat then F i (nth i o d) else nth i o d.
Proof.
  intros H r. unfold r. pose (J := fun q (s : list A) => (q <= m)%nat -> length s = length o /\
    forall i, nth i s d = if (lo <=? i)%nat && (i <? lo + q)%nat then F i (nth i o d) else nth i o d).
  match goal with |- length ?g = _ /\ _ => enough (J m g) as X by (apply X; lia) end.
  apply (forN_ind J); unfold J.
  - intros _. split; [reflexivity|]. intros i. destruct (Nat.leb_spec lo i), (Nat.ltb_spec i (lo + 0)); cbn [andb]; try reflexivity; lia.
  - intros q s Hq IH _. destruct (IH ltac:(lia)) as (L & V). split; [now rewrite upd_length|]. intros i.
    destruct (Nat.eq_dec i (lo + q)) as [->|Hne].
    + rewrite nth_upd_same by lia. rewrite V.
      destruct (Nat.leb_spec lo (lo + q)), (Nat.ltb_spec (lo + q) (lo + q)), (Nat.ltb_spec (lo + q) (lo + S q)); cbn [andb]; try reflexivity; lia.
    + rewrite nth_upd_other by lia. rewrite V.
      destruct (Nat.leb_spec lo i), (Nat.ltb_spec i (lo + q)), (Nat.ltb_spec i (lo + S q)); cbn [andb]; try reflexivity; lia.
Qed.

Lemma choice_list (P : nat -> Z -> Prop) m : (forall t, (t < m)%nat -> exists e, P t e) -> exists l, length l = m /\ forall t, (t < m)%nat -> P t (nthZ l t).
Proof.
  induction m as [|m IH]; intros H; [exists []; split; [reflexivity|intros; lia]|].
  destruct IH as (l & L & Hl); [intros t Ht; apply H; lia|]. destruct (H m ltac:(lia)) as (e & He). exists (l ++ [e]). split; [rewrite app_length; cbn; lia|].
  intros t Ht. destruct (Nat.eq_dec t m) as [->|Hne].
  - unfold nthZ. rewrite app_nth2, L, Nat.sub_diag by lia. exact He.
  - rewrite nthZ_app_l by lia. apply Hl. lia.
Qed.
Lemma pdist_of_cf N Q (x y : npoly N) b : (0 < N)%nat -> (forall t, (t < N)%nat -> exists e, eqm Q (cf x (Z.of_nat t)) (cf y (Z.of_nat t) + e) /\ Z.abs e <= b) -> pdist_le Q x y b.
Proof.
  intros HN H. destruct (choice_list _ N H) as (l & L & Hl). exists (pol N l). split.
  - apply peq_coeffs; [exact HN|]. intros t Ht. rewrite (cf_pol_at N HN) by exact Ht. cbn [cf psub]. rewrite (proj1 (Hl t Ht)). apply eqm_eq. ring.
  - apply pbound_coeffs; [exact HN|]. intros t Ht. rewrite (cf_pol_at N HN) by exact Ht. now apply Hl.
Qed.

Section P.
Variables (w : Z) (N k : nat) (n : Z).
Hypothesis Hw : 0 < w.
Hypothesis Hn : 0 <= n <= 62.
Hypothesis HNn : Z.of_nat N = 2 ^ n.
Notation Q := (2 ^ w).
Add Ring nringP : (@npoly_ring N Q) (setoid (@peq_equiv N Q) (@npoly_ring_ext N Q)).
Variable sk : list (list Z).
Notation gph := (gphase N k sk).
Notation S_ i := (pol N (nth i sk [])).
Variable p : gadget.
Hypothesis Hok : gadget_ok w p.
Notation l := (g_level p).
Notation eps := (2 ^ (w - Z.of_nat l * g_logBase p) / 2).
Notation NZ := (Z.of_nat N).
Notation kZ := (Z.of_nat k).

Lemma NP : (0 < N)%nat.
Proof. pose proof (Z.pow_pos_nonneg 2 n ltac:(lia) ltac:(lia)). lia. Qed.
Hint Resolve NP : core.

Lemma pbound_subst d b (q : npoly N) : Z.odd d = true -> pbound b q -> pbound b (psubst d q).
Proof.
  intros Hd Hb x. destruct (odd_inverse d n ltac:(lia) Hd) as (h & Hh). rewrite <- HNn in Hh.
  pose proof (eqm0_eq _ _ (psubst_dilate 0 d h q NP Hh x)) as E. cbn [cf dilate] in E. rewrite E. apply Hb.
Qed.

Lemma switch_bound skIn (T : nat -> npoly N) b out ct ksk e E : (1 <= length skIn)%nat -> gshape N k out -> glwe_ct w N (length skIn) ct -> gksk_enc w N k p sk skIn ksk e ->
  (forall i, (i < length skIn)%nat -> peq Q (pol N (nth i skIn [])) (T i) /\ pbound b (T i)) -> (forall i j, (i < length skIn)%nat -> (j < l)%nat -> pbound E (e i j)) ->
  glwe_ct w N k (KeySwitchGLWETo w N k p out ct ksk) /\
  pdist_le Q (gph (KeySwitchGLWETo w N k p out ct ksk)) (gphase N (length skIn) skIn ct) (switchNoise w N (length skIn) p b E).
Proof.
  intros H1 Ho Hc Hk Hs HE. destruct (KeySwitch_exact w Hw N NP k sk p Hok skIn out ct ksk e H1 Ho Hc Hk) as (A & D & r & Hd & B).
  split; [exact A|].
  exists (padd (popp (psum (length skIn) (fun i => pmul (T i) (r i)))) (psum (length skIn) (fun i => dsum N p (D i) (e i)))). split.
  - rewrite B. unfold dsum. rewrite (psum_proper Q (length skIn) (fun i => pmul (pol N (nth i skIn [])) (r i)) (fun i => pmul (T i) (r i))).
    2:{ intros i Hi. now rewrite (proj1 (Hs i Hi)). } ring.
  - apply pbound_add.
    + apply pbound_opp. apply pbound_psum. intros i Hi. apply pbound_mul; [now apply Hs|now apply Hd].
    + unfold SpecGLWE.rowNoise. apply pbound_psum. intros i Hi. apply (pbound_dsum w N p _ _ E (nth (S i) ct []) (r i)); [now apply Hd|]. intros j Hj. now apply HE.
Qed.

(** ** Permutation *)
Lemma permute_spec d gal buf out ct ksk E : Z.odd d = true -> (1 <= k)%nat -> gal d = Some ksk -> galois_key w N k p sk d ksk E ->
  (forall i, (i < k)%nat -> pbound 1 (S_ i)) -> glwe_ct w N k (bb_permute buf) -> gshape N k out -> glwe_ct w N k ct ->
  exists o b', BFVPermuteTo w N k p gal buf out ct d = Some (o, mkBFVBuf (bb_tensor buf) (bb_fftTensor buf) b' (bb_pack buf)) /\ glwe_ct w N k b' /\
    glwe_ct w N k o /\ pdist_le Q (gph o) (psubst d (gph ct)) (switchNoise w N k p 1 E).
Proof.
  intros Hd Hk Eg (sk' & e & L' & HP & He & HE) Hs Hb Ho Hc. unfold BFVPermuteTo.
  destruct (PermuteGLWETo_spec w N k n d Hw Hn HNn Hd sk sk' (fun y => if Nat.eqb y 0 then bb_permute buf else ct) 0%nat 1%nat HP Hb Hc) as (s' & Es & G & P & _).
  cbn [Nat.eqb] in P. rewrite Es, Eg. eexists _, _. split; [reflexivity|]. split; [exact G|].
  rewrite <- L' in G at 1.
  destruct (switch_bound sk' (fun i => psubst d (S_ i)) 1 out (s' 0%nat) ksk e E) as (A & B); rewrite ?L'; try assumption.
  - rewrite L' in G. exact G.
  - intros i Hi. split; [now apply HP|]. apply pbound_subst; [exact Hd|now apply Hs].
  - split; [exact A|]. rewrite L' in B. eapply pdist_le_peq; [reflexivity|exact P|exact B].
Qed.

(** ** Packing *)
Lemma halve_nth c : gshape N k c -> length (halveGLWE w N k c) = S k /\ forall j, (j <= k)%nat -> nth j (halveGLWE w N k c) [] = map (fun x => DivRoundBits w x 1) (nth j c []).
Proof.
  intros (Lc & Hc). unfold halveGLWE.
  pose (F := fun (j : nat) (r : list Z) => forN 0 N (fun l r => upd r l (DivRoundBits w (nthZ r l) 1)) r).
  assert (forall m, (m <= S k)%nat -> forN 0 m (fun j o => forN 0 N (fun l o => upd o j (upd (nth j o []) l (DivRoundBits w (nthZ (nth j o []) l) 1))) o) c = forN 0 m (fun j o => upd o j (F j (nth j o []))) c) as E.
  { induction m as [|m IH]; intros Hm; [reflexivity|]. rewrite !forN_S_r, IH by lia. rewrite !Nat.add_0_l.
    destruct (rows_loop [] F 0 m c ltac:(lia)) as (L & _). apply (row_loop [] (fun l r => upd r l (DivRoundBits w (nthZ r l) 1)) m N 0). lia. }
  rewrite E by lia. destruct (rows_loop [] F 0 (S k) c ltac:(lia)) as (L & V). split; [lia|]. intros j Hj. rewrite V.
  replace ((0 <=? j)%nat && (j <? 0 + S k)%nat) with true by (symmetry; apply andb_true_iff; split; [apply Nat.leb_le|apply Nat.ltb_lt]; lia).
  unfold F. set (r := nth j c []). pose proof (Hc j Hj) as Lr. fold r in Lr.
  destruct (rows_loop 0 (fun l x => DivRoundBits w x 1) 0 N r ltac:(lia)) as (L1 & V1). unfold nthZ.
  apply (nth_ext _ _ 0 (DivRoundBits w 0 1)); [now rewrite map_length, L1|]. intros i Hi. rewrite L1 in Hi. rewrite (map_nth (fun x => DivRoundBits w x 1)), V1.
  replace ((0 <=? i)%nat && (i <? 0 + N)%nat) with true by (symmetry; apply andb_true_iff; split; [apply Nat.leb_le|apply Nat.ltb_lt]; lia). reflexivity.
Qed.

Lemma halve_spec c : 1 < w -> glwe_ct w N k c -> (forall i, (i < k)%nat -> pbound 1 (S_ i)) ->
  glwe_ct w N k (halveGLWE w N k c) /\
  exists r, peq 0 (padd (gph (halveGLWE w N k c)) (gph (halveGLWE w N k c))) (padd (gph c) r) /\ pbound (1 + kZ * NZ) r.
Proof.
  intros Hw1 (Lc & Hc) Hs. destruct (halve_nth c (conj Lc (fun i Hi => proj1 (Hc i Hi)))) as (L & V).
  set (h := halveGLWE w N k c) in *.
  assert (forall j i, (j <= k)%nat -> (i < N)%nat -> exists b, (b = 0 \/ b = 1) /\ 2 * nthZ (nth j h []) i = nthZ (nth j c []) i + b /\ uword w (nthZ (nth j h []) i)) as HB.
  { intros j i Hj Hi. rewrite V by exact Hj. destruct (Hc j Hj) as (Lj & Wj).
    assert (uword w (nthZ (nth j c []) i)) as Hx by (apply (nth_word N NP w); [now split|exact Hi]).
    assert (nthZ (map (fun x => DivRoundBits w x 1) (nth j c [])) i = DivRoundBits w (nthZ (nth j c []) i) 1) as ->.
    { unfold nthZ. rewrite (nth_indep _ 0 (DivRoundBits w 0 1)) by (rewrite map_length; lia). apply (map_nth (fun x => DivRoundBits w x 1)). }
    destruct (DivRoundBits_spec w (nthZ (nth j c []) i) 1 ltac:(lia) Hx) as (R & U). unfold is_round_half_up in R. change (2 ^ 1) with 2 in R.
    exists (2 * DivRoundBits w (nthZ (nth j c []) i) 1 - nthZ (nth j c []) i). split; [lia|]. split; [lia|exact U]. }
  assert (forall j, (j <= k)%nat -> length (nth j h []) = N) as Lh by (intros j Hj; rewrite V by exact Hj; rewrite map_length; now apply Hc).
  split.
  - split; [exact L|]. intros j Hj. split; [now apply Lh|]. apply Forall_nth. intros i d0 Hi. rewrite Lh in Hi by exact Hj. destruct (HB j i Hj Hi) as (_ & _ & _ & X). rewrite (nth_indep _ d0 0) by (rewrite Lh; assumption). exact X.
  - pose (rr := fun j => psub (padd (pol N (nth j h [])) (pol N (nth j h []))) (pol N (nth j c []))).
    assert (forall j, (j <= k)%nat -> pbound 1 (rr j)) as Hr.
    { intros j Hj. apply pbound_coeffs; [exact NP|]. intros i Hi. unfold rr. cbn [cf padd psub]. rewrite !(cf_pol_at N NP) by lia.
      destruct (HB j i Hj Hi) as (b & Hb & E & _). lia. }
    exists (padd (rr O) (psum k (fun i => pmul (rr (S i)) (S_ i)))). split.
    + intros x. apply eqm_eq. unfold gphase. cbn [cf padd]. rewrite !cf_psum. unfold rr at 1. cbn [cf padd psub].
      rewrite (zsum_ext k (fun i => cf (pmul (rr (S i)) (S_ i)) x) (fun i => cf (pmul (pol N (nth (S i) h [])) (S_ i)) x + cf (pmul (pol N (nth (S i) h [])) (S_ i)) x - cf (pmul (pol N (nth (S i) c [])) (S_ i)) x)).
      2:{ intros i Hi. cbn [cf pmul]. rewrite <- zsum_add, <- zsum_sub. apply zsum_ext. intros q Hq. unfold rr. cbn [cf padd psub]. ring. }
      rewrite zsum_sub, zsum_add. ring.
    + apply pbound_add; [apply Hr; lia|]. apply pbound_psum. intros i Hi. replace NZ with (NZ * (1 * 1)) by ring. apply pbound_mul; [apply Hr; lia|now apply Hs].
Qed.
End P.

Section Pack.
Variables (w : Z) (N k : nat) (n : Z).
Hypothesis Hw : 1 < w.
Hypothesis Hn : 0 <= n <= 61.
Hypothesis HNn : Z.of_nat N = 2 ^ n.
Notation Q := (2 ^ w).
Add Ring nringQ : (@npoly_ring N Q) (setoid (@peq_equiv N Q) (@npoly_ring_ext N Q)).
Variable sk : list (list Z).
Notation gph := (gphase N k sk).
Notation S_ i := (pol N (nth i sk [])).
Variable p : gadget.
Hypothesis Hok : gadget_ok w p.
Notation l := (g_level p).
Notation NZ := (Z.of_nat N).
Notation kZ := (Z.of_nat k).
Lemma NPP : (0 < N)%nat.
Proof. apply (NP N n); [lia|exact HNn]. Qed.

Lemma cf_subst d (q : npoly N) j : Z.odd d = true -> cf (psubst d q) (d * j) = cf q j.
Proof.
  intros Hd. destruct (odd_inverse d n ltac:(lia) Hd) as (h & Hh). rewrite <- HNn in Hh.
  rewrite (eqm0_eq _ _ (psubst_dilate 0 d h q NPP Hh (d * j))). cbn [cf dilate]. apply cf_eqm2N.
  destruct Hh as (c & E). exists (c * j). transitivity ((d * (2 * h + 1) - 1) * j); [ring|]. rewrite E. ring.
Qed.

Lemma cf_const_off m x : x mod NZ <> 0 -> cf (@pconst N m) x = 0.
Proof.
  intros Hx. cbn [cf pconst pscale pone]. unfold one_cf.
  assert (forall v, x mod (2 * NZ) = v -> v mod NZ = x mod NZ) as Hm.
  { intros v <-. pose proof (Z_div_mod_eq_full x (2 * NZ)) as E. set (c := x / (2 * NZ)) in *. set (r := x mod (2 * NZ)) in *. clearbody c r.
    rewrite E. replace (2 * NZ * c + r) with (r + (2 * c) * NZ) by ring. now rewrite Z_mod_plus_full. }
  destruct (Z.eqb_spec NZ 0); [ring|]. destruct (Z.eqb_spec (x mod (2 * NZ)) 0) as [E|_].
  - apply Hm in E. rewrite Zmod_0_l in E. congruence.
  - destruct (Z.eqb_spec (x mod (2 * NZ)) NZ) as [E|_]; [|ring]. apply Hm in E. rewrite Z_mod_same_full in E. congruence.
Qed.

(** One step of the trace, at the multiples of half the previous stride. *)
Lemma step_cf (h : npoly N) (i : nat) u : (Z.of_nat i < n) ->
  cf (psubst (2 ^ (Z.of_nat i + 1) + 1) h) (2 ^ (n - Z.of_nat i - 1) * u) = if Z.even u then cf h (2 ^ (n - Z.of_nat i - 1) * u) else - cf h (2 ^ (n - Z.of_nat i - 1) * u).
Proof.
  intros Hi. set (d := 2 ^ (Z.of_nat i + 1) + 1). set (x := 2 ^ (n - Z.of_nat i - 1) * u).
  assert (Z.odd d = true) as Hd.
  { unfold d. rewrite Z.odd_add, Z.odd_pow by lia. reflexivity. }
  assert (d * x = x + u * NZ) as E.
  { unfold d, x. rewrite HNn. assert (2 ^ n = 2 ^ (Z.of_nat i + 1) * 2 ^ (n - Z.of_nat i - 1)) as -> by (rewrite <- Z.pow_add_r by lia; f_equal; lia). ring. }
  pose proof (cf_subst d h x Hd) as C. rewrite E in C. rewrite <- C.
  destruct (Z.even u) eqn:Eu.
  - apply Z.even_spec in Eu. destruct Eu as (v & ->). now rewrite cf_anti_mul.
  - assert (Z.odd u = true) as Ou by (rewrite <- Z.negb_even, Eu; reflexivity). apply Z.odd_spec in Ou. destruct Ou as (v & ->). rewrite cf_anti_odd. ring.
Qed.

(** The phase after i steps: m at 0, small at the other multiples of the stride. *)
Definition packed (m : Z) (B : Z) (i : nat) (o : list (list Z)) : Prop :=
  glwe_ct w N k o /\ forall u, exists e, eqm Q (cf (gph o) (2 ^ (n - Z.of_nat i) * u)) (cf (@pconst N m) (2 ^ (n - Z.of_nat i) * u) + e) /\ Z.abs e <= B.

Lemma packStep_spec gal m B i o buf E : (Z.of_nat i < n) -> (1 <= k)%nat ->
  (exists ksk, gal (2 ^ (Z.of_nat i + 1) + 1) = Some ksk /\ galois_key w N k p sk (2 ^ (Z.of_nat i + 1) + 1) ksk E) ->
  (forall i, (i < k)%nat -> pbound 1 (S_ i)) -> glwe_ct w N k (bb_permute buf) -> gshape N k (bb_pack buf) -> packed m B i o ->
  exists o' buf', packStep w N k p gal i (Some (o, buf)) = Some (o', buf') /\ glwe_ct w N k (bb_permute buf') /\ gshape N k (bb_pack buf') /\
    packed m (B + packNoise w N k p E) (S i) o'.
Proof.
  intros Hi Hk (ksk & Eg & Gk) Hs Hbp Hbk (Ho & HP). cbn [packStep]. set (d := 2 ^ (Z.of_nat i + 1) + 1) in *.
  assert (Z.odd d = true) as Hd by (unfold d; rewrite Z.odd_add, Z.odd_pow by lia; reflexivity).
  destruct (halve_spec w N k n ltac:(lia) HNn sk o Hw Ho Hs) as (Wh & r & Hr & Br).
  set (h := halveGLWE w N k o) in *.
  destruct (permute_spec w N k n ltac:(lia) ltac:(lia) HNn sk p Hok d gal buf (bb_pack buf) h ksk E Hd Hk Eg Gk Hs Hbp Hbk Wh) as (pk & b' & -> & Wb & Wp & Dp).
  destruct (AddGLWETo_spec w ltac:(lia) N NPP k sk (fun y => if Nat.eqb y 0 then h else pk) 0%nat 0%nat 1%nat) as (s' & -> & Ws & Ps & _); cbn [Nat.eqb]; try assumption.
  cbn [Nat.eqb] in Ps. cbn [option_map]. eexists _, _. split; [reflexivity|]. cbn [bb_permute bb_pack].
  split; [exact Wb|]. split; [now apply (glwe_shape w)|]. split; [exact Ws|].
  intros u. replace (n - Z.of_nat (S i)) with (n - Z.of_nat i - 1) by lia. set (x := 2 ^ (n - Z.of_nat i - 1) * u).
  destruct (pdist_cf Q _ _ _ x Dp) as (e1 & E1 & B1). specialize (Ps x). cbn [cf padd] in Ps.
  specialize (Hr x). apply eqm0_eq in Hr. cbn [cf padd] in Hr. specialize (Br x).
  pose proof (step_cf (gph h) i u Hi) as C. fold d x in C.
  assert (0 <= B) as HB. { destruct (HP 0) as (e & _ & Be). lia. }
  destruct (Z.even u) eqn:Eu.
  - pose proof Eu as Ev. apply Z.even_spec in Ev. destruct Ev as (v & Ev).
    assert (x = 2 ^ (n - Z.of_nat i) * v) as Ex.
    { unfold x. rewrite Ev. assert (2 ^ (n - Z.of_nat i) = 2 * 2 ^ (n - Z.of_nat i - 1)) as -> by (rewrite <- Z.pow_succ_r by lia; f_equal; lia). ring. }
    destruct (HP v) as (e & Ee & Be). rewrite <- Ex in Ee. exists (e + cf r x + e1). split.
    + rewrite Ps, E1, C. replace (cf (gph h) x + (cf (gph h) x + e1)) with ((cf (gph o) x + cf r x) + e1) by lia. rewrite Ee. apply eqm_eq. ring.
    + unfold packNoise. lia.
  - exists e1. split.
    + rewrite Ps, E1, C. rewrite cf_const_off; [apply eqm_eq; ring|]. unfold x. intros Hz.
      apply Z.mod_divide in Hz; [|lia]. destruct Hz as (c & Ec). rewrite HNn in Ec.
      assert (2 ^ n = 2 ^ (Z.of_nat i + 1) * 2 ^ (n - Z.of_nat i - 1)) as En by (rewrite <- Z.pow_add_r by lia; f_equal; lia). rewrite En in Ec.
      assert (u = 2 * (c * 2 ^ Z.of_nat i)) as Eu2.
      { apply (Z.mul_reg_l _ _ (2 ^ (n - Z.of_nat i - 1))); [pose proof (Z.pow_pos_nonneg 2 (n - Z.of_nat i - 1) ltac:(lia) ltac:(lia)); lia|].
        rewrite Ec. rewrite (Z.pow_add_r 2 (Z.of_nat i) 1) by lia. ring. }
      rewrite Eu2, Z.even_mul in Eu. discriminate.
    + unfold packNoise. assert (0 <= kZ * NZ) by lia. lia.
Qed.

Lemma packRow (val : nat -> Z) v r0 : length r0 = N ->
  let r := forN 1 (N - 1) (fun j r => upd r (N - j) (val j)) (upd r0 0 v) in
  length r = N /\ nthZ r 0 = v /\ forall j, (1 <= j < N)%nat -> nthZ r (N - j) = val j.
Proof.
  intros L r. unfold r. pose proof NPP as Hp.
  pose (J := fun q (s : list Z) => (q <= N - 1)%nat -> length s = N /\ nthZ s 0 = v /\ forall j, (1 <= j < 1 + q)%nat -> nthZ s (N - j) = val j).
  match goal with |- length ?g = _ /\ _ => enough (J (N - 1)%nat g) as X end.
  { destruct (X ltac:(lia)) as (X1 & X2 & X3). split; [exact X1|]. split; [exact X2|]. intros j Hj. apply X3. lia. }
  apply (forN_ind J); unfold J.
  - intros _. split; [now rewrite upd_length|]. split; [rewrite nthZ_upd by lia; reflexivity|]. intros; lia.
  - intros q s Hq IH _. destruct (IH ltac:(lia)) as (A & B & C). split; [now rewrite upd_length|]. split.
    + rewrite nthZ_upd by lia. destruct (Nat.eqb_spec 0 (N - (1 + q))); [lia|exact B].
    + intros j Hj. rewrite nthZ_upd by lia. destruct (Nat.eqb_spec (N - j) (N - (1 + q))); [f_equal; lia|apply C; lia].
Qed.

Lemma packInit_nth out ct : gshape N k out ->
  gshape N k (packInit w N k out ct) /\ (forall i, (i < N)%nat -> nthZ (nth 0 (packInit w N k out ct) []) i = if Nat.eqb i 0 then nthZ ct 0 else 0) /\
  forall i, (i < k)%nat -> nthZ (nth (S i) (packInit w N k out ct) []) 0 = nthZ ct (1 + i * N) /\
    forall j, (1 <= j < N)%nat -> nthZ (nth (S i) (packInit w N k out ct) []) (N - j) = wrap w (- nthZ ct (1 + i * N + j)).
Proof.
  intros (Lo & Ho). unfold packInit. pose proof NPP as Hp.
  set (o0 := upd out 0 _).
  set (R := fun i r => forN 1 (N - 1) (fun j r => upd r (N - j) (wrap w (- nthZ ct (1 + i * N + j)))) (upd r 0 (nthZ ct (1 + i * N)))).
  pose (J := fun q (o : list (list Z)) => (q <= k)%nat -> gshape N k o /\ nth 0 o [] = nth 0 o0 [] /\
    forall i, (i < q)%nat -> exists r, length r = N /\ nth (S i) o [] = R i r).
  assert (forall q o, (q < k)%nat -> gshape N k o -> forN 1 (N - 1) (fun j o => upd o (S q) (upd (nth (S q) o []) (N - j) (wrap w (- nthZ ct (1 + q * N + j))))) (upd o (S q) (upd (nth (S q) o []) 0 (nthZ ct (1 + q * N)))) = upd o (S q) (R q (nth (S q) o []))) as Row.
  { intros q o Hq (L & H). rewrite (row_loop [] (fun j r => upd r (N - j) (wrap w (- nthZ ct (1 + q * N + j)))) (S q) (N - 1) 1) by (rewrite upd_length; lia).
    rewrite nth_upd_same by lia. now rewrite upd_twice. }
  assert (J k (forN 0 k (fun i o => let o := upd o (S i) (upd (nth (S i) o []) 0 (nthZ ct (1 + i * N))) in
    forN 1 (N - 1) (fun j o => upd o (S i) (upd (nth (S i) o []) (N - j) (wrap w (- nthZ ct (1 + i * N + j))))) o) o0)) as X.
  { apply (forN_ind J); unfold J.
    - intros _. split; [|split; [reflexivity|intros; lia]]. unfold o0. split; [now rewrite upd_length|]. intros i Hi.
      destruct i as [|i]; [rewrite nth_upd_same by lia; rewrite upd_length, repeat_length; apply Ho; lia|rewrite nth_upd_other by lia; apply Ho; lia].
    - intros q o Hq IH _. destruct (IH ltac:(lia)) as (Gs & A & B). cbv zeta. rewrite !Nat.add_0_l. rewrite (Row q o Hq Gs). destruct Gs as (L & H).
      split; [|split].
      + split; [now rewrite upd_length|]. intros i Hi. destruct (Nat.eq_dec i (S q)) as [->|Hne]; [|rewrite nth_upd_other by lia; now apply H].
        rewrite nth_upd_same by lia. apply (packRow (fun j => wrap w (- nthZ ct (1 + q * N + j)))). apply H. lia.
      + rewrite nth_upd_other by lia. exact A.
      + intros i Hi. destruct (Nat.eq_dec i q) as [->|Hne].
        * exists (nth (S q) o []). split; [apply H; lia|]. now rewrite nth_upd_same by lia.
        * destruct (B i ltac:(lia)) as (r & Lr & Er). exists r. split; [exact Lr|]. now rewrite nth_upd_other by lia. }
  cbv zeta in X |- *. set (f := forN 0 k _ o0) in *. clearbody f. destruct (X ltac:(lia)) as (Gs & A & B). split; [exact Gs|]. split.
  - intros i Hi. rewrite A. unfold o0. rewrite nth_upd_same by lia. rewrite nthZ_upd by (rewrite repeat_length, Ho; lia).
    destruct (Nat.eqb_spec i 0) as [->|Hne]; [reflexivity|]. destruct (Nat.eqb_spec 0 i); [lia|]. apply nthZ_repeat0 || (unfold nthZ; apply nth_repeat).
  - intros i Hi. destruct (B i Hi) as (r & Lr & Er). rewrite Er. destruct (packRow (fun j => wrap w (- nthZ ct (1 + i * N + j))) (nthZ ct (1 + i * N)) r Lr) as (_ & P1 & P2). split; assumption.
Qed.

Lemma packInit_spec s out ct : length sk = k -> flat N sk s -> gshape N k out -> lwe_ct w (k * N) ct ->
  glwe_ct w N k (packInit w N k out ct) /\ eqm Q (cf (gph (packInit w N k out ct)) 0) (phase s ct).
Proof.
  intros Lk Fs Ho (Lc & Wc). pose proof NPP as Hp. destruct (packInit_nth out ct Ho) as ((L & H) & A & B). set (o := packInit w N k out ct) in *.
  assert (forall i, (i <= k * N)%nat -> uword w (nthZ ct i)) as Wi by (intros i Hi; apply (Forall_nth_lt (uword w) ct 0 i Wc); lia).
  assert (glwe_ct w N k o) as Wo.
  { split; [exact L|]. intros i Hi. split; [now apply H|]. apply Forall_nth. intros j d0 Hj. rewrite H in Hj by exact Hi. rewrite (nth_indep _ d0 0) by (rewrite H; assumption).
    destruct i as [|i].
    - fold (nthZ (nth 0 o []) j). rewrite A by exact Hj. destruct (Nat.eqb j 0); [apply Wi; lia|]. split; [lia|apply Z.pow_pos_nonneg; lia].
    - destruct (B i ltac:(lia)) as (B0 & B1). destruct j as [|j]; [fold (nthZ (nth (S i) o []) 0); rewrite B0; apply Wi; nia|].
      fold (nthZ (nth (S i) o []) (S j)). replace (S j) with (N - (N - S j))%nat by lia. rewrite B1 by lia. apply wrap_word. lia. }
  split; [exact Wo|]. destruct (extract_spec w ltac:(lia) N Hp k sk s 0 (repeat 0 (S (k * N))) o Lk Fs Wo Hp (repeat_length _ _)) as (_ & E).
  rewrite <- E. destruct (AsLWECiphertextTo_nth w N Hp k 0 (repeat 0 (S (k * N))) o L Hp (repeat_length _ _)) as (X1 & X2 & X3).
  set (r := AsLWECiphertextTo w N 0 (repeat 0 (S (k * N))) o) in *. enough (r = ct) as -> by reflexivity.
  apply (nth_ext _ _ 0 0); [lia|]. intros q Hq. fold (nthZ r q) (nthZ ct q). destruct q as [|q]; [rewrite X2; now rewrite A by exact Hp|].
  pose proof (Nat.div_mod q N ltac:(lia)) as Eq. pose proof (Nat.mod_upper_bound q N ltac:(lia)) as Hm.
  assert (q / N < k)%nat as Hd by (apply Nat.div_lt_upper_bound; lia).
  replace (S q) with (1 + q / N * N + q mod N)%nat by lia. rewrite X3 by assumption. destruct (B (q / N)%nat Hd) as (B0 & B1).
  destruct (Nat.leb_spec (q mod N) 0) as [Hle|Hgt].
  - replace (q mod N)%nat with 0%nat by lia. rewrite Nat.add_0_r. exact B0.
  - rewrite Nat.add_0_l, B1 by lia. assert (uword w (nthZ ct (1 + q / N * N + q mod N))) as Wq by (apply Wi; nia).
    set (z := nthZ ct (1 + q / N * N + q mod N)) in *. transitivity (wrap w z); [|now apply wrap_small]. apply eqm_mod_eq. rewrite wrap_eqm. apply eqm_eq. ring.
Qed.

Lemma Pack_spec logN gal buf s out ct E : Z.of_nat logN = n -> (1 <= k)%nat -> length sk = k -> flat N sk s ->
  (forall i, (i < logN)%nat -> exists ksk, gal (2 ^ (Z.of_nat i + 1) + 1) = Some ksk /\ galois_key w N k p sk (2 ^ (Z.of_nat i + 1) + 1) ksk E) ->
  (forall i, (i < k)%nat -> pbound 1 (S_ i)) -> glwe_ct w N k (bb_permute buf) -> gshape N k (bb_pack buf) -> gshape N k out -> lwe_ct w (k * N) ct ->
  exists o buf', PackTo w N k logN p gal buf out ct = Some (o, buf') /\ glwe_ct w N k o /\
    pdist_le Q (gph o) (pconst (phase s ct)) (n * packNoise w N k p E).
Proof.
  intros Hl Hk Lk Fs Hg Hs Hb1 Hb2 Ho Hc. unfold PackTo. destruct (packInit_spec s out ct Lk Fs Ho Hc) as (W0 & P0).
  pose (J := fun q (st : option (list (list Z) * bfvBuf)) => (q <= logN)%nat -> exists o b, st = Some (o, b) /\ glwe_ct w N k (bb_permute b) /\ gshape N k (bb_pack b) /\ packed (phase s ct) (Z.of_nat q * packNoise w N k p E) q o).
  match goal with |- exists o buf', ?g = _ /\ _ => enough (J logN g) as X end.
  - destruct (X ltac:(lia)) as (o & b & E1 & _ & _ & Wo & HP). exists o, b. split; [exact E1|]. split; [exact Wo|]. rewrite Hl in HP. rewrite Z.sub_diag in HP. change (2 ^ 0) with 1 in HP.
    assert (forall u, exists e, eqm Q (cf (gph o) u) (cf (@pconst N (phase s ct)) u + e) /\ Z.abs e <= n * packNoise w N k p E) as HP'.
    { intros u. specialize (HP u). rewrite Z.mul_1_l in HP. exact HP. }
    clear HP X J E1. apply pdist_of_cf; [exact NPP|]. intros t Ht. apply HP'.
  - apply (forN_ind J); unfold J.
    + intros _. exists (packInit w N k out ct), buf. split; [reflexivity|]. split; [exact Hb1|]. split; [exact Hb2|]. split; [exact W0|].
      intros u. exists 0. split; [|cbn; lia]. replace (n - Z.of_nat 0) with n by lia. rewrite <- HNn. rewrite Z.add_0_r.
      assert (eqm Q (cf (gph (packInit w N k out ct)) 0) (cf (@pconst N (phase s ct)) 0)) as E0.
      { rewrite P0. apply eqm_eq. cbn [cf pconst pscale pone]. unfold one_cf. destruct (Z.eqb_spec NZ 0); [pose proof NPP; lia|]. rewrite Zmod_0_l. cbn. ring. }
      destruct (Z.Even_or_Odd u) as [(v & ->)|(v & ->)].
      * replace (NZ * (2 * v)) with (0 + 2 * v * NZ) by ring. rewrite !cf_anti_mul. exact E0.
      * replace (NZ * (2 * v + 1)) with (0 + (2 * v + 1) * NZ) by ring. rewrite !cf_anti_odd. now rewrite E0.
    + intros q st Hq IH _. destruct (IH ltac:(lia)) as (o & b & -> & B1 & B2 & HP). rewrite Nat.add_0_l.
      destruct (packStep_spec gal _ _ q o b E ltac:(lia) Hk (Hg q Hq) Hs B1 B2 HP) as (o' & b' & E' & B1' & B2' & HP').
      exists o', b'. split; [exact E'|]. split; [exact B1'|]. split; [exact B2'|]. replace (Z.of_nat (S q) * packNoise w N k p E) with (Z.of_nat q * packNoise w N k p E + packNoise w N k p E) by lia. exact HP'.
Qed.
End Pack.
