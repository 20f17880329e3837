From Verif Require Import Base NegaRing SpecNum ModelNum PfNum ModelVec SpecVec PfVec ModelPoly SpecPoly PfPoly PfPerm PfSplit ModelGadget SpecGadget PfGadget ModelEncoder ModelLWE SpecLWE PfLWE PfKS PfKS2 ModelGLWE SpecGLWE PfGLWE PfGLWE2 PfGLWE3 PfGLWE4
  ModelBoot SpecBoot PfBoot PfBoot2 PfBoot4 ModelManyLUT SpecManyLUT PfManyLUT ModelBFV SpecBFV PfBFV PfBFV2 ModelCB SpecCB.

Lemma choice_fun {A} (d : A) (P : nat -> A -> Prop) m : (forall t, (t < m)%nat -> exists e, P t e) -> exists f, forall t, (t < m)%nat -> P t (f t).
Proof.
  induction m as [|m IH]; intros H; [exists (fun _ => d); intros; lia|]. destruct IH as (f & Hf); [intros t Ht; apply H; lia|]. destruct (H m ltac:(lia)) as (e & He).
  exists (fun t => if Nat.eqb t m then e else f t). intros t Ht. destruct (Nat.eqb_spec t m) as [->|]; [exact He|]. apply Hf. lia.
Qed.

(** ** The trace *)
Section Trace.
Variables (w : Z) (N k logN : nat).
Notation n := (Z.of_nat logN).
Hypothesis Hw : 0 < w.
Hypothesis Hn : n <= 61.
Hypothesis HNn : Z.of_nat N = 2 ^ n.
Notation Q := (2 ^ w).
Add Ring nringQ : (@npoly_ring N Q) (setoid (@peq_equiv N Q) (@npoly_ring_ext N Q)).
Variable sk : list (list Z).
Notation gph := (gphase N k sk).
Notation S_ i := (pol N (nth i sk [])).
Notation NZ := (Z.of_nat N).
Notation kZ := (Z.of_nat k).

Lemma TN : (0 < N)%nat.
Proof. pose proof (Z.pow_pos_nonneg 2 n ltac:(lia) ltac:(lia)). lia. Qed.
Hint Resolve TN : core.

Fixpoint trPoly (q : nat) (X : npoly N) : npoly N :=
  match q with O => X | S q => padd (trPoly q X) (psubst (2 ^ Z.of_nat (logN - q) + 1) (trPoly q X)) end.

Lemma tr_odd q : (q < logN)%nat -> Z.odd (2 ^ Z.of_nat (logN - q) + 1) = true.
Proof. intros Hq. rewrite Z.odd_add, Z.odd_pow by lia. reflexivity. Qed.

Lemma trPoly_cf X : forall q, (q <= logN)%nat ->
  (forall u, cf (trPoly q X) (2 ^ Z.of_nat q * u) = 2 ^ Z.of_nat q * cf X (2 ^ Z.of_nat q * u)) /\ (forall u, ~ (2 ^ Z.of_nat q | u) -> cf (trPoly q X) u = 0).
Proof.
  induction q as [|q IH]; intros Hq.
  - split; [intros u; cbn [trPoly]; change (2 ^ Z.of_nat 0) with 1; lia|]. intros u Hu. exfalso. apply Hu. exists u. change (2 ^ Z.of_nat 0) with 1. lia.
  - destruct (IH ltac:(lia)) as (I1 & I2). clear IH. cbn [trPoly]. set (T := trPoly q X) in *. clearbody T.
    assert (forall v, cf (psubst (2 ^ Z.of_nat (logN - q) + 1) T) (2 ^ Z.of_nat q * v) = if Z.even v then cf T (2 ^ Z.of_nat q * v) else - cf T (2 ^ Z.of_nat q * v)) as ST.
    { intros v. pose proof (step_cf N n ltac:(lia) HNn T (logN - q - 1) v ltac:(lia)) as E.
      replace (Z.of_nat (logN - q - 1) + 1) with (Z.of_nat (logN - q)) in E by lia. replace (n - Z.of_nat (logN - q - 1) - 1) with (Z.of_nat q) in E by lia. exact E. }
    assert (2 ^ Z.of_nat (S q) = 2 * 2 ^ Z.of_nat q) as ES by (replace (Z.of_nat (S q)) with (1 + Z.of_nat q) by lia; rewrite Z.pow_add_r by lia; reflexivity).
    rewrite ES. split.
    + intros u. cbn [cf padd]. replace (2 * 2 ^ Z.of_nat q * u) with (2 ^ Z.of_nat q * (2 * u)) by ring. rewrite ST.
      replace (Z.even (2 * u)) with true by (symmetry; rewrite Z.even_mul; reflexivity). rewrite I1. ring.
    + intros u Hu. cbn [cf padd]. destruct (Z.eq_dec (u mod 2 ^ Z.of_nat q) 0) as [E|E].
      * apply Z.mod_divide in E; [|pose proof (Z.pow_pos_nonneg 2 (Z.of_nat q)); lia]. destruct E as (v & ->). rewrite (Z.mul_comm v). rewrite ST.
        destruct (Z.even v) eqn:Ev; [|ring]. exfalso. apply Hu. apply Z.even_spec in Ev. destruct Ev as (v' & ->). exists v'. ring.
      * assert (~ (2 ^ Z.of_nat q | u)) as Hq0 by (intros D; apply E; apply Z.mod_divide; [pose proof (Z.pow_pos_nonneg 2 (Z.of_nat q)); lia|exact D]).
        rewrite I2 by exact Hq0. destruct (odd_inverse _ n ltac:(lia) (tr_odd q ltac:(lia))) as (h & Hh). rewrite <- HNn in Hh.
        rewrite (eqm0_eq _ _ (psubst_dilate 0 _ h T TN Hh u)). cbn [cf dilate]. rewrite I2; [reflexivity|]. intros (v & Ev). apply Hq0.
        destruct Hh as (c & Hc). exists ((2 ^ Z.of_nat (logN - q) + 1) * v - c * 2 * 2 ^ Z.of_nat (logN - q) * u).
        assert (NZ = 2 ^ Z.of_nat q * 2 ^ Z.of_nat (logN - q)) as EN by (rewrite HNn, <- Z.pow_add_r by lia; f_equal; lia). rewrite EN in Hc.
        set (d := 2 ^ Z.of_nat (logN - q) + 1) in *. clearbody d. set (a := 2 ^ Z.of_nat q) in *. set (b := 2 ^ Z.of_nat (logN - q)) in *. clearbody a b.
        transitivity (d * (v * a) - c * (2 * (a * b)) * u); [|ring]. rewrite <- Ev, <- Hc. ring.
Qed.

Lemma trPoly_full X : peq Q (trPoly logN X) (pconst (NZ * cf X 0)).
Proof.
  destruct (trPoly_cf X logN ltac:(lia)) as (A & B). rewrite <- HNn in A, B. apply peq_coeffs; [exact TN|]. intros t Ht. apply eqm_eq.
  destruct (Nat.eq_dec t 0) as [->|Ht0].
  - specialize (A 0). rewrite !Z.mul_0_r in A. change (Z.of_nat 0) with 0. rewrite A. cbn [cf pconst pscale pone]. unfold one_cf.
    destruct (Z.eqb_spec NZ 0); [lia|]. rewrite Zmod_0_l. cbn. ring.
  - rewrite B; [|intros D; apply Z.divide_pos_le in D; lia]. symmetry. apply cf_const_off. rewrite Z.mod_small by lia. lia.
Qed.

Variable pT : gadget.
Hypothesis Hok : gadget_ok w pT.
Hypothesis Hs : forall i, (i < k)%nat -> pbound 1 (S_ i).
Hypothesis Hk : (1 <= k)%nat.
Variables (gal : Z -> option (list (list (list (list Z))))) (Et : Z).
Hypothesis Hgal : forall d, In d (packAuts logN) -> exists ksk, gal d = Some ksk /\ galois_key w N k pT sk d ksk Et.
Hypothesis HEt : 0 <= switchNoise w N k pT 1 Et.
Notation sw := (switchNoise w N k pT 1 Et).

Lemma cbTrace_spec row pack bfv : glwe_ct w N k row -> gshape N k pack -> glwe_ct w N k (bb_permute bfv) ->
  exists row' pack' bfv', cbTrace w N k logN pT gal row pack bfv = Some (row', (pack', bfv')) /\ glwe_ct w N k row' /\ gshape N k pack' /\ glwe_ct w N k (bb_permute bfv') /\
    pdist_le Q (gph row') (pconst (NZ * cf (gph row) 0)) ((NZ - 1) * sw).
Proof.
  intros Hr Hp Hb. unfold cbTrace.
  pose (J := fun q (s : option (list (list Z) * (list (list Z) * bfvBuf))) => (q <= logN)%nat -> exists row' pack' bfv', s = Some (row', (pack', bfv')) /\ glwe_ct w N k row' /\ gshape N k pack' /\ glwe_ct w N k (bb_permute bfv') /\
    pdist_le Q (gph row') (trPoly q (gph row)) ((2 ^ Z.of_nat q - 1) * sw)).
  match goal with |- exists a b c, ?g = _ /\ _ => enough (J logN g) as X end.
  { destruct (X ltac:(lia)) as (r & pk & bv & E & A & B & C & D). exists r, pk, bv. split; [exact E|]. split; [exact A|]. split; [exact B|]. split; [exact C|]. rewrite <- HNn in D.
    eapply pdist_le_peq; [reflexivity|apply trPoly_full|exact D]. }
  apply (forN_ind J).
  - intros _. exists row, pack, bfv. split; [reflexivity|]. split; [exact Hr|]. split; [exact Hp|]. split; [exact Hb|]. cbn [trPoly]. change ((2 ^ Z.of_nat 0 - 1) * sw) with 0. now apply pdist_refl.
  - intros q s Hq IH Hq1. destruct (IH ltac:(lia)) as (r & pk & bv & -> & Wr & Gp & Wb & D). rewrite Nat.add_0_l. clear IH.
    pose proof (tr_odd q ltac:(lia)) as Hodd.
    destruct (Hgal (2 ^ Z.of_nat (logN - q) + 1)) as (ksk & Eg & Kg).
    { unfold packAuts, tab. apply in_map_iff. exists q. split; [reflexivity|apply in_seq; lia]. }
    destruct (permute_spec w N k n Hw ltac:(lia) HNn sk pT Hok _ gal bv pk r ksk Et Hodd Hk Eg Kg Hs Wb Gp Wr) as (o & b' & Ep & Wb' & Wo & Dp). rewrite Ep.
    destruct (AddGLWETo_spec w Hw N TN k sk (fun y => if Nat.eqb y 0 then r else o) 0%nat 0%nat 1%nat) as (s' & Es & Ws & Ps & _); [exact Wr|exact Wr|exact Wo|]. cbn [Nat.eqb] in Ps.
    rewrite Es. cbn [option_map]. exists (s' 0%nat), o, (mkBFVBuf (bb_tensor bv) (bb_fftTensor bv) b' (bb_pack bv)). split; [reflexivity|]. split; [exact Ws|].
    split; [now apply (glwe_shape w N k)|]. split; [exact Wb'|]. cbn [trPoly]. set (d := 2 ^ Z.of_nat (logN - q) + 1) in *. set (T := trPoly q (gph row)) in *. clearbody T d.
    destruct D as (r1 & R1 & B1). destruct Dp as (r2 & R2 & B2).
    exists (padd (padd r1 r2) (psubst d r1)). split.
    + rewrite Ps. assert (peq Q (psubst d r1) (psub (psubst d (gph r)) (psubst d T))) as ->.
      { rewrite <- (psubst_sub N n ltac:(lia) HNn Q d _ _ Hodd). apply (psubst_proper N n ltac:(lia) HNn); [exact Hodd|now symmetry]. }
      rewrite <- R1, <- R2. ring.
    + replace ((2 ^ Z.of_nat (S q) - 1) * sw) with ((2 ^ Z.of_nat q - 1) * sw + sw + (2 ^ Z.of_nat q - 1) * sw).
      2:{ replace (Z.of_nat (S q)) with (1 + Z.of_nat q) by lia. rewrite Z.pow_add_r by lia. change (2 ^ 1) with 2. ring. }
      apply pbound_add; [now apply pbound_add|]. now apply (pbound_subst N n ltac:(lia) HNn).
Qed.

(** ** Division by the rank *)
Lemma divide_nth c : gshape N k c -> length (cbDivide w N k logN c) = S k /\ forall j, (j <= k)%nat -> nth j (cbDivide w N k logN c) [] = map (fun x => DivRoundBits w x n) (nth j c []).
Proof.
  intros (Lc & Hc). unfold cbDivide.
  pose (F := fun (j : nat) (r : list Z) => forN 0 N (fun l r => upd r l (DivRoundBits w (nthZ r l) n)) r).
  assert (forall m, (m <= S k)%nat -> forN 0 m (fun j o => forN 0 N (fun l o => upd o j (upd (nth j o []) l (DivRoundBits w (nthZ (nth j o []) l) n))) o) c = forN 0 m (fun j o => upd o j (F j (nth j o []))) c) as E.
  { induction m as [|m IH]; intros Hm; [reflexivity|]. rewrite !forN_S_r, IH by lia. rewrite !Nat.add_0_l.
    destruct (rows_loop [] F 0 m c ltac:(lia)) as (L & _). apply (row_loop [] (fun l r => upd r l (DivRoundBits w (nthZ r l) n)) m N 0). lia. }
  rewrite E by lia. destruct (rows_loop [] F 0 (S k) c ltac:(lia)) as (L & V). split; [lia|]. intros j Hj. rewrite V.
  replace ((0 <=? j)%nat && (j <? 0 + S k)%nat) with true by (symmetry; apply andb_true_iff; split; [apply Nat.leb_le|apply Nat.ltb_lt]; lia).
  unfold F. set (r := nth j c []). pose proof (Hc j Hj) as Lr. fold r in Lr.
  destruct (rows_loop 0 (fun l x => DivRoundBits w x n) 0 N r ltac:(lia)) as (L1 & V1). unfold nthZ.
  apply (nth_ext _ _ 0 (DivRoundBits w 0 n)); [now rewrite map_length, L1|]. intros i Hi. rewrite L1 in Hi. rewrite (map_nth (fun x => DivRoundBits w x n)), V1.
  replace ((0 <=? i)%nat && (i <? 0 + N)%nat) with true by (symmetry; apply andb_true_iff; split; [apply Nat.leb_le|apply Nat.ltb_lt]; lia). reflexivity.
Qed.

Lemma divide_spec c : n < w -> glwe_ct w N k c ->
  glwe_ct w N k (cbDivide w N k logN c) /\
  exists r, peq 0 (pscale NZ (gph (cbDivide w N k logN c))) (padd (gph c) r) /\ forall t, 2 * Z.abs (cf r t) <= NZ * (1 + kZ * NZ).
Proof.
  intros Hnw (Lc & Hc). destruct (divide_nth c (conj Lc (fun i Hi => proj1 (Hc i Hi)))) as (L & V).
  set (h := cbDivide w N k logN c) in *.
  assert (forall j i, (j <= k)%nat -> (i < N)%nat -> 2 * Z.abs (NZ * nthZ (nth j h []) i - nthZ (nth j c []) i) <= NZ /\ uword w (nthZ (nth j h []) i)) as HB.
  { intros j i Hj Hi. rewrite V by exact Hj. destruct (Hc j Hj) as (Lj & Wj).
    assert (uword w (nthZ (nth j c []) i)) as Hx by (apply (nth_word N TN w); [now split|exact Hi]).
    assert (nthZ (map (fun x => DivRoundBits w x n) (nth j c [])) i = DivRoundBits w (nthZ (nth j c []) i) n) as ->.
    { unfold nthZ. rewrite (nth_indep _ 0 (DivRoundBits w 0 n)) by (rewrite map_length; lia). apply (map_nth (fun x => DivRoundBits w x n)). }
    destruct (DivRoundBits_spec w (nthZ (nth j c []) i) n ltac:(lia) Hx) as (R & U). unfold is_round_half_up in R. rewrite <- HNn in R. split; [lia|exact U]. }
  assert (forall j, (j <= k)%nat -> length (nth j h []) = N) as Lh by (intros j Hj; rewrite V by exact Hj; rewrite map_length; now apply Hc).
  split.
  - split; [exact L|]. intros j Hj. split; [now apply Lh|]. apply Forall_nth. intros i d0 Hi. rewrite Lh in Hi by exact Hj. destruct (HB j i Hj Hi) as (_ & X). rewrite (nth_indep _ d0 0) by (rewrite Lh; assumption). exact X.
  - pose (rr := fun j => psub (pscale NZ (pol N (nth j h []))) (pol N (nth j c []))).
    assert (forall j, (j <= k)%nat -> pbound NZ (pscale 2 (rr j))) as Hr.
    { intros j Hj. apply pbound_coeffs; [exact TN|]. intros i Hi. unfold rr. cbn [cf pscale psub]. rewrite !(cf_pol_at N TN) by lia.
      destruct (HB j i Hj Hi) as (E & _). lia. }
    set (r := padd (rr O) (psum k (fun i => pmul (rr (S i)) (S_ i)))). exists r. split.
    + intros x. apply eqm_eq. unfold r, gphase. cbn [cf padd pscale]. rewrite !cf_psum. unfold rr at 1. cbn [cf pscale psub].
      rewrite (zsum_ext k (fun i => cf (pmul (rr (S i)) (S_ i)) x) (fun i => NZ * cf (pmul (pol N (nth (S i) h [])) (S_ i)) x - cf (pmul (pol N (nth (S i) c [])) (S_ i)) x)).
      2:{ intros i Hi. cbn [cf pmul]. rewrite <- zsum_scale_l, <- zsum_sub. apply zsum_ext. intros q Hq. unfold rr. cbn [cf pscale psub]. ring. }
      rewrite zsum_sub, zsum_scale_l. ring.
    + assert (pbound (NZ * (1 + kZ * NZ)) (pscale 2 r)) as B.
      { assert (peq 0 (pscale 2 r) (padd (pscale 2 (rr O)) (psum k (fun i => pmul (pscale 2 (rr (S i))) (S_ i))))) as E.
        { unfold r. intros x. transitivity (cf (padd (pscale 2 (rr O)) (pscale 2 (psum k (fun i => pmul (rr (S i)) (S_ i))))) x); [apply eqm_eq; cbn [cf pscale padd]; ring|].
          apply padd_proper; [reflexivity|]. rewrite pscale_psum. apply psum_proper. intros i _. symmetry. apply pscale_mul_l. }
        intros x. rewrite (eqm0_eq _ _ (E x)). replace (NZ * (1 + kZ * NZ)) with (NZ + kZ * (NZ * (NZ * 1))) by ring.
        refine (pbound_add _ _ _ _ (Hr O ltac:(lia)) (pbound_psum _ _ _ _) x). intros i Hi. apply pbound_mul; [apply Hr; lia|now apply Hs]. }
      intros t. specialize (B t). cbn [cf pscale] in B. lia.
Qed.
End Trace.
