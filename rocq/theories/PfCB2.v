From Verif Require Import Base NegaRing SpecNum ModelNum PfNum ModelVec SpecVec PfVec ModelPoly SpecPoly PfPoly PfPerm PfSplit ModelGadget SpecGadget PfGadget ModelEncoder ModelLWE SpecLWE PfLWE PfLWE2 PfKS PfKS2 ModelGLWE SpecGLWE PfGLWE PfGLWE2 PfGLWE3 PfGLWE4
  ModelBoot SpecBoot PfBoot PfBoot2 PfBoot4 ModelManyLUT SpecManyLUT PfManyLUT ModelBFV SpecBFV PfBFV PfBFV2 PfBFV4 ModelCB SpecCB PfCB.

Section Boot.
Variables (w : Z) (N k logN : nat).
Notation n := (Z.of_nat logN).
Hypothesis Hw : 0 < w.
Hypothesis Hn : n <= 61.
Hypothesis Hnw : n + 1 < w.
Hypothesis HNn : Z.of_nat N = 2 ^ n.
Notation Q := (2 ^ w).
Add Ring nringQ : (@npoly_ring N Q) (setoid (@peq_equiv N Q) (@npoly_ring_ext N Q)).
Variable sk : list (list Z).
Notation gph := (gphase N k sk).
Notation S_ i := (pol N (nth i sk [])).
Notation NZ := (Z.of_nat N).
Notation kZ := (Z.of_nat k).
Hypothesis Hs : forall i, (i < k)%nat -> pbound 1 (S_ i).
Hypothesis Hk : (1 <= k)%nat.
Variables (pOut pSS pT : gadget).
Hypothesis HokO : gadget_ok w pOut.
Hypothesis HokS : gadget_ok w pSS.
Hypothesis HokT : gadget_ok w pT.
Variables (gal : Z -> option (list (list (list (list Z))))) (Et : Z) (ssk : list (list (list (list (list Z))))) (Es : Z).
Hypothesis Hgal : forall d, In d (packAuts logN) -> exists ksk, gal d = Some ksk /\ galois_key w N k pT sk d ksk Et.
Hypothesis HEt : 0 <= Et.
Hypothesis Hssk : scheme_key w N k pSS sk ssk Es.
Notation L := (g_level pOut).
Notation ent g i j := (nth j (nth i g []) []).
Notation HN := (TN N logN HNn).

Lemma sw_nonneg : 0 <= switchNoise w N k pT 1 Et.
Proof.
  unfold switchNoise, rowNoise. assert (0 <= 2 ^ (w - Z.of_nat (g_level pT) * g_logBase pT) / 2) by (apply Z.div_pos; [apply Z.pow_nonneg; lia|lia]).
  assert (0 <= 2 ^ (g_logBase pT - 1)) by (apply Z.pow_nonneg; lia).
  apply Z.add_nonneg_nonneg; repeat apply Z.mul_nonneg_nonneg; lia.
Qed.

Lemma pdist_const a b B : dist_le Q a b B -> pdist_le Q (@pconst N a) (pconst b) B.
Proof.
  intros (e & (c & Ec) & Be). exists (pconst e). split.
  - intros x. exists (c * cf (@pone N) x). cbn [cf psub pconst pscale]. transitivity ((a - b - e) * cf (@pone N) x); [cbn; ring|]. rewrite Ec. ring.
  - intros x. cbn [cf pconst pscale]. rewrite Z.abs_mul. assert (Z.abs (cf (@pone N) x) <= 1).
    { cbn [cf pone]. unfold one_cf. repeat match goal with |- context [if ?c then _ else _] => destruct c end; lia. }
    pose proof (Z.abs_nonneg e). nia.
Qed.

(** The rows of a GGSW buffer, all of the right shape. *)
Notation gg_ok := (ggsw_rows w N k L).
Lemma setRow_ok g i j v : gg_ok g -> (i <= k)%nat -> glwe_ct w N k v -> gg_ok (setRow g i j v).
Proof.
  intros (Lg & H) Hi Hv. unfold setRow. split; [now rewrite upd_length|]. intros a Ha. destruct (H a Ha) as (La & Ra). destruct (Nat.eq_dec a i) as [->|Hne].
  - rewrite nth_upd_same by lia. split; [now rewrite upd_length|]. intros b Hb. destruct (Nat.eq_dec b j) as [->|Hnb]; [rewrite nth_upd_same by lia; exact Hv|rewrite nth_upd_other by lia; now apply Ra].
  - rewrite nth_upd_other by lia. now split.
Qed.
Lemma setRow_same g i j v : gg_ok g -> (i <= k)%nat -> (j < L)%nat -> ent (setRow g i j v) i j = v.
Proof. intros (Lg & H) Hi Hj. unfold setRow. destruct (H i Hi) as (La & _). rewrite nth_upd_same by lia. rewrite nth_upd_same by lia. reflexivity. Qed.
Lemma setRow_other g i j v a b : gg_ok g -> (i <= k)%nat -> (a <> i \/ b <> j) -> ent (setRow g i j v) a b = ent g a b.
Proof.
  intros (Lg & H) Hi Hab. unfold setRow. destruct (Nat.eq_dec a i) as [->|Hne]; [|now rewrite nth_upd_other by lia].
  rewrite nth_upd_same by lia. rewrite nth_upd_other by lia. reflexivity.
Qed.

(** Level j holds an encryption of v and of v times each key polynomial. *)
Definition lev_ok (g : list (list (list (list Z)))) (j : nat) (v R S : Z) : Prop :=
  pdist_le Q (gph (ent g 0 j)) (pconst v) R /\ forall i, (i < k)%nat -> pdist_le Q (gph (ent g (Datatypes.S i) j)) (pmul (pconst v) (S_ i)) S.

(** One level, from a rotated ciphertext c whose coefficient jj is near v. *)
Lemma cbLevel_spec c start jj g pack bfv v B : glwe_ct w N k c -> dist_le Q (cf (gph c) (Z.of_nat jj)) v B -> (start + jj < L)%nat ->
  gg_ok g -> gshape N k pack -> glwe_ct w N k (bb_permute bfv) ->
  exists g' pack' bfv', cbLevel w N k logN pSS pT ssk gal (cbDivide w N k logN c) start jj (Some (g, (pack, bfv))) = Some (g', (pack', bfv')) /\
    gg_ok g' /\ gshape N k pack' /\ glwe_ct w N k (bb_permute bfv') /\ (forall i j, j <> (start + jj)%nat -> ent g' i j = ent g i j) /\
    let R := traceNoise w N k pT B Et in lev_ok g' (start + jj) v R (schemeNoise w N k pSS R Es).
Proof.
  intros Hc Hv Hj Hg Hp Hb. unfold cbLevel. set (j := (start + jj)%nat) in *.
  destruct (divide_spec w N k logN HNn sk pT Hs Hk gal Et Hgal c ltac:(lia) Hc) as (Wd & (rho & Er & Br)).
  set (rot := cbDivide w N k logN c) in *.
  assert (glwe_ct w N k (ent g 0 j)) as W0 by (apply Hg; lia).
  destruct (MonomialMulGLWETo_spec w Hw N HN k sk (fun y => if Nat.eqb y 0 then ent g 0 j else rot) 0%nat 1%nat W0 Wd n ltac:(lia) HNn (- Z.of_nat jj)) as (s' & -> & Ws & Ps & _). cbn [Nat.eqb] in Ps.
  destruct (cbTrace_spec w N k logN Hw Hn HNn sk pT HokT Hs Hk gal Et Hgal (s' 0%nat) pack bfv Ws Hp Hb) as (row & pack' & bfv' & -> & Wr & Gp & Wb & Dr).
  assert (pdist_le Q (gph row) (pconst v) (traceNoise w N k pT B Et)) as DR.
  { set (T := (NZ - 1) * switchNoise w N k pT 1 Et) in *. unfold traceNoise. fold T.
    replace (B + NZ * (1 + kZ * NZ) / 2 + T) with (T + (B + NZ * (1 + kZ * NZ) / 2)) by ring. eapply pdist_trans; [exact Dr|]. apply pdist_const.
    assert (eqm Q (NZ * cf (gph (s' 0%nat)) 0) (NZ * cf (gph rot) (Z.of_nat jj))) as E1.
    { rewrite (Ps 0). assert (eqm Q (cf (pmul (pmono (- Z.of_nat jj)) (gph rot)) 0) (cf (pshift (- Z.of_nat jj) (gph rot)) 0)) as -> by (symmetry; apply pshift_mono). cbn [cf pshift]. replace (0 - - Z.of_nat jj) with (Z.of_nat jj) by lia. reflexivity. }
    pose proof (eqm0_eq _ _ (Er (Z.of_nat jj))) as E2. cbn [cf pscale padd] in E2. rewrite E2 in E1. destruct Hv as (e & He & Be). specialize (Br (Z.of_nat jj)).
    exists (e + cf rho (Z.of_nat jj)). split.
    - rewrite E1. destruct He as (t & Ht). exists t. lia.
    - assert (Z.abs (cf rho (Z.of_nat jj)) <= NZ * (1 + kZ * NZ) / 2) by (apply Z.div_le_lower_bound; lia). lia. }
  set (R := traceNoise w N k pT B Et) in *. clearbody R. clear Dr Er Br rho Ps Ws s' Wd W0 Hv.
  set (g0 := setRow g 0 j row). assert (gg_ok g0) as G0 by (apply setRow_ok; [exact Hg|lia|exact Wr]).
  pose (ep := fun kk => gInv w k (ExternalProdFFTGLWETo N k pSS (nth kk ssk []) (map (fdigits w pSS) row))).
  assert (forall kk, (kk < k)%nat -> glwe_ct w N k (ep kk) /\ pdist_le Q (gph (ep kk)) (pmul (pconst v) (S_ kk)) (schemeNoise w N k pSS R Es)) as Hep.
  { intros kk Hkk. destruct (Hssk kk Hkk) as (e & He & HE).
    assert (ep kk = ExternalProdGLWETo w N k pSS (nth kk ssk []) row) as ->.
    { unfold ep, ExternalProdGLWETo. rewrite (extProd_eq w N HN k pSS HokS) by apply Wr. f_equal. f_equal. rewrite <- (tab_nth ([] : list Z) row) at 1. unfold tab. rewrite map_map. destruct Wr as (-> & _). reflexivity. }
    split; [exact (proj1 (ExternalProdGLWETo_spec w Hw N HN k sk pSS HokS _ _ e row He Wr))|].
    pose proof (ExternalProd_bound_poly w Hw N HN k sk pSS HokS _ _ 1 e row Es He (Hs kk Hkk) Wr Hs HE) as D. unfold schemeNoise.
    match type of D with pdist_le _ _ _ ?b => set (X := b) in * end.
    replace (NZ * R + _ + _) with (X + NZ * (1 * R)) by (unfold X; ring). eapply pdist_trans; [exact D|]. destruct DR as (r & Er & Br).
    exists (pmul (S_ kk) r). split; [rewrite <- Er; ring|]. apply pbound_mul; [now apply Hs|exact Br]. }
  pose (J := fun q (h : list (list (list (list Z)))) => (q <= k)%nat -> gg_ok h /\ (forall i b, (b <> j \/ i = 0 \/ q < i)%nat -> ent h i b = ent g0 i b) /\ forall i, (i < q)%nat -> ent h (S i) j = ep i).
  match goal with |- exists g' _ _, Some (?h, _) = _ /\ _ => assert (J k h) as X end.
  { apply (forN_ind J).
    - intros _. split; [exact G0|]. split; [reflexivity|intros; lia].
    - intros q h Hq IH Hq1. destruct (IH ltac:(lia)) as (A & B1 & C1). rewrite Nat.add_0_l. fold (ep q). split; [apply setRow_ok; [exact A|lia|now apply Hep]|]. split.
      + intros i b Hib. rewrite (setRow_other h (S q) j) by (try exact A; lia). apply B1. lia.
      + intros i Hi. destruct (Nat.eq_dec i q) as [->|Hne]; [apply setRow_same; [exact A|lia|exact Hj]|]. rewrite (setRow_other h (S q) j) by (try exact A; lia). apply C1. lia. }
  destruct (X ltac:(lia)) as (A & B1 & C1). eexists _, _, _. split; [reflexivity|]. split; [exact A|]. split; [exact Gp|]. split; [exact Wb|]. split.
  - intros i b Hb'. rewrite B1 by lia. unfold g0. apply setRow_other; [exact Hg|lia|right; exact Hb'].
  - cbv zeta. split.
    + rewrite B1 by lia. unfold g0. rewrite setRow_same by (try exact Hg; lia). exact DR.
    + intros i Hi. rewrite C1 by exact Hi. now apply Hep.
Qed.

Lemma lev_ok_ext g g' j v R S : (forall i, ent g' i j = ent g i j) -> lev_ok g j v R S -> lev_ok g' j v R S.
Proof. intros E (A & B). split; [rewrite E; exact A|]. intros i Hi. rewrite E. now apply B. Qed.

(** The levels of one group. *)
Lemma cbLevels_spec c start cnt g pack bfv (v : nat -> Z) B : glwe_ct w N k c -> (forall jj, (jj < cnt)%nat -> dist_le Q (cf (gph c) (Z.of_nat jj)) (v (start + jj)%nat) B) -> (start + cnt <= L)%nat ->
  gg_ok g -> gshape N k pack -> glwe_ct w N k (bb_permute bfv) -> let R := traceNoise w N k pT B Et in
  (forall j, (j < start)%nat -> lev_ok g j (v j) R (schemeNoise w N k pSS R Es)) ->
  exists g' pack' bfv', forN 0 cnt (cbLevel w N k logN pSS pT ssk gal (cbDivide w N k logN c) start) (Some (g, (pack, bfv))) = Some (g', (pack', bfv')) /\
    gg_ok g' /\ gshape N k pack' /\ glwe_ct w N k (bb_permute bfv') /\ (forall j, (j < start + cnt)%nat -> lev_ok g' j (v j) R (schemeNoise w N k pSS R Es)).
Proof.
  intros Hc Hv HL Hg Hp Hb R Hold.
  pose (J := fun q (s : option (list (list (list (list Z))) * (list (list Z) * bfvBuf))) => (q <= cnt)%nat -> exists g' pack' bfv', s = Some (g', (pack', bfv')) /\
    gg_ok g' /\ gshape N k pack' /\ glwe_ct w N k (bb_permute bfv') /\ (forall j, (j < start + q)%nat -> lev_ok g' j (v j) R (schemeNoise w N k pSS R Es))).
  match goal with |- exists a b c, ?g = _ /\ _ => enough (J cnt g) as X by (apply X; lia) end.
  apply (forN_ind J).
  - intros _. exists g, pack, bfv. split; [reflexivity|]. split; [exact Hg|]. split; [exact Hp|]. split; [exact Hb|]. intros j Hj. apply Hold. lia.
  - intros q s Hq IH Hq1. destruct (IH ltac:(lia)) as (g1 & p1 & b1 & -> & A1 & A2 & A3 & A4). rewrite Nat.add_0_l.
    destruct (cbLevel_spec c start q g1 p1 b1 (v (start + q)%nat) B Hc (Hv q Hq) ltac:(lia) A1 A2 A3) as (g2 & p2 & b2 & -> & B1 & B2 & B3 & B4 & B5). fold R in B5.
    exists g2, p2, b2. split; [reflexivity|]. split; [exact B1|]. split; [exact B2|]. split; [exact B3|]. intros j Hj. destruct (Nat.eq_dec j (start + q)) as [->|Hne]; [exact B5|].
    apply (lev_ok_ext g1); [intros i; apply B4; exact Hne|]. apply A4. lia.
Qed.

(** ** Groups *)
Variable C : nat.
Variable logC : Z.
Hypothesis HCn : Z.of_nat C = 2 ^ logC.
Hypothesis HlC : 0 <= logC <= n.
Notation fs_ok := (funs_ok w C).
Lemma C_pos : (0 < C)%nat.
Proof. pose proof (Z.pow_pos_nonneg 2 logC ltac:(lia) ltac:(lia)). lia. Qed.

Lemma cbFuncs_spec start cnt fs : (cnt <= C)%nat -> fs_ok fs ->
  fs_ok (cbFuncs w pOut start cnt fs) /\ forall jj x, (jj < cnt)%nat -> funOf (cbFuncs w pOut start cnt fs) jj x = wrap w (Z.shiftl (wrap w x) (LogBaseQ pOut (start + jj))).
Proof.
  intros Hc Hf. unfold cbFuncs.
  pose (J := fun q (f : list (Z -> Z)) => (q <= cnt)%nat -> fs_ok f /\ forall jj x, (jj < q)%nat -> funOf f jj x = wrap w (Z.shiftl (wrap w x) (LogBaseQ pOut (start + jj)))).
  match goal with |- fs_ok ?g /\ _ => enough (J cnt g) as X by (apply X; lia) end.
  apply (forN_ind J).
  - intros _. split; [exact Hf|intros; lia].
  - intros q f Hq IH Hq1. destruct (IH ltac:(lia)) as ((Lf & Uf) & V). rewrite Nat.add_0_l. split.
    + split; [now rewrite upd_length|]. intros i x Hi. unfold funOf. destruct (Nat.eq_dec i q) as [->|Hne]; [rewrite nth_upd_same by lia; apply wrap_word; lia|].
      rewrite nth_upd_other by lia. now apply Uf.
    + intros jj x Hjj. unfold funOf. destruct (Nat.eq_dec jj q) as [->|Hne]; [now rewrite nth_upd_same by lia|]. rewrite nth_upd_other by lia. apply V. lia.
Qed.

Variables (pBR pKS : gadget) (s large : list Z) (brk : list (list (list (list (list Z))))) (ksk : list (list (list Z))) (bs bc : nat) (Ek Eks : Z).
Hypothesis HB : boot_keys w N k 1 pBR pKS sk s large brk ksk bs bc Ek Eks.
Variables (mm scale m ee : Z).
Hypothesis Hmm : 0 < mm < 2 ^ 52.
Hypothesis Hmw : 2 * mm < Q.
Hypothesis Hsz : mm * NZ < 2 ^ 52.
Hypothesis Hdiv : (2 * mm * Z.of_nat C | NZ).
Hypothesis Hm : 0 <= m < mm.
Variables (ksFirst : bool) (ct : list Z).
Hypothesis Hin : cb_input w N C pKS s large Eks mm scale m ee ksFirst ct.
Notation ms := (MLModSwitch w n logC).
Notation BR := (brNoise w N k pBR bc (length s) Ek).
Notation R := (traceNoise w N k pT BR Et).
Notation RS := (schemeNoise w N k pSS R Es).
Definition lval (j : nat) : Z := m * 2 ^ (w - (Z.of_nat j + 1) * g_logBase pOut).

Notation cb_ok := (cb_buf_ok w N k C L (length s)).

Lemma cbRotate rot lut ks F : gshape N k rot -> length ks = S (length s) -> wpoly w N lut -> many_hold N C Q mm lut F ->
  let ks' := if ksFirst then DefaultKeySwitchTo w (length s) (k * N) pKS ks ct ksk else ks in
  length ks' = S (length s) /\
  let r := MLBlindRotateTo w N k ms pBR brk bs bc (length s) rot (if ksFirst then ks' else ct) lut in
  glwe_ct w N k r /\ forall i, (i < C)%nat -> dist_le Q (cf (gph r) (Z.of_nat i)) (F i m) BR.
Proof.
  destruct HB as [(n0 & Hn0 & HNn0) _ (Hok & HokK) (Lk & Hfl & Hbin) (Hpre & Hle) (Hbs & Hbc & Hlen & Hblk) (HEk & HEks) (e & He1 & He2) (eks & Hk1 & Hk2)].
  intros Hrot Lks Hl HF. 
  assert (length large = (k * N)%nat) as LD by (destruct Hfl as (X & _); now rewrite Lk in X).
  assert (br_setting w N k sk pBR s brk Ek bs bc) as HBs. { refine (conj Hw (conj HN (conj _ (conj Hs (conj Hok (conj _ (conj HEk (conj Hbs (conj Hbc (conj Hlen Hblk)))))))))); [exists n0; auto|exists e; auto]. }
  assert (2 * mm | NZ) as Hd2 by (destruct Hdiv as (x & ->); exists (x * Z.of_nat C); ring).
  unfold cb_input in Hin. destruct ksFirst; cbv zeta.
  - destruct Hin as (Hct & Hph & Hmar). rewrite <- LD.
    pose proof (DefaultKeySwitch_dcmp w Hw s pKS HokK large ks ct ksk eks Hpre Hle Lks Hct Hk1) as (Y1 & _).
    pose proof (DefaultKeySwitch_bound w Hw s pKS HokK large ks ct ksk eks Eks Hpre Hle Lks Hct Hk1 Hbin Hk2) as Y2.
    set (c := DefaultKeySwitchTo w (length s) (length large) pKS ks ct ksk) in *. clearbody c. split; [apply Y1|].
    destruct Y2 as (x & (t & X1) & X2). change (Z.abs x <= ksNoise w pKS (length large - length s) Eks) in X2.
    apply (ml_rotate w Hw n logC N C k HNn HCn HlC ltac:(lia) pBR sk s brk Ek bs bc HBs rot c lut mm scale F m (ee + x) Hrot Hl HF Y1 Hm Hd2).
    + destruct Hph as (t' & Hp). exists (t + t'). lia.
    + unfold many_margin in *. assert (4 * NZ * mm * Z.abs (ee + x) <= 4 * NZ * mm * (Z.abs ee + ksNoise w pKS (length large - length s) Eks)) as Hm1 by (apply Z.mul_le_mono_nonneg_l; [apply Z.mul_nonneg_nonneg; lia|]; pose proof (Z.abs_triangle ee x); lia). lia.
  - destruct Hin as (Hct & Hph & Hmar). split; [exact Lks|].
    exact (ml_rotate w Hw n logC N C k HNn HCn HlC ltac:(lia) pBR sk s brk Ek bs bc HBs rot ct lut mm scale F m ee Hrot Hl HF Hct Hm Hd2 Hph Hmar).
Qed.

Lemma cbGroup_spec i b : (i < L)%nat -> cb_ok b -> (forall j, (j < i)%nat -> lev_ok (cb_ggsw b) j (lval j) R RS) ->
  exists b', cbGroup w N k logN C pOut pSS pT mm ksFirst ms pBR pKS brk ksk bs bc (length s) ssk gal ct i b = Some b' /\ cb_ok b' /\
    forall j, (j < Nat.min (i + C) L)%nat -> lev_ok (cb_ggsw b') j (lval j) R RS.
Proof.
  intros Hi (F1 & F2 & F3 & F4 & F5 & F6 & F7) Hold. unfold cbGroup. set (cnt := (Nat.min (i + C) L - i)%nat). pose proof C_pos as HC.
  assert (cnt <= C)%nat as Hcnt by (unfold cnt; lia). assert (i + cnt = Nat.min (i + C) L)%nat as Ec by (unfold cnt; lia).
  destruct (cbFuncs_spec i cnt (cb_fs b) Hcnt F1) as ((G1 & G1') & G2). set (fs := cbFuncs w pOut i cnt (cb_fs b)) in *.
  destruct (MLGenLUT_spec w N C mm fs (cb_lut b) Hw HN HC Hmm Hmw Hsz Hdiv ltac:(lia) F2) as (lut & -> & Ll & Ul & Ml).
  assert (wpoly w N lut) as Wl by (split; [exact Ll|apply Ul; intros a x Ha _; now apply G1']).
  destruct (cbRotate (cb_rot b) lut (cb_ks b) (funOf fs) F5 F3 Wl Ml) as (Lks & Wr & Dr). cbv zeta in *.
  set (ks := if ksFirst then _ else _) in *. set (c := MLBlindRotateTo w N k ms pBR brk bs bc (length s) (cb_rot b) _ lut) in *.
  destruct (cbLevels_spec c i cnt (cb_ggsw b) (cb_pack b) (cb_bfv b) lval BR Wr) as (g & pk & bv & Eg & A1 & A2 & A3 & A4); try assumption; [|lia|].
  { intros jj Hjj. destruct (Dr jj ltac:(lia)) as (e & He & Be). exists e. split; [|exact Be]. rewrite <- He. rewrite G2 by exact Hjj.
    assert (eqm Q (wrap w (Z.shiftl (wrap w m) (LogBaseQ pOut (i + jj)))) (lval (i + jj))) as ->; [|reflexivity].
    rewrite wrap_eqm. unfold LogBaseQ, lval. destruct HokO as (O1 & O2 & O3 & O4 & O5 & O6). rewrite O4. rewrite Z.shiftl_mul_pow2 by nia. rewrite (wrap_eqm w m). reflexivity. }
  rewrite Eg. eexists. split; [reflexivity|]. cbn [cb_ggsw]. split.
  - unfold cb_buf_ok. cbn [cb_fs cb_lut cb_ks cb_pack cb_rot cb_ggsw cb_bfv]. split; [now split|]. split; [exact Ll|]. split; [exact Lks|]. split; [exact A2|]. split; [|split; assumption].
    apply (glwe_shape w N k). exact (proj1 (divide_spec w N k logN HNn sk pT Hs Hk gal Et Hgal c ltac:(lia) Wr)).
  - intros j Hj. apply A4. lia.
Qed.

Lemma CB_spec b : cb_ok b ->
  exists o b', CircuitBootstrapTo w N k logN C pOut pSS pT mm ksFirst ms pBR pKS brk ksk bs bc (length s) ssk gal b ct = Some (o, b') /\ cb_ok b' /\
    exists e, ggsw_enc w N k pOut sk o (pconst m) e /\ (forall j, (j < L)%nat -> pbound R (e 0%nat j)) /\ (forall i j, (i < k)%nat -> (j < L)%nat -> pbound RS (e (S i) j)).
Proof.
  intros Hb. pose proof C_pos as HC. unfold CircuitBootstrapTo. assert (1 <= L)%nat as HL by apply HokO.
  set (gs := ((L + C - 1) / C)%nat).
  assert (gs * C <= L + C - 1 /\ L <= gs * C)%nat as (Hg1 & Hg2).
  { unfold gs. pose proof (Nat.div_mod (L + C - 1) C ltac:(lia)) as D. pose proof (Nat.mod_upper_bound (L + C - 1) C ltac:(lia)). nia. }
  pose (J := fun q (st : option cbBuf) => (q <= gs)%nat -> exists b', st = Some b' /\ cb_ok b' /\ forall j, (j < Nat.min (q * C) L)%nat -> lev_ok (cb_ggsw b') j (lval j) R RS).
  match goal with |- context [forN 0 gs ?f ?x] => assert (J gs (forN 0 gs f x)) as X end.
  { apply (forN_ind J).
    - intros _. exists b. split; [reflexivity|]. split; [exact Hb|]. intros j Hj. lia.
    - intros q st Hq IH Hq1. destruct (IH ltac:(lia)) as (b1 & -> & A & B). rewrite Nat.add_0_l. assert (q * C < L)%nat as Hi by nia.
      destruct (cbGroup_spec (q * C) b1 Hi A) as (b2 & E2 & A2 & B2).
      { intros j Hj. apply B. lia. }
      exists b2. split; [exact E2|]. split; [exact A2|]. intros j Hj. apply B2. rewrite (Nat.add_comm (q * C) C). exact Hj. }
  destruct (X ltac:(lia)) as (b' & -> & A & B). clear X J. eexists _, _. split; [reflexivity|]. split; [exact A|].
  destruct A as (_ & _ & _ & _ & _ & (Lg & Hg) & _). set (g := cb_ggsw b') in *. clearbody g.
  assert (forall i j, (i <= k)%nat -> (j < L)%nat -> nth j (nth i (map (map (map (fwdFFT w))) g) []) [] = map (fwdFFT w) (ent g i j)) as EV.
  { intros i j Hi Hj. rewrite (nth_map_lt _ g i _ []) by lia. rewrite (nth_map_lt _ (nth i g []) j _ []) by (rewrite (proj1 (Hg i Hi)); lia). reflexivity. }
  assert (forall i j, (i <= k)%nat -> (j < L)%nat -> gshape N k (map (fwdFFT w) (ent g i j)) /\ peq Q (gph (map (fwdFFT w) (ent g i j))) (gph (ent g i j))) as PH.
  { intros i j Hi Hj. pose proof (glwe_shape w N k _ (proj2 (Hg i Hi) j Hj)) as Sh. split; [|now apply gphase_fwd; [exact HN|]].
    destruct Sh as (Sl & Sr). split; [now rewrite map_length|]. intros a Ha. rewrite nth_map_fwd. unfold fwdFFT. rewrite map_length. now apply Sr. }
  assert (forall j, (j < L)%nat -> lev_ok g j (lval j) R RS) as BL by (intros j Hj; apply B; lia).
  assert (exists e0 : nat -> npoly N, forall j, (j < L)%nat -> peq Q (gph (ent g 0 j)) (padd (pconst (lval j)) (e0 j)) /\ pbound R (e0 j)) as (e0 & E0).
  { apply (choice_fun pzero (fun j e => peq Q (gph (ent g 0 j)) (padd (pconst (lval j)) e) /\ pbound R e)). intros j Hj. destruct (BL j Hj) as ((r & Er & Br) & _). exists r. split; [rewrite <- Er; ring|exact Br]. }
  assert (exists e1 : nat -> nat -> npoly N, forall i, (i < k)%nat -> forall j, (j < L)%nat -> peq Q (gph (ent g (S i) j)) (padd (pmul (pconst (lval j)) (S_ i)) (e1 i j)) /\ pbound RS (e1 i j)) as (e1 & E1).
  { apply (choice_fun (fun _ => pzero) (fun i (f : nat -> npoly N) => forall j, (j < L)%nat -> peq Q (gph (ent g (S i) j)) (padd (pmul (pconst (lval j)) (S_ i)) (f j)) /\ pbound RS (f j))). intros i Hi.
    apply (choice_fun pzero (fun j e => peq Q (gph (ent g (S i) j)) (padd (pmul (pconst (lval j)) (S_ i)) e) /\ pbound RS e)). intros j Hj.
    destruct (BL j Hj) as (_ & H). destruct (H i Hi) as (r & Er & Br). exists r. split; [rewrite <- Er; ring|exact Br]. }
  exists (fun i => match i with O => e0 | S i => e1 i end). split; [|split; [intros j Hj; now apply E0|intros i j Hi Hj; now apply E1]].
  split; [now rewrite map_length|]. split.
  - split; [rewrite (nth_map_lt _ g 0 _ []) by lia; rewrite map_length; apply Hg; lia|]. intros j Hj. rewrite EV by lia. destruct (PH 0%nat j ltac:(lia) Hj) as (P1 & P2). split; [exact P1|].
    rewrite P2, (proj1 (E0 j Hj)). apply padd_proper; [|reflexivity]. intros x. apply eqm_eq. unfold lval. cbn [cf pconst pscale]. ring.
  - intros i Hi. split; [rewrite (nth_map_lt _ g (S i) _ []) by lia; rewrite map_length; apply Hg; lia|]. intros j Hj. rewrite EV by lia. destruct (PH (S i) j ltac:(lia) Hj) as (P1 & P2). split; [exact P1|].
    rewrite P2, (proj1 (E1 i Hi j Hj)). apply padd_proper; [|reflexivity]. rewrite <- pscale_mul_l. apply pmul_proper; [|reflexivity]. intros x. apply eqm_eq. unfold lval. cbn [cf pconst pscale]. ring.
Qed.
End Boot.

(** Key generation. *)
Lemma GenSchemeSwitchKey_spec w N k (logN : nat) sk U G pSS E buf st : 0 < w -> Z.of_nat N = 2 ^ Z.of_nat logN -> 0 < splitBitsShort (Z.of_nat logN) -> gadget_ok w pSS ->
  0 <= E -> (forall i, Z.abs (G i) <= E) -> skey N k sk -> (forall i, (i < k)%nat -> wpoly w N (nth i sk [])) -> gshape N k buf ->
  exists ssk buf' st', GenSchemeSwitchKey w N k logN pSS U G sk (map (fwdFFT w) sk) buf st = (ssk, (buf', st')) /\ scheme_key w N k pSS sk ssk E /\ gshape N k buf'.
Proof.
  intros Hw HNn Hlog Hok HE HG Hsk Ws Hb. assert (0 < N)%nat as HN by (pose proof (Z.pow_pos_nonneg 2 (Z.of_nat logN) ltac:(lia) ltac:(lia)); lia).
  unfold GenSchemeSwitchKey.
  pose (J := fun q (s : list (list (list (list (list Z)))) * (list (list Z) * rst)) => (q <= k)%nat -> length (fst s) = k /\ gshape N k (fst (snd s)) /\
    forall i, (i < q)%nat -> exists e, ggsw_enc w N k pSS sk (nth i (fst s) []) (pol N (nth i sk [])) e /\ forall a j, (a <= k)%nat -> (j < g_level pSS)%nat -> pbound E (e a j)).
  match goal with |- exists _ _ _, ?g = _ /\ _ => assert (J k g) as X end.
  { apply (forN_ind J).
    - intros _. cbn. split; [apply repeat_length|]. split; [exact Hb|]. intros i Hi. lia.
    - intros q (o, (bu, s)) Hq IH Hq1. destruct (IH ltac:(lia)) as (A & B & C). cbn [fst snd] in *. rewrite Nat.add_0_l.
      match goal with |- context [EncryptFFTGGSWPolyTo ?a1 ?a2 ?a3 ?a4 ?a5 ?a6 ?a7 ?a8 ?a9 ?b1 ?b2 ?b3] => destruct (EncryptFFTGGSWPolyTo a1 a2 a3 a4 a5 a6 a7 a8 a9 b1 b2 b3) as [g [bu' s']] eqn:Eg end.
      apply (EncryptFFTGGSWPolyTo_spec w Hw N HN k sk (Z.of_nat logN) Hlog U G pSS Hok) in Eg; [|assumption..| | |now apply Ws].
      + destruct Eg as (E1 & E2 & _). cbn [fst snd]. split; [now rewrite upd_length|]. split; [exact E2|]. intros i Hi. destruct (Nat.eq_dec i q) as [->|Hne].
        * rewrite nth_upd_same by lia. eexists. split; [exact E1|]. intros a j _ _. apply noisep_bound; [exact HN| |exact HE]. intros x _. apply HG.
        * rewrite nth_upd_other by lia. apply C. lia.
      + apply repeat_length.
      + intros i Hi. rewrite nth_repeat_lt by lia. split; [apply repeat_length|]. intros j Hj. rewrite nth_repeat_lt by exact Hj. split; [apply repeat_length|]. intros x Hx. rewrite nth_repeat_lt by lia. apply repeat_length. }
  match goal with |- exists _ _ _, ?g = _ /\ _ => destruct g as [ssk [bu s]] end. destruct (X ltac:(lia)) as (A & B & C). exists ssk, bu, s. split; [reflexivity|]. split; [exact C|exact B].
Qed.

Lemma GenCircuitBootstrapKey_spec w N k (logN : nat) sk U G pSS pT E buf st : 0 < w -> Z.of_nat logN <= 61 -> Z.of_nat N = 2 ^ Z.of_nat logN -> 0 < splitBitsShort (Z.of_nat logN) -> gadget_ok w pSS -> gadget_ok w pT ->
  0 <= E -> (forall i, Z.abs (G i) <= E) -> skey N k sk -> (forall i, (i < k)%nat -> wpoly w N (nth i sk [])) -> gshape N k buf ->
  exists ssk gal r, GenCircuitBootstrapKey w N k logN pSS pT U G sk (map (fwdFFT w) sk) buf st = Some (ssk, gal, r) /\ scheme_key w N k pSS sk ssk E /\
    (forall d, In d (packAuts logN) -> exists ksk, gal d = Some ksk /\ galois_key w N k pT sk d ksk E) /\ (forall d, ~ In d (packAuts logN) -> gal d = None).
Proof.
  intros Hw Hn HNn Hlog HokS HokT HE HG Hsk Ws Hb.
  destruct (GenSchemeSwitchKey_spec w N k logN sk U G pSS E buf st Hw HNn Hlog HokS HE HG Hsk Ws Hb) as (ssk & bu & s & E1 & S1 & G1).
  unfold GenCircuitBootstrapKey. rewrite E1.
  assert (Forall (fun d => Z.odd d = true) (packAuts logN)) as AO.
  { apply Forall_tab. intros i Hi. rewrite Z.odd_add. replace (Z.of_nat (logN - i)) with (1 + Z.of_nat (logN - i - 1)) by lia. rewrite Z.pow_add_r, Z.odd_mul by lia. reflexivity. }
  destruct (GenGaloisKeysTo_spec w N k (Z.of_nat logN) sk (Z.of_nat logN) U G pT E (packAuts logN) (fun _ => None) bu s Hw ltac:(lia) HNn Hlog HokT HE HG (proj1 Hsk) Ws G1 AO) as (gal & b2 & s2 & E2 & K1 & K2).
  unfold GenGaloisKeysForPack, GenGaloisKeys. rewrite E2. exists ssk, gal, (b2, s2). split; [reflexivity|]. split; [exact S1|]. split; assumption.
Qed.

Lemma newCBBuf_ok w N k C pOut n : 0 < w -> cb_buf_ok w N k C (g_level pOut) n (newCBBuf N k C pOut n).
Proof.
  intros Hw. unfold cb_buf_ok, newCBBuf. cbn [cb_fs cb_lut cb_ks cb_pack cb_rot cb_ggsw cb_bfv].
  assert (glwe_ct w N k (repeat (repeat 0 N) (S k))) as W.
  { split; [apply repeat_length|]. intros i Hi. rewrite nth_repeat_lt by lia. split; [apply repeat_length|]. apply Forall_forall. intros x Hx. apply repeat_spec in Hx. subst. split; [lia|apply Z.pow_pos_nonneg; lia]. }
  pose proof (glwe_shape w N k _ W) as G0.
  split. { split; [apply repeat_length|]. intros i x Hi. unfold funOf. rewrite nth_repeat_lt by exact Hi. split; [lia|apply Z.pow_pos_nonneg; lia]. }
  split; [apply repeat_length|]. split; [apply repeat_length|]. split; [exact G0|]. split; [exact G0|]. split; [|exact W].
  split; [apply repeat_length|]. intros i Hi. rewrite nth_repeat_lt by lia. split; [apply repeat_length|]. intros j Hj. rewrite nth_repeat_lt by exact Hj. exact W.
Qed.
