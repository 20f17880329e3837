From Verif Require Import Base NegaRing SpecNum ModelNum PfNum ModelVec SpecVec PfVec ModelPoly SpecPoly PfPoly PfPerm PfSplit ModelGadget SpecGadget PfGadget ModelParams ModelEncoder PfEncoder ModelLWE SpecLWE PfLWE PfLWE2 PfKS PfKS2 ModelGLWE SpecGLWE PfGLWE PfGLWE2 PfGLWE3 PfGLWE4 ModelBoot SpecBoot PfBoot2 PfBoot4 ModelPub SpecPub PfPub ModelMK SpecMK.

Section J.
Variable w : Z.
Notation Q := (2 ^ w).
Variable N : nat.
Hypothesis HN : (0 < N)%nat.
Add Ring nring : (@npoly_ring N Q) (setoid (@peq_equiv N Q) (@npoly_ring_ext N Q)).
Variable P : nat.
Variable bm : list bool.
Hypothesis Lbm : length bm = P.
Variable keys : list (list Z).
Notation sk := (jkey N bm keys).
Lemma jkey_on i : nth i bm false = true -> nth i sk [] = nth i keys [].
Proof.
  intros H. destruct (Nat.lt_ge_cases i P) as [Hi|Hi]; [|rewrite nth_overflow in H by lia; discriminate]. unfold jkey. rewrite nth_tab by lia. now rewrite H.
Qed.
Lemma jkey_off i : nth i bm false = false -> peq Q (pol N (nth i sk [])) pzero.
Proof.
  intros H. destruct (Nat.lt_ge_cases i P) as [Hi|Hi].
  - unfold jkey. rewrite nth_tab by lia. rewrite H. apply peq_0_any, (pol_zero N HN).
  - rewrite nth_overflow by (unfold jkey; rewrite tab_length; lia). apply (pol_peq N HN). intros i0 Hi0. unfold nthZ. rewrite nth_overflow by (cbn; lia). exists 0; reflexivity.
Qed.
Lemma ksum_ext x y : (forall i, (i <= P)%nat -> used bm i -> peq Q (x i) (y i)) -> peq Q (ksum N P sk x) (ksum N P sk y).
Proof.
  intros H. unfold ksum. rewrite (H O) by (lia || exact I). apply padd_proper; [reflexivity|]. apply psum_proper. intros i Hi. destruct (nth i bm false) eqn:E.
  - rewrite (H (S i)) by (lia || exact E). reflexivity.
  - rewrite (jkey_off i E). ring.
Qed.
Lemma ksum_add x y : peq Q (ksum N P sk (fun i => padd (x i) (y i))) (padd (ksum N P sk x) (ksum N P sk y)).
Proof.
  unfold ksum. rewrite (psum_proper Q P _ (fun i => padd (pmul (x (S i)) (pol N (nth i sk []))) (pmul (y (S i)) (pol N (nth i sk []))))) by (intros; ring).
  rewrite psum_add. ring.
Qed.
Lemma ksum_mul x m : peq Q (ksum N P sk (fun i => pmul m (x i))) (pmul m (ksum N P sk x)).
Proof.
  unfold ksum. rewrite (psum_proper Q P _ (fun i => pmul m (pmul (x (S i)) (pol N (nth i sk []))))) by (intros; ring). rewrite <- pmul_psum_r. ring.
Qed.
Lemma ksum_sub x y : peq Q (ksum N P sk (fun i => psub (x i) (y i))) (psub (ksum N P sk x) (ksum N P sk y)).
Proof.
  unfold ksum. rewrite (psum_proper Q P _ (fun i => psub (pmul (x (S i)) (pol N (nth i sk []))) (pmul (y (S i)) (pol N (nth i sk []))))) by (intros; ring).
  rewrite psum_sub. ring.
Qed.
Lemma gphase_ksum c : gphase N P sk c = ksum N P sk (fun i => pol N (nth i c [])).
Proof. reflexivity. Qed.

End J.

Section W.
Variable w : Z.
Hypothesis Hw : 0 < w.
Notation Q := (2 ^ w).
Variable N : nat.
Hypothesis HN : (0 < N)%nat.
Add Ring nring : (@npoly_ring N Q) (setoid (@peq_equiv N Q) (@npoly_ring_ext N Q)).
Notation NZ := (Z.of_nat N).
Variable P : nat.
Variable p : gadget.
Hypothesis Hok : gadget_ok w p.
Notation l := (g_level p).

Lemma fmulAdd_length o a b : length o = N -> length (fmulAdd N o a b) = N.
Proof. intros L. unfold fmulAdd. rewrite fadd_length, nmul_length, L. lia. Qed.
Lemma pol_fmulAdd o a b : length o = N -> peq Q (pol N (fmulAdd N o a b)) (padd (pol N o) (pmul (pol N a) (pol N b))).
Proof. intros L. unfold fmulAdd. rewrite (peq_0_any Q _ _ (pol_fadd N HN _ _ L (nmul_length N _ _))), (peq_0_any Q _ _ (pol_nmul N HN _ _)). reflexivity. Qed.

Lemma macLoop (f g : nat -> list Z) lo n acc : length acc = N -> let r := forN lo n (fun j o => fmulAdd N o (f j) (g j)) acc in
  length r = N /\ peq Q (pol N r) (padd (pol N acc) (psum n (fun j => pmul (pol N (f (lo + j)%nat)) (pol N (g (lo + j)%nat))))).
Proof.
  intros La. pose (I := fun (m : nat) r => length r = N /\ peq Q (pol N r) (padd (pol N acc) (psum m (fun j => pmul (pol N (f (lo + j)%nat)) (pol N (g (lo + j)%nat)))))).
  apply (forN_ind I); unfold I.
  - split; [exact La|]. cbn [psum]. ring.
  - intros m r Hm (A & B). split; [now apply fmulAdd_length|]. rewrite pol_fmulAdd, B by exact A. cbn [psum]. ring.
Qed.
Lemma prodRow_spec col lev fd D : isd w N p D fd -> length (prodRow N p col lev fd) = N /\
  peq Q (pol N (prodRow N p col lev fd)) (psum l (fun j => pmul (pol N (nth col (nth j lev []) [])) (D j))).
Proof.
  intros Hd. unfold prodRow. pose proof (lpos w p Hok) as Hl.
  destruct (macLoop (fun j => nth col (nth j lev []) []) (fun j => nth j fd []) 1 (l - 1) (fmul N (nth col (nth 0 lev []) []) (nth 0 fd [])) (nmul_length N _ _)) as (A & B).
  split; [exact A|]. rewrite B. replace l with (S (l - 1)) at 2 by lia. rewrite psum_S_l. unfold fmul. rewrite (peq_0_any Q _ _ (pol_nmul N HN _ _)), (Hd O) by lia.
  apply padd_proper; [reflexivity|]. apply psum_proper. intros j Hj. rewrite (Hd (1 + j)%nat) by lia. reflexivity.
Qed.

Section H.
Variable bm : list bool.
Hypothesis Lbm : length bm = P.
Variable crspk : list (list (list (list Z))).
Variable idx : nat.
Hypothesis Hidx : nth idx bm false = true.
Variables u0 u1 : list (list (list Z)).
Lemma idx_lt : (idx < P)%nat.
Proof. destruct (Nat.lt_ge_cases idx P); [assumption|]. rewrite nth_overflow in Hidx by lia. discriminate. Qed.

Variables buf ct : list (list Z).
Hypothesis Lbuf : length buf = S P.
Variable D : nat -> nat -> npoly N.
Hypothesis HD : forall i, used bm i -> isd w N p (D i) (fdigits w p (nth i ct [])).

Notation T i := (psum l (fun j => pmul (pol N (nth 0 (nth j u0 []) [])) (D i j))).
Notation BD i := (psum l (fun j => pmul (pol N (nth 0 (nth j (nth i crspk []) []) [])) (D (S i) j))).
Definition subVal : npoly N := psub (psum P (onActive bm (fun i => BD i))) (psum l (fun j => pmul (pol N (nth 1 (nth j (nth idx crspk []) []) [])) (D O j))).

Lemma hybrid_loops : exists v, wpoly w N v /\ peq Q (pol N v) subVal /\ forall Dv, isd w N p Dv (fdigits w p v) ->
  let acc := hybridFFT w N P p bm crspk idx u0 u1 buf ct in length acc = S P /\ forall i, (i <= P)%nat -> used bm i ->
   length (nth i acc []) = N /\
   peq Q (pol N (nth i acc [])) (padd (T i) (if Nat.eqb i 0 then psum l (fun j => pmul (pol N (nth 0 (nth j u1 []) [])) (Dv j)) else
     if Nat.eqb i (S idx) then psum l (fun j => pmul (pol N (nth 1 (nth j u1 []) [])) (Dv j)) else pzero)).
Proof.
  pose proof idx_lt as HiP. unfold hybridFFT. cbv zeta.
  destruct (prodRow_spec 0 u0 _ _ (HD O I)) as (LA & VA). destruct (prodRow_spec 1 (nth idx crspk []) _ _ (HD O I)) as (LB & VB).
  set (acc0 := upd buf 0 _). set (sub0 := fneg _).
  assert (length sub0 = N) as Ls0 by (unfold sub0; unfold fneg; now rewrite map_length).
  assert (peq Q (pol N sub0) (popp (psum l (fun j => pmul (pol N (nth 1 (nth j (nth idx crspk []) []) [])) (D O j))))) as Vs0.
  { unfold sub0. rewrite (peq_0_any Q _ _ (pol_fneg N HN _ LB)), VB. reflexivity. }
  pose (J := fun (m : nat) (s : list (list Z) * list Z) => length (fst s) = S P /\ length (snd s) = N /\
    peq Q (pol N (snd s)) (padd (pol N sub0) (psum m (onActive bm (fun i => BD i)))) /\
    forall i, (i <= m)%nat -> used bm i -> length (nth i (fst s) []) = N /\ peq Q (pol N (nth i (fst s) [])) (T i)).
  match goal with |- context [forN 0 P ?f (acc0, sub0)] => assert (J P (forN 0 P f (acc0, sub0))) as HJ end.
  { apply (forN_ind J).
    - unfold J. cbn [fst snd]. split; [unfold acc0; now rewrite upd_length|]. split; [exact Ls0|]. split; [cbn [psum]; ring|]. intros i Hi Hu. assert (i = O) as -> by lia.
      unfold acc0. rewrite nth_upd_same by lia. split; [exact LA|exact VA].
    - intros m (acc & sub) Hm (A & B & C & E). unfold J. cbn [fst snd Nat.add] in *. change (active bm m) with (nth m bm false). destruct (nth m bm false) eqn:Em.
      + cbn [fst snd]. split; [now rewrite upd_length|]. destruct (macLoop (fun j => nth 0 (nth j (nth m crspk []) []) []) (fun j => nth j (fdigits w p (nth (S m) ct [])) []) 0 l sub B) as (X & Y).
        split; [exact X|]. split.
        * rewrite Y, C. cbn [psum]. unfold onActive at 3. rewrite Em.
          rewrite (psum_proper Q l (fun j => pmul (pol N (nth 0 (nth (0 + j) (nth m crspk []) []) [])) (pol N (nth (0 + j) (fdigits w p (nth (S m) ct [])) []))) (fun j => pmul (pol N (nth 0 (nth j (nth m crspk []) []) [])) (D (S m) j))).
          { ring. } intros j Hj. cbn [Nat.add]. rewrite (HD (S m) Em j Hj). reflexivity.
        * intros i Hi Hu. destruct (Nat.eq_dec i (S m)) as [->|Hne].
          { rewrite nth_upd_same by lia. apply prodRow_spec. apply HD. exact Em. }
          rewrite nth_upd_other by lia. apply E; [lia|exact Hu].
      + cbn [fst snd]. split; [exact A|]. split; [exact B|]. split.
        * rewrite C. cbn [psum]. unfold onActive at 3. rewrite Em. ring.
        * intros i Hi Hu. destruct (Nat.eq_dec i (S m)) as [->|Hne]; [cbn in Hu; congruence|]. apply E; [lia|exact Hu]. }
  destruct (forN 0 P _ (acc0, sub0)) as (acc & sub). destruct HJ as (A & B & C & E). cbn [fst snd] in *.
  exists (invFFT w sub). split; [now apply wpoly_invFFT|]. split.
  { rewrite pol_invFFT by assumption. rewrite C, Vs0. unfold subVal. ring. }
  intros Dv HDv. set (fdv := fdigits w p (invFFT w sub)) in *.
  pose (K := fun (m : nat) (s : list (list Z)) => length s = S P /\ forall i, (i <= P)%nat -> used bm i -> length (nth i s []) = N /\
    peq Q (pol N (nth i s [])) (padd (T i) (if Nat.eqb i 0 then psum m (fun j => pmul (pol N (nth 0 (nth j u1 []) [])) (Dv j)) else
     if Nat.eqb i (S idx) then psum m (fun j => pmul (pol N (nth 1 (nth j u1 []) [])) (Dv j)) else pzero))).
  match goal with |- context [forN 0 l ?f acc] => enough (K l (forN 0 l f acc)) as HK by exact HK end.
  apply (forN_ind K).
  - split; [exact A|]. intros i Hi Hu. destruct (E i Hi Hu) as (E1 & E2). split; [exact E1|]. rewrite E2. destruct (Nat.eqb i 0), (Nat.eqb i (S idx)); cbn [psum]; ring.
  - intros m s Hm (X & Y). split; [now rewrite !upd_length|]. intros i Hi Hu. cbn [Nat.add] in *. destruct (Y i Hi Hu) as (Y1 & Y2).
    destruct (Nat.eqb_spec i 0) as [->|Hi0].
    + rewrite nth_upd_other by lia. rewrite nth_upd_same by lia. split; [now apply fmulAdd_length|]. rewrite pol_fmulAdd, Y2 by exact Y1. cbn [psum]. rewrite (HDv m Hm). ring.
    + destruct (Nat.eqb_spec i (S idx)) as [->|Hne].
      * rewrite nth_upd_same by (rewrite upd_length; lia). rewrite !(nth_upd_other s 0) by lia. split; [now apply fmulAdd_length|]. rewrite pol_fmulAdd, Y2 by exact Y1. cbn [psum]. rewrite (HDv m Hm). ring.
      * rewrite nth_upd_other by lia. rewrite nth_upd_other by lia. split; [exact Y1|]. exact Y2.
Qed.

(** ** Value of the product *)
Variable keys : list (list Z).
Notation sk := (jkey N bm keys).

Variables (a : nat -> npoly N) (r m : npoly N) (e e' : nat -> npoly N) (ep : nat -> nat -> npoly N) (R : nat -> npoly N).
Hypothesis Huni : uni_enc w N p a (nth idx keys []) r u0 u1 m e e'.
Hypothesis Hcrs : forall i, nth i bm false = true -> crs_enc w N p a (nth i keys []) (nth i crspk []) (ep i).
Hypothesis HR : forall i, (i <= P)%nat -> used bm i -> is_pdcmp w N p (nth i ct []) (D i) (R i).
Notation A i := (psum l (fun j => pmul (a j) (D i j))).

Lemma T_val i : (i <= P)%nat -> used bm i -> peq Q (T i) (padd (pmul m (psub (pol N (nth i ct [])) (R i))) (padd (pmul r (A i)) (dsumS p (D i) e))).
Proof.
  intros Hi Hu. destruct (HR i Hi Hu) as (_ & Hc & _). destruct Huni as (_ & H0 & _).
  rewrite (psum_proper Q l _ (fun j => padd (pmul m (pscale (2 ^ (w - (Z.of_nat j + 1) * g_logBase p)) (D i j))) (padd (pmul r (pmul (a j) (D i j))) (pmul (D i j) (e j))))).
  2:{ intros j Hj. destruct (H0 j Hj) as (_ & _ & ->). rewrite !pscale_mul. ring. }
  rewrite psum_add, psum_add, <- !pmul_psum_r, Hc. unfold dsumS. ring.
Qed.
Lemma sub_val : peq Q subVal (psub (psum P (onActive bm (fun i => dsumS p (D (S i)) (ep i)))) (ksum N P sk (fun i => A i))).
Proof.
  unfold subVal, ksum.
  rewrite (psum_proper Q l (fun j => pmul (pol N (nth 1 (nth j (nth idx crspk []) []) [])) (D O j)) (fun j => pmul (a j) (D O j))).
  2:{ intros j Hj. destruct (Hcrs idx Hidx j Hj) as (_ & -> & _). reflexivity. }
  rewrite (psum_proper Q P (onActive bm _) (fun i => psub (onActive bm (fun i => dsumS p (D (S i)) (ep i)) i) (pmul (A (S i)) (pol N (nth i sk []))))).
  { rewrite psum_sub. ring. }
  intros i Hi. unfold onActive. destruct (nth i bm false) eqn:Ei; [|rewrite (jkey_off w N HN P bm Lbm keys i Ei); ring].
  rewrite (jkey_on N HN P bm Lbm keys i Ei), pmul_psum_l. unfold dsumS. rewrite <- psum_sub. apply psum_proper. intros j Hj. destruct (Hcrs i Ei j Hj) as (_ & H1 & H2).
  revert H2. unfold gphase. cbn [psum nth]. rewrite H1. intros H2. rewrite <- H2. ring.
Qed.

Lemma hybrid_value : exists v, wpoly w N v /\ forall Dv rv, isd w N p Dv (fdigits w p v) -> is_pdcmp w N p v Dv rv ->
  let acc := hybridFFT w N P p bm crspk idx u0 u1 buf ct in length acc = S P /\
   (forall i, (i <= P)%nat -> used bm i -> length (nth i acc []) = N) /\
   peq Q (gphase N P sk acc) (hybridVal N P p bm sk (gphase N P sk ct) m r e e' ep D R Dv rv).
Proof.
  pose proof idx_lt as HiP. destruct hybrid_loops as (v & Hv & Ev & Hl). exists v. split; [exact Hv|]. intros Dv rv HDv Hrv. destruct (Hl Dv HDv) as (L & HA).
  cbv zeta. split; [exact L|]. split; [intros i Hi Hu; apply (HA i Hi Hu)|]. rewrite !gphase_ksum.
  set (U0 := psum l (fun j => pmul (pol N (nth 0 (nth j u1 []) [])) (Dv j))). set (U1 := psum l (fun j => pmul (pol N (nth 1 (nth j u1 []) [])) (Dv j))).
  rewrite (ksum_ext w N HN P bm Lbm keys _ (fun i => padd (padd (pmul m (psub (pol N (nth i ct [])) (R i))) (padd (pmul r (A i)) (dsumS p (D i) e))) (if Nat.eqb i 0 then U0 else if Nat.eqb i (S idx) then U1 else pzero))).
  2:{ intros i Hi Hu. rewrite (proj2 (HA i Hi Hu)). rewrite (T_val i Hi Hu). reflexivity. }
  rewrite !ksum_add, !ksum_mul, ksum_sub.
  assert (peq Q (ksum N P sk (fun i => if Nat.eqb i 0 then U0 else if Nat.eqb i (S idx) then U1 else pzero)) (padd (pmul r (psub subVal rv)) (dsumS p Dv e'))) as ->.
  { rewrite <- Ev. destruct Huni as (_ & _ & Hlev). rewrite <- (digits_glev w N 1 [nth idx keys []] p u1 r e' Dv v rv _ Hlev Hrv HDv).
    rewrite (psum_proper Q l _ (fun j => padd (pmul (pol N (nth 0 (nth j u1 []) [])) (Dv j)) (pmul (pol N (nth idx keys [])) (pmul (pol N (nth 1 (nth j u1 []) [])) (Dv j))))).
    2:{ intros j Hj. rewrite (HDv j Hj). unfold gphase. cbn [psum nth]. ring. }
    rewrite psum_add, <- pmul_psum_r. unfold ksum. cbn [Nat.eqb]. fold U0 U1. apply padd_proper; [reflexivity|].
    rewrite (psum_proper Q P _ (fun i => if Nat.eqb i idx then pmul (pol N (nth idx keys [])) U1 else pzero)).
    2:{ intros i Hi. cbn [Nat.eqb]. destruct (Nat.eqb_spec i idx) as [->|]; [rewrite (jkey_on N HN P bm Lbm keys idx Hidx)|]; ring. }
    clear -HiP. induction P as [|q IH]; [lia|]. cbn [psum]. destruct (Nat.eq_dec q idx) as [->|Hne].
    - rewrite Nat.eqb_refl. rewrite (psum_proper Q idx _ (fun _ => pzero)). 2:{ intros i Hi. destruct (Nat.eqb_spec i idx); [lia|reflexivity]. }
      assert (forall n, peq Q (psum n (fun _ : nat => @pzero N)) pzero) as Hz by (intros n; induction n; cbn [psum]; [reflexivity|rewrite IHn; ring]). rewrite Hz. ring.
    - rewrite IH by lia. destruct (Nat.eqb_spec q idx); [lia|ring]. }
  rewrite sub_val. unfold hybridVal. ring.
Qed.
End H.
End W.
