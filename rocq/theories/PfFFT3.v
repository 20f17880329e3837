(** Lemmas: folding, transforms of ring elements, pointwise operations, monomials, permutations, inverse transforms. *)
From Coq Require Import Ring_theory Ring.
From Verif Require Import Base NegaRing ModelNum ModelVec ModelFFT SpecVec SpecPoly SpecFFT PfNum PfVec PfPoly PfFFT PfFFT2.

Lemma forN_4 {X} n (body : nat -> nat -> X -> X) (body' : nat -> X -> X) st :
  (forall b c s, (b < n)%nat -> (c < 4)%nat -> body b c s = body' (4 * b + c)%nat s) ->
  forN 0 n (fun b s => forN 0 4 (body b) s) st = forN 0 (4 * n) body' st.
Proof.
  intros H. induction n as [|n IH]; [reflexivity|].
  rewrite forN_S_r, IH by (intros; apply H; lia). replace (4 * S n)%nat with (4 * n + 4)%nat by lia. rewrite forN_app.
  rewrite Nat.add_0_l. cbn [forN]. rewrite !H by lia.
  now replace (4 * n + 0)%nat with (4 * n)%nat by lia; replace (4 * n + 1)%nat with (S (4 * n)) by lia;
      replace (4 * n + 2)%nat with (S (S (4 * n))) by lia; replace (4 * n + 3)%nat with (S (S (S (4 * n)))) by lia.
Qed.
Lemma eqm_exact a b : eqm 0 a b -> a = b.
Proof. intros [k E]. lia. Qed.
Lemma twrap_cong sg w x y : eqm (2 ^ w) x y -> twrap sg w x = twrap sg w y.
Proof.
  intros H. destruct sg; cbn [twrap]; [|now apply eqm_mod_eq].
  unfold swrap. f_equal. apply eqm_mod_eq. now rewrite H.
Qed.

Section Lanes.
Variable A : arith.
Notation F := (car A).
Notation C := (F * F)%type.
Variable M : nat.
Hypothesis HM : (M mod 4 = 0)%nat.

Lemma lanes_spec n (step : nat -> C -> C) (body : nat -> nat -> list F -> list F) v : (4 * n = M)%nat ->
  (forall b c o, (b < n)%nat -> (c < 4)%nat -> body b c o =
     let '(x, y) := step (4 * b + c)%nat (nth (8 * b + c) o (a0 A), nth (8 * b + c + 4) o (a0 A)) in
     upd (upd o (8 * b + c) x) (8 * b + c + 4) y) ->
  length v = (2 * M)%nat ->
  length (forN 0 n (fun b o => forN 0 4 (body b) o) v) = (2 * M)%nat /\
  forall k, (k < M)%nat -> cplx A (forN 0 n (fun b o => forN 0 4 (body b) o) v) k = step k (cplx A v k).
Proof.
  intros Hn Hb Hv.
  rewrite (forN_4 n body (fun k o => let '(x, y) := step k (cplx A o k) in upd (upd o (L k) x) (L k + 4) y)).
  2:{ intros b c s Hbn Hc. rewrite Hb by assumption. unfold cplx. fold (L (4 * b + c)). rewrite L_block by exact Hc. reflexivity. }
  rewrite Hn.
  pose (P := fun (m : nat) (s : list F) => length s = (2 * M)%nat /\ forall k, (k < M)%nat ->
     cplx A s k = if Nat.ltb k m then step k (cplx A v k) else cplx A v k).
  assert (HP : P M
     (forN 0 M (fun k o => let '(x, y) := step k (cplx A o k) in upd (upd o (L k) x) (L k + 4) y) v)).
  { apply (forN_ind P); unfold P.
    - split; [exact Hv|]. reflexivity.
    - intros m s Hm [Hl H]. cbn [Nat.add]. destruct (step m (cplx A s m)) as [x y] eqn:E. split; [now rewrite !upd_length|].
      intros k Hk. rewrite (cplx_upd A _ M m x y k HM Hl Hm).
      rewrite (H m Hm), Nat.ltb_irrefl in E. destruct (Nat.eqb_spec k m) as [->|].
      + destruct (Nat.ltb_spec m (S m)); [congruence|lia].
      + rewrite H by exact Hk. destruct (Nat.ltb_spec k m), (Nat.ltb_spec k (S m)); try reflexivity; lia. }
  destruct HP as [Hl H]. split; [exact Hl|]. intros k Hk. rewrite H by exact Hk. destruct (Nat.ltb_spec k M); [reflexivity|lia].
Qed.

(** The plain vector written at k and k + M. *)
Lemma lanesZ_spec n (x y : nat -> Z -> Z) (body : nat -> nat -> list Z -> list Z) v : (4 * n = M)%nat ->
  (forall b c o, (b < n)%nat -> (c < 4)%nat -> body b c o =
     let o1 := upd o (4 * b + c) (x (4 * b + c)%nat (nthZ o (4 * b + c))) in
     upd o1 (4 * b + M + c) (y (4 * b + c)%nat (nthZ o1 (4 * b + M + c)))) ->
  length v = (2 * M)%nat ->
  length (forN 0 n (fun b o => forN 0 4 (body b) o) v) = (2 * M)%nat /\
  forall k, (k < M)%nat -> nthZ (forN 0 n (fun b o => forN 0 4 (body b) o) v) k = x k (nthZ v k) /\
                           nthZ (forN 0 n (fun b o => forN 0 4 (body b) o) v) (k + M) = y k (nthZ v (k + M)).
Proof.
  intros Hn Hb Hv.
  rewrite (forN_4 n body (fun k o => let o1 := upd o k (x k (nthZ o k)) in upd o1 (k + M) (y k (nthZ o1 (k + M))))).
  2:{ intros b c s Hbn Hc. rewrite Hb by assumption. replace (4 * b + M + c)%nat with (4 * b + c + M)%nat by lia. reflexivity. }
  rewrite Hn.
  pose (P := fun (m : nat) (s : list Z) => length s = (2 * M)%nat /\ forall k, (k < M)%nat ->
     nthZ s k = (if Nat.ltb k m then x k (nthZ v k) else nthZ v k) /\
     nthZ s (k + M) = (if Nat.ltb k m then y k (nthZ v (k + M)) else nthZ v (k + M))).
  assert (HP : P M
     (forN 0 M (fun k o => let o1 := upd o k (x k (nthZ o k)) in upd o1 (k + M) (y k (nthZ o1 (k + M)))) v)).
  { apply (forN_ind P); unfold P.
    - split; [exact Hv|]. intros; split; reflexivity.
    - intros m s Hm [Hl H]. cbn [Nat.add]. cbv zeta. split; [now rewrite !upd_length|].
      intros k Hk. rewrite !nthZ_upd by (rewrite ?upd_length; lia).
      destruct (H k Hk) as [H1 H2]. destruct (H m Hm) as [H3 H4]. rewrite Nat.ltb_irrefl in H3, H4.
      destruct (Nat.eqb_spec k (m + M)); [lia|]. destruct (Nat.eqb_spec (m + M) m); [lia|].
      destruct (Nat.eqb_spec (k + M) m); [lia|].
      destruct (Nat.eqb_spec k m) as [->|].
      + rewrite Nat.eqb_refl, H3, H4. destruct (Nat.ltb_spec m (S m)); [auto|lia].
      + destruct (Nat.eqb_spec (k + M) (m + M)); [lia|]. rewrite H1, H2.
        destruct (Nat.ltb_spec k m), (Nat.ltb_spec k (S m)); auto; lia. }
  destruct HP as [Hl H]. split; [exact Hl|]. intros k Hk. destruct (H k Hk) as [H1 H2]. destruct (Nat.ltb_spec k M); [auto|lia].
Qed.
End Lanes.

Section Tr.
Variable A : arith.
Notation F := (car A).
Notation C := (F * F)%type.
Variables (N lm : nat) (z : Z -> C).
Hypothesis Hex : exact A N z.
Hypothesis Hlm : (3 <= lm)%nat.
Hypothesis HN : N = (2 ^ S lm)%nat.
Let rth := ex_ring A N z Hex.
Add Ring Fring3 : rth.
Let crth := c_ring A rth.
Add Ring Cring3 : crth.
Notation M := (2 ^ lm)%nat.
Notation cadd := (cadd A).
Notation cmul := (cmul A).
Notation csub := (csub A).
Notation copp := (copp A).
Notation csum := (csum A).
Notation cplx := (cplx A).
Notation evalZ := (evalZ A N z).
Notation M4 := (M4 N lm Hlm HN).
Let NM := NM N lm HN.
Let NhalfM := NhalfM N lm HN.
Let zadd := ex_zadd A N z Hex.

Lemma N8 : ((N + 7) / 8 * 4 = M)%nat.
Proof.
  destruct (M8 N lm Hlm HN) as (g & EM & _ & _). rewrite NM, EM. replace ((2 * (8 * g) + 7) / 8)%nat with (2 * g)%nat by (apply (Nat.div_unique _ _ _ 7); lia). lia.
Qed.
Lemma N8' : (4 * ((N + 7) / 8) = M)%nat. Proof. rewrite Nat.mul_comm. apply N8. Qed.
Lemma N0 : (0 < N)%nat. Proof. rewrite NM. pose proof (Mpos lm). lia. Qed.
Lemma zI4 r : z (Z.of_nat M * (1 - 4 * r)) = cI A.
Proof.
  replace (Z.of_nat M * (1 - 4 * r)) with (Z.of_nat M + (- r) * (2 * Z.of_nat N)) by (rewrite NM; lia).
  rewrite (z_per A N lm z Hex Hlm HN). apply (zM A N lm z Hex Hlm HN).
Qed.

(* ------------------------------------------------------------------ *)
(** ** Folding *)
Lemma foldPolyTo_spec sg w (out : list F) p : length out = N ->
  length (foldPolyTo A sg w out p) = N /\
  forall k, (k < M)%nat -> cplx (foldPolyTo A sg w out p) k = (foldConv A sg w (nthZ p k), foldConv A sg w (nthZ p (k + M))).
Proof.
  intros Hl. unfold foldPolyTo. rewrite Hl, NhalfM. rewrite NM in Hl.
  destruct (lanes_spec A M M4 _ (fun k _ => (foldConv A sg w (nthZ p k), foldConv A sg w (nthZ p (k + M)%nat)))
    (fun b c o => upd (upd o (8 * b + c) (foldConv A sg w (nthZ p (4 * b + c)))) (8 * b + c + 4) (foldConv A sg w (nthZ p (4 * b + M + c)))) out N8') as [H1 H2].
  - intros b c o _ _. replace (4 * b + M + c)%nat with (4 * b + c + M)%nat by lia. reflexivity.
  - exact Hl.
  - split; [etransitivity; [exact H1|symmetry; exact NM]|exact H2].
Qed.

(** The value of a folded vector. *)
Lemma eval_fold (v : list F) (p : npoly N) r :
  (forall k, (k < M)%nat -> cplx v k = (aofZ A (cf p (Z.of_nat k)), aofZ A (cf p (Z.of_nat (k + M))))) ->
  csum M (fun q => cmul (cplx v q) (z (Z.of_nat q * (1 - 4 * r)))) = evalZ p (1 - 4 * r).
Proof.
  intros H. unfold SpecFFT.evalZ. replace N with (M + M)%nat at 1 by (rewrite NM; lia). rewrite (csum_app A rth), <- (csum_add A rth).
  apply csum_ext. intros q Hq. rewrite H by exact Hq.
  replace (Z.of_nat (M + q) * (1 - 4 * r)) with (Z.of_nat M * (1 - 4 * r) + Z.of_nat q * (1 - 4 * r)) by lia.
  rewrite zadd, zI4, (Nat.add_comm M q).
  unfold cI, cofF, SpecFFT.cmul, SpecFFT.cadd; cbn [fst snd]. f_equal; ring.
Qed.

Lemma transform_fwd tw (v : list F) (p : npoly N) : TWF A lm z lm tw -> length v = N ->
  (forall k, (k < M)%nat -> cplx v k = (aofZ A (cf p (Z.of_nat k)), aofZ A (cf p (Z.of_nat (k + M))))) ->
  transform A N z (fwdFFTInPlace A v tw) p.
Proof.
  intros Ht Hv Hc. destruct (fwdFFT_computes A N lm z Hlm HN tw Ht v Hv) as [H1 H2]. split; [exact H1|].
  intros n k r En Hr Hk. rewrite NhalfM in Hk. rewrite H2 by exact Hk. rewrite (fwdN_final A N lm z Hex Hlm HN) by exact Hk.
  assert (n = S lm) as -> by (rewrite HN in En; symmetry; apply (Nat.pow_inj_r 2); [lia|exact En]).
  replace (S lm - 1)%nat with lm in Hr by lia. assert (bitrev lm k = r) as ->.
  { apply (is_bitrev_unique lm k); [apply bitrev_spec|exact Hr]. }
  apply eval_fold. exact Hc.
Qed.

Lemma transform_at v p : transform A N z v p -> length v = N /\ forall k, (k < M)%nat -> cplx v k = evalZ p (1 - 4 * Z.of_nat (bitrev lm k)).
Proof.
  intros [H1 H2]. split; [exact H1|]. intros k Hk. apply (H2 (S lm)); [exact HN| |rewrite NhalfM; exact Hk].
  replace (S lm - 1)%nat with lm by lia. apply bitrev_spec.
Qed.
Lemma at_transform v p : length v = N -> (forall k, (k < M)%nat -> cplx v k = evalZ p (1 - 4 * Z.of_nat (bitrev lm k))) -> transform A N z v p.
Proof.
  intros Hl H. split; [exact Hl|]. intros n k r En Hr Hk. rewrite NhalfM in Hk.
  assert (n = S lm) as -> by (rewrite HN in En; symmetry; apply (Nat.pow_inj_r 2); [lia|exact En]).
  replace (S lm - 1)%nat with lm in Hr by lia. rewrite H by exact Hk.
  rewrite (is_bitrev_unique lm k (bitrev lm k) r) by (try apply bitrev_spec; exact Hr). reflexivity.
Qed.
Lemma transform_unique v v' p : transform A N z v p -> transform A N z v' p -> v = v'.
Proof.
  intros H H'. apply transform_at in H, H'. destruct H as [H1 H2], H' as [H1' H2']. rewrite NM in H1, H1'.
  apply (cplx_eq A _ _ M M4 H1 H1'). intros k Hk. rewrite H2, H2' by exact Hk. reflexivity.
Qed.

Lemma evalZ_ext p q e : (forall i, (i < N)%nat -> cf p (Z.of_nat i) = cf q (Z.of_nat i)) -> evalZ p e = evalZ q e.
Proof. intros H. apply csum_ext. intros i Hi. now rewrite H. Qed.
Lemma transform_ext v p q : (forall i, (i < N)%nat -> cf p (Z.of_nat i) = cf q (Z.of_nat i)) -> transform A N z v p -> transform A N z v q.
Proof. intros H [H1 H2]. split; [exact H1|]. intros. rewrite (H2 n k r) by assumption. now apply evalZ_ext. Qed.
Lemma transform_peq v p q : peq 0 p q -> transform A N z v p -> transform A N z v q.
Proof. intros H. apply transform_ext. intros i _. apply eqm_exact. apply H. Qed.

(* ------------------------------------------------------------------ *)
(** ** Evaluation is a ring homomorphism *)
Lemma of_opp a : aofZ A (- a) = aopp A (aofZ A a).
Proof.
  pose proof (ex_ofadd A N z Hex a (- a)) as H. rewrite Z.add_opp_diag_r, (ex_of0 A N z Hex) in H.
  transitivity (asub A (aadd A (aofZ A a) (aofZ A (- a))) (aofZ A a)); [ring|]. rewrite <- H. ring.
Qed.
Lemma of_sub a b : aofZ A (a - b) = asub A (aofZ A a) (aofZ A b).
Proof. replace (a - b) with (a + - b) by lia. rewrite (ex_ofadd A N z Hex), of_opp. ring. Qed.
Lemma cof_add a b : cofF A (aofZ A (a + b)) = cadd (cofF A (aofZ A a)) (cofF A (aofZ A b)).
Proof. rewrite (ex_ofadd A N z Hex). unfold cofF, SpecFFT.cadd; cbn [fst snd]. f_equal; ring. Qed.
Lemma cof_opp a : cofF A (aofZ A (- a)) = copp (cofF A (aofZ A a)).
Proof. rewrite of_opp. unfold cofF, PfFFT.copp; cbn [fst snd]. f_equal; ring. Qed.
Lemma cof_mul a b : cofF A (aofZ A (a * b)) = cmul (cofF A (aofZ A a)) (cofF A (aofZ A b)).
Proof. rewrite (ex_ofmul A N z Hex). unfold cofF, SpecFFT.cmul; cbn [fst snd]. f_equal; ring. Qed.
Lemma cof_0 : cofF A (aofZ A 0) = c0 A.
Proof. rewrite (ex_of0 A N z Hex). reflexivity. Qed.
Lemma cof_zsum n f : cofF A (aofZ A (zsum n f)) = csum n (fun i => cofF A (aofZ A (f i))).
Proof. induction n as [|n IH]; [apply cof_0|]. cbn [zsum SpecFFT.csum]. rewrite cof_add, IH. reflexivity. Qed.

Lemma evalZ_add p q e : evalZ (padd p q) e = cadd (evalZ p e) (evalZ q e).
Proof. unfold SpecFFT.evalZ. rewrite <- (csum_add A rth). apply csum_ext. intros i Hi. cbn [cf padd]. rewrite cof_add. ring. Qed.
Lemma evalZ_opp p e : evalZ (popp p) e = copp (evalZ p e).
Proof.
  unfold SpecFFT.evalZ. transitivity (cmul (copp (c1 A)) (csum N (fun n => cmul (cofF A (aofZ A (cf p (Z.of_nat n)))) (z (Z.of_nat n * e))))); [|ring].
  rewrite <- (csum_mul_l A rth). apply csum_ext. intros i Hi. cbn [cf popp]. rewrite cof_opp. ring.
Qed.
Lemma evalZ_sub p q e : evalZ (psub p q) e = csub (evalZ p e) (evalZ q e).
Proof.
  transitivity (evalZ (padd p (popp q)) e); [apply evalZ_ext; intros; cbn [cf padd popp psub]; lia|].
  rewrite evalZ_add, evalZ_opp. ring.
Qed.
Lemma evalZ_scale c p e : evalZ (pscale c p) e = cmul (cofF A (aofZ A c)) (evalZ p e).
Proof. unfold SpecFFT.evalZ. rewrite <- (csum_mul_l A rth). apply csum_ext. intros i Hi. cbn [cf pscale]. rewrite cof_mul. ring. Qed.
Lemma evalZ_zero e : evalZ pzero e = c0 A.
Proof. unfold SpecFFT.evalZ. rewrite <- (csum_zero A rth N). apply csum_ext. intros i Hi. cbn [cf pzero]. rewrite cof_0. ring. Qed.
Lemma evalZ_psum n f e : evalZ (psum n f) e = csum n (fun i => evalZ (f i) e).
Proof. induction n as [|n IH]; cbn [psum SpecFFT.csum]; [apply evalZ_zero|]. rewrite evalZ_add, IH. reflexivity. Qed.

(** k -> cf p k * z(k e) has period N for odd e. *)
Lemma eval_periodic (p : npoly N) o k : cmul (cofF A (aofZ A (cf p (k + Z.of_nat N)))) (z ((k + Z.of_nat N) * (2 * o + 1)))
  = cmul (cofF A (aofZ A (cf p k))) (z (k * (2 * o + 1))).
Proof.
  rewrite cf_anti, cof_opp. replace ((k + Z.of_nat N) * (2 * o + 1)) with (k * (2 * o + 1) + (2 * o + 1) * Z.of_nat N) by lia.
  rewrite (z_odd A N lm z Hex Hlm HN). ring.
Qed.
Lemma evalZ_shift d (p : npoly N) o : evalZ (pshift d p) (2 * o + 1) = cmul (z (d * (2 * o + 1))) (evalZ p (2 * o + 1)).
Proof.
  unfold SpecFFT.evalZ. rewrite <- (csum_mul_l A rth).
  rewrite <- (csum_shift A rth N (fun k => cmul (z (d * (2 * o + 1))) (cmul (cofF A (aofZ A (cf p k))) (z (k * (2 * o + 1))))) (- d)).
  - apply csum_ext. intros i Hi. cbn [cf pshift]. replace (Z.of_nat i - d) with (Z.of_nat i + - d) by lia.
    replace (Z.of_nat i * (2 * o + 1)) with (d * (2 * o + 1) + (Z.of_nat i + - d) * (2 * o + 1)) by lia. rewrite zadd. ring.
  - intros k. rewrite eval_periodic. reflexivity.
Qed.
Lemma evalZ_mul (p q : npoly N) o : evalZ (pmul p q) (2 * o + 1) = cmul (evalZ p (2 * o + 1)) (evalZ q (2 * o + 1)).
Proof.
  transitivity (csum N (fun i => cmul (cmul (cofF A (aofZ A (cf p (Z.of_nat i)))) (z (Z.of_nat i * (2 * o + 1)))) (evalZ q (2 * o + 1)))).
  2:{ rewrite (csum_mul_r A rth). reflexivity. }
  unfold SpecFFT.evalZ at 1.
  transitivity (csum N (fun k => csum N (fun i => cmul (cmul (cofF A (aofZ A (cf p (Z.of_nat i)))) (cofF A (aofZ A (cf q (Z.of_nat k - Z.of_nat i))))) (z (Z.of_nat k * (2 * o + 1)))))).
  { apply csum_ext. intros k Hk. cbn [cf pmul]. rewrite cof_zsum, <- (csum_mul_r A rth). apply csum_ext. intros i Hi. rewrite cof_mul. ring. }
  rewrite (csum_swap A rth). apply csum_ext. intros i Hi.
  assert (HS := evalZ_shift (Z.of_nat i) q o).
  transitivity (cmul (cofF A (aofZ A (cf p (Z.of_nat i)))) (evalZ (pshift (Z.of_nat i) q) (2 * o + 1))).
  - unfold SpecFFT.evalZ. rewrite <- (csum_mul_l A rth). apply csum_ext. intros k Hk. cbn [cf pshift]. ring.
  - rewrite HS. ring.
Qed.
Lemma evalZ_one e : evalZ pone e = c1 A.
Proof.
  unfold SpecFFT.evalZ. pose proof N0. rewrite (csum_single A rth N _ 0%nat H).
  - cbn [cf pone]. unfold one_cf. destruct (Z.eqb_spec (Z.of_nat N) 0); [lia|]. rewrite Z.mod_0_l by lia. cbn [Z.of_nat Z.eqb].
    rewrite Z.mul_0_l, (ex_z0 A N z Hex), (ex_of1 A N z Hex). change (cofF A (a1 A)) with (c1 A). ring.
  - intros i Hi Hne. cbn [cf pone]. unfold one_cf. destruct (Z.eqb_spec (Z.of_nat N) 0); [lia|]. rewrite Z.mod_small by lia.
    destruct (Z.eqb_spec (Z.of_nat i) 0); [lia|]. destruct (Z.eqb_spec (Z.of_nat i) (Z.of_nat N)); [lia|]. rewrite cof_0. ring.
Qed.
Lemma evalZ_mono d o : evalZ (pmono d) (2 * o + 1) = z (d * (2 * o + 1)).
Proof. unfold pmono. rewrite evalZ_shift, evalZ_one. ring. Qed.
Lemma evalZ_subst d p o : d mod 2 = 1 -> evalZ (psubst d p) (2 * o + 1) = evalZ p (d * (2 * o + 1)).
Proof.
  intros Hd. unfold psubst. rewrite evalZ_psum. apply csum_ext. intros i Hi. rewrite evalZ_scale, evalZ_mono. do 2 f_equal. lia.
Qed.
Lemma evalZ_conj (p : npoly N) e : evalZ p (- e) = conj A (evalZ p e).
Proof.
  unfold SpecFFT.evalZ. rewrite (csum_conj A rth). apply csum_ext. intros i Hi. rewrite (conj_mul A rth), (conj_of A rth).
  rewrite <- (ex_zconj A N z Hex). do 2 f_equal. lia.
Qed.
Lemma evalZ_eqm p e e' : eqm (2 * Z.of_nat N) e e' -> evalZ p e = evalZ p e'.
Proof.
  intros H. apply csum_ext. intros i Hi. f_equal. apply (z_eqm A N lm z Hex Hlm HN). now rewrite H.
Qed.

Lemma odd_pt r : 1 - 4 * r = 2 * (- 2 * r) + 1. Proof. lia. Qed.

(* ------------------------------------------------------------------ *)
(** ** Pointwise operations *)
Lemma cmplxLoop_spec f (o v0 v1 : list F) : length o = N ->
  length (cmplxLoop A f o v0 v1) = N /\ forall k, (k < M)%nat -> cplx (cmplxLoop A f o v0 v1) k = f (cplx o k) (cplx v0 k) (cplx v1 k).
Proof.
  intros Hl. unfold cmplxLoop. rewrite Hl. rewrite NM in Hl.
  destruct (lanes_spec A M M4 _ (fun k a => f a (cplx v0 k) (cplx v1 k))
    (fun b c o => let i := (8 * b + c)%nat in let at_ v := (nth i v (a0 A), nth (i + 4) v (a0 A)) in
      let '(x, y) := f (at_ o) (at_ v0) (at_ v1) in upd (upd o i x) (i + 4) y) o N8') as [H1 H2].
  - intros b c o' _ Hc. cbv zeta. unfold SpecFFT.cplx. fold (L (4 * b + c)). rewrite L_block by exact Hc. reflexivity.
  - exact Hl.
  - split; [etransitivity; [exact H1|symmetry; exact NM]|exact H2].
Qed.

(** A pointwise operation that matches a ring operation maps transforms to transforms. *)
Lemma loop_transform f (op : npoly N -> npoly N -> npoly N -> npoly N) o v0 v1 po p0 p1 :
  (forall q0 q1 q2 k, evalZ (op q0 q1 q2) (2 * k + 1) = f (evalZ q0 (2 * k + 1)) (evalZ q1 (2 * k + 1)) (evalZ q2 (2 * k + 1))) ->
  transform A N z o po -> transform A N z v0 p0 -> transform A N z v1 p1 ->
  transform A N z (cmplxLoop A f o v0 v1) (op po p0 p1).
Proof.
  intros Hop Ho H0 H1. apply transform_at in Ho, H0, H1. destruct Ho as [Lo Eo], H0 as [L0 E0], H1 as [L1 E1].
  destruct (cmplxLoop_spec f o v0 v1 Lo) as [HL HE]. apply at_transform; [exact HL|]. intros k Hk.
  rewrite HE, Eo, E0, E1 by exact Hk. rewrite odd_pt. symmetry. apply Hop.
Qed.
(** The same when the old output is not read. *)
Lemma loop_transform0 f (op : npoly N -> npoly N -> npoly N) (o v0 v1 : list F) p0 p1 :
  (forall q1 q2 k, evalZ (op q1 q2) (2 * k + 1) = f (evalZ q1 (2 * k + 1)) (evalZ q2 (2 * k + 1))) ->
  length o = N -> transform A N z v0 p0 -> transform A N z v1 p1 ->
  transform A N z (cmplxLoop A (fun _ => f) o v0 v1) (op p0 p1).
Proof.
  intros Hop Lo H0 H1. apply transform_at in H0, H1. destruct H0 as [L0 E0], H1 as [L1 E1].
  destruct (cmplxLoop_spec (fun _ => f) o v0 v1 Lo) as [HL HE]. apply at_transform; [exact HL|]. intros k Hk.
  rewrite HE, E0, E1 by exact Hk. rewrite odd_pt. symmetry. apply Hop.
Qed.

Lemma add_transform o v0 v1 p0 p1 : length o = N -> transform A N z v0 p0 -> transform A N z v1 p1 -> transform A N z (addCmplxTo A o v0 v1) (padd p0 p1).
Proof. apply loop_transform0. intros. apply evalZ_add. Qed.
Lemma sub_transform o v0 v1 p0 p1 : length o = N -> transform A N z v0 p0 -> transform A N z v1 p1 -> transform A N z (subCmplxTo A o v0 v1) (psub p0 p1).
Proof. apply loop_transform0. intros. apply evalZ_sub. Qed.
Lemma neg_transform o v0 p0 : length o = N -> transform A N z v0 p0 -> transform A N z (negCmplxTo A o v0) (popp p0).
Proof. intros Hl H. apply (loop_transform0 (fun a _ => (aopp A (fst a), aopp A (snd a))) (fun p _ => popp p) o v0 v0 p0 p0); auto. intros. apply evalZ_opp. Qed.
Lemma mul_transform o v0 v1 p0 p1 : length o = N -> transform A N z v0 p0 -> transform A N z v1 p1 -> transform A N z (mulCmplxTo A o v0 v1) (pmul p0 p1).
Proof. apply (loop_transform0 (cmulG A)). intros. apply evalZ_mul. Qed.
Lemma mulAdd_transform o v0 v1 po p0 p1 : transform A N z o po -> transform A N z v0 p0 -> transform A N z v1 p1 ->
  transform A N z (mulAddCmplxTo A o v0 v1) (padd po (pmul p0 p1)).
Proof. apply (loop_transform (fun o a b => cadd2 A o (cmulG A a b)) (fun po p0 p1 => padd po (pmul p0 p1))). intros. rewrite evalZ_add, evalZ_mul. reflexivity. Qed.
Lemma mulSub_transform o v0 v1 po p0 p1 : transform A N z o po -> transform A N z v0 p0 -> transform A N z v1 p1 ->
  transform A N z (mulSubCmplxTo A o v0 v1) (psub po (pmul p0 p1)).
Proof. apply (loop_transform (fun o a b => csub2 A o (cmulG A a b)) (fun po p0 p1 => psub po (pmul p0 p1))). intros. rewrite evalZ_sub, evalZ_mul. reflexivity. Qed.
Lemma cof_scale c x : cmul (cofF A c) x = (amul A c (fst x), amul A c (snd x)).
Proof. unfold SpecFFT.cmul, cofF; cbn [fst snd]. f_equal; ring. Qed.
Lemma floatMul_transform o v p c : length o = N -> transform A N z v p -> transform A N z (floatMulCmplxTo A o v (aofZ A c)) (pscale c p).
Proof.
  intros Hl H. apply (loop_transform0 (fun a _ => (amul A (aofZ A c) (fst a), amul A (aofZ A c) (snd a))) (fun p _ => pscale c p) o v v p p); auto.
  intros. rewrite evalZ_scale. apply cof_scale.
Qed.
Lemma floatMulAdd_transform o v po p c : transform A N z o po -> transform A N z v p ->
  transform A N z (floatMulAddCmplxTo A o v (aofZ A c)) (padd po (pscale c p)).
Proof.
  intros Hl H. apply (loop_transform (fun o a _ => (aadd A (fst o) (amul A (aofZ A c) (fst a)), aadd A (snd o) (amul A (aofZ A c) (snd a))))
    (fun po p _ => padd po (pscale c p)) o v v po p p); auto.
  intros. rewrite evalZ_add, evalZ_scale, cof_scale. reflexivity.
Qed.
Lemma floatMulSub_transform o v po p c : transform A N z o po -> transform A N z v p ->
  transform A N z (floatMulSubCmplxTo A o v (aofZ A c)) (psub po (pscale c p)).
Proof.
  intros Hl H. apply (loop_transform (fun o a _ => (asub A (fst o) (amul A (aofZ A c) (fst a)), asub A (snd o) (amul A (aofZ A c) (snd a))))
    (fun po p _ => psub po (pscale c p)) o v v po p p); auto.
  intros. rewrite evalZ_sub, evalZ_scale, cof_scale. reflexivity.
Qed.

(* ------------------------------------------------------------------ *)
(** ** Inverse transform *)
Definition foldedList (p : npoly N) : list F :=
  foldPolyTo A true 64 (repeat (a0 A) N) (tab N (fun i => cf p (Z.of_nat i))).
Lemma foldedList_spec p : length (foldedList p) = N /\ forall k, (k < M)%nat -> cplx (foldedList p) k = (aofZ A (cf p (Z.of_nat k)), aofZ A (cf p (Z.of_nat (k + M)))).
Proof.
  destruct (foldPolyTo_spec true 64 (repeat (a0 A) N) (tab N (fun i => cf p (Z.of_nat i))) (repeat_length _ _)) as [H1 H2].
  split; [exact H1|]. intros k Hk. unfold foldedList. rewrite H2 by exact Hk. unfold foldConv. pose proof NM. rewrite !nthZ_tab by lia. reflexivity.
Qed.
Lemma inv_transform tw twInv v p : TWF A lm z lm tw -> TWI A lm z 0 twInv -> transform A N z v p ->
  length (invFFTInPlace A v twInv) = N /\
  forall k, (k < M)%nat -> cplx (invFFTInPlace A v twInv) k = (aofZ A (cf p (Z.of_nat k)), aofZ A (cf p (Z.of_nat (k + M)))).
Proof.
  intros HF HI Hv. destruct (foldedList_spec p) as [H1 H2].
  pose proof (transform_fwd tw (foldedList p) p HF H1 H2) as HT. rewrite (transform_unique v _ p Hv HT).
  rewrite (net_inverse A N lm z Hex Hlm HN tw twInv (foldedList p) HF HI H1). auto.
Qed.

Lemma transform_inj (Hinj : forall a b, aofZ A a = aofZ A b -> a = b) tw twInv v p q :
  TWF A lm z lm tw -> TWI A lm z 0 twInv -> transform A N z v p -> transform A N z v q -> peq 0 p q.
Proof.
  intros HF HI Hp Hq. destruct (inv_transform tw twInv v p HF HI Hp) as [_ H1]. destruct (inv_transform tw twInv v q HF HI Hq) as [_ H2].
  apply (peq_coeffs 0 p q N0). intros i Hi. apply eqm_eq. pose proof NM. destruct (Nat.lt_ge_cases i M) as [Hk|Hk].
  - specialize (H1 i Hk). specialize (H2 i Hk). rewrite H1 in H2. injection H2 as E1 _. auto.
  - specialize (H1 (i - M)%nat ltac:(lia)). specialize (H2 (i - M)%nat ltac:(lia)). rewrite H1 in H2. injection H2 as _ E1.
    replace (i - M + M)%nat with i in E1 by lia. auto.
Qed.

Variable Hround : forall x, around A (aofZ A x) = x.

Lemma floatModQ_of w x : 0 <= w -> exists r, floatModQ A w (aofZ A x) = aofZ A (x - 2 ^ w * r).
Proof.
  intros Hw. unfold floatModQ. set (r := around A (adivn A (aofZ A x) (2 ^ w))). exists r.
  rewrite <- (ex_ofmul A N z Hex), <- of_sub, Hround. reflexivity.
Qed.

Lemma floatModQ_round sg w x : 0 <= w -> twrap sg w (around A (floatModQ A w (aofZ A x))) = twrap sg w x.
Proof.
  intros Hw. destruct (floatModQ_of w x Hw) as [r ->]. rewrite Hround. apply twrap_cong. exists (- r). lia.
Qed.

(** The coefficients written by the inverse transform. *)
Lemma unfold_transform (acc : Z -> Z -> Z) sg w tw twInv v p out : 0 <= w -> TWF A lm z lm tw -> TWI A lm z 0 twInv ->
  transform A N z v p -> length out = N ->
  unfoldPoly A acc sg w out (floatModQInPlace A w (invFFTInPlace A v twInv)) =
  tab N (fun i => acc (nthZ out i) (twrap sg w (cf p (Z.of_nat i)))).
Proof.
  intros Hw HF HI Hv Ho. destruct (inv_transform tw twInv v p HF HI Hv) as [H1 H2].
  set (u := invFFTInPlace A v twInv) in *. clearbody u.
  set (u' := floatModQInPlace A w u) in *.
  assert (Hl : length u' = N) by (unfold u', floatModQInPlace; rewrite map_length; exact H1).
  assert (Hu : forall k, (k < M)%nat -> twrap sg w (around A (fst (cplx u' k))) = twrap sg w (cf p (Z.of_nat k)) /\
                                       twrap sg w (around A (snd (cplx u' k))) = twrap sg w (cf p (Z.of_nat (k + M)))).
  { intros k Hk. unfold u', floatModQInPlace. rewrite (cplx_map A N lm Hlm HN) by assumption. rewrite H2 by exact Hk. cbn [fst snd].
    split; apply floatModQ_round; exact Hw. }
  clearbody u'. unfold unfoldPoly. rewrite Hl, NhalfM.
  destruct (lanesZ_spec M M4 _ (fun k o => acc o (twrap sg w (around A (fst (cplx u' k))))) (fun k o => acc o (twrap sg w (around A (snd (cplx u' k)))))
    (fun b c o => let o := upd o (4 * b + c) (acc (nthZ o (4 * b + c)) (twrap sg w (around A (nth (8 * b + c) u' (a0 A))))) in
      upd o (4 * b + M + c) (acc (nthZ o (4 * b + M + c)) (twrap sg w (around A (nth (8 * b + c + 4) u' (a0 A)))))) out N8') as [H3 H4].
  - intros b c o _ Hc. unfold SpecFFT.cplx. fold (L (4 * b + c)). rewrite L_block by exact Hc. reflexivity.
  - rewrite <- NM. exact Ho.
  - cbv beta in H3, H4. set (res := forN 0 ((N + 7) / 8) _ out) in *. clearbody res.
    pose proof NM. apply nthZ_ext; [rewrite tab_length; lia|]. intros i Hi. rewrite nthZ_tab by lia.
    destruct (Nat.lt_ge_cases i M) as [Hk|Hk].
    + destruct (H4 i Hk) as [-> _]. destruct (Hu i Hk) as [-> _]. reflexivity.
    + destruct (H4 (i - M)%nat ltac:(lia)) as [_ E]. replace (i - M + M)%nat with i in E by lia. rewrite E.
      destruct (Hu (i - M)%nat ltac:(lia)) as [_ ->]. replace (i - M + M)%nat with i by lia. reflexivity.
Qed.
End Tr.

(* ------------------------------------------------------------------ *)
(** ** bits.Reverse64 *)
Lemma Reverse64_loop x n : (n <= 64)%nat -> forall i, 0 <= i ->
  Z.testbit (forN 0 n (fun i r => Z.lor (Z.shiftl r 1) (Z.land (Z.shiftr x (Z.of_nat i)) 1)) 0) i =
  (i <? Z.of_nat n) && Z.testbit x (Z.of_nat n - 1 - i).
Proof.
  intros Hn. induction n as [|n IH]; intros i Hi.
  - cbn [forN]. rewrite Z.bits_0. destruct (Z.ltb_spec i (Z.of_nat 0)); [lia|reflexivity].
  - rewrite forN_S_r. cbn [Nat.add]. rewrite Z.lor_spec, Z.land_spec.
    destruct (Z.eq_dec i 0) as [->|Hi0].
    + rewrite Z.shiftl_spec by lia. rewrite (Z.testbit_neg_r _ (0 - 1)) by lia. cbn [orb].
      rewrite Z.shiftr_spec by lia. change (Z.testbit 1 0) with true. rewrite andb_true_r.
      destruct (Z.ltb_spec 0 (Z.of_nat (S n))); [|lia]. cbn [andb]. f_equal. lia.
    + rewrite Z.shiftl_spec by lia. rewrite IH by lia.
      assert (Z.testbit 1 i = false) as ->. { apply Z.bits_above_log2; [lia|]. change (Z.log2 1) with 0. lia. }
      rewrite andb_false_r, orb_false_r.
      destruct (Z.ltb_spec (i - 1) (Z.of_nat n)), (Z.ltb_spec i (Z.of_nat (S n))); cbn [andb]; [f_equal; lia|lia|lia|reflexivity].
Qed.
Lemma Reverse64_spec x i : 0 <= i -> Z.testbit (Reverse64 x) i = (i <? 64) && Z.testbit x (63 - i).
Proof. intros Hi. unfold Reverse64. rewrite (Reverse64_loop x 64 (le_n _) i Hi). reflexivity. Qed.

Lemma testbit_nat a n : Z.testbit (Z.of_nat a) (Z.of_nat n) = Nat.testbit a n.
Proof.
  rewrite Z.testbit_eqb by lia. rewrite Nat.testbit_eqb.
  replace (2 ^ Z.of_nat n) with (Z.of_nat (2 ^ n)) by (rewrite Nat2Z.inj_pow; reflexivity).
  rewrite <- Nat2Z.inj_div. change 2 with (Z.of_nat 2). rewrite <- Nat2Z.inj_mod.
  destruct (Nat.eqb_spec ((a / 2 ^ n) mod 2) 1) as [->|H]; [reflexivity|]. apply Z.eqb_neq. lia.
Qed.
Lemma Reverse64_bitrev lm (k : nat) : (lm <= 64)%nat -> (k < 2 ^ lm)%nat ->
  Z.shiftr (Reverse64 (Z.of_nat k)) (64 - Z.of_nat lm) = Z.of_nat (bitrev lm k).
Proof.
  intros Hlm Hk. apply Z.bits_inj'. intros i Hi.
  rewrite Z.shiftr_spec by exact Hi. rewrite Reverse64_spec by lia.
  destruct (bitrev_spec lm k) as [HB1 HB2].
  destruct (Z_lt_ge_dec i (Z.of_nat lm)) as [H|H].
  - destruct (Z.ltb_spec (i + (64 - Z.of_nat lm)) 64); [|lia]. cbn [andb].
    replace (63 - (i + (64 - Z.of_nat lm))) with (Z.of_nat (lm - 1 - Z.to_nat i)) by lia.
    replace i with (Z.of_nat (Z.to_nat i)) at 2 by lia.
    rewrite !testbit_nat. symmetry. apply HB2. lia.
  - destruct (Z.ltb_spec (i + (64 - Z.of_nat lm)) 64); [lia|]. cbn [andb]. symmetry.
    destruct (Z.eq_dec (Z.of_nat (bitrev lm k)) 0) as [E|E]; [rewrite E; apply Z.bits_0|].
    apply Z.bits_above_log2; [lia|]. apply (Z.lt_le_trans _ (Z.of_nat lm)); [|lia].
    apply Z.log2_lt_pow2; [lia|]. change 2 with (Z.of_nat 2). rewrite <- Nat2Z.inj_pow. lia.
Qed.
