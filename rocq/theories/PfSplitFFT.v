(** Lemmas: split multiplication on float transforms gives the integer result. *)
From Verif Require Import Base NegaRing ModelNum ModelVec ModelPoly ModelFFT ModelSplitFFT SpecNum SpecVec SpecPoly SpecFFT SpecFFTReal SpecRound
  PfNum PfVec PfPoly PfSplit PfFFT PfFFT2 PfFFT3 PfFFT4 PfFFT6 PfFFTReal PfNetGen PfNetGen2 PfNorm PfErr PfErr2 PfRoundQ PfErr3 PfErr4.
From Coq Require Import Reals Lra Lia.
Open Scope R_scope.

Lemma forN_rel {S T} (P : nat -> S -> T -> Prop) lo n f g s t : P O s t ->
  (forall i s t, (i < n)%nat -> P i s t -> P (Datatypes.S i) (f (lo + i)%nat s) (g (lo + i)%nat t)) -> P n (forN lo n f s) (forN lo n g t).
Proof.
  intros H0 HS. induction n as [|n IH]; [exact H0|]. rewrite !forN_S_r. apply HS; [lia|]. apply IH. intros; apply HS; [lia|assumption].
Qed.

Section SplitErr.
Variable A : arith.
Variable fin : car A -> Prop.
Variable vl : car A -> R.
Variables u eta Om : R.
Hypothesis Hu : 0 <= u <= / 8.
Hypothesis He : 0 <= eta <= / 32.
Hypothesis HOm : 16 <= Om.
Variable del : R.
Hypothesis Hdel : 0 <= del <= / 4.
Variables (N lm : nat).
Hypothesis Hlm : (3 <= lm)%nat.
Hypothesis HN : N = (2 ^ S lm)%nat.
Notation M := (2 ^ lm)%nat.
Notation kw := (kw u eta del lm).
Notation Q := (1 + kw)%R.
Notation rep := (rep A fin vl u eta del N lm).
Notation V41 := 2199023255552.
(** The budget: 54 roundings on values up to 2^41. *)
Hypothesis HO2 : 1267650600228229401496703205376 * 1267650600228229401496703205376 <= Om.
Hypothesis Hlm14 : (lm <= 14)%nat.
Hypothesis Hnum : (Q ^ 54 - 1) * V41 <= 3 / 8.

Lemma N0' : (0 < N)%nat. Proof. rewrite (NM N lm HN). pose proof (Mpos lm). lia. Qed.
Lemma HQ1 : 1 <= Q. Proof. apply (Q1 u eta Hu He del Hdel lm). Qed.
Lemma Q54 n : (n <= 54)%nat -> 1 <= Q ^ n <= Q ^ 54 /\ Q ^ 54 <= 2.
Proof. intros H. pose proof (pow_ge1 Q n HQ1). pose proof (pow_le_mono Q n 54 HQ1 H). lra. Qed.
Lemma sq_sq : sqrt 2 ^ lm * sqrt 2 ^ lm = INR M.
Proof. rewrite <- sqrt2_pow. apply sqrt_sqrt, pos_INR. Qed.
Lemma MI : INR M = IZR (2 ^ Z.of_nat lm).
Proof. rewrite INR_IZR_INZ, Nat2Z.inj_pow. reflexivity. Qed.
Lemma M14 : INR M <= 16384.
Proof. rewrite MI. apply IZR_le. change 16384%Z with (2 ^ 14)%Z. apply Z.pow_le_mono_r; lia. Qed.
Lemma sq1 : 1 <= sqrt 2 ^ lm. Proof. apply pow_ge1, sqrt2_ge1. Qed.
Lemma sq_up : sqrt 2 ^ lm <= IZR (2 ^ ((Z.of_nat lm + 1) / 2)).
Proof.
  set (h := ((Z.of_nat lm + 1) / 2)%Z). assert (Hh : (0 <= h /\ Z.of_nat lm <= h + h)%Z) by (unfold h; pose proof (Z.div_mod (Z.of_nat lm + 1) 2); pose proof (Z.mod_pos_bound (Z.of_nat lm + 1) 2); lia).
  assert (P : (0 < 2 ^ h)%Z) by (apply Z.pow_pos_nonneg; lia). apply le_of_sq; [apply IZR_le; lia|].
  rewrite sq_sq, MI, <- mult_IZR, <- Z.pow_add_r by lia. apply IZR_le. apply Z.pow_le_mono_r; lia.
Qed.
Definition XB (B : R) : R := sqrt 2 ^ lm * (sqrt 2 ^ lm * (sqrt 2 * B)).
Lemma XB_eq B : XB B = INR M * (sqrt 2 * B). Proof. unfold XB. rewrite <- sq_sq. ring. Qed.
Lemma XB_mul B B' : XB B * XB B' = INR M * INR M * (2 * (B * B')).
Proof. rewrite !XB_eq. replace (INR M * (sqrt 2 * B) * (INR M * (sqrt 2 * B'))) with (INR M * INR M * ((sqrt 2 * sqrt 2) * (B * B'))) by ring. rewrite sqrt_sqrt by lra. reflexivity. Qed.
Lemma XB1 B : 1 <= B -> 1 <= XB B.
Proof. intros H. unfold XB. pose proof sq1. pose proof sqrt2_ge1. assert (1 <= sqrt 2 * B) by nra. assert (1 <= sqrt 2 ^ lm * (sqrt 2 * B)) by nra. nra. Qed.
Lemma sqrt2_le2 : sqrt 2 <= 2. Proof. apply le_of_sq; [lra|]. rewrite sqrt_sqrt; lra. Qed.
Lemma XB_le B : 0 <= B <= 4294967296 -> XB B <= 140737488355328.
Proof.
  intros H. rewrite XB_eq. pose proof M14. pose proof (pos_INR M). pose proof sqrt2_le2. pose proof (sqrt_pos 2).
  apply Rle_trans with (16384 * (2 * 4294967296)); [|lra]. apply Rmult_le_compat; try assumption; [nra|]. apply Rmult_le_compat; lra.
Qed.

(** Final values. *)
Lemma fin_val (c B B' : R) : sqrt 2 ^ lm * (c * (XB B * XB B')) / INR M = c * (2 * (INR M * (sqrt 2 ^ lm * (B * B')))).
Proof. rewrite XB_mul. pose proof (M1 N lm Hlm HN) as H. set (m := INR M) in *. field. lra. Qed.
Lemma budget n Y : (n + lm + 1 <= 54)%nat -> 1 <= Y -> sqrt 2 ^ lm * Y / INR M <= V41 ->
  (Q ^ (n + lm + 1) - 1) * (sqrt 2 ^ lm * Y / INR M) <= 3 / 8 /\ Q ^ (n + lm) * (sqrt 2 ^ lm * Y) <= Om / 32.
Proof.
  intros Hn HY HV. destruct (Q54 _ Hn) as [[q1 q2] q3]. destruct (Q54 (n + lm) ltac:(lia)) as [[q4 q5] _]. pose proof (M1 N lm Hlm HN) as Hm. pose proof sq1 as Hs. pose proof M14 as H14.
  assert (P : 0 <= sqrt 2 ^ lm * Y / INR M). { unfold Rdiv. apply Rmult_le_pos; [nra|]. left. apply Rinv_0_lt_compat. lra. }
  split.
  - eapply Rle_trans; [|exact Hnum]. apply Rmult_le_compat; [lra|exact P| |exact HV]. apply Rplus_le_compat_r. exact q2.
  - assert (E : sqrt 2 ^ lm * Y <= V41 * 16384).
    { replace (sqrt 2 ^ lm * Y) with (sqrt 2 ^ lm * Y / INR M * INR M) by (field; lra). apply Rmult_le_compat; lra. }
    apply Rle_trans with (2 * (V41 * 16384)); [apply Rmult_le_compat; nra|]. lra.
Qed.

Definition invZ (k : option bool) (sg : bool) (w : Z) (out g : list Z) : list Z :=
  match k with None => invFFTs sg w g | Some false => taddv sg w out (invFFTs sg w g) | Some true => tsubv sg w out (invFFTs sg w g) end.
(** What is needed of the kernels, for the torus types [okw]. *)
Record kernOK (okw : bool -> Z -> Prop) (K : kern (car A)) : Prop := mkKernOK {
  ko_len : length (kzero K) = N;
  ko_zero : forall n, rep n 0 (kzero K) pzero;
  ko_fwd : forall sg w out p B, okw sg w -> length out = N -> length p = N -> cbound N sg w B p -> 1 <= B -> B <= Om -> Q ^ S lm * XB B <= Om / 32 ->
    rep (S lm) (XB B) (kfwd K sg w out p) (pol N (if sg then p else ModelPoly.fwdFFT w p));
  ko_mul : forall n n' X X' o f f' P P', length o = N -> 1 <= X -> 1 <= X' -> rep n X f P -> rep n' X' f' P' ->
    Q ^ n * X * (Q ^ n' * X') <= Om / 4 -> rep (n + n' + 1) (X * X') (kmul K o f f') (pmul P P');
  ko_acc : forall m n n' X X' Y o f f' R0 P P', 1 <= X -> 1 <= X' -> 0 <= Y -> (n + n' <= m)%nat -> rep m Y o R0 -> rep n X f P -> rep n' X' f' P' ->
    Q ^ m * (Y + X * X') <= Om / 8 -> rep (S m) (Y + X * X') (kacc K o f f') (padd R0 (pmul P P'));
  ko_inv : forall k sg w n Y f g out, okw sg w -> 1 <= Y -> rep n Y f (pol N g) -> length g = N -> (0 < w <= 64)%Z -> length out = N ->
    sqrt 2 ^ lm * Y / INR M <= V41 -> (Q ^ (n + lm + 1) - 1) * (sqrt 2 ^ lm * Y / INR M) <= 3 / 8 -> Q ^ (n + lm) * (sqrt 2 ^ lm * Y) <= Om / 32 ->
    kinv K k sg w out f = invZ k sg w out g
}.
Variable okw : bool -> Z -> Prop.
Variable K : kern (car A).
Hypothesis HK : kernOK okw K.

(** Forward transform. *)
Lemma fwd_ok (sg : bool) w out p sb : okw sg w -> (0 <= sb <= 32)%Z -> length out = N -> length p = N ->
  (forall i, (i < N)%nat -> (Z.abs (nthZ (if sg then p else ModelPoly.fwdFFT w p) i) <= 2 ^ sb)%Z) ->
  rep (S lm) (XB (IZR (2 ^ sb))) (kfwd K sg w out p) (pol N (if sg then p else ModelPoly.fwdFFT w p)).
Proof.
  intros Hk Hsb Ho Hp HB.
  assert (B1 : 1 <= IZR (2 ^ sb) <= 4294967296).
  { split; apply IZR_le; [pose proof (Z.pow_pos_nonneg 2 sb); lia|]. change 4294967296%Z with (2 ^ 32)%Z. apply Z.pow_le_mono_r; lia. }
  pose proof (XB_le (IZR (2 ^ sb)) ltac:(lra)) as HX.
  apply (ko_fwd _ _ HK); try assumption; [|lra|lra|].
  - intros i Hi. specialize (HB i Hi). destruct sg; [rewrite <- abs_IZR; apply IZR_le; exact HB|].
    unfold ModelPoly.fwdFFT in HB. rewrite nthZ_map in HB by lia. rewrite <- abs_IZR. apply IZR_le. exact HB.
  - destruct (Q54 (S lm) ltac:(lia)) as [[q1 q2] q3]. pose proof (XB1 (IZR (2 ^ sb)) ltac:(lra)).
    apply Rle_trans with (2 * 140737488355328); [apply Rmult_le_compat; lra|lra].
Qed.
Lemma rep_monoX n X X' f P : X <= X' -> rep n X f P -> rep n X' f P.
Proof.
  intros HX (L & v & T & H & HB). split; [exact L|]. exists v. split; [exact T|]. split; [|lra]. eapply apv_le; [|exact H].
  apply Rmult_le_compat_l; [|exact HX]. pose proof (pow_ge1 Q n HQ1). lra.
Qed.
(** The accumulation loops. *)
Lemma acc_ok X cnt (f0 f1 : list (list (car A))) (g0 g1 : list (list Z)) : 1 <= X <= 140737488355328 -> (cnt <= 16)%nat -> (3 * lm + 4 + cnt <= 54)%nat ->
  (forall i, (i < cnt)%nat -> rep (S lm) X (nth i f0 []) (pol N (nth i g0 []))) ->
  (forall i, (i < cnt)%nat -> rep (S lm) X (nth i f1 []) (pol N (nth i g1 []))) ->
  forall k, (k < cnt)%nat -> rep (2 * lm + 3 + cnt) (INR cnt * (X * X)) (nth k (splitAccFFT K cnt f0 f1) []) (pol N (nth k (splitAcc N cnt g0 g1) [])) /\
    length (nth k (splitAcc N cnt g0 g1) []) = N.
Proof.
  intros HX Hc Hn H0 H1. set (XX := X * X).
  assert (HXX : 1 <= XX <= 19807040628566084398385987584) by (unfold XX; split; [nra|]; apply Rle_trans with (140737488355328 * 140737488355328); [apply Rmult_le_compat; lra|lra]).
  set (J := fun (c : nat) (f : list (car A)) (g : list Z) => rep (2 * lm + 3 + c) (INR c * XX) f (pol N g) /\ length g = N).
  assert (JS : forall c f g, J c f g -> J (S c) f g).
  { intros c f g [H L]. split; [|exact L]. apply (rep_mono A fin vl u eta Hu He del Hdel) with (n := (2 * lm + 3 + c)%nat); [lia|pose proof (pos_INR (S c)); nra|].
    apply (rep_monoX _ (INR c * XX)); [|exact H]. rewrite S_INR. nra. }
  assert (Jstep : forall c f g a b a' b', (c < cnt)%nat -> J c f g -> rep (S lm) X a (pol N a') -> rep (S lm) X b (pol N b') ->
     J (S c) (kacc K f a b) (fmulAdd N g a' b')).
  { intros c f g a b a' b' Hcc [H L] Ha Hb. split; [|unfold fmulAdd; rewrite fadd_length, nmul_length, L; lia].
    apply (rep_peq A fin vl u eta del N lm) with (P := padd (pol N g) (pmul (pol N a') (pol N b'))).
    { symmetry. unfold fmulAdd. rewrite (pol_fadd N N0' _ _ L (nmul_length N _ _)), (pol_nmul N N0' _ _). reflexivity. }
    replace (INR (S c) * XX) with (INR c * XX + X * X) by (rewrite S_INR; unfold XX; ring). replace (2 * lm + 3 + S c)%nat with (S (2 * lm + 3 + c)) by lia.
    destruct (Q54 (S lm) ltac:(lia)) as [[q1 q2] q3]. destruct (Q54 (2 * lm + 3 + c) ltac:(lia)) as [[q4 q5] _].
    assert (Hcr : INR c <= 16) by (change 16 with (IZR (Z.of_nat 16)); rewrite <- INR_IZR_INZ; apply le_INR; lia). pose proof (pos_INR c) as Hc0.
    apply (ko_acc _ _ HK) with (n := S lm) (n' := S lm); try assumption; try lra; try lia.
    - nra.
    - fold XX. apply Rle_trans with (2 * (16 * 19807040628566084398385987584 + 19807040628566084398385987584)); [|lra].
      apply Rmult_le_compat; [lra|nra|lra|]. assert (INR c * XX <= 16 * 19807040628566084398385987584) by (apply Rmult_le_compat; lra). lra. }
  set (SR := fun (s : list (list (car A))) (t : list (list Z)) => length s = cnt /\ length t = cnt).
  set (PM := fun i (s : list (list (car A))) (t : list (list Z)) => SR s t /\ forall k, (k < cnt)%nat -> J i (nth k s []) (nth k t [])).
  assert (Main : PM cnt (splitAccFFT K cnt f0 f1) (splitAcc N cnt g0 g1)).
  { unfold splitAccFFT, splitAcc. apply (forN_rel PM).
    - split; [split; apply repeat_length|]. intros k Hk. rewrite !nth_repeat_lt by exact Hk. split; [|apply repeat_length].
      replace (INR 0 * XX) with 0 by (cbn [INR]; ring). 
      apply (rep_peq A fin vl u eta del N lm) with (P := pzero). { symmetry. apply pol_zero. exact N0'. }
      apply (ko_zero _ _ HK).
    - intros i s t Hi [HS HJ]. rewrite Nat.add_0_l.
      set (PI := fun j (s : list (list (car A))) (t : list (list Z)) => SR s t /\ forall k, (k < cnt)%nat -> J (if Nat.ltb k (i + j) then S i else i) (nth k s []) (nth k t [])).
      assert (In : PI (cnt - i)%nat
        (forN 0 (cnt - i) (fun j o => upd o (i + j) (kacc K (nth (i + j) o []) (nth i f0 []) (nth j f1 []))) s)
        (forN 0 (cnt - i) (fun j o => upd o (i + j) (fmulAdd N (nth (i + j) o []) (nth i g0 []) (nth j g1 []))) t)).
      { apply (forN_rel PI).
        - split; [exact HS|]. intros k Hk. destruct (Nat.ltb k (i + 0)); [apply JS|]; now apply HJ.
        - intros j s' t' Hj [[L1 L2] HJ']. rewrite Nat.add_0_l. split; [split; rewrite upd_length; assumption|]. intros k Hk.
          destruct (Nat.eq_dec k (i + j)) as [-> |Hne].
          + rewrite !nth_upd_same by lia. specialize (HJ' (i + j)%nat Hk). rewrite (proj2 (Nat.ltb_ge _ _)) in HJ' by lia. rewrite (proj2 (Nat.ltb_lt _ _)) by lia.
            apply Jstep; [exact Hi|exact HJ'|now apply H0|apply H1; lia].
          + rewrite !nth_upd_other by lia. specialize (HJ' k Hk).
            destruct (Nat.ltb_spec k (i + S j)) as [C1|C1]; destruct (Nat.ltb_spec k (i + j)) as [C2|C2]; try lia; assumption. }
      destruct In as [In1 In2]. split; [exact In1|]. intros k Hk. specialize (In2 k Hk). rewrite (proj2 (Nat.ltb_lt _ _)) in In2 by lia. exact In2. }
  intros k Hk. exact (proj2 Main k Hk).
Qed.
(** Digits. *)
Lemma swrap_list w l : (forall i, (i < length l)%nat -> sword w (nthZ l i)) -> (0 < w)%Z -> ModelPoly.fwdFFT w l = l.
Proof.
  intros H Hw. unfold ModelPoly.fwdFFT. apply nthZ_ext; [apply map_length|]. intros i Hi. rewrite map_length in Hi. rewrite nthZ_map by exact Hi. apply swrap_small; [lia|]. now apply H.
Qed.
Lemma digits_ok (sg : bool) w sb i p : (0 < sb < w)%Z -> length p = N -> let l := map (digit sg w sb i) p in
  (if sg then l else ModelPoly.fwdFFT w l) = ModelPoly.fwdFFT w l /\ length l = N /\
  forall j, (j < N)%nat -> (Z.abs (nthZ (ModelPoly.fwdFFT w l) j) <= 2 ^ sb)%Z.
Proof.
  intros Hsb Hp l. assert (L : length l = N) by (unfold l; rewrite map_length; exact Hp).
  assert (P : (2 ^ sb <= 2 ^ (w - 1))%Z) by (apply Z.pow_le_mono_r; lia).
  assert (Hl : forall j, (j < length l)%nat -> (Z.abs (nthZ l j) < 2 ^ sb)%Z).
  { intros j Hj. unfold l. rewrite nthZ_map by (unfold l in Hj; rewrite map_length in Hj; lia). now apply digit_bound. }
  assert (E : ModelPoly.fwdFFT w l = l). { apply swrap_list; [|lia]. intros j Hj. specialize (Hl j Hj). unfold sword. lia. }
  rewrite E. split; [destruct sg; reflexivity|]. split; [exact L|]. intros j Hj. specialize (Hl j ltac:(lia)). lia.
Qed.
Lemma split_ok (sg : bool) w sb cnt p : okw sg w -> (0 < sb < w)%Z -> (sb <= 32)%Z -> length p = N -> forall i, (i < cnt)%nat ->
  rep (S lm) (XB (IZR (2 ^ sb))) (nth i (splitFFT K sg w sb cnt p) []) (pol N (nth i (splitPoly sg w sb cnt p) [])).
Proof.
  intros Hk Hsb Hs Hp i Hi. unfold splitFFT, splitPoly. rewrite !nth_tab by exact Hi. destruct (digits_ok sg w sb i p Hsb Hp) as (E & L & B).
  rewrite <- E in B |- *. apply fwd_ok; [exact Hk|lia|apply (ko_len _ _ HK)|exact L|exact B].
Qed.
(** Whole words (one digit). *)
Lemma word_ok (sg : bool) w sb out p : okw sg w -> (0 < w <= sb)%Z -> (sb <= 32)%Z -> length out = N -> tpoly sg w N p ->
  rep (S lm) (XB (IZR (2 ^ sb))) (kfwd K sg w out p) (pol N (ModelPoly.fwdFFT w p)).
Proof.
  intros Hk Hw Hs Ho [Lp Wp].
  assert (P : (2 ^ (w - 1) <= 2 ^ sb)%Z) by (apply Z.pow_le_mono_r; lia).
  assert (E : (if sg then p else ModelPoly.fwdFFT w p) = ModelPoly.fwdFFT w p).
  { destruct sg; [|reflexivity]. symmetry. apply swrap_list; [|lia]. intros i Hi. apply (Forall_nth_lt _ _ 0%Z _ Wp). exact Hi. }
  rewrite <- E. apply fwd_ok; [exact Hk|lia|exact Ho|exact Lp|]. rewrite E. intros i Hi. unfold ModelPoly.fwdFFT. rewrite nthZ_map by lia.
  pose proof (swrap_range w (nthZ p i) ltac:(lia)) as H. unfold sword in H. lia.
Qed.
Definition subOf (k : option bool) : bool := match k with Some true => true | _ => false end.
Lemma recombine_eq (k : option bool) (sg : bool) w sb cnt buf first sA sZ :
  (forall i, (0 < i < cnt)%nat -> kinv K None sg w buf (nth i sA []) = invFFTs sg w (nth i sZ [])) ->
  recombineFFT K (opK k) sg w sb cnt buf first sA = (if subOf k then recombineSub else recombine) sg w sb cnt (fun _ => first) sZ.
Proof.
  intros H. unfold recombineFFT. destruct k as [[|]|]; cbn [opK subOf]; [unfold recombineSub|unfold recombine|unfold recombine];
  (apply (forN_rel (fun _ s t => s = t)); [reflexivity|]; intros i s t Hi ->; rewrite H by lia; reflexivity).
Qed.
Lemma val_le c a b : (0 <= a <= 32)%Z -> (0 <= b <= 32)%Z -> (Z.of_nat c * (2 * (2 ^ Z.of_nat lm * (2 ^ ((Z.of_nat lm + 1) / 2) * (2 ^ a * 2 ^ b)))) <= 2199023255552)%Z ->
  sqrt 2 ^ lm * (INR c * (XB (IZR (2 ^ a)) * XB (IZR (2 ^ b)))) / INR M <= V41.
Proof.
  intros Ha Hb H. rewrite fin_val. apply IZR_le in H. rewrite !mult_IZR, <- INR_IZR_INZ, <- MI in H. eapply Rle_trans; [|exact H].
  assert (0 <= IZR (2 ^ a) /\ 0 <= IZR (2 ^ b)) as [Pa Pb] by (split; apply IZR_le; apply Z.pow_nonneg; lia).
  pose proof sq_up. pose proof sq1. pose proof (pos_INR c). pose proof (pos_INR M).
  apply Rmult_le_compat_l; [assumption|]. apply Rmult_le_compat_l; [lra|]. apply Rmult_le_compat_l; [assumption|]. apply Rmult_le_compat_r; [nra|assumption].
Qed.
Lemma pw32 a : (0 <= a <= 32)%Z -> 1 <= IZR (2 ^ a) <= 4294967296.
Proof. intros H. split; apply IZR_le; [pose proof (Z.pow_pos_nonneg 2 a); lia|]. change 4294967296%Z with (2 ^ 32)%Z. apply Z.pow_le_mono_r; lia. Qed.
(** A single product. *)
Lemma prod_ok a b o f f' (g g' : list Z) : (0 <= a <= 32)%Z -> (0 <= b <= 32)%Z -> length o = N ->
  rep (S lm) (XB (IZR (2 ^ a))) f (pol N g) -> rep (S lm) (XB (IZR (2 ^ b))) f' (pol N g') ->
  rep (2 * lm + 3) (INR 1 * (XB (IZR (2 ^ a)) * XB (IZR (2 ^ b)))) (kmul K o f f') (pol N (fmul N g g')).
Proof.
  intros Ha Hb Ho Hf Hf'. pose proof (pw32 a Ha) as Pa. pose proof (pw32 b Hb) as Pb.
  pose proof (XB1 _ (proj1 Pa)). pose proof (XB1 _ (proj1 Pb)). pose proof (XB_le (IZR (2 ^ a)) ltac:(lra)). pose proof (XB_le (IZR (2 ^ b)) ltac:(lra)).
  cbn [INR]. rewrite Rmult_1_l. replace (2 * lm + 3)%nat with (S lm + S lm + 1)%nat by lia.
  apply (rep_peq A fin vl u eta del N lm) with (P := pmul (pol N g) (pol N g')). { symmetry. apply (pol_nmul N N0'). }
  apply (ko_mul _ _ HK); try assumption.
  destruct (Q54 (S lm) ltac:(lia)) as [[q1 q2] q3].
  apply Rle_trans with ((2 * 140737488355328) * (2 * 140737488355328)); [|lra]. apply Rmult_le_compat; try nra; apply Rmult_le_compat; lra.
Qed.
Lemma inv_eq k (sg : bool) w n Y f g out : okw sg w -> (n + lm + 1 <= 54)%nat -> 1 <= Y -> sqrt 2 ^ lm * Y / INR M <= V41 -> rep n Y f (pol N g) -> length g = N ->
  (0 < w <= 64)%Z -> length out = N -> kinv K k sg w out f = invZ k sg w out g.
Proof.
  intros Hk Hn HY HV Hr Lg Hw Ho. destruct (budget n Y Hn HY HV) as [E1 E2]. now apply (ko_inv _ _ HK k sg w n Y).
Qed.
Definition mulZ (k : option bool) (sg : bool) (w logN : Z) (out p0 p1 : list Z) : list Z :=
  let sb := splitBits logN in let cnt := splitCount w sb in
  if Nat.eqb cnt 1 then invZ k sg w out (fmul N (ModelPoly.fwdFFT w p0) (ModelPoly.fwdFFT w p1))
  else let s := splitAcc N cnt (splitPoly sg w sb cnt p0) (splitPoly sg w sb cnt p1) in
    (if subOf k then recombineSub else recombine) sg w sb cnt (fun x => invZ k sg w out (nth 0 s [])) s.
Lemma cnt_one w sb : (0 < sb)%Z -> (0 < w)%Z -> if Nat.eqb (splitCount w sb) 1 then (w <= sb)%Z else (sb < w)%Z /\ (1 < splitCount w sb)%nat.
Proof.
  intros Hs Hw. unfold splitCount, ceilDiv. pose proof (Z.div_mod (w + sb - 1) sb ltac:(lia)) as E. pose proof (Z.mod_pos_bound (w + sb - 1) sb Hs) as B.
  set (d := ((w + sb - 1) / sb)%Z) in *. set (r := ((w + sb - 1) mod sb)%Z) in *. clearbody d r.
  assert (0 < d)%Z by nia. destruct (Nat.eqb_spec (Z.to_nat d) 1) as [C|C].
  - assert (d = 1)%Z by lia. subst d. lia.
  - split; [|lia]. assert (2 <= d)%Z by lia. nia.
Qed.
Lemma mul_ok k (sg : bool) w logN buf out p0 p1 : okw sg w -> (0 < w <= 64)%Z -> let sb := splitBits logN in let cnt := splitCount w sb in
  (0 < sb <= 32)%Z -> (cnt <= 16)%nat -> (3 * lm + 4 + cnt <= 54)%nat ->
  (Z.of_nat cnt * (2 * (2 ^ Z.of_nat lm * (2 ^ ((Z.of_nat lm + 1) / 2) * (2 ^ sb * 2 ^ sb)))) <= 2199023255552)%Z ->
  length buf = N -> length out = N -> tpoly sg w N p0 -> tpoly sg w N p1 ->
  mulFFT K k sg w logN buf out p0 p1 = mulZ k sg w logN out p0 p1.
Proof.
  intros Hk Hw sb cnt Hsb Hc Hn HV Hb Ho T0 T1. unfold mulFFT, mulZ. fold sb. fold cnt.
  pose proof (cnt_one w sb ltac:(lia) ltac:(lia)) as C. fold cnt in C. pose proof (pw32 sb ltac:(lia)) as Pb.
  set (X := XB (IZR (2 ^ sb))). assert (HX : 1 <= X <= 140737488355328) by (split; [apply XB1; lra|apply XB_le; lra]).
  assert (HY : forall c, (0 < c)%nat -> 1 <= INR c * (X * X)). { intros c Hcp. assert (1 <= INR c) by (change 1 with (INR 1); apply le_INR; lia). nra. }
  pose proof (ko_len _ _ HK) as Z0.
  destruct (Nat.eqb_spec cnt 1) as [C1|C1].
  - cbn zeta. apply inv_eq with (n := (2 * lm + 3)%nat) (Y := INR 1 * (X * X)); try assumption; [lia|apply HY; lia| | |apply nmul_length].
    + apply val_le; [lia|lia|]. rewrite C1 in HV. exact HV.
    + pose proof (word_ok sg w sb (kzero K) p0 Hk ltac:(lia) ltac:(lia) Z0 T0) as R0. pose proof (word_ok sg w sb (kzero K) p1 Hk ltac:(lia) ltac:(lia) Z0 T1) as R1.
      apply prod_ok; [lia|lia|apply R0|exact R0|exact R1].
  - cbn zeta. pose proof (acc_ok X cnt _ _ _ _ HX Hc Hn (split_ok sg w sb cnt p0 Hk ltac:(lia) ltac:(lia) (proj1 T0)) (split_ok sg w sb cnt p1 Hk ltac:(lia) ltac:(lia) (proj1 T1))) as HA.
    set (sA := splitAccFFT K cnt _ _) in *. set (sZ := splitAcc N cnt _ _) in *.
    assert (HI : forall k' o i, (i < cnt)%nat -> length o = N -> kinv K k' sg w o (nth i sA []) = invZ k' sg w o (nth i sZ [])).
    { intros k' o i Hi Lo. destruct (HA i Hi) as [R L]. apply inv_eq with (n := (2 * lm + 3 + cnt)%nat) (Y := INR cnt * (X * X)); try assumption; [lia|apply HY; lia|].
      apply val_le; [lia|lia|exact HV]. }
    rewrite (recombine_eq k sg w sb cnt buf _ sA sZ) by (intros i Hi; apply (HI None); [lia|exact Hb]).
    rewrite HI by (lia || exact Ho). reflexivity.
Qed.
Definition shortZ (k : option bool) (sg : bool) (w logN : Z) (out p fp : list Z) : list Z :=
  let sb := splitBitsShort logN in let cnt := splitCount w sb in
  if Nat.eqb cnt 1 then invZ k sg w out (fmul N (ModelPoly.fwdFFT w p) fp)
  else let s := shortProds sg w sb N cnt p fp in (if subOf k then recombineSub else recombine) sg w sb cnt (fun x => invZ k sg w out (nth 0 s [])) s.
Lemma short_ok k (sg : bool) w logN buf out p ps fs : okw sg w -> (0 < w <= 64)%Z -> let sb := splitBitsShort logN in let cnt := splitCount w sb in
  (0 < sb <= 32)%Z -> (3 * lm + 4 <= 54)%nat ->
  (1 * (2 * (2 ^ Z.of_nat lm * (2 ^ ((Z.of_nat lm + 1) / 2) * (2 ^ sb * 2 ^ 8)))) <= 2199023255552)%Z ->
  length buf = N -> length out = N -> tpoly sg w N p -> rep (S lm) (XB (IZR (2 ^ 8))) fs (pol N ps) ->
  shortMulFFT K k sg w logN buf out p fs = shortZ k sg w logN out p ps.
Proof.
  intros Hk Hw sb cnt Hsb Hn HV Hb Ho T0 Rs. unfold shortMulFFT, shortZ. fold sb. fold cnt.
  pose proof (cnt_one w sb ltac:(lia) ltac:(lia)) as C. fold cnt in C. pose proof (pw32 sb ltac:(lia)) as Pb. pose proof (pw32 8 ltac:(lia)) as P8.
  set (X := XB (IZR (2 ^ sb))). set (X8 := XB (IZR (2 ^ 8))) in *. assert (HX : 1 <= X) by (apply XB1; lra). assert (HX8 : 1 <= X8) by (apply XB1; lra).
  assert (HY : 1 <= INR 1 * (X * X8)) by (cbn [INR]; nra).
  pose proof (ko_len _ _ HK) as Z0.
  destruct (Nat.eqb_spec cnt 1) as [C1|C1].
  - cbn zeta. apply inv_eq with (n := (2 * lm + 3)%nat) (Y := INR 1 * (X * X8)); try assumption; [lia| | |apply nmul_length].
    + apply val_le; [lia|lia|exact HV].
    + pose proof (word_ok sg w sb (kzero K) p Hk ltac:(lia) ltac:(lia) Z0 T0) as R0. apply prod_ok; [lia|lia|apply R0|exact R0|exact Rs].
  - cbn zeta. pose proof (split_ok sg w sb cnt p Hk ltac:(lia) ltac:(lia) (proj1 T0)) as HS.
    set (sA := map (fun f => kmul K f f fs) (splitFFT K sg w sb cnt p)). set (sZ := shortProds sg w sb N cnt p ps).
    assert (EA : forall i, (i < cnt)%nat -> nth i sA [] = kmul K (nth i (splitFFT K sg w sb cnt p) []) (nth i (splitFFT K sg w sb cnt p) []) fs).
    { intros i Hi. unfold sA. rewrite (nth_indep _ [] (kmul K [] [] fs)) by (rewrite map_length; unfold splitFFT; rewrite tab_length; exact Hi). exact (map_nth (fun f => kmul K f f fs) _ [] i). }
    assert (EZ : forall i, (i < cnt)%nat -> nth i sZ [] = fmul N (nth i (splitPoly sg w sb cnt p) []) ps).
    { intros i Hi. unfold sZ, shortProds. rewrite (nth_indep _ [] (fmul N [] ps)) by (rewrite map_length; unfold splitPoly; rewrite tab_length; exact Hi). exact (map_nth (fun f => fmul N f ps) _ [] i). }
    assert (HI : forall k' o i, (i < cnt)%nat -> length o = N -> kinv K k' sg w o (nth i sA []) = invZ k' sg w o (nth i sZ [])).
    { intros k' o i Hi Lo. rewrite EA, EZ by exact Hi. apply inv_eq with (n := (2 * lm + 3)%nat) (Y := INR 1 * (X * X8)); try assumption; [lia| | |apply nmul_length].
      - apply val_le; [lia|lia|exact HV].
      - apply prod_ok; [lia|lia|apply (HS i Hi)|exact (HS i Hi)|exact Rs]. }
    rewrite (recombine_eq k sg w sb cnt buf _ sA sZ) by (intros i Hi; apply (HI None); [lia|exact Hb]).
    rewrite HI by (lia || exact Ho). reflexivity.
Qed.
End SplitErr.

(** The portable loops meet the requirements. *)
Section GoOK.
Variable A : arith.
Variable fin : car A -> Prop.
Variable vl : car A -> R.
Variables u eta Om : R.
Hypothesis Hstd : stdmodel A fin vl u eta Om.
Hypothesis Hu : 0 <= u <= / 8.
Hypothesis He : 0 <= eta <= / 32.
Hypothesis HOm : 16 <= Om.
Variable del : R.
Hypothesis Hdel : 0 <= del <= / 4.
Variables (N lm : nat).
Hypothesis Hlm : (3 <= lm)%nat.
Hypothesis HN : N = (2 ^ S lm)%nat.
Notation M := (2 ^ lm)%nat.
Notation kw := (kw u eta del lm).
Notation good := (good A fin vl del lm).
Hypothesis HgF : good (gF A lm) (gF RA lm).
Hypothesis HgI : good (gI A lm) (gI RA lm).
Variable e : evaluator A.
Hypothesis HeF : gTWF A lm lm (e_tw A e).
Hypothesis HeI : gTWI A lm 0 (e_twInv A e).
Hypothesis Hrk : e_rank A e = N.
Variable er : evaluator RA.
Hypothesis Her : NewEvaluator RA N = Ok er.
Hypothesis HrF : gTWF RA lm lm (e_tw RA er).
Hypothesis HrI : gTWI RA lm 0 (e_twInv RA er).
Notation Q := (1 + kw)%R.
Notation rep := (rep A fin vl u eta del N lm).
Notation V41 := 2199023255552.
Hypothesis Hu2 : u <= / 4503599627370496.
Hypothesis He2 : eta <= / 1267650600228229401496703205376.
Hypothesis HO2 : 1267650600228229401496703205376 * 1267650600228229401496703205376 <= Om.
Hypothesis Hlm14 : (lm <= 14)%nat.
Lemma map2_snd (a b : list Z) : length a = length b -> map2 (fun _ x => x) a b = b.
Proof. revert b. induction a as [|x a IH]; intros [|y b] H; try discriminate; [reflexivity|]. cbn [map2]. f_equal. apply IH. cbn in H. lia. Qed.
Lemma inv_list (acc : Z -> Z -> Z) (sg : bool) w n Y f g out : 1 <= Y -> rep n Y f (pol N g) -> length g = N -> (0 < w <= 64)%Z -> length out = N ->
  sqrt 2 ^ lm * Y / INR M <= V41 -> (Q ^ (n + lm + 1) - 1) * (sqrt 2 ^ lm * Y / INR M) <= 3 / 8 -> Q ^ (n + lm) * (sqrt 2 ^ lm * Y) <= Om / 32 ->
  unfoldPoly A acc sg w out (invFFTv A e w f) = map2 acc out (invFFTs sg w g).
Proof.
  intros HY Hr Lg Hw Ho HV E1 E2.
  rewrite (rep_unfold A fin vl u eta Om Hstd Hu He HOm del Hdel N lm Hlm HN HgI e HeI er Her HrI acc sg w n Y f (pol N g) out); try assumption; [|lia|lra].
  assert (L : length (invFFTs sg w g) = N) by (unfold invFFTs; rewrite map_length; exact Lg). assert (N1 : (0 < N)%nat) by (rewrite (NM N lm HN); pose proof (Mpos lm); lia).
  apply nthZ_ext; [rewrite tab_length, map2_length; lia|]. intros i Hi. rewrite tab_length in Hi. rewrite nthZ_tab by exact Hi.
  rewrite nthZ_map2 by lia. rewrite cf_pol_at by (exact N1 || exact Hi). unfold invFFTs. rewrite nthZ_map by lia. reflexivity.
Qed.
Lemma goKern_OK : kernOK A fin vl u eta Om del N lm (fun _ _ => True) (goKern A e).
Proof.
  constructor; cbn [kzero kfwd kmul kacc kinv goKern].
  - unfold zeroFFT. rewrite repeat_length. exact Hrk.
  - intros n. unfold zeroFFT. rewrite Hrk. apply (rep_zero A fin vl u eta Om Hstd del N lm Hlm HN).
  - intros sg w out p B _ Ho Hp HB B1 BO HO. now apply (rep_fwd A fin vl u eta Om Hstd Hu He HOm del Hdel N lm Hlm HN HgF e HeF er Her HrF).
  - intros n n' X X' o f f' P P' Ho X1 X1' H1 H2 HO. now apply (rep_mul A fin vl u eta Om Hstd Hu He HOm del Hdel N lm Hlm HN er Her).
  - intros m n n' X X' Y o f f' R0 P P' X1 X1' Y0 Hm H0 H1 H2 HO. now apply (rep_acc A fin vl u eta Om Hstd Hu He HOm del Hdel N lm Hlm HN er Her) with (n := n) (n' := n').
  - intros k sg w n Y f g out _ HY Hr Lg Hw Ho HV E1 E2.
    destruct k as [[|]|]; cbn [goInvK invZ]; unfold InvFFTTo, InvFFTAddTo, InvFFTSubTo, unfoldPolyTo, unfoldPolyAddTo, unfoldPolySubTo;
    rewrite (inv_list _ sg w n Y f g out HY Hr Lg Hw Ho HV E1 E2); try reflexivity.
    apply map2_snd. unfold invFFTs. rewrite map_length. lia.
Qed.
End GoOK.
