(** Boolean gates: linear part, sign table, programs; bit vectors. *)
From Verif Require Import Base NegaRing SpecNum ModelNum PfNum ModelVec SpecVec PfVec ModelPoly SpecPoly PfPoly ModelGadget SpecGadget PfGadget ModelEncoder ModelLWE SpecLWE PfLWE ModelGLWE SpecGLWE ModelBoot SpecBoot PfBoot PfBoot2 PfBoot3 PfBoot4 PfBoot5 ModelBinary SpecBinary.

Section G.
Variable w : Z.
Hypothesis Hw : 3 <= w.
Notation Q := (2 ^ w).
Variable key : list Z.
Notation n := (length key).

Lemma pow_w3 : Q = 8 * 2 ^ (w - 3).
Proof. replace w with (3 + (w - 3)) at 1 by lia. rewrite Z.pow_add_r by lia. reflexivity. Qed.
Lemma pow_w2 : 2 ^ (w - 2) = 2 * 2 ^ (w - 3).
Proof. replace (w - 2) with (1 + (w - 3)) by lia. rewrite Z.pow_add_r by lia. reflexivity. Qed.
Lemma pow_w1 : 2 ^ (w - 1) = 4 * 2 ^ (w - 3).
Proof. replace (w - 1) with (2 + (w - 3)) by lia. rewrite Z.pow_add_r by lia. reflexivity. Qed.
Lemma pow_pos3 : 0 < 2 ^ (w - 3).
Proof. apply pow2_pos. lia. Qed.

Lemma sset_same (s : store) x v : sset s x v x = v.
Proof. unfold sset. now rewrite Nat.eqb_refl. Qed.
Lemma sset_other (s : store) x v y : y <> x -> sset s x v y = s y.
Proof. intros H. unfold sset. now destruct (Nat.eqb_spec y x). Qed.

Lemma updS l i v : (i < length l)%nat -> nthZ (upd l i v) i = v.
Proof. intros H. rewrite nthZ_upd by exact H. now rewrite Nat.eqb_refl. Qed.
Lemma updN l i j v : (i < length l)%nat -> j <> i -> nthZ (upd l i v) j = nthZ l j.
Proof. intros H1 H2. rewrite nthZ_upd by exact H1. now destruct (Nat.eqb_spec j i). Qed.

(** A loop writing f(a[i], b[i]) to out[i]; out may be a or b. *)
Lemma gateLoop_spec f (s : store) out a b m : m = n -> length (s out) = S n ->
  let s' := gateLoop m f s out a b in
  length (s' out) = S n /\ (forall j, (j <= n)%nat -> nthZ (s' out) j = f (nthZ (s a) j) (nthZ (s b) j)) /\ forall x, x <> out -> s' x = s x.
Proof.
  intros -> L s'. unfold s', gateLoop.
  set (P := fun i (t : store) => length (t out) = S n /\ (forall j, (j < i)%nat -> nthZ (t out) j = f (nthZ (s a) j) (nthZ (s b) j)) /\
    (forall j, (i <= j)%nat -> nthZ (t out) j = nthZ (s out) j) /\ forall x, x <> out -> t x = s x).
  assert (P (S n) (forN 0 (S n) (fun i s0 => sset s0 out (upd (s0 out) i (f (nthZ (s0 a) i) (nthZ (s0 b) i)))) s)) as (A & B & _ & D).
  { apply (forN_ind P).
    - split; [exact L|]. split; [intros j Hj; lia|]. split; auto.
    - intros i t Hi (A & B & C & D). cbn [Nat.add]. assert (forall x, nthZ (t x) i = nthZ (s x) i) as Hx.
      { intros x. destruct (Nat.eq_dec x out) as [-> | Hne]; [apply C; lia|now rewrite D]. }
      rewrite (Hx a), (Hx b). split; [rewrite sset_same, upd_length; exact A|]. split; [|split].
      + intros j Hj. rewrite sset_same. destruct (Nat.eq_dec j i) as [-> | Hne]; [rewrite updS by lia; reflexivity|rewrite updN by lia; apply B; lia].
      + intros j Hj. rewrite sset_same, updN by lia. apply C. lia.
      + intros x Hx'. rewrite sset_other by exact Hx'. now apply D. }
  split; [exact A|]. split; [intros j Hj; apply B; lia|exact D].
Qed.

Lemma NOTTo_loop (s : store) out a m : NOTTo w m s out a = gateLoop m (fun x _ => wrap w (- x)) s out a a.
Proof. reflexivity. Qed.

(** Linear combination of two ciphertexts plus a constant in the body. *)
Lemma lin_phase (al c : Z) (ct a b : list Z) : (forall j, (j <= n)%nat -> eqm Q (nthZ ct j) (al * (nthZ a j + nthZ b j) + (if Nat.eqb j 0 then c else 0))) ->
  eqm Q (phase key ct) (al * (phase key a + phase key b) + c).
Proof.
  intros H. unfold phase. rewrite (H O ltac:(lia)). cbn [Nat.eqb].
  rewrite (zsum_eqm Q n (fun i => nthZ ct (S i) * nthZ key i) (fun i => al * (nthZ a (S i) * nthZ key i) + al * (nthZ b (S i) * nthZ key i))).
  - rewrite zsum_add, !zsum_scale_l. apply eqm_eq. ring.
  - intros i Hi. rewrite (H (S i) ltac:(lia)). cbn [Nat.eqb]. apply eqm_eq. ring.
Qed.

(** One gate: loop, then the body constant. *)
Lemma gateLin_spec f al c m (bodyop : store -> nat -> Z -> store) cc (s : store) out a b : m = n -> length (s out) = S n ->
  (forall x y, uword w (f x y) /\ eqm Q (f x y) (al * (x + y))) ->
  (bodyop = addBody w /\ cc = c \/ bodyop = subBody w /\ cc = - c) ->
  let s' := bodyop (gateLoop m f s out a b) out cc in
  lwe_ct w n (s' out) /\ eqm Q (phase key (s' out)) (al * (phase key (s a) + phase key (s b)) + c) /\ forall x, x <> out -> s' x = s x.
Proof.
  intros Hm L Hf Hop s'. destruct (gateLoop_spec f s out a b m Hm L) as (A & B & C).
  set (t := gateLoop m f s out a b) in *. clearbody t.
  assert (exists v, s' = sset t out (upd (t out) 0 v) /\ uword w v /\ eqm Q v (nthZ (t out) 0 + c)) as (v & Es & Hv & Hc).
  { destruct Hop as [(-> & ->)|(-> & ->)]; unfold s', addBody, subBody; eexists; (split; [reflexivity|]); (split; [apply wrap_range; lia|]).
    - apply wrap_eqm.
    - rewrite wrap_eqm. apply eqm_eq. ring. }
  clearbody s'. subst s'. rewrite sset_same. split; [|split].
  - split; [now rewrite upd_length|]. apply (Forall_nthZ (uword w)). rewrite upd_length, A. intros j Hj.
    destruct j as [|j]; [rewrite updS by lia; exact Hv|]. rewrite updN by lia. rewrite B by lia. apply Hf.
  - apply lin_phase. intros j Hj. destruct j as [|j].
    + rewrite updS by lia. rewrite Hc, B by lia. cbn [Nat.eqb]. rewrite (proj2 (Hf _ _)). reflexivity.
    + rewrite updN by lia. rewrite B by lia. cbn [Nat.eqb]. rewrite (proj2 (Hf _ _)). apply eqm_eq. ring.
  - intros x Hx. rewrite sset_other by exact Hx. now apply C.
Qed.

Lemma f_add x y : uword w (wrap w (x + y)) /\ eqm Q (wrap w (x + y)) (1 * (x + y)).
Proof. split; [apply wrap_range; lia|rewrite wrap_eqm; apply eqm_eq; ring]. Qed.
Lemma f_neg x y : uword w (wrap w (wrap w (- x) - y)) /\ eqm Q (wrap w (wrap w (- x) - y)) (-1 * (x + y)).
Proof. split; [apply wrap_range; lia|rewrite !wrap_eqm; apply eqm_eq; ring]. Qed.
Lemma f_add2 x y : uword w (wrap w (2 * wrap w (x + y))) /\ eqm Q (wrap w (2 * wrap w (x + y))) (2 * (x + y)).
Proof. split; [apply wrap_range; lia|rewrite !wrap_eqm; apply eqm_eq; ring]. Qed.
Lemma f_neg2 x y : uword w (wrap w (2 * wrap w (wrap w (- x) - y))) /\ eqm Q (wrap w (2 * wrap w (wrap w (- x) - y))) (-2 * (x + y)).
Proof. split; [apply wrap_range; lia|rewrite !wrap_eqm; apply eqm_eq; ring]. Qed.
Lemma shl1 j : 0 <= j -> Z.shiftl 1 j = 2 ^ j.
Proof. intros H. rewrite Z.shiftl_mul_pow2 by lia. ring. Qed.

(** ** Gates *)
Variables R B B' : Z.
Hypothesis HB : 0 <= B.
Hypothesis HR1 : 2 ^ (w - 3) + 2 * B <= R.
Hypothesis HR2 : 4 * B <= R.
Notation enc := (bool_enc w key).

Lemma NOTTo_spec (s : store) out a v : length (s out) = S n -> enc B (s a) v -> let s' := NOTTo w n s out a in
  enc B (s' out) (negb v) /\ forall x, x <> out -> s' x = s x.
Proof.
  intros L (Hl & e & (t & He) & Hb) s'. unfold s'. rewrite NOTTo_loop.
  destruct (gateLoop_spec (fun x _ => wrap w (- x)) s out a a n eq_refl L) as (A & B0 & C). set (u := gateLoop _ _ _ _ _ _) in *. clearbody u.
  split; [|exact C]. split.
  - split; [exact A|]. apply (Forall_nthZ (uword w)). rewrite A. intros j Hj. rewrite B0 by lia. apply wrap_range. lia.
  - assert (eqm Q (phase key (u out)) (- phase key (s a))) as (t' & Ht).
    { unfold phase. rewrite (B0 O) by lia. rewrite wrap_eqm. rewrite (zsum_eqm Q n _ (fun i => - (nthZ (s a) (S i) * nthZ key i))); [rewrite zsum_opp; apply eqm_eq; ring|].
      intros i Hi. rewrite B0 by lia. rewrite wrap_eqm. apply eqm_eq. ring. }
    exists (- e). split; [|now rewrite Z.abs_opp]. exists (t' - t). destruct v; cbn [negb]; lia.
Qed.

Lemma gate_spec boot g (s : store) out a b va vb : sign_boot w key boot R B' -> length (s out) = S n -> enc B (s a) va -> enc B (s b) vb -> let s' := runGate w n boot g s out a b in
  enc B' (s' out) (truth g va vb) /\ forall x, x <> out -> s' x = s x.
Proof.
  intros Hboot L (Ha & ea & (ta & Ea) & Ba) (Hb & eb & (tb & Eb) & Bb). pose proof pow_pos3 as Hp. pose proof pow_w3 as H3. pose proof pow_w2 as H2.
  assert (exists f al c bodyop cc, (forall x y, uword w (f x y) /\ eqm Q (f x y) (al * (x + y))) /\ (bodyop = addBody w /\ cc = c \/ bodyop = subBody w /\ cc = - c) /\
    runGate w n boot g s out a b = bootSelf boot (bodyop (gateLoop n f s out a b) out cc) out /\
    exists phi, eqm Q (al * (phase key (s a) + phase key (s b)) + c) phi /\ Z.abs (phi - (if truth g va vb then 2 ^ (w - 2) else - 2 ^ (w - 2))) <= R) as (f & al & c & op & cc & Hf & Hop & Er & phi & Hphi & HR).
  { set (pa := if va then 2 ^ (w - 3) else - 2 ^ (w - 3)) in *. set (pb := if vb then 2 ^ (w - 3) else - 2 ^ (w - 3)) in *.
    assert (forall al c q, eqm Q (al * (phase key (s a) + phase key (s b)) + c) (al * (pa + pb + ea + eb) + c - q * Q)) as Hq.
    { intros al c q. exists (al * (ta + tb) + q). replace (phase key (s a)) with (pa + ea + ta * Q) by lia. replace (phase key (s b)) with (pb + eb + tb * Q) by lia. ring. }
    set (q := if (va && vb)%bool then match g with gXOR => 1 | gXNOR => -1 | _ => 0 end else 0).
    destruct g; cbn [runGate]; unfold ANDTo, NANDTo, ORTo, NORTo, XORTo, XNORTo.
    - exists (fun x y => wrap w (x + y)), 1, (- 2 ^ (w - 3)), (subBody w), (Z.shiftl 1 (w - 3)). split; [exact f_add|]. split; [right; split; [reflexivity|]; rewrite shl1; lia|]. split; [reflexivity|].
      exists (1 * (pa + pb + ea + eb) + - 2 ^ (w - 3) - q * Q). split; [apply Hq|]. unfold pa, pb, q. destruct va, vb; cbn [truth andb orb negb xorb]; lia.
    - exists (fun x y => wrap w (wrap w (- x) - y)), (-1), (2 ^ (w - 3)), (addBody w), (Z.shiftl 1 (w - 3)). split; [exact f_neg|]. split; [left; split; [reflexivity|]; rewrite shl1; lia|]. split; [reflexivity|].
      exists (-1 * (pa + pb + ea + eb) + 2 ^ (w - 3) - q * Q). split; [apply Hq|]. unfold pa, pb, q. destruct va, vb; cbn [truth andb orb negb xorb]; lia.
    - exists (fun x y => wrap w (x + y)), 1, (2 ^ (w - 3)), (addBody w), (Z.shiftl 1 (w - 3)). split; [exact f_add|]. split; [left; split; [reflexivity|]; rewrite shl1; lia|]. split; [reflexivity|].
      exists (1 * (pa + pb + ea + eb) + 2 ^ (w - 3) - q * Q). split; [apply Hq|]. unfold pa, pb, q. destruct va, vb; cbn [truth andb orb negb xorb]; lia.
    - exists (fun x y => wrap w (wrap w (- x) - y)), (-1), (- 2 ^ (w - 3)), (subBody w), (Z.shiftl 1 (w - 3)). split; [exact f_neg|]. split; [right; split; [reflexivity|]; rewrite shl1; lia|]. split; [reflexivity|].
      exists (-1 * (pa + pb + ea + eb) + - 2 ^ (w - 3) - q * Q). split; [apply Hq|]. unfold pa, pb, q. destruct va, vb; cbn [truth andb orb negb xorb]; lia.
    - exists (fun x y => wrap w (2 * wrap w (x + y))), 2, (2 ^ (w - 2)), (addBody w), (Z.shiftl 1 (w - 2)). split; [exact f_add2|]. split; [left; split; [reflexivity|]; rewrite shl1; lia|]. split; [reflexivity|].
      exists (2 * (pa + pb + ea + eb) + 2 ^ (w - 2) - q * Q). split; [apply Hq|]. unfold pa, pb, q. destruct va, vb; cbn [truth andb orb negb xorb]; lia.
    - exists (fun x y => wrap w (2 * wrap w (wrap w (- x) - y))), (-2), (- 2 ^ (w - 2)), (subBody w), (Z.shiftl 1 (w - 2)). split; [exact f_neg2|]. split; [right; split; [reflexivity|]; rewrite shl1; lia|]. split; [reflexivity|].
      exists (-2 * (pa + pb + ea + eb) + - 2 ^ (w - 2) - q * Q). split; [apply Hq|]. unfold pa, pb, q. destruct va, vb; cbn [truth andb orb negb xorb]; lia. }
  intros s'. unfold s'. rewrite Er. destruct (gateLin_spec f al c n op cc s out a b eq_refl L Hf Hop) as (A1 & A2 & A3).
  set (t := op (gateLoop n f s out a b) out cc) in *. clearbody t. unfold bootSelf. rewrite sset_same. split.
  - apply (Hboot (t out) (t out) phi); [apply A1|exact A1|now rewrite A2|exact HR].
  - intros x Hx. rewrite sset_other by exact Hx. now apply A3.
Qed.

(** ** Programs: every instruction with the bootstrap it uses (buffers change between calls) *)
Hypothesis HB' : B' <= B.
Lemma enc_mono b1 b2 ct v : b1 <= b2 -> enc b1 ct v -> enc b2 ct v.
Proof. intros H (A & e & E1 & E2). split; [exact A|]. exists e. split; [exact E1|lia]. Qed.
Lemma prog_spec p : Forall (fun ib => sign_boot w key (snd ib) R B') p -> forall s v, (forall x, enc B (s x) (v x)) -> forall x, enc B (runC w n p s x) (bprog (map fst p) v x).
Proof.
  induction 1 as [|(i & boot) p Hboot Hp IH]; intros s v H; [exact H|]. cbn [runC bprog fold_left map fst]. apply IH. intros x. unfold stepC, istep, bset. cbn [fst snd] in *.
  assert (forall y, length (s y) = S n) as Ls by (intros y; apply (H y)).
  destruct i as [o a|g o a b].
  - destruct (NOTTo_spec s o a (v a) (Ls o) (H a)) as (X & Y). destruct (Nat.eqb_spec x o) as [-> | Hx]; [exact X|]. rewrite Y by exact Hx. apply H.
  - destruct (gate_spec boot g s o a b (v a) (v b) Hboot (Ls o) (H a) (H b)) as (X & Y). destruct (Nat.eqb_spec x o) as [-> | Hx]; [now apply (enc_mono B')|]. rewrite Y by exact Hx. apply H.
Qed.

(** ** Decryption *)
Lemma decryptBool ct v b : enc b ct v -> b < 2 ^ (w - 3) -> DecryptLWEBool w key ct = v.
Proof using w Hw.
  clear HB HR1 HR2 HB'.
  intros ((Lc & Hc) & e & (t & He) & Be) Hb. destruct (DecryptLWEPhase_spec w ltac:(lia) key ct Lc) as ((A1 & A1') & (t2 & A2)).
  unfold DecryptLWEBool, DecodeLWEBool. rewrite shl1 by lia. pose proof pow_pos3. pose proof pow_w3. pose proof pow_w1.
  set (x := DecryptLWEPhase w key ct) in *. clearbody x.
  destruct v.
  - apply Z.ltb_lt. assert (x - (2 ^ (w - 3) + e) = (t + t2) * Q) as Hx by lia. assert (t + t2 = 0) by nia. nia.
  - apply Z.ltb_ge. assert (x - (- 2 ^ (w - 3) + e) = (t + t2) * Q) as Hx by lia. assert (t + t2 = 1) by nia. nia.
Qed.
End G.

(** ** The sign table *)
Lemma signLUT_nth w N E i : (i < E)%nat -> length (signLUT w N E) = E /\ nth i (signLUT w N E) [] = repeat (wrap w (Z.shiftl 1 (w - 3))) N.
Proof.
  intros Hi. unfold signLUT. set (c := wrap w (Z.shiftl 1 (w - 3))).
  set (P := fun m (l : list (list Z)) => length l = E /\ forall j, (j < E)%nat -> nth j l [] = if Nat.ltb j m then repeat c N else repeat 0 N).
  assert (P E (forN 0 E (fun i l => upd l i (map (fun _ => c) (nth i l []))) (repeat (repeat 0 N) E))) as (A & B).
  { apply (forN_ind P).
    - split; [apply repeat_length|]. intros j Hj. cbn. apply nth_repeat_lt. exact Hj.
    - intros m l Hm (A & B). cbn [Nat.add]. split; [now rewrite upd_length|]. intros j Hj. destruct (Nat.eq_dec j m) as [-> | Hne].
      + rewrite nth_upd_same by lia. rewrite B by lia. destruct (Nat.ltb_spec m m); [lia|]. destruct (Nat.ltb_spec m (S m)); [|lia].
        clear. induction N as [|n IH]; [reflexivity|]. cbn [repeat map]. now rewrite IH.
      + rewrite nth_upd_other by lia. rewrite B by exact Hj. destruct (Nat.ltb_spec j m), (Nat.ltb_spec j (S m)); try lia; reflexivity. }
  split; [exact A|]. rewrite B by exact Hi. destruct (Nat.ltb_spec i E); [reflexivity|lia].
Qed.
Lemma signLUT_ok w N E : 0 < w -> lut_ok w N E (signLUT w N E).
Proof.
  intros Hw. split; [destruct E; [reflexivity|apply (signLUT_nth w N (S E) 0); lia]|]. intros i Hi. rewrite (proj2 (signLUT_nth w N E i Hi)).
  split; [apply repeat_length|]. apply Forall_forall. intros x Hx. apply repeat_spec in Hx. subst x. apply wrap_range. lia.
Qed.
Lemma signLUT_at w N E pos : 3 <= w -> (0 < N)%nat -> (0 < E)%nat -> 0 <= pos < Z.of_nat (E * N) -> cf (tableOf N E (signLUT w N E)) pos = 2 ^ (w - 3).
Proof.
  intros Hw HN HE Hp. unfold tableOf. rewrite weave_cf_eq by exact HE. pose proof (Z.mod_pos_bound pos (Z.of_nat E) ltac:(lia)).
  rewrite (proj2 (signLUT_nth w N E (Z.to_nat (pos mod Z.of_nat E)) ltac:(lia))).
  assert (0 <= pos / Z.of_nat E < Z.of_nat N) as Hd by (split; [apply Z.div_pos; lia|apply Z.div_lt_upper_bound; lia]).
  replace (pos / Z.of_nat E) with (Z.of_nat (Z.to_nat (pos / Z.of_nat E))) by lia. rewrite (cf_pol_at N HN) by lia.
  unfold nthZ. rewrite nth_repeat_lt by lia. rewrite shl1 by lia. unfold wrap. pose proof (pow_w3 w Hw). pose proof (pow_pos3 w Hw). apply Z.mod_small. lia.
Qed.

(** Position to sign. *)
Lemma sign_at w N E pos phi R M (b : bool) : 3 <= w -> (0 < N)%nat -> (0 < E)%nat -> let L := Z.of_nat (E * N) in
  2 * Z.abs (pos * 2 ^ w - 2 * L * phi) <= M -> Z.abs (phi - (if b then 2 ^ (w - 2) else - 2 ^ (w - 2))) <= R -> M + 4 * L * R < L * 2 ^ w ->
  cf (tableOf N E (signLUT w N E)) pos = if b then 2 ^ (w - 3) else - 2 ^ (w - 3).
Proof.
  intros Hw HN HE L H1 H2 H3. pose proof (pow_w3 w Hw) as P3. pose proof (pow_w2 w Hw) as P2. pose proof (pow_pos3 w Hw) as Pp.
  assert (0 < L) as HL by (unfold L; nia).
  assert (forall x, 0 <= x < L -> cf (tableOf N E (signLUT w N E)) x = 2 ^ (w - 3)) as HS by (intros x Hx; now apply signLUT_at).
  set (P := 2 ^ (w - 3)) in *. clearbody P. rewrite P3, P2 in *. clear P3 P2.
  destruct b.
  - assert (0 <= pos < L) as Hp by nia. now apply HS.
  - assert (- L <= pos < 0) as Hp by nia. replace pos with ((pos + L) - L) by lia.
    pose proof (cf_anti (tableOf N E (signLUT w N E)) (pos + L - L)) as Ha. replace (pos + L - L + Z.of_nat (E * N)) with (pos + L) in Ha by (unfold L; lia).
    rewrite (HS (pos + L)) in Ha by lia. lia.
Qed.

Lemma boot_sign w N k E p pKS sk s large brk ksk bs bc Ek Eks : 3 <= w -> (0 < N)%nat ->
  boot_keys w N k E p pKS sk s large brk ksk bs bc Ek Eks ->
  forall acc0 rotBuf ksBuf extBuf mu ms R, boot_bufs N k E (length s) acc0 rotBuf ksBuf extBuf -> ms_err w (Z.of_nat (E * N)) mu ms ->
  let L := Z.of_nat (E * N) in let M := mu * (1 + zsum (length s) (nthZ s)) + 2 * extSlack E * 2 ^ w in
  (M + 4 * L * R < L * 2 ^ w ->
   sign_boot w s (bootSign w N k E false ms p pKS brk ksk bs bc (length s) (acc0, rotBuf, ksBuf, extBuf)) R
     (brNoise w N k p bc (length s) Ek + ksNoise w pKS (length large - length s) Eks)) /\
  (M + 4 * L * ksNoise w pKS (length large - length s) Eks + 4 * L * R < L * 2 ^ w ->
   sign_boot w large (bootSign w N k E true ms p pKS brk ksk bs bc (length s) (acc0, rotBuf, ksBuf, extBuf)) R (brNoise w N k p bc (length s) Ek)).
Proof.
  intros Hw HN HK acc0 rotBuf ksBuf extBuf mu ms R Hbufs Hmu L M.
  pose proof (bk_ext _ _ _ _ _ _ _ _ _ _ _ _ _ _ _ HK) as (HE & _).
  split; intros Hm out ct phi b Lo Hct Hph HR;
    destruct (boot_position w N k E p pKS sk s large brk ksk bs bc Ek Eks ltac:(lia) HN HK acc0 rotBuf ksBuf extBuf (signLUT w N E) mu ms Hbufs (signLUT_ok w N E ltac:(lia)) Hmu phi ct out) as (P1 & P2).
  - destruct (P1 Lo Hct Hph) as (A & pos & B & C). split; [exact A|].
    rewrite (sign_at w N E pos phi R M b Hw HN HE B HR Hm) in C. exact C.
  - destruct (P2 Lo Hct Hph) as (A & pos & B & C). split; [exact A|].
    rewrite (sign_at w N E pos phi R (M + 4 * L * ksNoise w pKS (length large - length s) Eks) b Hw HN HE B HR Hm) in C. exact C.
Qed.

(** ** Encryption of booleans and bit vectors *)
Lemma EncryptLWEBoolTo_spec w U G sk out m st ct' st' : 3 <= w -> length out = S (length sk) -> EncryptLWEBoolTo w U G sk out m st = (ct', st') ->
  bool_enc w sk (Z.abs (G (snd st))) ct' m /\ st' = ((fst st + length sk)%nat, S (snd st)).
Proof.
  intros Hw L E. apply (EncryptLWEPlaintextTo_spec w ltac:(lia) U G sk) in E; [|exact L]. destruct E as (A & (t & B) & C & _). split; [|exact C]. split; [exact A|].
  exists (G (snd st)). split; [|lia]. pose proof (pow_w3 w Hw). pose proof (pow_pos3 w Hw). unfold EncodeLWEBool in B. rewrite !Z.shiftl_mul_pow2 in B by lia. unfold wrap in B.
  destruct m; rewrite Z.mod_small in B by lia; [exists t|exists (t + 1)]; lia.
Qed.

Lemma EncryptLWEBits_spec w U G sk msg bits st B : 3 <= w -> (forall i, (i < bits)%nat -> Z.abs (G (snd st + i)%nat) <= B) ->
  length (EncryptLWEBits w U G sk msg bits st) = bits /\
  forall i, (i < bits)%nat -> bool_enc w sk B (nth i (EncryptLWEBits w U G sk msg bits st) []) (Z.testbit msg (Z.of_nat i)).
Proof.
  intros Hw HG. unfold EncryptLWEBits, EncryptLWEBitsTo. rewrite repeat_length.
  set (P := fun m (t : list (list Z) * (Z * rst)) => length (fst t) = bits /\ fst (snd t) = Z.shiftr msg (Z.of_nat m) /\ snd (snd (snd t)) = (snd st + m)%nat /\
    forall i, (i < m)%nat -> bool_enc w sk B (nth i (fst t) []) (Z.testbit msg (Z.of_nat i))).
  match goal with |- context [forN 0 bits ?b ?s] => assert (P bits (forN 0 bits b s)) as (A & _ & _ & D) end.
  { apply (forN_ind P).
    - unfold P. cbn [fst snd]. split; [apply repeat_length|]. split; [reflexivity|]. split; [lia|]. intros i Hi; lia.
    - intros m (o & (x & r)) Hm (A & X & C & D). cbn [Nat.add]. cbn [fst snd] in *.
      match goal with |- P _ (let '(_, _) := ?e in _) => destruct e as (c & r') eqn:Ec end.
      apply (EncryptLWEBoolTo_spec w U G sk) in Ec; [|exact Hw|apply repeat_length]. destruct Ec as (E1 & E2).
      unfold P. cbn [fst snd]. split; [now rewrite upd_length|]. split; [|split].
      + rewrite X, Z.shiftr_shiftr by lia. f_equal. lia.
      + rewrite E2. cbn. lia.
      + intros i Hi. destruct (Nat.eq_dec i m) as [-> | Hne].
        * rewrite nth_upd_same by lia. replace (Z.testbit msg (Z.of_nat m)) with (Z.land x 1 =? 1).
          -- destruct E1 as (E1 & e & E3 & E4). split; [exact E1|]. exists e. split; [exact E3|]. rewrite C in E4. specialize (HG m Hm). lia.
          -- rewrite X. change 1 with (Z.ones 1) at 1. rewrite Z.land_ones by lia. rewrite <- (Z.add_0_l (Z.of_nat m)) at 2. rewrite <- Z.shiftr_spec by lia.
             rewrite Z.bit0_odd. change (2 ^ 1) with 2. rewrite Zmod_odd. destruct (Z.odd _); reflexivity.
        * rewrite nth_upd_other by lia. apply D. lia. }
  split; [exact A|exact D].
Qed.

Definition bitZ (b : bool) : Z := if b then 1 else 0.
Lemma DecryptLWEBits_spec w sk cts (b : nat -> bool) : (forall i, (i < length cts)%nat -> DecryptLWEBool w sk (nth i cts []) = b i) ->
  DecryptLWEBits w sk cts = swrap 64 (zsum (length cts) (fun i => bitZ (b i) * 2 ^ Z.of_nat i)).
Proof.
  intros H. unfold DecryptLWEBits. set (n := length cts) in *.
  set (P := fun d m => sword 64 m /\ eqm (2 ^ 64) m (zsum d (fun i => bitZ (b (n - d + i)%nat) * 2 ^ Z.of_nat i))).
  match goal with |- forN 0 n ?bb ?s = _ => assert (P n (forN 0 n bb s)) as (A & B) end.
  { apply (forN_ind P).
    - split; [unfold sword; lia|cbn [zsum]; reflexivity].
    - intros d m Hd (A & B). cbn [Nat.add]. cbv zeta. rewrite H by lia. set (m1 := swrap 64 (Z.shiftl m 1)).
      assert (eqm (2 ^ 64) m1 (2 * m)) as E1 by (unfold m1; rewrite swrap_eqm, Z.shiftl_mul_pow2 by lia; apply eqm_eq; lia).
      assert (eqm (2 ^ 64) (bitZ (b (n - 1 - d)%nat) + 2 * m) (zsum (S d) (fun i => bitZ (b (n - S d + i)%nat) * 2 ^ Z.of_nat i))) as E2.
      { rewrite B, zsum_S_l, <- zsum_scale_l. replace (n - S d + 0)%nat with (n - 1 - d)%nat by lia. change (2 ^ Z.of_nat 0) with 1. apply eqm_eq.
        replace (bitZ (b (n - 1 - d)%nat) * 1) with (bitZ (b (n - 1 - d)%nat)) by lia. f_equal.
        apply zsum_ext. intros i Hi. replace (n - S d + S i)%nat with (n - d + i)%nat by lia. rewrite Nat2Z.inj_succ, Z.pow_succ_r by lia. ring. }
      destruct (b (n - 1 - d)%nat) eqn:Eb; cbn [bitZ] in E2.
      + split; [apply swrap_range; lia|]. rewrite swrap_eqm, E1, <- E2. apply eqm_eq. ring.
      + split; [apply swrap_range; lia|]. rewrite E1, <- E2. apply eqm_eq. ring. }
  replace (n - n)%nat with 0%nat in B by lia. cbn [Nat.add] in B.
  assert (eqm (2 ^ 64) (swrap 64 (zsum n (fun i => bitZ (b i) * 2 ^ Z.of_nat i))) (zsum n (fun i => bitZ (b i) * 2 ^ Z.of_nat i))) as C by apply swrap_eqm.
  assert (sword 64 (swrap 64 (zsum n (fun i => bitZ (b i) * 2 ^ Z.of_nat i)))) as D by (apply swrap_range; lia).
  set (S := zsum n (fun i => bitZ (b i) * 2 ^ Z.of_nat i)) in *. clearbody S. destruct B as (t1 & B). destruct C as (t & C). unfold sword in *. lia.
Qed.
Lemma bits_sum x n : zsum n (fun i => bitZ (Z.testbit x (Z.of_nat i)) * 2 ^ Z.of_nat i) = x mod 2 ^ Z.of_nat n.
Proof.
  induction n as [|n IH]; [cbn; now rewrite Z.mod_1_r|]. cbn [zsum]. rewrite IH. rewrite Nat2Z.inj_succ, Z.pow_succ_r by lia. pose proof (pow2_pos (Z.of_nat n) ltac:(lia)).
  rewrite (Z.mul_comm 2), Z.rem_mul_r by lia. rewrite Z.testbit_eqb by lia. unfold bitZ. pose proof (Z.mod_pos_bound (x / 2 ^ Z.of_nat n) 2 ltac:(lia)).
  destruct (Z.eqb_spec ((x / 2 ^ Z.of_nat n) mod 2) 1); nia.
Qed.
Lemma bits_roundtrip w U G sk msg bits st : 3 <= w -> (forall i, (i < bits)%nat -> Z.abs (G (snd st + i)%nat) < 2 ^ (w - 3)) ->
  DecryptLWEBits w sk (EncryptLWEBits w U G sk msg bits st) = swrap 64 (msg mod 2 ^ Z.of_nat bits).
Proof.
  intros Hw HG. destruct (EncryptLWEBits_spec w U G sk msg bits st (2 ^ (w - 3) - 1) Hw) as (A & B); [intros i Hi; specialize (HG i Hi); lia|].
  rewrite (DecryptLWEBits_spec w sk _ (fun i => Z.testbit msg (Z.of_nat i))); [now rewrite A, bits_sum|].
  intros i Hi. rewrite A in Hi. apply (decryptBool w Hw sk _ _ (2 ^ (w - 3) - 1) (B i Hi)). lia.
Qed.

(** ** The gates of an evaluator with bootstrapping keys *)
Definition bufs_ok (N k E n : nat) (b : bootBufs) : Prop := let '(acc0, rotBuf, ksBuf, extBuf) := b in boot_bufs N k E n acc0 rotBuf ksBuf extBuf.
Lemma boot_sign' w N k E p pKS sk s large brk ksk bs bc Ek Eks : 3 <= w -> (0 < N)%nat ->
  boot_keys w N k E p pKS sk s large brk ksk bs bc Ek Eks ->
  forall (order : bool) bufs mu ms R, bufs_ok N k E (length s) bufs -> ms_err w (Z.of_nat (E * N)) mu ms ->
  let L := Z.of_nat (E * N) in let M := mu * (1 + zsum (length s) (nthZ s)) + 2 * extSlack E * 2 ^ w in let K := ksNoise w pKS (length large - length s) Eks in
  M + 4 * L * (R + if order then K else 0) < L * 2 ^ w ->
  sign_boot w (if order then large else s) (bootSign w N k E order ms p pKS brk ksk bs bc (length s) bufs) R (brNoise w N k p bc (length s) Ek + if order then 0 else K).
Proof.
  intros Hw HN HK order (((a & r) & kb) & eb) mu ms R Hb Hm L M K Hlt.
  destruct (boot_sign w N k E p pKS sk s large brk ksk bs bc Ek Eks Hw HN HK a r kb eb mu ms R Hb Hm) as (A & B). destruct order.
  - rewrite Z.add_0_r. apply B. fold L M K. lia.
  - apply A. fold L M. lia.
Qed.
Section Ev.
Variables (w : Z) (N k E : nat) (p pKS : gadget) (sk : list (list Z)) (s large : list Z) (brk : list (list (list (list (list Z))))) (ksk : list (list (list Z))) (bs bc : nat) (Ek Eks mu : Z) (ms : Z -> Z) (order : bool) (B : Z).
Hypothesis Hw : 3 <= w.
Hypothesis HN : (0 < N)%nat.
Hypothesis HK : boot_keys w N k E p pKS sk s large brk ksk bs bc Ek Eks.
Hypothesis Hms : ms_err w (Z.of_nat (E * N)) mu ms.
Hypothesis HB : 0 <= B.
Notation L := (Z.of_nat (E * N)).
Notation M := (mu * (1 + zsum (length s) (nthZ s)) + 2 * extSlack E * 2 ^ w).
Notation K := (ksNoise w pKS (length large - length s) Eks).
Notation key := (if order then large else s).
Hypothesis Hmargin : M + 4 * L * (2 ^ (w - 3) + 2 * B + if order then K else 0) < L * 2 ^ w.
Hypothesis Hmargin2 : 2 * B <= 2 ^ (w - 3).
Notation out := (brNoise w N k p bc (length s) Ek + if order then 0 else K).
Lemma ev_gate bufs g (st : store) o a b va vb : bufs_ok N k E (length s) bufs -> length (st o) = S (length key) -> bool_enc w key B (st a) va -> bool_enc w key B (st b) vb ->
  let st' := runGate w (length key) (bootSign w N k E order ms p pKS brk ksk bs bc (length s) bufs) g st o a b in
  bool_enc w key out (st' o) (truth g va vb) /\ forall x, x <> o -> st' x = st x.
Proof.
  intros Hb Lo Ha Hbb. apply (gate_spec w Hw key (2 ^ (w - 3) + 2 * B) B out); try lia; try assumption.
  apply (boot_sign' w N k E p pKS sk s large brk ksk bs bc Ek Eks Hw HN HK order bufs mu ms); [exact Hb|exact Hms|exact Hmargin].
Qed.
Lemma ev_prog (prog : list (instr * bootBufs)) : Forall (fun ib => bufs_ok N k E (length s) (snd ib)) prog -> out <= B -> forall (st : store) v, (forall x, bool_enc w key B (st x) (v x)) ->
  let st' := runC w (length key) (map (fun ib => (fst ib, bootSign w N k E order ms p pKS brk ksk bs bc (length s) (snd ib))) prog) st in
  forall x, bool_enc w key B (st' x) (bprog (map fst prog) v x) /\ DecryptLWEBool w key (st' x) = bprog (map fst prog) v x.
Proof.
  intros Hb Ho st v Hv st' x.
  assert (bool_enc w key B (st' x) (bprog (map fst prog) v x)) as H.
  { unfold st'. replace (map fst prog) with (map fst (map (fun ib => (fst ib, bootSign w N k E order ms p pKS brk ksk bs bc (length s) (snd ib))) prog)) by (rewrite map_map; reflexivity).
    apply (prog_spec w Hw key (2 ^ (w - 3) + 2 * B) B out); try lia; try assumption.
    apply Forall_map. eapply Forall_impl; [|exact Hb]. intros (i & bufs) Hbi. cbn [fst snd] in *.
    apply (boot_sign' w N k E p pKS sk s large brk ksk bs bc Ek Eks Hw HN HK order bufs mu ms); [exact Hbi|exact Hms|exact Hmargin]. }
  split; [exact H|]. apply (decryptBool w Hw key _ _ B H). pose proof (pow_pos3 w Hw). lia.
Qed.
End Ev.

Lemma swrap_small x : - 2 ^ 63 <= x < 2 ^ 63 -> swrap 64 x = x.
Proof. intros H. pose proof (swrap_range 64 x ltac:(lia)) as R. destruct (swrap_eqm 64 x ltac:(lia)) as (t & Ht) || destruct (swrap_eqm 64 x) as (t & Ht). unfold sword in R. change (64 - 1) with 63 in R. lia. Qed.
Lemma bits_roundtrip63 w U G sk x n st : 3 <= w -> (forall i, (i < n)%nat -> Z.abs (G (snd st + i)%nat) < 2 ^ (w - 3)) -> (n <= 63)%nat ->
  DecryptLWEBits w sk (EncryptLWEBits w U G sk x n st) = x mod 2 ^ Z.of_nat n.
Proof.
  intros Hw HG Hn. rewrite bits_roundtrip by assumption. apply swrap_small. pose proof (Z.mod_pos_bound x (2 ^ Z.of_nat n) ltac:(apply pow2_pos; lia)).
  pose proof (Z.pow_le_mono_r 2 (Z.of_nat n) 63 ltac:(lia) ltac:(lia)). lia.
Qed.
Lemma bits_roundtrip64 w U G sk x n st : 3 <= w -> (forall i, (i < n)%nat -> Z.abs (G (snd st + i)%nat) < 2 ^ (w - 3)) -> (64 <= n)%nat -> - 2 ^ 63 <= x < 2 ^ 63 ->
  DecryptLWEBits w sk (EncryptLWEBits w U G sk x n st) = x.
Proof.
  intros Hw HG Hn Hx. rewrite bits_roundtrip by assumption. pose proof (swrap_range 64 (x mod 2 ^ Z.of_nat n) ltac:(lia)) as R. unfold sword in R. change (64 - 1) with 63 in R.
  assert (eqm (2 ^ 64) (swrap 64 (x mod 2 ^ Z.of_nat n)) x) as (t & Ht); [|lia]. rewrite swrap_eqm by lia.
  exists (- (x / 2 ^ Z.of_nat n) * 2 ^ (Z.of_nat n - 64)). rewrite Z.mod_eq by (pose proof (pow2_pos (Z.of_nat n)); lia).
  replace (2 ^ Z.of_nat n * (x / 2 ^ Z.of_nat n)) with ((x / 2 ^ Z.of_nat n) * (2 ^ (Z.of_nat n - 64) * 2 ^ 64)); [ring|]. rewrite <- Z.pow_add_r by lia. replace (Z.of_nat n - 64 + 64) with (Z.of_nat n) by lia. ring.
Qed.
Lemma bits_decrypt w sk cts B (b : nat -> bool) : 3 <= w -> B < 2 ^ (w - 3) -> (forall i, (i < length cts)%nat -> bool_enc w sk B (nth i cts []) (b i)) ->
  DecryptLWEBits w sk cts = swrap 64 (zsum (length cts) (fun i => (if b i then 1 else 0) * 2 ^ Z.of_nat i)).
Proof. intros Hw HB H. apply (DecryptLWEBits_spec w sk cts b). intros i Hi. exact (decryptBool w Hw sk _ _ B (H i Hi) HB). Qed.
