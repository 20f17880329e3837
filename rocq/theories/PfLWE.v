From Verif Require Import Base SpecNum ModelNum PfNum ModelVec SpecVec PfVec ModelPoly SpecPoly PfPoly ModelGadget SpecGadget PfGadget ModelLWE SpecLWE.

Section W.
Variable w : Z.
Hypothesis Hw : 0 < w.
Notation Q := (2 ^ w).

Lemma nthZ_cons_S x l i : nthZ (x :: l) (S i) = nthZ l i.
Proof. reflexivity. Qed.
Lemma nthZ_tl l i : nthZ (tl l) i = nthZ l (S i).
Proof. destruct l; [|reflexivity]. unfold nthZ. now destruct i. Qed.

Lemma dot_eqm a b : length a = length b ->
  eqm Q (dot w a b) (zsum (length b) (fun i => nthZ a i * nthZ b i)).
Proof.
  intros H. unfold dot. destruct (Dot_spec w a b ltac:(lia) ltac:(lia)) as (r & -> & ->). rewrite eqm_mod, H. reflexivity.
Qed.

Lemma phase_lin s a b c f : eqm Q (nthZ c 0) (f (nthZ a 0) (nthZ b 0)) ->
  (forall x y x' y', eqm Q (f x y + f x' y') (f (x + x') (y + y'))) ->
  (forall x y z, eqm Q (f x y * z) (f (x * z) (y * z))) ->
  (forall i, (i < length s)%nat -> eqm Q (nthZ c (S i)) (f (nthZ a (S i)) (nthZ b (S i)))) ->
  eqm Q (f 0 0) 0 -> (forall x y x' y', eqm Q x x' -> eqm Q y y' -> eqm Q (f x y) (f x' y')) ->
  eqm Q (phase s c) (f (phase s a) (phase s b)).
Proof.
  intros H0 Hadd Hmul HS Hz Hp. unfold phase. rewrite <- Hadd. apply eqm_add; [exact H0|].
  set (n := length s) in *. assert (forall m, (m <= n)%nat ->
    eqm Q (zsum m (fun i => nthZ c (S i) * nthZ s i))
    (f (zsum m (fun i => nthZ a (S i) * nthZ s i)) (zsum m (fun i => nthZ b (S i) * nthZ s i)))) as H.
  { induction m as [|m IH]; intros Hm; [cbn [zsum]; now rewrite Hz|].
    cbn [zsum]. rewrite IH by lia. rewrite <- Hadd, <- Hmul. rewrite HS by lia. reflexivity. }
  apply H; lia.
Qed.

Lemma phase_map2 s a b op : (length a = S (length s)) -> length b = length a ->
  forall f, (forall x y, eqm Q (op x y) (f x y)) ->
  (forall x y x' y', eqm Q (f x y + f x' y') (f (x + x') (y + y'))) ->
  (forall x y z, eqm Q (f x y * z) (f (x * z) (y * z))) ->
  eqm Q (f 0 0) 0 -> (forall x y x' y', eqm Q x x' -> eqm Q y y' -> eqm Q (f x y) (f x' y')) ->
  eqm Q (phase s (map2 op a b)) (f (phase s a) (phase s b)).
Proof.
  intros La Lb f Hop Ha Hm Hz Hp. apply phase_lin; try assumption.
  - rewrite nthZ_map2 by lia. apply Hop.
  - intros i Hi. rewrite nthZ_map2 by lia. apply Hop.
Qed.

Lemma phase_vadd s a b : length a = S (length s) -> length b = S (length s) ->
  eqm Q (phase s (vadd w a b)) (phase s a + phase s b).
Proof.
  intros La Lb. unfold vadd. apply (phase_map2 s a b _ La ltac:(lia) (fun x y => x + y)); intros;
    try (rewrite ?wrap_eqm; apply eqm_eq; ring); try (now rewrite H, H0).
Qed.
Lemma phase_vsub s a b : length a = S (length s) -> length b = S (length s) ->
  eqm Q (phase s (vsub w a b)) (phase s a - phase s b).
Proof.
  intros La Lb. unfold vsub. apply (phase_map2 s a b _ La ltac:(lia) (fun x y => x - y)); intros;
    try (rewrite ?wrap_eqm; apply eqm_eq; ring); try (now rewrite H, H0).
Qed.
Lemma phase_vscaleAdd s c a b : length a = S (length s) -> length b = S (length s) ->
  eqm Q (phase s (vscaleAdd w c a b)) (phase s a + c * phase s b).
Proof.
  intros La Lb. unfold vscaleAdd. apply (phase_map2 s a b _ La ltac:(lia) (fun x y => x + c * y)); intros;
    try (rewrite ?wrap_eqm; apply eqm_eq; ring); try (now rewrite H, H0).
Qed.
Lemma phase_vscaleSub s c a b : length a = S (length s) -> length b = S (length s) ->
  eqm Q (phase s (vscaleSub w c a b)) (phase s a - c * phase s b).
Proof.
  intros La Lb. unfold vscaleSub. apply (phase_map2 s a b _ La ltac:(lia) (fun x y => x - c * y)); intros;
    try (rewrite ?wrap_eqm; apply eqm_eq; ring); try (now rewrite H, H0).
Qed.
Lemma phase_vscale s c a : length a = S (length s) ->
  eqm Q (phase s (vscale w c a)) (c * phase s a).
Proof.
  intros La. apply (phase_lin s a a (vscale w c a) (fun x _ => c * x)); unfold vscale; intros;
    try (rewrite nthZ_map by lia); try (rewrite ?wrap_eqm; apply eqm_eq; ring); try (now rewrite H).
Qed.
Lemma phase_vneg s a : length a = S (length s) ->
  eqm Q (phase s (vneg w a)) (- phase s a).
Proof.
  intros La. apply (phase_lin s a a (vneg w a) (fun x _ => - x)); unfold vneg; intros;
    try (rewrite nthZ_map by lia); try (rewrite ?wrap_eqm; apply eqm_eq; ring); try (now rewrite H).
Qed.

Lemma lwe_map2 n (op : Z -> Z -> Z) a b : (forall x y, uword w (op x y)) -> length a = S n -> length b = S n -> lwe_ct w n (map2 op a b).
Proof. intros H La Lb. split; [rewrite map2_length; lia|now apply Forall_map2]. Qed.
Lemma lwe_map n (op : Z -> Z) a : (forall x, uword w (op x)) -> length a = S n -> lwe_ct w n (map op a).
Proof. intros H La. split; [now rewrite map_length|now apply Forall_map']. Qed.
Lemma wrap_word x : uword w (wrap w x).
Proof. apply wrap_range; lia. Qed.

Lemma lwe_vadd n a b : length a = S n -> length b = S n -> lwe_ct w n (vadd w a b).
Proof. apply lwe_map2. intros; apply wrap_word. Qed.
Lemma lwe_vsub n a b : length a = S n -> length b = S n -> lwe_ct w n (vsub w a b).
Proof. apply lwe_map2. intros; apply wrap_word. Qed.
Lemma lwe_vscaleAdd n c a b : length a = S n -> length b = S n -> lwe_ct w n (vscaleAdd w c a b).
Proof. apply lwe_map2. intros; apply wrap_word. Qed.
Lemma lwe_vscaleSub n c a b : length a = S n -> length b = S n -> lwe_ct w n (vscaleSub w c a b).
Proof. apply lwe_map2. intros; apply wrap_word. Qed.
Lemma lwe_vscale n c a : length a = S n -> lwe_ct w n (vscale w c a).
Proof. apply lwe_map. intros; apply wrap_word. Qed.
Lemma lwe_vneg n a : length a = S n -> lwe_ct w n (vneg w a).
Proof. apply lwe_map. intros; apply wrap_word. Qed.

(** ** Encryption *)
Section E.
Variables U G : nat -> Z.
Lemma EncryptLWEBody_spec sk ct st ct' st' : length ct = S (length sk) ->
  EncryptLWEBody w U G sk ct st = (ct', st') ->
  lwe_ct w (length sk) ct' /\ eqm Q (phase sk ct') (nthZ ct 0 + G (snd st)) /\
  st' = ((fst st + length sk)%nat, S (snd st)) /\
  (forall i, (i < length sk)%nat -> nthZ ct' (S i) = U (fst st + i)%nat mod Q).
Proof.
  intros L. unfold EncryptLWEBody, sampleVec, sampleG. cbn [fst snd]. intros E. injection E as <- <-.
  replace (length ct - 1)%nat with (length sk) by lia.
  split; [split|split; [|split]].
  - cbn [length]. now rewrite tab_length.
  - constructor; [apply wrap_word|]. apply Forall_tab. intros; apply wrap_word.
  - unfold phase. unfold nthZ at 1. cbn [nth].
    rewrite (zsum_ext _ (fun i => nthZ (_ :: _) (S i) * nthZ sk i)
      (fun i => nthZ (tab (length sk) (fun i => wrap w (U (fst st + i)))) i * nthZ sk i)) by reflexivity.
    rewrite !wrap_eqm, dot_eqm by now rewrite tab_length. apply eqm_eq; ring.
  - reflexivity.
  - intros i Hi. rewrite nthZ_cons_S, nthZ_tab by exact Hi. reflexivity.
Qed.

Lemma EncryptLWEPlaintextTo_spec sk out pt st ct' st' : length out = S (length sk) ->
  EncryptLWEPlaintextTo w U G sk out pt st = (ct', st') ->
  lwe_ct w (length sk) ct' /\ eqm Q (phase sk ct') (pt + G (snd st)) /\
  st' = ((fst st + length sk)%nat, S (snd st)) /\
  (forall i, (i < length sk)%nat -> nthZ ct' (S i) = U (fst st + i)%nat mod Q).
Proof.
  intros L E. unfold EncryptLWEPlaintextTo in E. apply EncryptLWEBody_spec in E; [|now rewrite upd_length].
  rewrite nthZ_upd in E by lia. exact E.
Qed.

(** The output does not depend on what it held before. *)
Lemma EncryptLWEPlaintextTo_over sk out1 out2 pt st : length out1 = S (length sk) -> length out2 = S (length sk) ->
  EncryptLWEPlaintextTo w U G sk out1 pt st = EncryptLWEPlaintextTo w U G sk out2 pt st.
Proof.
  intros L1 L2. unfold EncryptLWEPlaintextTo, EncryptLWEBody. rewrite !upd_length, L1, L2, !nthZ_upd by lia. reflexivity.
Qed.

Lemma DecryptLWEPhase_spec sk ct : length ct = S (length sk) ->
  uword w (DecryptLWEPhase w sk ct) /\ eqm Q (DecryptLWEPhase w sk ct) (phase sk ct).
Proof.
  intros L. unfold DecryptLWEPhase. split; [apply wrap_word|].
  rewrite wrap_eqm, dot_eqm by (destruct ct; cbn in *; lia). unfold phase. apply eqm_add; [reflexivity|].
  apply zsum_eqm. intros i Hi. now rewrite nthZ_tl.
Qed.

Lemma EncDec_LWE sk out pt st ct' st' : length out = S (length sk) ->
  EncryptLWEPlaintextTo w U G sk out pt st = (ct', st') ->
  DecryptLWEPhase w sk ct' = (pt + G (snd st)) mod Q.
Proof.
  intros L E. destruct (EncryptLWEPlaintextTo_spec sk out pt st ct' st' L E) as ((L' & _) & H & _).
  destruct (DecryptLWEPhase_spec sk ct' L') as (Hr & He).
  apply (eqm_small Q); [|exact Hr|apply Z.mod_pos_bound; apply Z.pow_pos_nonneg; lia].
  rewrite He, H. symmetry. apply eqm_mod.
Qed.

(** ** Leveled encryption *)
Variable p : gadget.
Hypothesis Hok : gadget_ok w p.
Notation l := (g_level p).

Lemma LogBaseQ_eq j : LogBaseQ p j = w - (Z.of_nat j + 1) * g_logBase p.
Proof. destruct Hok as (_ & _ & _ & H & _). unfold LogBaseQ. now rewrite H. Qed.

(** A loop that encrypts one level per step from a starting body [body j]. *)
Definition levLoop (enc : nat -> list Z -> rst -> list Z * rst) (n : nat) (o : list (list Z)) (st : rst) :=
  forN 0 n (fun j s => let '(r, st) := s in let '(ct', st) := enc j (nth j r []) st in (upd r j ct', st)) (o, st).

Lemma levLoop_spec (enc : nat -> list Z -> rst -> list Z * rst) (nsk : nat) (P : nat -> nat -> list Z -> Prop) o st o' st' :
  length o = l -> (forall j, (j < l)%nat -> length (nth j o []) = S nsk) ->
  (forall j ct st ct' st', (j < l)%nat -> length ct = S nsk -> enc j ct st = (ct', st') ->
     length ct' = S nsk /\ P j (snd st) ct' /\ st' = ((fst st + nsk)%nat, S (snd st))) ->
  levLoop enc l o st = (o', st') ->
  length o' = l /\ (forall j, (j < l)%nat -> P j (snd st + j)%nat (nth j o' [])) /\
  (forall j, (j < l)%nat -> length (nth j o' []) = S nsk) /\
  st' = ((fst st + l * nsk)%nat, (snd st + l)%nat).
Proof.
  intros Lo Ho He. unfold levLoop.
  set (Inv := fun (n : nat) (s : list (list Z) * rst) => (n <= l)%nat -> let '(r, t) := s in
    length r = l /\ (forall j, (j < l)%nat -> length (nth j r []) = S nsk) /\
    (forall j, (j < n)%nat -> P j (snd st + j)%nat (nth j r [])) /\ t = ((fst st + n * nsk)%nat, (snd st + n)%nat)).
  match goal with |- forN 0 l ?b ?s = _ -> _ => assert (Inv l (forN 0 l b s)) as HI end.
  { apply (forN_ind Inv); unfold Inv.
    - intros _. repeat match goal with |- _ /\ _ => split end; auto; try lia. rewrite Nat.mul_0_l, !Nat.add_0_r. now destruct st.
    - intros n [r t] Hn IH Hn'. destruct (IH ltac:(lia)) as (A & B & C & D).
      replace (0 + n)%nat with n by lia. destruct (enc n (nth n r []) t) as [ct' t'] eqn:E.
      destruct (He n _ _ _ _ ltac:(lia) (B n ltac:(lia)) E) as (X & Y & Z0).
      split; [now rewrite upd_length|]. split; [|split].
      + intros j Hj. rewrite nth_upd_if by lia. destruct (Nat.eqb_spec j n); [exact X|now apply B].
      + intros j Hj. rewrite nth_upd_if by lia. destruct (Nat.eqb_spec j n) as [->|Hne].
        * rewrite D in Y. exact Y.
        * apply C; lia.
      + rewrite Z0, D. cbn [fst snd]. f_equal; lia. }
  intros E. rewrite E in HI. destruct (HI ltac:(lia)) as (A & B & C & D). auto.
Qed.

Definition encBody sk (body : nat -> Z) (j : nat) (ct : list Z) (st : rst) := EncryptLWEBody w U G sk (upd ct 0 (body j)) st.

Lemma levLoop_enc sk body o st o' st' :
  length o = l -> (forall j, (j < l)%nat -> length (nth j o []) = S (length sk)) ->
  levLoop (encBody sk body) l o st = (o', st') ->
  length o' = l /\ (forall j, (j < l)%nat -> lwe_ct w (length sk) (nth j o' []) /\
     eqm Q (phase sk (nth j o' [])) (body j + G (snd st + j)%nat)) /\
  st' = ((fst st + l * length sk)%nat, (snd st + l)%nat).
Proof.
  intros Lo Ho E.
  pose proof (levLoop_spec (encBody sk body) (length sk)
    (fun j g ct => lwe_ct w (length sk) ct /\ eqm Q (phase sk ct) (body j + G g)) o st o' st' Lo Ho) as H.
  destruct H as (A & B & C & D); [|exact E|auto].
  intros j ct t ct' t' Hj L E'. unfold encBody in E'. apply EncryptLWEBody_spec in E'; [|now rewrite upd_length].
  rewrite nthZ_upd in E' by lia. destruct E' as (X & Y & Z0 & _). split; [apply X|]. split; [split; assumption|exact Z0].
Qed.

Lemma EncryptLevScalarTo_spec sk o c st o' st' :
  length o = l -> (forall j, (j < l)%nat -> length (nth j o []) = S (length sk)) ->
  EncryptLevScalarTo w U G sk p o c st = (o', st') ->
  lev_enc w p sk o' c (fun j => G (snd st + j)%nat) /\
  st' = ((fst st + l * length sk)%nat, (snd st + l)%nat).
Proof.
  intros Lo Ho E.
  change (EncryptLevScalarTo w U G sk p o c st) with (levLoop (encBody sk (fun i => wrap w (Z.shiftl c (LogBaseQ p i)))) l o st) in E.
  apply levLoop_enc in E; [|assumption..]. destruct E as (A & B & C). split; [|exact C].
  split; [exact A|]. intros j Hj. destruct (B j Hj) as (X & Y). split; [exact X|]. rewrite Y, wrap_eqm.
  pose proof (LogBaseQ_range w p Hok j Hj). rewrite Z.shiftl_mul_pow2 by lia. rewrite LogBaseQ_eq. reflexivity.
Qed.

(** Loop over rows of leveled ciphertexts. *)
Lemma rowLoop_spec (enc : nat -> list (list Z) -> rst -> list (list Z) * rst) (lo n nsk tot : nat)
  (P : nat -> nat -> list (list Z) -> Prop) (shp : list (list Z) -> Prop) o st o' st' :
  length o = tot -> (lo + n <= tot)%nat -> (forall i, (lo <= i < lo + n)%nat -> shp (nth i o [])) ->
  (forall i row st row' st', (lo <= i < lo + n)%nat -> shp row -> enc i row st = (row', st') ->
     P i (snd st) row' /\ st' = ((fst st + l * nsk)%nat, (snd st + l)%nat)) ->
  forN lo n (fun i s => let '(r, st) := s in let '(row, st) := enc i (nth i r []) st in (upd r i row, st)) (o, st) = (o', st') ->
  length o' = tot /\ (forall i, (lo <= i < lo + n)%nat -> P i (snd st + (i - lo) * l)%nat (nth i o' [])) /\
  (forall i, (i < lo \/ lo + n <= i)%nat -> nth i o' [] = nth i o []) /\
  st' = ((fst st + n * (l * nsk))%nat, (snd st + n * l)%nat).
Proof.
  intros Lo Ht Ho He.
  set (Inv := fun (m : nat) (s : list (list (list Z)) * rst) => (m <= n)%nat -> let '(r, t) := s in
    length r = tot /\ (forall i, (lo + m <= i \/ i < lo)%nat -> nth i r [] = nth i o []) /\
    (forall i, (lo <= i < lo + m)%nat -> P i (snd st + (i - lo) * l)%nat (nth i r [])) /\ t = ((fst st + m * (l * nsk))%nat, (snd st + m * l)%nat)).
  match goal with |- forN lo n ?b ?s = _ -> _ => assert (Inv n (forN lo n b s)) as HI end.
  { apply (forN_ind Inv); unfold Inv.
    - intros _. repeat match goal with |- _ /\ _ => split end; auto; try lia. rewrite !Nat.mul_0_l, !Nat.add_0_r. now destruct st.
    - intros m [r t] Hm IH Hm'. destruct (IH ltac:(lia)) as (A & B & C & D).
      destruct (enc (lo + m)%nat (nth (lo + m) r []) t) as [row t'] eqn:E.
      assert (shp (nth (lo + m) r [])) as Hs by (rewrite B by lia; apply Ho; lia).
      destruct (He (lo + m)%nat _ _ _ _ ltac:(lia) Hs E) as (Y & Z0).
      split; [now rewrite upd_length|]. split; [|split].
      + intros i Hi. rewrite nth_upd_if by lia. destruct (Nat.eqb_spec i (lo + m)); [lia|apply B; lia].
      + intros i Hi. rewrite nth_upd_if by lia. destruct (Nat.eqb_spec i (lo + m)) as [->|Hne].
        * rewrite D in Y. cbn [snd] in Y. replace (lo + m - lo)%nat with m by lia. exact Y.
        * apply C; lia.
      + rewrite Z0, D. cbn [fst snd]. f_equal; lia. }
  intros E. rewrite E in HI. destruct (HI ltac:(lia)) as (A & B & C & D).
  split; [exact A|]. split; [exact C|]. split; [|exact D]. intros i Hi. apply B. lia.
Qed.
End E.
End W.
