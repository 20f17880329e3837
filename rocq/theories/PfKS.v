From Verif Require Import Base SpecNum ModelNum PfNum ModelVec SpecVec PfVec ModelPoly SpecPoly PfPoly ModelGadget SpecGadget PfGadget ModelLWE SpecLWE PfLWE.

Section W.
Variable w : Z.
Hypothesis Hw : 0 < w.
Notation Q := (2 ^ w).
Variable p : gadget.
Hypothesis Hok : gadget_ok w p.
Notation l := (g_level p).
Notation b := (g_logBase p).

(** ** Rounding off the noise of a leveled ciphertext *)
Lemma round_eqm x D B m e r : 0 < D -> eqm (D * B) x (m * D + e) -> - D <= 2 * e < D ->
  is_round_half_up x D r -> eqm B r m.
Proof.
  intros HD [k Hk] He [H1 H2]. exists k.
  assert (D * (2 * (r - m - B * k)) < 2 * D) by lia.
  assert (- 2 * D < D * (2 * (r - m - B * k))) by lia.
  assert (r - m - B * k < 1) by nia. assert (-1 < r - m - B * k) by nia. lia.
Qed.

Lemma Q_first : Q = 2 ^ LogFirstBaseQ p * 2 ^ b.
Proof.
  destruct Hok as (H1 & H2 & H3 & H4 & H5 & H6). unfold LogFirstBaseQ. rewrite H4, <- Z.pow_add_r by lia. f_equal; lia.
Qed.

Lemma round_first x m e : uword w x -> eqm Q x (m * 2 ^ LogFirstBaseQ p + e) ->
  - 2 ^ LogFirstBaseQ p <= 2 * e < 2 ^ LogFirstBaseQ p ->
  DivRoundBits w x (LogFirstBaseQ p) mod g_base p = m mod g_base p.
Proof.
  intros Hx He Hb. pose proof Hok as (H1 & H2 & H3 & H4 & H5 & H6).
  assert (0 <= LogFirstBaseQ p < w) as HL by (unfold LogFirstBaseQ; lia).
  destruct (DivRoundBits_spec w x _ HL Hx) as [R _]. rewrite H2. apply eqm_mod_eq.
  refine (round_eqm x (2 ^ LogFirstBaseQ p) _ m e _ _ _ Hb R); [apply Z.pow_pos_nonneg; lia|].
  rewrite <- Q_first. exact He.
Qed.

Lemma DecryptLevScalar_spec sk ct m e : lev_enc w p sk ct m e ->
  - 2 ^ (w - b) <= 2 * e O < 2 ^ (w - b) ->
  DecryptLevScalar w sk p ct = m mod g_base p.
Proof.
  intros (L & H) He. pose proof Hok as (H1 & H2 & H3 & H4 & H5 & H6).
  destruct (H O ltac:(lia)) as ((Lc & _) & E). unfold DecryptLevScalar.
  destruct (DecryptLWEPhase_spec w Hw sk _ Lc) as (X & Y).
  assert (LogFirstBaseQ p = w - b) as EL by (unfold LogFirstBaseQ; lia).
  apply (round_first _ m (e O) X); rewrite EL; [|exact He].
  rewrite Y, E. apply eqm_eq. do 3 f_equal. lia.
Qed.

Lemma base_pos : 0 < g_base p.
Proof. destruct Hok as (H1 & H2 & _). rewrite H2. apply Z.pow_pos_nonneg; lia. Qed.

Lemma DecryptLev_spec mm sk ct m e : w <= 64 -> 0 < mm -> g_base p <= 2 ^ 63 \/ mm <= 2 ^ 63 -> lev_enc w p sk ct m e ->
  - 2 ^ (w - b) <= 2 * e O < 2 ^ (w - b) ->
  DecryptLev w mm sk p ct = (m mod g_base p) mod mm.
Proof.
  intros Hw64 Hmm Hs H He. unfold DecryptLev. rewrite (DecryptLevScalar_spec sk ct m e H He).
  pose proof base_pos as HB. pose proof (Z.mod_pos_bound m (g_base p) HB) as M1.
  pose proof (Z.mod_pos_bound (m mod g_base p) mm Hmm) as M2.
  pose proof (Z.mod_le (m mod g_base p) mm ltac:(lia) Hmm) as M3.
  apply swrap_small; [lia|]. unfold sword. change (2 ^ (64 - 1)) with (2 ^ 63). lia.
Qed.

(** ** GSW and key switching key generation *)
Section E.
Variables U G : nat -> Z.

Lemma lev_body sk o' (c : Z) body g : length o' = l ->
  (forall j, (j < l)%nat -> lwe_ct w (length sk) (nth j o' []) /\ eqm Q (phase sk (nth j o' [])) (body j + G (g + j)%nat)) ->
  (forall j, (j < l)%nat -> eqm Q (body j) (c * 2 ^ LogBaseQ p j)) ->
  lev_enc w p sk o' c (fun j => G (g + j)%nat).
Proof.
  intros L H Hb. split; [exact L|]. intros j Hj. destruct (H j Hj) as (X & Y). split; [exact X|].
  rewrite Y, Hb by exact Hj. now rewrite (LogBaseQ_eq w p Hok).
Qed.

Lemma shl_eqm x j : (j < l)%nat -> eqm Q (wrap w (Z.shiftl x (LogBaseQ p j))) (x * 2 ^ LogBaseQ p j).
Proof.
  intros Hj. rewrite wrap_eqm. pose proof (LogBaseQ_range w p Hok j Hj). rewrite Z.shiftl_mul_pow2 by lia. reflexivity.
Qed.

Definition shape3 (n m : nat) (o : list (list (list Z))) : Prop :=
  length o = n /\ forall i, (i < n)%nat -> length (nth i o []) = l /\ forall j, (j < l)%nat -> length (nth j (nth i o []) []) = m.

Lemma lev_enc_ext sk ct m m' e e' : eqm Q m m' -> (forall j, (j < l)%nat -> e j = e' j) ->
  lev_enc w p sk ct m e -> lev_enc w p sk ct m' e'.
Proof.
  intros Em Ee (L & H). split; [exact L|]. intros j Hj. destruct (H j Hj) as (X & Y). split; [exact X|].
  rewrite Y, Em, Ee by exact Hj. reflexivity.
Qed.

Lemma EncryptGSWScalarTo_spec sk o c st o' st' :
  shape3 (S (length sk)) (S (length sk)) o ->
  EncryptGSWScalarTo w U G sk p o c st = (o', st') ->
  gsw_enc w p sk o' c (fun i j => G (snd st + i * l + j)%nat) /\
  st' = ((fst st + S (length sk) * (l * length sk))%nat, (snd st + S (length sk) * l)%nat).
Proof.
  intros (Lo & Ho). unfold EncryptGSWScalarTo.
  destruct (EncryptLevScalarTo w U G sk p (nth 0 o []) c st) as [r0 st0] eqn:E0.
  destruct (Ho O ltac:(lia)) as (Ho0 & Ho0').
  destruct (EncryptLevScalarTo_spec w Hw U G p Hok sk _ c st r0 st0 Ho0 Ho0' E0) as (X0 & Y0).
  intros E. set (n := length sk) in *.
  set (enc := fun i (row : list (list Z)) (st : rst) =>
     levLoop (encBody w U G sk (fun j => wrap w (Z.shiftl (wrap w (nthZ sk (i - 1) * c)) (LogBaseQ p j)))) l row st).
  assert (forN 1 n (fun i s => let '(r, st) := s in let '(row, st) := enc i (nth i r []) st in (upd r i row, st)) (upd o 0 r0, st0) = (o', st')) as E'.
  { rewrite <- E. clear E. revert st0 E0 X0 Y0.
    assert (forall (A : Type) m lo (f g : nat -> A -> A) s, (forall i s, f (S i) s = g i s) -> forN (S lo) m f s = forN lo m g s) as HF.
    { intros A m. induction m as [|m IH]; intros lo f g s Hfg; [reflexivity|]. cbn [forN]. rewrite Hfg. now apply IH. }
    intros st0 _ _ _. apply HF. intros i [r t]. unfold enc. replace (S i - 1)%nat with i by lia. reflexivity. }
  pose proof (rowLoop_spec U G p enc 1 n n (S n)
    (fun i g row => lev_enc w p sk row (nthZ sk (i - 1) * c) (fun j => G (g + j)%nat))
    (fun row => length row = l /\ forall j, (j < l)%nat -> length (nth j row []) = S n) (upd o 0 r0) st0 o' st') as H.
  destruct H as (A & B & C & D); [now rewrite upd_length|lia| | |exact E'|].
  - intros i Hi. rewrite nth_upd_if by lia. destruct (Nat.eqb_spec i 0); [lia|]. apply Ho. lia.
  - intros i row t row' t' Hi (L1 & L2) Er. unfold enc in Er. apply (levLoop_enc w Hw) in Er; [|assumption..].
    destruct Er as (Q1 & Q2 & Q3). split; [|exact Q3]. apply (lev_body sk row' _ _ _ Q1 Q2).
    intros j Hj. rewrite shl_eqm by exact Hj. rewrite wrap_eqm. reflexivity.
  - split.
    + split; [exact A|]. split.
      * rewrite C by lia. rewrite nth_upd_if by lia. cbn [Nat.eqb].
        revert X0. apply lev_enc_ext; [reflexivity|]. intros j Hj. cbv beta. f_equal. lia.
      * intros i Hi. specialize (B (S i) ltac:(lia)). cbv beta in B. revert B. apply lev_enc_ext.
        -- replace (S i - 1)%nat with i by lia. apply eqm_eq; ring.
        -- intros j Hj. cbv beta. f_equal. rewrite Y0. cbn [snd]. lia.
    + rewrite D, Y0. cbn [fst snd]. f_equal; lia.
Qed.

Lemma zero3 n m : shape3 n m (repeat (repeat (repeat 0 m) l) n).
Proof.
  split; [apply repeat_length|]. intros i Hi. rewrite nth_repeat_lt by exact Hi. split; [apply repeat_length|].
  intros j Hj. rewrite nth_repeat_lt by exact Hj. apply repeat_length.
Qed.

Lemma GenLWEKeySwitchKey_spec sk skIn st o' st' :
  GenLWEKeySwitchKey w U G sk skIn p st = (o', st') ->
  ksk_enc w p sk skIn o' (fun i j => G (snd st + i * l + j)%nat) /\
  st' = ((fst st + length skIn * (l * length sk))%nat, (snd st + length skIn * l)%nat).
Proof.
  intros E. unfold GenLWEKeySwitchKey in E. destruct (zero3 (length skIn) (S (length sk))) as (Z1 & Z2).
  pose proof (rowLoop_spec U G p (fun i row st => EncryptLevScalarTo w U G sk p row (nthZ skIn i) st) 0 (length skIn) (length sk) (length skIn)
    (fun i g row => lev_enc w p sk row (nthZ skIn i) (fun j => G (g + j)%nat))
    (fun row => length row = l /\ forall j, (j < l)%nat -> length (nth j row []) = S (length sk))
    (repeat (repeat (repeat 0 (S (length sk))) l) (length skIn)) st o' st') as H.
  destruct H as (A & B & C & D); [exact Z1|lia| | |exact E|].
  - intros i Hi. apply Z2. lia.
  - intros i row t row' t' Hi (L1 & L2) Er. now apply (EncryptLevScalarTo_spec w Hw U G p Hok) in Er.
  - split; [|exact D]. split; [exact A|]. intros i Hi. specialize (B i ltac:(lia)).
    revert B. apply lev_enc_ext; [reflexivity|]. intros j Hj. cbv beta. f_equal. lia.
Qed.

Lemma GenDefaultKeySwitchKey_spec sk skIn st o' st' :
  GenDefaultKeySwitchKey w U G sk skIn p st = (o', st') ->
  ksk_enc w p sk skIn o' (fun i j => G (snd st + i * l + j)%nat) /\
  st' = ((fst st + length skIn * (l * length sk))%nat, (snd st + length skIn * l)%nat).
Proof.
  intros E. unfold GenDefaultKeySwitchKey in E. destruct (zero3 (length skIn) (S (length sk))) as (Z1 & Z2).
  set (enc1 := fun i j (ct : list Z) (st : rst) =>
        let b0 := wrap w (Z.shiftl (nthZ skIn i) (LogBaseQ p j)) in
        let '(mask, st) := sampleVec w U (length ct - 1) st in
        let b1 := wrap w (b0 + wrap w (- dot w mask sk)) in
        let '(e, st) := sampleG w G st in
        (wrap w (b1 + e) :: mask, st)).
  pose proof (rowLoop_spec U G p (fun i row st => levLoop (enc1 i) l row st) 0 (length skIn) (length sk) (length skIn)
    (fun i g row => lev_enc w p sk row (nthZ skIn i) (fun j => G (g + j)%nat))
    (fun row => length row = l /\ forall j, (j < l)%nat -> length (nth j row []) = S (length sk))
    (repeat (repeat (repeat 0 (S (length sk))) l) (length skIn)) st o' st') as H.
  destruct H as (A & B & C & D); [exact Z1|lia| | |exact E|].
  - intros i Hi. apply Z2. lia.
  - intros i row t row' t' Hi (L1 & L2) Er.
    set (body := fun j => wrap w (Z.shiftl (nthZ skIn i) (LogBaseQ p j))).
    assert (forall j ct t, (0 < length ct)%nat -> enc1 i j ct t = encBody w U G sk body j ct t) as Heq.
    { intros j ct t0 Hct. unfold enc1, encBody, EncryptLWEBody. rewrite upd_length, nthZ_upd by exact Hct. reflexivity. }
    pose proof (levLoop_spec U G p (enc1 i) (length sk)
      (fun j g ct => lwe_ct w (length sk) ct /\ eqm Q (phase sk ct) (body j + G g)) row t row' t' L1 L2) as HL.
    destruct HL as (Q1 & Q2 & _ & Q3); [|exact Er|].
    { intros j ct t0 ct' t0' Hj L E'. rewrite Heq in E' by lia. unfold encBody in E'. apply (EncryptLWEBody_spec w Hw) in E'; [|now rewrite upd_length].
      rewrite nthZ_upd in E' by lia. destruct E' as (X & Y & Z0 & _). split; [apply X|]. split; [split; assumption|exact Z0]. }
    split; [|exact Q3]. apply (lev_body sk row' _ _ _ Q1 Q2). intros j Hj. now apply shl_eqm.
  - split; [|exact D]. split; [exact A|]. intros i Hi. specialize (B i ltac:(lia)).
    revert B. apply lev_enc_ext; [reflexivity|]. intros j Hj. cbv beta. f_equal. lia.
Qed.
End E.
End W.
