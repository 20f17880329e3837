From Verif Require Import Base SpecNum ModelNum PfNum ModelSampler SpecSampler.
From Coq Require Import Lia.

Lemma bufSize_pos : (0 < bufSize)%nat.
Proof. unfold bufSize. lia. Qed.
Lemma bufSize_div bs : bs = 1%nat \/ bs = 2%nat \/ bs = 4%nat \/ bs = 8%nat -> exists m, bufSize = (m * bs)%nat.
Proof.
  unfold bufSize. intros H. exists (Z.to_nat (8192 / Z.of_nat bs)). apply Nat2Z.inj. rewrite Nat2Z.inj_mul.
  destruct H as [->|[->|[->| ->]]]; reflexivity.
Qed.
Opaque bufSize.

Lemma lor_shift a b n : 0 <= n -> 0 <= a < 2 ^ n -> Z.lor a (Z.shiftl b n) = a + b * 2 ^ n.
Proof.
  intros Hn Ha. assert (Z.land a (Z.shiftl b n) = 0) as H0.
  { apply Z.bits_inj'. intros m Hm. rewrite Z.land_spec, Z.bits_0, Z.shiftl_spec by lia.
    destruct (Z.ltb_spec m n).
    - rewrite (Z.testbit_neg_r b) by lia. apply Bool.andb_false_r.
    - rewrite <- (Z.mod_small a (2 ^ n)) by lia. rewrite Z.mod_pow2_bits_high by lia. reflexivity. }
  rewrite <- Z.lxor_lor by exact H0. rewrite <- Z.add_nocarry_lxor by exact H0. now rewrite Z.shiftl_mul_pow2.
Qed.

Lemma leword_bound f bs p : (forall i, byte (f i)) -> 0 <= leword f bs p < 2 ^ (8 * Z.of_nat bs).
Proof.
  intros Hf. unfold leword. induction bs as [|bs IH]; [cbn; lia|]. cbn [zsum]. pose proof (Hf (p + bs)%nat) as H. unfold byte in H.
  rewrite Nat2Z.inj_succ, Z.mul_succ_r, Z.pow_add_r by lia. change (2 ^ 8) with 256. pose proof (Z.pow_pos_nonneg 2 (8 * Z.of_nat bs) ltac:(lia) ltac:(lia)). nia.
Qed.

Lemma byte_lxor a b : byte a -> byte b -> byte (Z.lxor a b).
Proof.
  unfold byte. intros Ha Hb. assert (0 <= Z.lxor a b) by (apply Z.lxor_nonneg; lia). split; [assumption|].
  destruct (Z.eq_dec (Z.lxor a b) 0) as [->|]; [lia|]. apply (Z.log2_lt_pow2 _ 8); [lia|].
  pose proof (Z.log2_lxor a b ltac:(lia) ltac:(lia)).
  assert (forall x, 0 <= x < 256 -> Z.log2 x < 8) as L.
  { intros x Hx. destruct (Z.eq_dec x 0) as [->|]; [reflexivity|]. apply Z.log2_lt_pow2; lia. }
  pose proof (L a ltac:(lia)). pose proof (L b ltac:(lia)). lia.
Qed.
Lemma blk_byte B ks r i : (forall p, byte (ks p)) -> byte (blk B ks r i).
Proof. intros H. induction r; cbn [blk]; [apply H|]. now apply byte_lxor. Qed.

Lemma assemble_spec bs buf ptr : (forall i, (i < bs)%nat -> byte (nthZ buf (ptr + i))) ->
  assemble bs buf ptr = zsum bs (fun i => 2 ^ (8 * Z.of_nat i) * nthZ buf (ptr + i)).
Proof.
  intros H. unfold assemble.
  set (P := fun (n : nat) (r : Z) => (n <= bs)%nat -> r = zsum n (fun i => 2 ^ (8 * Z.of_nat i) * nthZ buf (ptr + i)) /\ 0 <= r < 2 ^ (8 * Z.of_nat n)).
  match goal with |- forN 0 bs ?f 0 = _ => enough (P bs (forN 0 bs f 0)) as HP by (apply HP; lia) end.
  apply (forN_ind P); unfold P.
  - intros _. cbn. lia.
  - intros n r Hn IH _. destruct (IH ltac:(lia)) as (E & Hr). cbn [Nat.add zsum]. pose proof (H n ltac:(lia)) as Hb. unfold byte in Hb.
    rewrite lor_shift by lia. rewrite Nat2Z.inj_succ, Z.mul_succ_r, Z.pow_add_r by lia. change (2 ^ 8) with 256.
    pose proof (Z.pow_pos_nonneg 2 (8 * Z.of_nat n) ltac:(lia) ltac:(lia)). split; [rewrite E; ring|nia].
Qed.

(** State after q bytes have been used. *)
Definition uinv (ks : nat -> Z) (q : nat) (s : ust) : Prop :=
  length (ubuf s) = bufSize /\ (0 < uptr s <= bufSize)%nat /\
  exists R, upos s = (R * bufSize)%nat /\ (q + bufSize = R * bufSize + uptr s)%nat /\
    match R with O => uptr s = bufSize /\ forall i, nthZ (ubuf s) i = 0 | S r => forall i, (i < bufSize)%nat -> nthZ (ubuf s) i = blk bufSize ks r i end.

Lemma uinv_new ks : uinv ks 0 newUst.
Proof.
  unfold uinv, newUst. cbn [ubuf uptr upos]. split; [apply repeat_length|]. split; [pose proof bufSize_pos; lia|]. exists O. split; [reflexivity|]. split; [lia|].
  split; [reflexivity|]. intros i. apply nthZ_repeat0.
Qed.

Section U.
Variables (ks : nat -> Z) (sg : bool) (bs : nat).
Hypothesis Hks : forall p, byte (ks p).
Hypothesis Hbs : bs = 1%nat \/ bs = 2%nat \/ bs = 4%nat \/ bs = 8%nat.

Notation word := (word bufSize ks sg bs).
Lemma Sample_spec n s : uinv ks (n * bs) s -> exists s', Sample ks sg bs s = (word n, s') /\ uinv ks (S n * bs) s'.
Proof.
  intros (L & Hp & R & Hpos & Hq & HR). pose proof bufSize_pos as HB. destruct (bufSize_div bs Hbs) as (M & HM).
  assert (0 < bs)%nat as Hb by lia.
  unfold Sample.
  set (s1 := if Nat.eqb (uptr s) bufSize then refill ks s else s).
  assert (exists r, length (ubuf s1) = bufSize /\ (uptr s1 + bs <= bufSize)%nat /\ upos s1 = (S r * bufSize)%nat /\ (n * bs = r * bufSize + uptr s1)%nat /\
    forall i, (i < bufSize)%nat -> nthZ (ubuf s1) i = blk bufSize ks r i) as (r & L1 & P1 & U1 & Q1 & B1).
  { unfold s1. destruct (Nat.eqb_spec (uptr s) bufSize) as [E|E].
    - exists R. unfold refill. cbn [ubuf uptr upos]. rewrite tab_length. split; [reflexivity|]. split; [|split; [nia|split; [lia|]]].
      + destruct M; nia.
      + intros i Hi. rewrite nthZ_tab by assumption. rewrite Hpos. destruct R as [|r].
        * destruct HR as (_ & HR). rewrite HR. cbn [blk Nat.mul Nat.add]. now rewrite Z.lxor_0_l.
        * rewrite HR by assumption. cbn [blk]. reflexivity.
    - destruct R as [|r]; [destruct HR; lia|]. exists r. split; [exact L|]. split; [|split; [exact Hpos|split; [lia|exact HR]]].
      assert (exists t, uptr s = (t * bs)%nat) as (t & Ht).
      { exists (n - r * M)%nat. rewrite Nat.mul_sub_distr_r. rewrite <- Nat.mul_assoc, <- HM. lia. }
      assert (t < M)%nat by nia. nia. }
  eexists. split; [f_equal|].
  - unfold SpecSampler.word. f_equal. rewrite assemble_spec.
    + unfold leword. apply zsum_ext. intros i Hi. f_equal. rewrite B1 by lia. unfold stream.
      replace (n * bs + i)%nat with (uptr s1 + i + r * bufSize)%nat by lia.
      rewrite Nat.div_add, Nat.mod_add by lia. rewrite Nat.div_small, Nat.mod_small by lia. reflexivity.
    + intros i Hi. rewrite B1 by lia. now apply blk_byte.
  - unfold uinv. cbn [ubuf uptr upos]. split; [exact L1|]. split; [lia|]. exists (S r). split; [exact U1|]. split; [nia|exact B1].
Qed.

Lemma USampleVecTo_spec n s out : uinv ks (n * bs) s ->
  exists s', USampleVecTo ks sg bs out s = (tab (length out) (fun i => word (n + i)%nat), s') /\ uinv ks ((n + length out) * bs) s'.
Proof.
  intros H. unfold USampleVecTo. set (L := length out).
  set (P := fun (m : nat) (st : list Z * ust) => (m <= L)%nat -> length (fst st) = L /\ (forall i, (i < m)%nat -> nthZ (fst st) i = word (n + i)%nat) /\ uinv ks ((n + m) * bs) (snd st)).
  match goal with |- exists s', forN 0 L ?f ?a = _ /\ _ => assert (P L (forN 0 L f a)) as HP; [|destruct (forN 0 L f a) as [v s']] end.
  - apply (forN_ind P); unfold P; cbn [fst snd].
    + intros _. rewrite Nat.add_0_r. split; [reflexivity|]. split; [intros; lia|exact H].
    + intros m [v s1] Hm IH _. destruct (IH ltac:(lia)) as (A & B & C). cbn [fst snd] in *. cbn [Nat.add].
      destruct (Sample_spec _ _ C) as (s2 & E & D). rewrite E. cbn [fst snd]. split; [now rewrite upd_length|]. split.
      * intros i Hi. rewrite nthZ_upd by lia. destruct (Nat.eqb_spec i m) as [->|]; [reflexivity|apply B; lia].
      * rewrite Nat.add_succ_r. exact D.
  - destruct (HP ltac:(lia)) as (A & B & C). cbn [fst snd] in *. exists s'. split; [|exact C]. f_equal.
    apply nthZ_ext; [rewrite tab_length; exact A|]. intros i Hi. rewrite nthZ_tab by lia. apply B. lia.
Qed.

Notation mx := (maxT sg bs).
Lemma maxT_pos : 0 < mx.
Proof. unfold maxT. destruct sg, Hbs as [->|[->|[->| ->]]]; vm_compute; reflexivity. Qed.
Lemma bound_eq N : 0 < N -> twrap sg (8 * Z.of_nat bs) (mx - Z.rem mx N) = mx - mx mod N.
Proof.
  intros HN. pose proof maxT_pos as Hm. rewrite Z.rem_mod_nonneg by lia.
  pose proof (Z.mod_pos_bound mx N HN). pose proof (Z.mod_le mx N ltac:(lia) HN).
  unfold maxT, twrap in *. destruct sg.
  - apply swrap_small; [destruct Hbs as [->|[->|[->| ->]]]; lia|]. unfold sword. lia.
  - apply wrap_small. unfold uword. lia.
Qed.
Lemma accept_dec N x : 0 < N -> ((0 <=? x) && (x <? twrap sg (8 * Z.of_nat bs) (mx - Z.rem mx N)) = true <-> accept mx N x).
Proof.
  intros HN. rewrite bound_eq by assumption. unfold accept. rewrite Bool.andb_true_iff, Z.leb_le, Z.ltb_lt. tauto.
Qed.

Lemma sampleLoop_ret N fuel : 0 < N -> forall n s x s', uinv ks (n * bs) s ->
  sampleLoop ks sg bs fuel (twrap sg (8 * Z.of_nat bs) (mx - Z.rem mx N)) N s = Ret (x, s') ->
  exists k, (k < fuel)%nat /\ (forall j, (j < k)%nat -> ~ accept mx N (word (n + j)%nat)) /\ accept mx N (word (n + k)%nat) /\ x = word (n + k)%nat mod N /\ uinv ks ((n + S k) * bs) s'.
Proof.
  intros HN. induction fuel as [|fuel IH]; intros n s x s' H E; [discriminate E|].
  cbn [sampleLoop] in E. destruct (Sample_spec n s H) as (s1 & E1 & H1). rewrite E1 in E.
  destruct ((0 <=? word n) && (word n <? twrap sg (8 * Z.of_nat bs) (mx - Z.rem mx N))) eqn:EA.
  - injection E as <- <-. apply (accept_dec N _ HN) in EA. exists O. rewrite Nat.add_0_r. split; [lia|]. split; [intros; lia|]. split; [exact EA|]. split.
    + unfold accept in EA. apply Z.rem_mod_nonneg; lia.
    + replace (n + 1)%nat with (S n) by lia. exact H1.
  - destruct (IH (S n) s1 x s' H1 E) as (k & A & B & C & D & F). exists (S k). split; [lia|]. split; [|split; [|split]].
    + intros [|j] Hj; [rewrite Nat.add_0_r; intros HA; apply (accept_dec N _ HN) in HA; congruence|]. rewrite Nat.add_succ_r. apply (B j). lia.
    + rewrite Nat.add_succ_r. exact C.
    + rewrite Nat.add_succ_r. exact D.
    + replace (n + S (S k))%nat with (S n + S k)%nat by lia. exact F.
Qed.
Lemma sampleLoop_total N fuel : 0 < N -> forall n s k, uinv ks (n * bs) s -> (k < fuel)%nat -> accept mx N (word (n + k)%nat) ->
  exists r, sampleLoop ks sg bs fuel (twrap sg (8 * Z.of_nat bs) (mx - Z.rem mx N)) N s = Ret r.
Proof.
  intros HN. induction fuel as [|fuel IH]; intros n s k H Hk HA; [lia|].
  cbn [sampleLoop]. destruct (Sample_spec n s H) as (s1 & E1 & H1). rewrite E1.
  destruct ((0 <=? word n) && (word n <? twrap sg (8 * Z.of_nat bs) (mx - Z.rem mx N))) eqn:EA; [eexists; reflexivity|].
  destruct k as [|k]; [rewrite Nat.add_0_r in HA; apply (accept_dec N _ HN) in HA; congruence|].
  apply (IH (S n) s1 k H1 ltac:(lia)). rewrite Nat.add_succ_r in HA. exact HA.
Qed.
Lemma sampleLoop_nopanic b N fuel : forall s, sampleLoop ks sg bs fuel b N s <> Panic.
Proof. induction fuel as [|f IH]; intros s; cbn [sampleLoop]; [discriminate|]. destruct (Sample ks sg bs s) as [r s1]. destruct ((0 <=? r) && (r <? b)); [discriminate|apply IH]. Qed.

Lemma SampleN_spec N fuel n s x s' : 0 < N -> uinv ks (n * bs) s -> SampleN ks sg bs fuel N s = Ret (x, s') ->
  exists k, (k < fuel)%nat /\ (forall j, (j < k)%nat -> ~ accept mx N (word (n + j)%nat)) /\ accept mx N (word (n + k)%nat) /\ x = word (n + k)%nat mod N /\ uinv ks ((n + S k) * bs) s'.
Proof.
  intros HN H E. unfold SampleN in E. destruct (Z.eqb_spec N 0); [lia|]. now apply (sampleLoop_ret N fuel HN n s).
Qed.
Lemma SampleN_total N fuel n s k : 0 < N -> uinv ks (n * bs) s -> (k < fuel)%nat -> accept mx N (word (n + k)%nat) -> exists r, SampleN ks sg bs fuel N s = Ret r.
Proof. intros HN H Hk HA. unfold SampleN. destruct (Z.eqb_spec N 0); [lia|]. now apply (sampleLoop_total N fuel HN n s k). Qed.
Lemma SampleN_nopanic N fuel s : 0 < N -> SampleN ks sg bs fuel N s <> Panic.
Proof. intros HN. unfold SampleN. destruct (Z.eqb_spec N 0); [lia|]. apply sampleLoop_nopanic. Qed.

(** Every history is a history of the abstract word stream. *)
Lemma urun_history fuel cs : (forall N, In (UN N) cs -> 0 < N) -> forall n s rs s', uinv ks (n * bs) s -> urun ks sg bs fuel cs s = Ret (rs, s') ->
  exists n', history mx word cs n rs n' /\ uinv ks (n' * bs) s'.
Proof.
  induction cs as [|c cs IH]; intros HN n s rs s' H E.
  - cbn in E. injection E as <- <-. exists n. split; [constructor|exact H].
  - cbn [urun] in E. destruct (ustep ks sg bs fuel c s) as [[r s1]| |] eqn:E1; try discriminate E.
    destruct (urun ks sg bs fuel cs s1) as [[rs1 s2]| |] eqn:E2; try discriminate E. injection E as <- <-.
    assert (exists n1, replies mx word c n r n1 /\ uinv ks (n1 * bs) s1) as (n1 & Hr & H1).
    { destruct c as [|o|N]; cbn [ustep] in E1.
      - destruct (Sample_spec n s H) as (s3 & E3 & H3). rewrite E3 in E1. injection E1 as <- <-. exists (S n). split; [constructor|exact H3].
      - destruct (USampleVecTo_spec n s o H) as (s3 & E3 & H3). rewrite E3 in E1. injection E1 as <- <-. eexists. split; [constructor|exact H3].
      - destruct (SampleN ks sg bs fuel N s) as [[x s3]| |] eqn:E3; try discriminate E1. injection E1 as <- <-.
        destruct (SampleN_spec N fuel n s x s3 (HN N (or_introl eq_refl)) H E3) as (k & A & B & C & D & F). exists (n + S k)%nat. split; [|exact F].
        rewrite D. now constructor. }
    destruct (IH (fun N HI => HN N (or_intror HI)) n1 s1 rs1 s2 H1 E2) as (n' & Hh & Hu). exists n'. split; [|exact Hu]. econstructor; eassumption.
Qed.
End U.

(** Bounded sampling is uniform: every value has exactly bound/N accepted words. *)
Lemma accept_uniform mx N v : 0 < N -> N <= mx -> 0 <= v < N ->
  let M := mx / N in 0 < M /\ forall x, (accept mx N x /\ x mod N = v) <-> exists i, 0 <= i < M /\ x = v + i * N.
Proof.
  intros HN HM Hv M. assert (0 < M) by (apply Z.div_str_pos; lia). split; [assumption|]. intros x. unfold accept.
  assert (mx - mx mod N = M * N) as -> by (unfold M; pose proof (Z.div_mod mx N ltac:(lia)); lia). split.
  - intros ((H0 & H1) & E). exists (x / N). pose proof (Z.div_mod x N ltac:(lia)). rewrite E in *. split; [|lia]. split; [apply Z.div_pos; lia|]. apply Z.div_lt_upper_bound; lia.
  - intros (i & Hi & ->). split; [nia|]. rewrite Z.mod_add by lia. now apply Z.mod_small.
Qed.
Lemma accept_half mx N : 0 < N -> N <= mx -> mx < 2 * (mx - mx mod N).
Proof.
  intros HN HM. assert (2 * (mx mod N) < mx); [|lia]. pose proof (Z.mod_pos_bound mx N HN). pose proof (Z.div_mod mx N ltac:(lia)).
  assert (0 < mx / N) by (apply Z.div_str_pos; lia). nia.
Qed.

(** ** The refill scheme loses no randomness *)
Lemma stream_small B ks p : (p < B)%nat -> stream B ks p = ks p.
Proof. intros H. unfold stream. rewrite Nat.div_small, Nat.mod_small by assumption. reflexivity. Qed.
Lemma stream_add B ks p : (0 < B)%nat -> stream B ks (p + B) = Z.lxor (stream B ks p) (ks (p + B)%nat).
Proof.
  intros HB. unfold stream. replace (p + B)%nat with (p + 1 * B)%nat at 1 2 by lia. rewrite Nat.div_add, Nat.mod_add by lia.
  replace (p / B + 1)%nat with (S (p / B)) by lia. cbn [blk]. f_equal. f_equal. pose proof (Nat.div_mod p B ltac:(lia)). cbn [Nat.mul]. lia.
Qed.
Lemma lxor_cancel a b c : Z.lxor a b = Z.lxor a c -> b = c.
Proof. intros H. apply (f_equal (Z.lxor a)) in H. rewrite <- !Z.lxor_assoc, Z.lxor_nilpotent, !Z.lxor_0_l in H. exact H. Qed.
Lemma stream_inj B k1 k2 n : (0 < B)%nat -> (forall p, (p < n)%nat -> stream B k1 p = stream B k2 p) -> forall p, (p < n)%nat -> k1 p = k2 p.
Proof.
  intros HB H p Hp. destruct (Nat.lt_ge_cases p B) as [Hs|Hs].
  - specialize (H p Hp). now rewrite !stream_small in H by assumption.
  - pose proof (H p Hp) as H1. pose proof (H (p - B)%nat ltac:(lia)) as H2. replace p with (p - B + B)%nat in H1 |- * by lia.
    rewrite !stream_add, H2 in H1 by assumption. now apply lxor_cancel in H1.
Qed.
Lemma stream_surj B t : (0 < B)%nat -> (forall p, byte (t p)) -> exists ks, (forall p, byte (ks p)) /\ forall p, stream B ks p = t p.
Proof.
  intros HB Ht. exists (fun p => if Nat.ltb p B then t p else Z.lxor (t (p - B)%nat) (t p)). split.
  - intros p. destruct (Nat.ltb p B); [apply Ht|]. now apply byte_lxor.
  - intros p. induction p as [p IH] using lt_wf_ind. destruct (Nat.lt_ge_cases p B) as [Hs|Hs].
    + rewrite stream_small by assumption. destruct (Nat.ltb_spec p B); [reflexivity|lia].
    + replace p with (p - B + B)%nat by lia. rewrite stream_add by assumption. rewrite IH by lia. destruct (Nat.ltb_spec (p - B + B) B); [lia|].
      replace (p - B + B - B)%nat with (p - B)%nat by lia. rewrite <- Z.lxor_assoc, Z.lxor_nilpotent. apply Z.lxor_0_l.
Qed.

(** ** Only the key stream bytes handed out so far matter *)
Lemma Sample_agree k1 k2 sg bs s : (forall p, (p < upos (snd (Sample k1 sg bs s)))%nat -> k1 p = k2 p) -> Sample k1 sg bs s = Sample k2 sg bs s.
Proof.
  unfold Sample. destruct (Nat.eqb (uptr s) bufSize); [|reflexivity]. unfold refill. cbn [ubuf uptr upos snd]. intros H.
  replace (tab bufSize (fun i => Z.lxor (nthZ (ubuf s) i) (k1 (upos s + i)%nat))) with (tab bufSize (fun i => Z.lxor (nthZ (ubuf s) i) (k2 (upos s + i)%nat))); [reflexivity|].
  apply tab_ext. intros i Hi. now rewrite H by lia.
Qed.
Lemma Sample_mono k sg bs s : (upos s <= upos (snd (Sample k sg bs s)))%nat.
Proof. unfold Sample. destruct (Nat.eqb (uptr s) bufSize); cbn [snd upos refill]; lia. Qed.
Definition vstep (k : nat -> Z) sg bs := fun (i : nat) (st : list Z * ust) => let '(v, s) := st in let '(x, s) := Sample k sg bs s in (upd v i x, s).
Lemma vec_mono k sg bs n : forall i st, (upos (snd st) <= upos (snd (forN i n (vstep k sg bs) st)))%nat.
Proof.
  induction n as [|n IH]; intros i [v s]; cbn [forN snd]; [lia|]. etransitivity; [|apply IH]. unfold vstep.
  pose proof (Sample_mono k sg bs s). destruct (Sample k sg bs s); exact H.
Qed.
Lemma vec_agree k1 k2 sg bs n : forall i st, (forall p, (p < upos (snd (forN i n (vstep k1 sg bs) st)))%nat -> k1 p = k2 p) -> forN i n (vstep k1 sg bs) st = forN i n (vstep k2 sg bs) st.
Proof.
  induction n as [|n IH]; intros i [v s] H; cbn [forN] in *; [reflexivity|].
  assert (vstep k1 sg bs i (v, s) = vstep k2 sg bs i (v, s)) as E.
  { unfold vstep. rewrite (Sample_agree k1 k2); [reflexivity|]. intros p Hp. apply H. eapply Nat.lt_le_trans; [exact Hp|]. etransitivity; [|apply vec_mono].
    unfold vstep. destruct (Sample k1 sg bs s). cbn [snd]. lia. }
  rewrite <- E. now apply IH.
Qed.
Lemma loop_mono k sg bs b N fuel : forall s x s', sampleLoop k sg bs fuel b N s = Ret (x, s') -> (upos s <= upos s')%nat.
Proof.
  induction fuel as [|f IH]; intros s x s'; cbn [sampleLoop]; [discriminate|]. pose proof (Sample_mono k sg bs s) as Hm. destruct (Sample k sg bs s) as [r s1]. cbn [snd] in Hm.
  destruct ((0 <=? r) && (r <? b)); [intros [= <- <-]; exact Hm|]. intros E. apply IH in E. lia.
Qed.
Lemma loop_agree k1 k2 sg bs b N fuel : forall s x s', sampleLoop k1 sg bs fuel b N s = Ret (x, s') -> (forall p, (p < upos s')%nat -> k1 p = k2 p) -> sampleLoop k2 sg bs fuel b N s = Ret (x, s').
Proof.
  induction fuel as [|f IH]; intros s x s'; cbn [sampleLoop]; [discriminate|]. intros E H.
  assert (Sample k1 sg bs s = Sample k2 sg bs s) as ES.
  { apply Sample_agree. intros p Hp. apply H. eapply Nat.lt_le_trans; [exact Hp|]. destruct (Sample k1 sg bs s) as [r s1]. cbn [snd].
    destruct ((0 <=? r) && (r <? b)); [injection E as _ <-; lia|]. eapply loop_mono; exact E. }
  rewrite <- ES. destruct (Sample k1 sg bs s) as [r s1]. destruct ((0 <=? r) && (r <? b)); [exact E|]. now apply IH.
Qed.
Lemma ustep_mono k sg bs fuel c s r s' : ustep k sg bs fuel c s = Ret (r, s') -> (upos s <= upos s')%nat.
Proof.
  destruct c as [|o|N]; cbn [ustep].
  - pose proof (Sample_mono k sg bs s) as Hm. destruct (Sample k sg bs s). intros [= <- <-]. exact Hm.
  - unfold USampleVecTo. fold (vstep k sg bs). pose proof (vec_mono k sg bs (length o) 0 (o, s)) as Hm. destruct (forN 0 (length o) (vstep k sg bs) (o, s)). intros [= <- <-]. exact Hm.
  - unfold SampleN. destruct (N =? 0); [discriminate|]. destruct (sampleLoop k sg bs fuel _ N s) as [[x s1]| |] eqn:E; try discriminate. intros [= <- <-]. eapply loop_mono; exact E.
Qed.
Lemma ustep_agree k1 k2 sg bs fuel c s r s' : ustep k1 sg bs fuel c s = Ret (r, s') -> (forall p, (p < upos s')%nat -> k1 p = k2 p) -> ustep k2 sg bs fuel c s = Ret (r, s').
Proof.
  destruct c as [|o|N]; cbn [ustep].
  - intros E H. rewrite <- (Sample_agree k1 k2); [exact E|]. destruct (Sample k1 sg bs s). injection E as <- <-. exact H.
  - unfold USampleVecTo. fold (vstep k1 sg bs) (vstep k2 sg bs). intros E H. rewrite <- (vec_agree k1 k2); [exact E|]. destruct (forN 0 (length o) (vstep k1 sg bs) (o, s)). injection E as <- <-. exact H.
  - unfold SampleN. destruct (N =? 0); [discriminate|]. destruct (sampleLoop k1 sg bs fuel _ N s) as [[x s1]| |] eqn:E; try discriminate. intros [= <- <-] H. now rewrite (loop_agree _ _ _ _ _ _ _ _ _ _ E H).
Qed.
Lemma urun_mono k sg bs fuel cs : forall s rs s', urun k sg bs fuel cs s = Ret (rs, s') -> (upos s <= upos s')%nat.
Proof.
  induction cs as [|c cs IH]; intros s rs s'; cbn [urun]; [intros [= <- <-]; lia|]. destruct (ustep k sg bs fuel c s) as [[r s1]| |] eqn:E1; try discriminate.
  destruct (urun k sg bs fuel cs s1) as [[rs1 s2]| |] eqn:E2; try discriminate. intros [= <- <-]. apply ustep_mono in E1. apply IH in E2. lia.
Qed.
Lemma urun_agree k1 k2 sg bs fuel cs : forall s rs s', urun k1 sg bs fuel cs s = Ret (rs, s') -> (forall p, (p < upos s')%nat -> k1 p = k2 p) -> urun k2 sg bs fuel cs s = Ret (rs, s').
Proof.
  induction cs as [|c cs IH]; intros s rs s'; cbn [urun]; [auto|]. destruct (ustep k1 sg bs fuel c s) as [[r s1]| |] eqn:E1; try discriminate.
  destruct (urun k1 sg bs fuel cs s1) as [[rs1 s2]| |] eqn:E2; try discriminate. intros [= <- <-] H.
  rewrite (ustep_agree _ _ _ _ _ _ _ _ _ E1); [|intros p Hp; apply H; apply urun_mono in E2; lia]. now rewrite (IH _ _ _ E2 H).
Qed.

(** ** Binary sampling *)
Section B.
Variable ks : nat -> Z.
Hypothesis Hks : forall p, byte (ks p).
Notation W := (word bufSize ks false 8).
Notation inv := (fun n s => uinv ks (n * 8) s).
Lemma bs8 : 8%nat = 1%nat \/ 8%nat = 2%nat \/ 8%nat = 4%nat \/ 8%nat = 8%nat.
Proof. auto. Qed.

Lemma land1_bit x : Z.land x 1 = Z.b2z (Z.testbit x 0).
Proof. change 1 with (Z.ones 1). rewrite Z.land_ones by lia. change (2 ^ 1) with 2. symmetry. apply Z.bit0_mod. Qed.

Lemma BSample_spec n s : inv n s -> exists s', BSample ks s = (Z.b2z (Z.testbit (W n) 0), s') /\ inv (S n) s'.
Proof.
  intros H. unfold BSample. destruct (Sample_spec ks false 8 Hks bs8 n s H) as (s' & E & H'). rewrite E. exists s'. split; [|exact H']. now rewrite land1_bit.
Qed.

Lemma BSampleVecTo_spec n s out : inv n s ->
  exists s', BSampleVecTo ks out s = (tab (length out) (fun i => Z.b2z (Z.testbit (W (n + i / 64)%nat) (Z.of_nat (i mod 64)))), s') /\ inv (n + (length out + 63) / 64)%nat s'.
Proof.
  intros H. unfold BSampleVecTo. set (L := length out).
  set (P := fun (m : nat) (st : list Z * Z * ust) => (m <= L)%nat -> let '(v, b, s) := st in length v = L /\
     (forall i, (i < m)%nat -> nthZ v i = Z.b2z (Z.testbit (W (n + i / 64)%nat) (Z.of_nat (i mod 64)))) /\ inv (n + (m + 63) / 64)%nat s /\
     (m mod 64 <> 0 -> b = Z.shiftr (W (n + m / 64)%nat) (Z.of_nat (m mod 64)))%nat).
  match goal with |- context [forN 0 L ?f ?a] => assert (P L (forN 0 L f a)) as HP; [|destruct (forN 0 L f a) as [[v b] s']] end.
  - apply (forN_ind P); unfold P.
    + intros _. change ((0 + 63) / 64)%nat with O. rewrite Nat.add_0_r. split; [reflexivity|]. split; [intros; lia|]. split; [exact H|]. intros HH. now contradiction HH.
    + intros m [[v b] s1] Hm IH _. destruct (IH ltac:(lia)) as (A & B & C & D). cbn [Nat.add].
      assert (exists b1 s2, (if Nat.eqb (m mod 64) 0 then Sample ks false 8 s1 else (b, s1)) = (b1, s2) /\ b1 = Z.shiftr (W (n + m / 64)%nat) (Z.of_nat (m mod 64)) /\ inv (n + (S m + 63) / 64)%nat s2) as (b1 & s2 & E & Eb & I2).
      { pose proof (Nat.div_mod m 64 ltac:(lia)) as Hdm. pose proof (Nat.mod_upper_bound m 64 ltac:(lia)) as Hmm.
        destruct (Nat.eqb_spec (m mod 64) 0) as [E0|E0].
        - destruct (Sample_spec ks false 8 Hks bs8 _ _ C) as (s2 & E2 & H2). rewrite E2.
          assert ((m + 63) / 64 = m / 64)%nat as Q by (symmetry; apply (Nat.div_unique _ 64 _ 63); lia).
          assert ((S m + 63) / 64 = S (m / 64))%nat as Q' by (symmetry; apply (Nat.div_unique _ 64 _ 0); lia).
          exists (W (n + m / 64)%nat), s2. rewrite Q in *. split; [reflexivity|]. split; [now rewrite E0, Z.shiftr_0_r|]. rewrite Q', Nat.add_succ_r. exact H2.
        - exists b, s1. split; [reflexivity|]. split; [now apply D|].
          assert ((S m + 63) / 64 = (m + 63) / 64)%nat as ->; [|exact C].
          assert ((m + 63) / 64 = S (m / 64))%nat as -> by (symmetry; apply (Nat.div_unique _ 64 _ (m mod 64 - 1)); lia).
          symmetry. apply (Nat.div_unique _ 64 _ (m mod 64)); lia. }
      rewrite E. split; [now rewrite upd_length|]. split; [|split; [exact I2|]].
      * intros i Hi. rewrite nthZ_upd by lia. destruct (Nat.eqb_spec i m) as [->|]; [|apply B; lia].
        rewrite land1_bit, Eb, Z.shiftr_spec by lia. now rewrite Z.add_0_l.
      * intros Hne. rewrite Eb, Z.shiftr_shiftr by lia.
        pose proof (Nat.div_mod m 64 ltac:(lia)) as Hdm. pose proof (Nat.mod_upper_bound m 64 ltac:(lia)) as Hmm.
        destruct (Nat.eq_dec (m mod 64) 63) as [E63|E63].
        -- exfalso. apply Hne. symmetry. apply (Nat.mod_unique _ 64 (S (m / 64))); lia.
        -- assert (S m / 64 = m / 64)%nat as -> by (symmetry; apply (Nat.div_unique _ 64 _ (S (m mod 64))); lia).
           assert (S m mod 64 = S (m mod 64))%nat as -> by (symmetry; apply (Nat.mod_unique _ 64 (m / 64)); lia). f_equal. lia.
  - destruct (HP ltac:(lia)) as (A & B & C & _). exists s'. split; [|exact C]. f_equal.
    apply nthZ_ext; [rewrite tab_length; exact A|]. intros i Hi. rewrite nthZ_tab by lia. apply B. lia.
Qed.

Lemma fillBlock_spec v i bs : (i + bs <= length v)%nat ->
  length (fillBlock v i bs) = length v /\ forall j, nthZ (fillBlock v i bs) j = if (Nat.leb i j && Nat.ltb j (i + bs))%bool then 0 else nthZ v j.
Proof.
  intros H. unfold fillBlock.
  set (P := fun (m : nat) (u : list Z) => (m <= bs)%nat -> length u = length v /\ forall j, nthZ u j = if (Nat.leb i j && Nat.ltb j (i + m))%bool then 0 else nthZ v j).
  match goal with |- context [forN i bs ?f v] => enough (P bs (forN i bs f v)) as HP by (apply HP; lia) end.
  apply (forN_ind P); unfold P.
  - intros _. split; [reflexivity|]. intros j. destruct (Nat.leb_spec i j), (Nat.ltb_spec j (i + 0)); try reflexivity. lia.
  - intros m u Hm IH _. destruct (IH ltac:(lia)) as (A & B). split; [now rewrite upd_length|]. intros j. rewrite nthZ_upd by lia. rewrite B.
    destruct (Nat.eqb_spec j (i + m)), (Nat.leb_spec i j), (Nat.ltb_spec j (i + m)), (Nat.ltb_spec j (i + S m)); cbn [andb]; try reflexivity; lia.
Qed.

Notation nchain := (nchain W).
Lemma SampleBlockVecTo_spec fuel out bsz n s v s' : 0 < bsz < 2 ^ 63 -> inv n s -> SampleBlockVecTo ks fuel out bsz s = Ret (v, s') ->
  exists os n', nchain (bsz + 1) n os n' /\ inv n' s' /\ length v = length out /\ blocks (Z.to_nat bsz) os v.
Proof.
  intros Hb H. unfold SampleBlockVecTo. destruct (Z.eqb_spec bsz 0); [lia|].
  destruct (Z.eqb_spec (Z.rem (Z.of_nat (length out)) bsz) 0) as [ER|]; [|discriminate]. cbn [negb].
  destruct (Z.ltb_spec bsz 0); [lia|]. cbn [andb]. set (bs := Z.to_nat bsz). set (L := length out).
  assert (0 < bs)%nat as Hbs by (unfold bs; lia). assert (Z.of_nat bs = bsz) as Ebs by (unfold bs; lia).
  assert (L = L / bs * bs)%nat as EL.
  { apply Nat2Z.inj. rewrite Nat2Z.inj_mul, Nat2Z.inj_div, Ebs. rewrite Z.rem_mod_nonneg in ER by lia. fold L in ER. pose proof (Z.div_mod (Z.of_nat L) bsz ltac:(lia)). lia. }
  set (K := (L / bs)%nat) in *.
  set (P := fun (m : nat) (r : outcome (list Z * ust)) => (m <= K)%nat -> match r with Ret (v, s') => exists os n', nchain (bsz + 1) n os n' /\ inv n' s' /\ length os = m /\ length v = L /\
     (forall k j, (k < m)%nat -> (j < bs)%nat -> 0 <= nthZ os k <= bsz /\ nthZ v (k * bs + j) = if nthZ os k =? Z.of_nat j then 1 else 0) | _ => True end).
  match goal with |- forN 0 K ?f ?a = _ -> _ => assert (P K (forN 0 K f a)) as HP; [|destruct (forN 0 K f a) as [[v1 s1]| |]; try discriminate] end.
  - apply (forN_ind P); unfold P.
    + intros _. exists [], n. split; [constructor|]. split; [exact H|]. split; [reflexivity|]. split; [reflexivity|]. intros; lia.
    + intros m r Hm IH _. specialize (IH ltac:(lia)). destruct r as [[u s1]| |]; try exact I. cbn [Nat.add].
      destruct IH as (os & n1 & C & I1 & Lo & Lu & HB).
      rewrite wrap_small by (unfold uword; lia).
      destruct (SampleN ks false 8 fuel (bsz + 1) s1) as [[o s2]| |] eqn:EN; try exact I.
      destruct (SampleN_spec ks false 8 Hks bs8 (bsz + 1) fuel n1 s1 o s2 ltac:(lia) I1 EN) as (k & _ & R1 & R2 & Eo & I2).
      change (maxT false 8) with (2 ^ 64 - 1) in R1, R2.
      assert (m * bs + bs <= length u)%nat as HF by nia.
      destruct (fillBlock_spec u (m * bs) bs HF) as (Lf & Ef).
      pose proof (Z.mod_pos_bound (W (n1 + k)%nat) (bsz + 1) ltac:(lia)) as Ho. rewrite <- Eo in Ho.
      assert (forall v2, length v2 = L -> (forall i, nthZ v2 i = if (Nat.leb (m * bs) i && Nat.ltb i (m * bs + bs))%bool then (if o =? Z.of_nat (i - m * bs) then 1 else 0) else nthZ u i) ->
        exists os n', nchain (bsz + 1) n os n' /\ inv n' s2 /\ length os = S m /\ length v2 = L /\
     (forall k j, (k < S m)%nat -> (j < bs)%nat -> 0 <= nthZ os k <= bsz /\ nthZ v2 (k * bs + j) = if nthZ os k =? Z.of_nat j then 1 else 0)) as Fin.
      { intros v2 L2 E2. exists (os ++ [o]), (n1 + S k)%nat. split; [rewrite Eo; now constructor|]. split; [exact I2|]. split; [rewrite app_length; cbn [length]; lia|]. split; [exact L2|].
        intros k' j Hk Hj. destruct (Nat.eq_dec k' m) as [->|Hne].
        - unfold nthZ at 1 2 4. rewrite app_nth2 by lia. rewrite Lo, Nat.sub_diag. cbn [nth]. split; [lia|]. rewrite E2.
          destruct (Nat.leb_spec (m * bs) (m * bs + j)), (Nat.ltb_spec (m * bs + j) (m * bs + bs)); try lia. cbn [andb]. replace (m * bs + j - m * bs)%nat with j by lia. reflexivity.
        - unfold nthZ at 1 2 4. rewrite app_nth1 by lia. fold (nthZ os k'). destruct (HB k' j ltac:(lia) Hj) as (X & Y). split; [exact X|]. rewrite E2.
          destruct (Nat.ltb_spec (k' * bs + j) (m * bs + bs)); cbn [andb]; [|rewrite Bool.andb_false_r; exact Y].
          destruct (Nat.leb_spec (m * bs) (k' * bs + j)); cbn [andb]; [nia|exact Y]. }
      destruct (Z.eqb_spec o bsz) as [Eq|Hne].
      * apply Fin; [lia|]. intros i. rewrite Ef. destruct (Nat.leb_spec (m * bs) i), (Nat.ltb_spec i (m * bs + bs)); cbn [andb]; try reflexivity.
        destruct (Z.eqb_spec o (Z.of_nat (i - m * bs))); [lia|reflexivity].
      * apply Fin; [rewrite upd_length; lia|]. intros i. rewrite nthZ_upd by lia. rewrite Ef.
        destruct (Nat.eqb_spec i (m * bs + Z.to_nat o)) as [->|]; destruct (Nat.leb_spec (m * bs) i) || idtac.
        -- destruct (Nat.leb_spec (m * bs) (m * bs + Z.to_nat o)), (Nat.ltb_spec (m * bs + Z.to_nat o) (m * bs + bs)); try lia. cbn [andb].
           destruct (Z.eqb_spec o (Z.of_nat (m * bs + Z.to_nat o - m * bs))); [reflexivity|lia].
        -- destruct (Nat.leb_spec (m * bs) i), (Nat.ltb_spec i (m * bs + bs)); cbn [andb]; try reflexivity; try lia.
           destruct (Z.eqb_spec o (Z.of_nat (i - m * bs))); [lia|reflexivity].
        -- destruct (Nat.leb_spec (m * bs) i), (Nat.ltb_spec i (m * bs + bs)); cbn [andb]; try reflexivity; try lia.
  - intros [= <- <-]. destruct (HP ltac:(lia)) as (os & n' & C & I1 & Lo & Lu & HB). exists os, n'. split; [exact C|]. split; [exact I1|]. split; [exact Lu|].
    split; [rewrite Lo, Lu; exact EL|]. rewrite Lo, Ebs. exact HB.
Qed.

Lemma SampleBlockVecTo_panic fuel out bsz s : 0 <= bsz < 2 ^ 63 ->
  (SampleBlockVecTo ks fuel out bsz s = Panic <-> (bsz = 0 \/ Z.of_nat (length out) mod bsz <> 0)).
Proof.
  intros Hb. unfold SampleBlockVecTo. destruct (Z.eqb_spec bsz 0) as [->|Hn]; [tauto|].
  rewrite Z.rem_mod_nonneg by lia.
  destruct (Z.eqb_spec (Z.of_nat (length out) mod bsz) 0) as [E|E]; cbn [negb]; [|tauto].
  destruct (Z.ltb_spec bsz 0); [lia|]. cbn [andb]. split; [|tauto]. intros HP. exfalso. revert HP.
  set (P := fun (m : nat) (r : outcome (list Z * ust)) => r <> Panic).
  match goal with |- forN 0 ?K ?f ?a = _ -> _ => change (P K (forN 0 K f a)) end.
  apply (forN_ind P); unfold P; [discriminate|]. intros m [[u s1]| |] Hm IH; [|congruence|discriminate].
  pose proof (SampleN_nopanic ks false 8 Hks bs8 (wrap 64 (bsz + 1)) fuel s1) as HNP.
  rewrite wrap_small in * by (unfold uword; lia). specialize (HNP ltac:(lia)).
  destruct (SampleN ks false 8 fuel (bsz + 1) s1) as [[o s2]| |]; [|congruence|discriminate]. destruct (o =? bsz); discriminate.
Qed.
End B.

(** ** Binary search *)
Lemma searchLoop_spec fuel (f : nat -> bool) : forall i j, (i <= j)%nat -> (j - i < fuel)%nat ->
  (forall a b, (a <= b)%nat -> f a = true -> f b = true) ->
  let r := searchLoop fuel f i j in (i <= r <= j)%nat /\ (forall a, (i <= a < r)%nat -> f a = false) /\ (forall a, (r <= a < j)%nat -> f a = true).
Proof.
  induction fuel as [|fuel IH]; intros i j Hij Hf Hmono; [lia|]. cbn [searchLoop].
  destruct (Nat.ltb_spec i j) as [Hlt|Hge].
  - pose proof (Nat.div2_div (i + j)) as Hd. pose proof (Nat.div_mod (i + j) 2 ltac:(lia)) as Hdm. pose proof (Nat.mod_upper_bound (i + j) 2 ltac:(lia)).
    rewrite <- Hd in Hdm. set (h := Nat.div2 (i + j)) in *. assert (i <= h < j)%nat by lia.
    destruct (f h) eqn:Eh.
    + destruct (IH i h ltac:(lia) ltac:(lia) Hmono) as (A & B & C). cbv zeta. split; [lia|]. split; [exact B|]. intros a Ha.
      destruct (Nat.lt_ge_cases a h); [apply C; lia|]. apply (Hmono h a); [lia|exact Eh].
    + destruct (IH (S h) j ltac:(lia) ltac:(lia) Hmono) as (A & B & C). cbv zeta. split; [lia|]. split; [|exact C]. intros a Ha.
      destruct (Nat.le_gt_cases a h); [|apply B; lia]. destruct (f a) eqn:Ea; [|reflexivity]. rewrite (Hmono a h ltac:(lia) Ea) in Eh. discriminate.
  - cbv zeta. split; [lia|]. split; intros; lia.
Qed.

Lemma Search_count table r : nondecreasing table -> Z.of_nat (Search (length table) (fun i => r <? nthZ table i)) = below table r.
Proof.
  intros Hn. unfold Search. set (n := length table).
  (* extend the predicate monotonically beyond the table *)
  set (g := fun i => if Nat.ltb i n then r <? nthZ table i else true).
  assert (forall fuel i j, (j <= n)%nat -> searchLoop fuel (fun i => r <? nthZ table i) i j = searchLoop fuel g i j) as Eg.
  { induction fuel as [|fuel IH]; intros i j Hj; [reflexivity|]. cbn [searchLoop]. destruct (Nat.ltb_spec i j) as [Hlt|]; [|reflexivity].
    pose proof (Nat.div2_div (i + j)) as Hd. pose proof (Nat.div_mod (i + j) 2 ltac:(lia)) as Hdm. rewrite <- Hd in Hdm.
    set (h := Nat.div2 (i + j)) in *. assert (h < j)%nat by lia. unfold g at 1. destruct (Nat.ltb_spec h n); [|lia].
    rewrite (IH i h), (IH (S h) j) by lia. reflexivity. }
  rewrite Eg by lia.
  destruct (searchLoop_spec (S n) g 0 n ltac:(lia) ltac:(lia)) as (A & B & C).
  { intros a b Hab. unfold g. destruct (Nat.ltb_spec b n); [|reflexivity]. destruct (Nat.ltb_spec a n); [|lia].
    rewrite !Z.ltb_lt. pose proof (Hn a b ltac:(lia)). lia. }
  set (k := searchLoop (S n) g 0 n) in *. clearbody k. unfold below. fold n.
  rewrite (zsum_ext n _ (fun i => if Nat.ltb i k then 1 else 0)).
  - assert (forall m, (k <= m)%nat -> zsum m (fun i => if Nat.ltb i k then 1 else 0) = Z.of_nat k) as HZ.
    { intros m Hm. induction m as [|m IH]; [assert (k = O) as -> by lia; reflexivity|]. cbn [zsum]. destruct (Nat.ltb_spec m k) as [Hl|Hg].
      - assert (k = S m) as -> by lia. rewrite (zsum_ext m _ (fun _ => 1)).
        + clear. assert (zsum m (fun _ => 1) = Z.of_nat m) as -> by (induction m as [|m IH]; [reflexivity|cbn [zsum]; rewrite IH; lia]). lia.
        + intros i Hi. destruct (Nat.ltb_spec i (S m)); [reflexivity|lia].
      - rewrite IH by lia. lia. }
    symmetry. apply HZ. lia.
  - intros i Hi. destruct (Nat.ltb_spec i k) as [Hl|Hg].
    + specialize (B i ltac:(lia)). unfold g in B. destruct (Nat.ltb_spec i n); [|lia]. destruct (Z.leb_spec (nthZ table i) r); [reflexivity|]. apply Z.ltb_ge in B. lia.
    + specialize (C i ltac:(lia)). unfold g in C. destruct (Nat.ltb_spec i n); [|lia]. apply Z.ltb_lt in C. destruct (Z.leb_spec (nthZ table i) r); [lia|reflexivity].
Qed.

Lemma below_range table r : 0 <= below table r <= Z.of_nat (length table).
Proof.
  unfold below. generalize (length table) as n. induction n as [|n IH]; [cbn; lia|]. cbn [zsum]. destruct (nthZ table n <=? r); lia.
Qed.
Lemma below_mono table r r' : r <= r' -> below table r <= below table r'.
Proof.
  intros H. unfold below. generalize (length table) as n. induction n as [|n IH]; [cbn; lia|]. cbn [zsum].
  destruct (Z.leb_spec (nthZ table n) r), (Z.leb_spec (nthZ table n) r'); lia.
Qed.
Lemma below_last table r : (0 < length table)%nat -> r < nthZ table (length table - 1) -> below table r <= Z.of_nat (length table) - 1.
Proof.
  intros H Hr. unfold below. destruct (length table) as [|n] eqn:E; [lia|]. cbn [zsum]. replace (S n - 1)%nat with n in Hr by lia.
  destruct (Z.leb_spec (nthZ table n) r); [lia|]. clear - n. assert (zsum n (fun i => if nthZ table i <=? r then 1 else 0) <= Z.of_nat n); [|lia].
  induction n as [|n IH]; [cbn; lia|]. cbn [zsum]. destruct (nthZ table n <=? r); lia.
Qed.

Lemma uinv_pos ks q s : uinv ks q s -> (q <= upos s < q + bufSize)%nat /\ exists R, upos s = (R * bufSize)%nat.
Proof. intros (_ & H & R & A & B & _). split; [lia|]. now exists R. Qed.

(** Histories of a fresh sampler. *)
Lemma fresh_history ks sg bs fuel cs rs s' : (forall p, byte (ks p)) -> bs = 1%nat \/ bs = 2%nat \/ bs = 4%nat \/ bs = 8%nat -> (forall N, In (UN N) cs -> 0 < N) ->
  urun ks sg bs fuel cs newUst = Ret (rs, s') ->
  exists n, history (maxT sg bs) (word bufSize ks sg bs) cs 0 rs n /\ (n * bs <= upos s' < n * bs + bufSize)%nat /\ exists R, upos s' = (R * bufSize)%nat.
Proof.
  intros Hk Hb HN E. destruct (urun_history ks sg bs Hk Hb fuel cs HN 0 newUst rs s' (uinv_new ks) E) as (n & A & B). exists n. split; [exact A|]. now apply uinv_pos with (ks := ks).
Qed.

Lemma blocks_shape bs os v : blocks bs os v ->
  (forall i, (i < length v)%nat -> nthZ v i = 0 \/ nthZ v i = 1) /\
  (forall k i j, (k < length os)%nat -> (i < bs)%nat -> (j < bs)%nat -> nthZ v (k * bs + i) = 1 -> nthZ v (k * bs + j) = 1 -> i = j).
Proof.
  intros (L & H). split.
  - intros i Hi. rewrite L in Hi. destruct bs as [|b]; [lia|]. pose proof (Nat.div_mod i (S b) ltac:(lia)) as Hdm. pose proof (Nat.mod_upper_bound i (S b) ltac:(lia)) as Hm.
    assert (i / S b < length os)%nat as Hk by (apply Nat.div_lt_upper_bound; lia).
    destruct (H _ _ Hk Hm) as (_ & E). replace (i / S b * S b + i mod S b)%nat with i in E by lia. rewrite E. destruct (nthZ os (i / S b) =? Z.of_nat (i mod S b)); auto.
  - intros k i j Hk Hi Hj. destruct (H k i Hk Hi) as (_ & ->). destruct (H k j Hk Hj) as (_ & ->).
    destruct (Z.eqb_spec (nthZ os k) (Z.of_nat i)), (Z.eqb_spec (nthZ os k) (Z.of_nat j)); try lia.
Qed.
Lemma SampleBlock_shape ks fuel out bsz n s v s' : (forall p, byte (ks p)) -> 0 < bsz < 2 ^ 63 -> uinv ks (n * 8) s -> SampleBlockVecTo ks fuel out bsz s = Ret (v, s') ->
  (forall i, (i < length v)%nat -> nthZ v i = 0 \/ nthZ v i = 1) /\
  (forall k i j, (k < length v / Z.to_nat bsz)%nat -> (i < Z.to_nat bsz)%nat -> (j < Z.to_nat bsz)%nat -> nthZ v (k * Z.to_nat bsz + i) = 1 -> nthZ v (k * Z.to_nat bsz + j) = 1 -> i = j).
Proof.
  intros Hk Hb H E. destruct (SampleBlockVecTo_spec ks Hk fuel out bsz n s v s' Hb H E) as (os & n' & _ & _ & L & B).
  destruct (blocks_shape _ _ _ B) as (S1 & S2). split; [exact S1|]. intros k i j Hk' Hi Hj. apply S2; [|assumption|assumption]. destruct B as (B & _). rewrite B in Hk'. rewrite Nat.div_mul in Hk' by lia. exact Hk'.
Qed.
Lemma SampleBlock_one ks fuel out n s v s' : (forall p, byte (ks p)) -> uinv ks (n * 8) s -> SampleBlockVecTo ks fuel out 1 s = Ret (v, s') ->
  exists os n', nchain (word bufSize ks false 8) 2 n os n' /\ length v = length out /\ length os = length out /\ forall i, (i < length out)%nat -> nthZ v i = 1 - nthZ os i.
Proof.
  intros Hk H E. destruct (SampleBlockVecTo_spec ks Hk fuel out 1 n s v s' ltac:(lia) H E) as (os & n' & A & _ & L & B).
  change (Z.to_nat 1) with 1%nat in B. destruct B as (B & C). exists os, n'. split; [exact A|]. split; [exact L|]. split; [lia|].
  intros i Hi. destruct (C i O ltac:(lia) ltac:(lia)) as (D & E'). replace (i * 1 + 0)%nat with i in E' by lia. rewrite E'. destruct (Z.eqb_spec (nthZ os i) (Z.of_nat 0)); lia.
Qed.

Lemma CDTSample_eq table offset r : nondecreasing table -> CDTSample table offset r = offset + below table r.
Proof. intros H. unfold CDTSample. rewrite Search_count by assumption. lia. Qed.
Lemma CDTSample_range table offset r : nondecreasing table -> (0 < length table)%nat -> r < nthZ table (length table - 1) ->
  offset <= CDTSample table offset r <= offset + Z.of_nat (length table) - 1.
Proof. intros H L R. rewrite CDTSample_eq by assumption. pose proof (below_range table r). pose proof (below_last table r L R). lia. Qed.
Lemma CDTSample_mono table offset r r' : nondecreasing table -> r <= r' -> CDTSample table offset r <= CDTSample table offset r'.
Proof. intros H R. rewrite !CDTSample_eq by assumption. pose proof (below_mono table r r' R). lia. Qed.
Lemma NewCDT_range cdf sd r : 0 <= sd -> (forall x y, x <= y -> cdf x <= cdf y) -> r < cdf (cdtHi 0 sd) ->
  let '(table, offset) := NewCDT cdf 0 sd in cdtLo 0 sd <= CDTSample table offset r <= cdtHi 0 sd.
Proof.
  intros Hsd Hm Hr. unfold NewCDT. set (n := Z.to_nat (cdtHi 0 sd - cdtLo 0 sd + 1)). unfold cdtLo, cdtHi in *.
  assert (Z.of_nat n = 24 * sd + 1) as En by (unfold n; lia).
  assert (nondecreasing (tab n (fun i => cdf (0 - 12 * sd + Z.of_nat i)))) as Hn.
  { intros i j Hij. rewrite tab_length in Hij. rewrite !nthZ_tab by lia. apply Hm. lia. }
  pose proof (CDTSample_range _ (0 - 12 * sd + 0) r Hn) as H. rewrite tab_length in H. rewrite nthZ_tab in H by lia.
  assert (0 < n)%nat by lia. specialize (H ltac:(lia)). assert (0 - 12 * sd + Z.of_nat (n - 1) = 0 + 12 * sd) as E by lia. rewrite E in H. specialize (H Hr). lia.
Qed.
Lemma SampleN_range ks sg bs N fuel n s x s' : (forall p, byte (ks p)) -> bs = 1%nat \/ bs = 2%nat \/ bs = 4%nat \/ bs = 8%nat -> 0 < N ->
  uinv ks (n * bs) s -> SampleN ks sg bs fuel N s = Ret (x, s') -> 0 <= x < N.
Proof. intros Hk Hb HN H E. destruct (SampleN_spec ks sg bs Hk Hb N fuel n s x s' HN H E) as (k & _ & _ & _ & -> & _). apply Z.mod_pos_bound. exact HN. Qed.
Lemma accept_uniform' biggest N v : 0 < N <= biggest -> 0 <= v < N ->
  0 < biggest / N /\ forall x, (accept biggest N x /\ x mod N = v) <-> exists i, 0 <= i < biggest / N /\ x = v + i * N.
Proof. intros H. apply accept_uniform; lia. Qed.
Lemma accept_half' biggest N : 0 < N <= biggest -> biggest < 2 * (biggest - biggest mod N).
Proof. intros H. apply accept_half; lia. Qed.
