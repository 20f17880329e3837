(** Effects of the secret key operations on memory, histories. *)
From Verif Require Import Base ModelNum ModelPoly ModelGadget ModelParams SpecNum PfNum ModelSampler SpecSampler PfSampler ModelCodec SpecCodec PfCodec PfCodecT PfCodecP ModelKey SpecKey PfKey.

Definition disj (a b : list nat) : Prop := forall x, In x a -> In x b -> False.
Lemma disj_sym a b : disj a b -> disj b a. Proof. intros H x A B. exact (H x B A). Qed.

(** ** Effects. *)
Lemma kClear_spec m k id n kk N : shaped m id n kk N k -> chg (ids k) m (kClear m k) /\ abs (kClear m k) k = skViews n kk N (repeat 0 (kk * N)) (repeat (repeat 0 N) kk).
Proof.
  intros H. destruct (shaped_large _ _ _ _ _ _ H) as (E & L & Hin). unfold kClear. rewrite E. cbn [s_len].
  set (m1 := blit m (mkS id 0 (kk * N)) (repeat 0 (kk * N))).
  assert (chg [id] m m1) as C by (apply (blit_chg m (mkS id 0 (kk * N))); cbn; lia).
  assert (m_arr m1 id = repeat 0 (kk * N)) as A.
  { pose proof (blit_arr m (mkS id 0 (kk * N)) (repeat 0 (kk * N)) eq_refl) as X. cbn [s_id s_len] in X. fold m1 in X. rewrite X.
    rewrite firstn_all2 by (rewrite repeat_length; lia). rewrite repeat_length, skipn_all2 by lia. apply app_nil_r. }
  pose proof (shaped_chg _ _ _ _ _ _ _ _ H C) as H1. pose proof H1 as (_ & _ & Lf & HF & HN & _).
  replace (fold_left (fun m s => blit m s (repeat 0 (s_len s))) (k_fft k) m1) with (wrRows m1 (k_fft k) (map (fun s => repeat 0 (s_len s)) (k_fft k))).
  2:{ clearbody m1. clear. revert m1. induction (k_fft k) as [|s ss IH]; intros m1; [reflexivity|]. cbn. apply IH. }
  destruct (wrRows_spec N (k_fft k) m1 (map (fun s => repeat 0 (s_len s)) (k_fft k)) ltac:(unfold ids in HN; now inversion HN) HF) as (W1 & W2).
  set (m2 := wrRows _ _ _) in *. assert (chg (ids k) m m2) as C2.
  { eapply chg_trans; [eapply chg_incl; [exact C|]|eapply chg_incl; [exact W1|]]; intros x Hx; [destruct Hx as [<-|[]]; exact Hin|right; exact Hx]. }
  split; [exact C2|]. rewrite (abs_shaped _ _ _ _ _ _ (shaped_chg _ _ _ _ _ _ _ _ H C2)). f_equal.
  - destruct W1 as (_ & W1 & _). rewrite W1; [exact A|]. intros X. apply in_map_iff in X. destruct X as (s & Es & Hs). destruct (shaped_fft _ _ _ _ _ _ _ H Hs) as (_ & _ & _ & _ & X). contradiction.
  - rewrite W2; [|apply map_length|].
    + apply (nth_ext _ _ [] []); [rewrite map_length, repeat_length; exact Lf|]. rewrite map_length. intros i Hi.
      rewrite (nth_indep _ [] (repeat 0 (s_len (mkS 0 0 0)))) by (now rewrite map_length). rewrite (map_nth (fun s => repeat 0 (s_len s))).
      rewrite Forall_forall in HF. destruct (HF (nth i (k_fft k) (mkS 0 0 0)) (nth_In _ _ Hi)) as (_ & -> & _). rewrite nth_repeat_lt by lia. reflexivity.
    + apply Forall_map. eapply Forall_impl; [|exact HF]. cbn. intros s (_ & -> & _). apply repeat_length.
Qed.
Lemma wr_fft w gs id : forall ss m, ~ In id (map s_id ss) -> Forall (fun g => s_id g = id) gs ->
  fold_left (fun m (x : slice * slice) => blit m (fst x) (fwdFFT w (rd m (snd x)))) (combine ss gs) m = wrRows m ss (map (fun g => fwdFFT w (rd m g)) gs).
Proof.
  induction gs as [|g gs IH]; intros [|s ss] m Hid HF; try reflexivity. inversion HF; subst. cbn [combine fold_left map fst snd]. rewrite IH; [|intros X; apply Hid; now right|assumption].
  unfold wrRows. cbn [combine fold_left fst snd]. do 2 f_equal. apply map_ext_in. intros g' Hg. f_equal. apply rd_same. rewrite Forall_forall in H2. rewrite (H2 g' Hg). unfold blit, setA. cbn.
  destruct (Nat.eqb_spec (s_id g) (s_id s)) as [X|]; [|reflexivity]. exfalso. apply Hid. left. now symmetry.
Qed.
Lemma kFwdFFT_spec sz m k id n kk N : shaped m id n kk N k ->
  chg (map s_id (k_fft k)) m (kFwdFFT sz m k) /\ abs (kFwdFFT sz m k) k = skViews n kk N (m_arr m id) (map (fwdFFT (8 * Z.of_nat sz)) (sk_glwe (abs m k))).
Proof.
  intros H. pose proof H as ((E1 & E2 & E3 & E4) & L & Lf & HF & HN & HB). unfold kFwdFFT.
  assert (~ In id (map s_id (k_fft k))) as Hid by (unfold ids in HN; rewrite E1 in HN; now inversion HN).
  rewrite (wr_fft _ _ id); [|exact Hid|apply Forall_forall; intros s Hs; exact (shaped_glwe_id _ _ _ _ _ _ _ H Hs)].
  destruct (wrRows_spec N (k_fft k) m (map (fun g => fwdFFT (8 * Z.of_nat sz) (rd m g)) (k_glwe k)) ltac:(unfold ids in HN; now inversion HN) HF) as (W1 & W2).
  split; [exact W1|]. rewrite (abs_shaped _ _ _ _ _ _ (shaped_chg _ _ _ _ _ _ _ _ H W1)). f_equal; [destruct W1 as (_ & W1 & _); now apply W1|].
  rewrite W2; [unfold abs; cbn [sk_glwe]; now rewrite map_map|rewrite map_length, E2, tab_length; congruence|].
  apply Forall_map, Forall_forall. intros g Hg. unfold fwdFFT. rewrite map_length. pose proof (shaped_views _ _ _ _ _ _ H) as (_ & V & _). rewrite Forall_forall in V. apply V. unfold abs. cbn. now apply in_map.
Qed.
Definition cpGo := fix go (m : mem) (a b : list slice) : outcome mem :=
    match a, b with
    | [], _ => Ret m
    | _ :: _, [] => Panic
    | s :: a, s' :: b => go (blit m s (rd m s')) a b
    end.
Lemma cpGo_self ss : forall m, Forall (fun s => s_off s + s_len s <= length (m_arr m (s_id s)))%nat ss -> exists m', cpGo m ss ss = Ret m' /\ chg [] m m'.
Proof.
  induction ss as [|s ss IH]; intros m HF; [exists m; split; [reflexivity|apply chg_refl]|]. pose proof (Forall_inv HF) as H1. pose proof (Forall_inv_tail HF) as H2. cbn beta in H1.
  assert (chg [] m (blit m s (rd m s))) as C.
  { destruct (blit_chg m s (rd m s) H1) as (C1 & C2 & C3). split; [exact C1|]. split; [|exact C3]. intros j _. destruct (Nat.eq_dec j (s_id s)) as [->|Hn]; [|apply C2; intros [X|[]]; congruence].
    unfold blit, setA. cbn. rewrite Nat.eqb_refl. unfold rd. rewrite firstn_firstn, Nat.min_id. rewrite firstn_length_le by (rewrite skipn_length; lia).
    rewrite <- (firstn_skipn (s_off s) (m_arr m (s_id s))) at 4. f_equal. rewrite <- (firstn_skipn (s_len s) (skipn (s_off s) (m_arr m (s_id s)))) at 2. f_equal. rewrite skipn_add. reflexivity. }
  destruct (IH (blit m s (rd m s))) as (m' & E & C').
  { destruct C as (_ & _ & C3). eapply Forall_impl; [|exact H2]. intros x Hx. cbv beta in *. now rewrite C3. }
  exists m'. split; [exact E|]. eapply chg_trans; eassumption.
Qed.
Lemma cpGo_disj a : forall b m m', disj (map s_id a) (map s_id b) -> cpGo m a b = Ret m' -> m' = wrRows m a (map (rd m) b) /\ (length a <= length b)%nat.
Proof.
  induction a as [|s a IH]; intros b m m' D E; [destruct b; injection E as <-; split; auto; cbn; lia|]. destruct b as [|s' b]; [discriminate|]. cbn in E.
  destruct (IH b _ _ ltac:(intros x X Y; apply (D x); now right) E) as [-> HL]. cbn [length]. split; [|lia].
  unfold wrRows. cbn [map combine fold_left fst snd]. do 2 f_equal. apply map_ext_in. intros x Hx. apply rd_same. unfold blit, setA. cbn. destruct (Nat.eqb_spec (s_id x) (s_id s)) as [X|]; [|reflexivity].
  exfalso. apply (D (s_id s)); [now left|]. right. rewrite <- X. now apply in_map.
Qed.
Lemma kCopyFrom_spec m a b m' id n kk N id' n' kk' N' : shaped m id n kk N a -> shaped m id' n' kk' N' b -> a = b \/ disj (ids a) (ids b) -> kCopyFrom m a b = Ret m' ->
  chg (ids a) m m' /\ (kk = kk' -> N = N' -> abs m' a = skViews n kk N (sk_large (abs m b)) (sk_fft (abs m b))).
Proof.
  intros Ha Hb D E. unfold kCopyFrom in E. fold cpGo in E. destruct (shaped_large _ _ _ _ _ _ Ha) as (Ea & La & Ia). destruct (shaped_large _ _ _ _ _ _ Hb) as (Eb & Lb & Ib).
  rewrite Ea, Eb in E. rewrite (rd_full _ _ _ Lb) in E. set (m1 := blit m _ _) in E.
  assert (chg [id] m m1) as C by (apply (blit_chg m (mkS id 0 (kk * N))); cbn; lia).
  pose proof (shaped_chg _ _ _ _ _ _ _ _ Ha C) as H1.
  assert (kk = kk' -> N = N' -> m_arr m1 id = m_arr m id') as A.
  { intros <- <-. pose proof (blit_arr m (mkS id 0 (kk * N)) (m_arr m id') eq_refl) as X. cbn [s_id s_len] in X. fold m1 in X. rewrite X.
    rewrite firstn_all2 by lia. rewrite skipn_all2 by lia. apply app_nil_r. }
  assert (sk_large (abs m b) = m_arr m id') as Eb1 by (unfold abs; cbn; rewrite Eb; now apply rd_full).
  assert (forall s, In s (k_fft a) -> s_id s <> id) as Hf by (intros s Hs; now destruct (shaped_fft _ _ _ _ _ _ _ Ha Hs) as (_ & _ & _ & _ & X)).
  destruct D as [->|D].
  - destruct (cpGo_self (k_fft b) m1) as (m2 & E2 & C2).
    { apply Forall_forall. intros s Hs. destruct (shaped_fft _ _ _ _ _ _ _ H1 Hs) as (-> & -> & -> & _). lia. }
    rewrite E2 in E. injection E as <-. assert (chg (ids b) m m2) as C3.
    { eapply chg_trans; [eapply chg_incl; [exact C|intros x [<-|[]]; exact Ia]|eapply chg_incl; [exact C2|intros x []]]. }
    split; [exact C3|]. intros K1 K2. rewrite (abs_shaped _ _ _ _ _ _ (shaped_chg _ _ _ _ _ _ _ _ Ha C3)), Eb1. destruct C2 as (_ & C2 & _). f_equal; [rewrite C2 by (intros []); now apply A|].
    unfold abs. cbn. apply map_ext_in. intros s Hs. apply rd_same. rewrite C2 by (intros []). destruct C as (_ & C & _). apply C. intros [X|[]]. apply (Hf s Hs). now symmetry.
  - destruct (cpGo_disj (k_fft a) (k_fft b) m1 m') as [-> HL]; [intros x X Y; apply (D x); now right|exact E|]. pose proof H1 as (_ & _ & Lf & HF & HN & _).
    destruct (wrRows_spec N (k_fft a) m1 (map (rd m1) (k_fft b)) ltac:(unfold ids in HN; now inversion HN) HF) as (W1 & W2).
    assert (chg (ids a) m (wrRows m1 (k_fft a) (map (rd m1) (k_fft b)))) as C2.
    { eapply chg_trans; [eapply chg_incl; [exact C|]|eapply chg_incl; [exact W1|]]; intros x Hx; [destruct Hx as [<-|[]]; exact Ia|right; exact Hx]. }
    split; [exact C2|]. intros K1 K2. rewrite (abs_shaped _ _ _ _ _ _ (shaped_chg _ _ _ _ _ _ _ _ Ha C2)), Eb1. pose proof Hb as (_ & _ & Lf' & HF' & _). f_equal.
    + destruct W1 as (_ & W1 & _). rewrite W1; [now apply A|]. intros X. apply in_map_iff in X. destruct X as (s & Es & Hs). now apply (Hf s Hs).
    + rewrite W2; [|rewrite map_length; congruence|].
      * unfold abs. cbn. apply map_ext_in. intros s Hs. apply rd_same. destruct C as (_ & C & _). apply C. intros [X|[]]. apply (D id Ia). rewrite X. right. now apply in_map.
      * apply Forall_map. apply Forall_forall. intros s Hs. destruct (shaped_fft _ _ _ _ _ _ _ (shaped_chg _ _ _ _ _ _ _ _ Hb C) Hs) as (X1 & X2 & X3 & _). unfold rd. rewrite X1, X2, skipn_O, firstn_length_le by (rewrite X3; lia). now symmetry.
Qed.
(** Writing entry pos of the shared array. *)
Lemma nthZ_firstn n l j : (j < n)%nat -> nthZ (firstn n l) j = nthZ l j.
Proof. unfold nthZ. revert l j; induction n as [|n IH]; intros [|x l] [|j] H; cbn; auto; try lia. apply IH. lia. Qed.
Lemma nthZ_skipn n l j : nthZ (skipn n l) j = nthZ l (n + j).
Proof. unfold nthZ. revert l; induction n as [|n IH]; intros [|x l]; cbn; auto. destruct j; reflexivity. Qed.
Lemma written_spec m m' k id n kk N pos x : shaped m id n kk N k -> chg [id] m m' -> m_arr m' id = upd (m_arr m id) pos x -> (pos < kk * N)%nat -> written n N pos x (abs m k) (abs m' k).
Proof.
  intros H C E Hp. pose proof (shaped_chg _ _ _ _ _ _ _ _ H C) as H'. pose proof (shaped_views _ _ _ _ _ _ H) as V. pose proof (shaped_views _ _ _ _ _ _ H') as V'.
  split; [exact V|]. split; [exact V'|]. rewrite (abs_shaped _ _ _ _ _ _ H), (abs_shaped _ _ _ _ _ _ H'). unfold skViews. cbn [sk_large sk_glwe sk_fft sk_lwe]. rewrite !tab_length. pose proof H as ((_ & _ & _ & Hn) & L & _).
  split; [lia|]. split; [exact E|]. split.
  { apply map_ext_in. intros s Hs. apply rd_same. destruct C as (_ & C & _). apply C. intros [X|[]]. destruct (shaped_fft _ _ _ _ _ _ _ H Hs) as (_ & _ & _ & _ & Y). now symmetry in X. }
  split; [reflexivity|]. rewrite E. split.
  - intros r j Hr Hj. rewrite !nth_tab by exact Hr. rewrite !nthZ_firstn, !nthZ_skipn by exact Hj. unfold nthZ. rewrite nth_upd_if by lia. reflexivity.
  - intros j Hj. rewrite !nthZ_firstn by exact Hj. unfold nthZ. rewrite nth_upd_if by lia. reflexivity.
Qed.

(** ** Reading. *)
Section R.
Variable sz : nat.
Lemma readWords_len n : forall b l r, readWords sz n b = (l, r, true) -> length l = n.
Proof.
  induction n as [|n IH]; intros b l r E; cbn in E; [injection E as <- _; reflexivity|]. destruct (ReadFull sz 0 b) as [|? [x|] r']; try discriminate.
  destruct (readWords sz n r') as [[l' r''] ok] eqn:E2. injection E as <- <- ->. cbn. f_equal. now apply (IH _ _ _ E2).
Qed.
Lemma readWords_val n : forall c b m l r, rloop (repeat 0 n) (fun _ : Z => rbind (ReadFull sz) (fun x => rret (beVal x))) c b = RRet m (Some l) r -> readWords sz n b = (l, r, true).
Proof.
  induction n as [|n IH]; intros c b m l r E; cbn in E; [injection E as _ <- <-; reflexivity|]. unfold rbind at 1 in E. unfold rbind at 1 in E. cbn [readWords].
  unfold ReadFull in E |- * at 1. destruct (Nat.leb sz (length b)) eqn:El; [|discriminate]. cbn [rret] in E.
  unfold rbind at 1 in E. cbn in E. fold (repeat 0 n) in E.
  destruct (rloop _ _ _ _) as [|m1 [l1|] r1] eqn:E1 in E; try discriminate. cbn in E. injection E as _ <- <-. rewrite (IH _ _ _ _ _ E1). reflexivity.
Qed.
Lemma vecBuf_len v v' bl c b : length v = length v' -> vecReadFromBuf 8 v bl c b = vecReadFromBuf 8 v' bl c b.
Proof. intros E. unfold vecReadFromBuf. now rewrite E. Qed.
Lemma vecBuf_inv v bl c b m x r : vecReadFromBuf 8 v bl c b = RRet m (Some x) r -> length x = length v /\ forall c', exists m', vecReadFromBuf 8 v bl c' b = RRet m' (Some x) r.
Proof.
  unfold vecReadFromBuf, rbind, ReadFull. destruct (Nat.leb bl (length b)); [|discriminate]. destruct (Nat.leb _ bl); [|discriminate]. unfold rret.
  intros E. injection E as _ <- <-. split; [apply tab_length|]. intros c'. eauto.
Qed.
Lemma readRows_val N bl ss : forall m c b c' rows r, NoDup (map s_id ss) -> Forall (fun s => s_off s = 0 /\ s_len s = N /\ length (m_arr m (s_id s)) = N)%nat ss ->
  rloop (repeat (repeat 0 N) (length ss)) (fun v => callR (vecReadFromBuf 8 v bl)) c b = RRet c' (Some rows) r ->
  readRows m bl ss b = Ret (wrRows m ss rows, r, true) /\ length rows = length ss /\ Forall (fun l => length l = N) rows.
Proof.
  induction ss as [|s ss IH]; intros m c b c' rows r HN HF E; cbn [length repeat rloop] in E.
  - injection E as _ <- <-. cbn. auto.
  - apply rbind_inv in E. destruct E as (n1 & x & r1 & E1 & E). apply callR_inv in E1. destruct E1 as [c1 E1]. apply rbind_inv in E. destruct E as (n2 & rows' & r2 & E2 & E). injection E as _ <- <-.
    pose proof (Forall_inv HF) as (H1 & H2 & H3). pose proof (Forall_inv_tail HF) as HF2. cbn [map] in HN. inversion HN as [|? ? N1 N2]; subst.
    destruct (vecBuf_inv _ _ _ _ _ _ _ E1) as (L & _). rewrite repeat_length in L.
    assert (chg [s_id s] m (blit m s x)) as C by (apply blit_chg; lia).
    assert (Forall (fun s0 => s_off s0 = 0 /\ s_len s0 = s_len s /\ length (m_arr (blit m s x) (s_id s0)) = s_len s)%nat ss) as HF3.
    { destruct C as (_ & _ & C3). eapply Forall_impl; [|exact HF2]. intros y Hy. cbv beta in *. rewrite C3. exact Hy. }
    destruct (IH (blit m s x) _ _ _ _ _ N2 HF3 E2) as (J1 & J2 & J3).
    cbn [readRows]. rewrite (vecBuf_len (rd m s) (repeat 0 (s_len s))).
    2:{ rewrite repeat_length. unfold rd. rewrite H1, skipn_O. apply firstn_length_le. lia. }
    rewrite E1. rewrite J1. split; [reflexivity|]. cbn. split; [now rewrite J2|]. constructor; assumption.
Qed.
Lemma ReadFull_get k c b m x r : ReadFull k c b = RRet m (Some x) r -> forall c', exists m', ReadFull k c' b = RRet m' (Some x) r.
Proof. unfold ReadFull. destruct (Nat.leb k (length b)); [|discriminate]. intros E. injection E as _ <- <-. eauto. Qed.
Lemma rlift_inv {A} (o : option A) c b m x r : rlift o c b = RRet m (Some x) r -> o = Some x /\ b = r.
Proof. unfold rlift. destruct o; [|discriminate]. intros E. injection E as _ <- <-. auto. Qed.
Lemma NewSK_some n k N n' k' N' large fft m : NewSecretKeyCustom n k N = Some (n', k', N', large, fft) -> exists m' sk, kNewCustom m n k N = Ret (m', sk).
Proof.
  intros E. unfold kNewCustom. rewrite E. destruct (NewSK_inv _ _ _ _ _ _ _ _ E) as (-> & -> & Hn & -> & -> & HN). destruct (alloc m _) as [m1 s] eqn:EA. destruct (allocs m1 _) as [m2 fs] eqn:EB.
  destruct (build_spec m n' k' N' _ _ _ _ _ _ (repeat_length _ _) Hn (repeat_length _ _) (proj2 (Forall_forall _ _) (fun f Hf => eq_trans (f_equal (@length Z) (repeat_spec _ _ _ Hf)) (repeat_length _ _))) EA EB) as (G1 & G2 & G3).
  rewrite G1. cbn [obind]. try rewrite EB. rewrite G2. cbn [obind]. eauto.
Qed.
(** The memory version of ReadFrom agrees with the value version and leaves the old arrays alone. *)
Lemma kRead_refines m sk old b c v r : SecretKey_ReadFrom sz old 0 b = RRet c (Some v) r ->
  exists m' sk' id n kk N, kRead sz m sk b = Ret (m', sk', r, true) /\ abs m' sk' = v /\ ext m m' /\ shaped m' id n kk N sk' /\ Forall (fun i => m_next m <= i)%nat (ids sk').
Proof.
  unfold SecretKey_ReadFrom. intros E. apply rbind_inv in E. destruct E as (n1 & [[[[n k] N] large] fft] & r1 & E1 & E). apply callR_inv in E1. destruct E1 as [c1 E1].
  unfold SecretKey_headerReadFrom in E1. apply rbind_inv in E1. destruct E1 as (? & b1 & r2 & F1 & E1). apply rbind_inv in E1. destruct E1 as (? & b2 & r3 & F2 & E1). apply rbind_inv in E1. destruct E1 as (? & b3 & r4 & F3 & E1).
  apply rlift_inv in E1. destruct E1 as [E1 ->]. unfold kRead. destruct (ReadFull_get _ _ _ _ _ _ F1 0) as [? ->]. destruct (ReadFull_get _ _ _ _ _ _ F2 0) as [? ->]. destruct (ReadFull_get _ _ _ _ _ _ F3 0) as [? ->].
  destruct (NewSK_some _ _ _ _ _ _ _ _ m E1) as (m1 & sk1 & Ek). rewrite Ek. cbn [obind]. destruct (kNewCustom_spec _ _ _ _ _ _ Ek) as (n' & k' & N' & E2 & K1 & K2 & K3 & X & HS & I & A).
  rewrite E1 in E2. injection E2 as -> -> -> -> ->. destruct (shaped_large _ _ _ _ _ _ HS) as (El & Ll & Il). rewrite El. cbn [s_len].
  apply rbind_inv in E. destruct E as (? & lv & r5 & F4 & E). apply callR_inv in F4. destruct F4 as [? F4]. unfold vecReadFrom in F4. apply readWords_val in F4. pose proof (readWords_len _ _ _ _ F4) as Lv.
  rewrite F4. apply rbind_inv in E. destruct E as (? & fv & r6 & F5 & E). apply callR_inv in F5. destruct F5 as [? F5]. injection E as _ <- <-.
  pose proof HS as (_ & _ & Lf & HF & HN & HB).
  unfold FFTGLWESecretKey_valueReadFrom, rindex in F5. destruct k' as [|k']; [discriminate|]. cbn [repeat] in F5. change (repeat 0 N' :: repeat (repeat 0 N') k') with (repeat (repeat 0 N') (S k')) in F5. rewrite repeat_length in F5. unfold rrows in F5.
  set (m2 := blit m1 (mkS (m_next m) 0 (S k' * N')) lv). assert (chg [m_next m] m1 m2) as C by (apply (blit_chg m1 (mkS (m_next m) 0 (S k' * N'))); cbn [s_off s_len s_id]; lia).
  pose proof (shaped_chg _ _ _ _ _ _ _ _ HS C) as S2. pose proof S2 as (_ & _ & _ & HF2 & _).
  rewrite <- Lf in F5. destruct (k_fft sk1) as [|s ss] eqn:Es; [discriminate|]. destruct (readRows_val N' (N' * 8) (s :: ss) m2 _ _ _ _ _ ltac:(unfold ids in HN; rewrite Es in HN; now inversion HN) HF2 F5) as (J1 & J2 & J3).
  assert (s_len s = N') as -> by (now destruct (Forall_inv HF2) as (_ & ? & _)). rewrite J1. cbn [obind].
  destruct (wrRows_spec N' (s :: ss) m2 fv ltac:(unfold ids in HN; rewrite Es in HN; now inversion HN) HF2) as (W1 & W2). specialize (W2 J2 J3).
  set (m3 := wrRows m2 (s :: ss) fv) in *. pose proof (shaped_chg _ _ _ _ _ _ _ _ S2 W1) as S3.
  exists m3, sk1, (m_next m), n', (S k'), N'. split; [reflexivity|]. split; [|split; [|split; [exact S3|exact I]]].
  - rewrite (abs_shaped _ _ _ _ _ _ S3), Es, W2. f_equal. destruct W1 as (_ & W1 & _). rewrite W1.
    + pose proof (blit_arr m1 (mkS (m_next m) 0 (S k' * N')) lv eq_refl) as Y. cbn [s_id s_len] in Y. fold m2 in Y. rewrite Y. rewrite firstn_all2 by lia. rewrite skipn_all2 by lia. apply app_nil_r.
    + unfold ids in HN. rewrite El, Es in HN. cbn [s_id] in HN. now inversion HN.
  - eapply chg_ext; [eapply chg_ext; [exact X|exact C|]|exact W1|]; [constructor; [lia|constructor]|]. unfold ids in I. rewrite Es in I. now inversion I.
Qed.
(** On any input. *)
Lemma readRows_chg N bl ss : forall m b m' r ok, NoDup (map s_id ss) -> Forall (fun s => s_off s = 0 /\ s_len s = N /\ length (m_arr m (s_id s)) = N)%nat ss ->
  readRows m bl ss b = Ret (m', r, ok) -> chg (map s_id ss) m m'.
Proof.
  induction ss as [|s ss IH]; intros m b m' r ok HN HF E; cbn [readRows] in E; [injection E as <- _ _; apply chg_refl|].
  destruct (vecReadFromBuf 8 (rd m s) bl 0 b) as [|c [x|] r1]; try discriminate; [|injection E as <- _ _; apply chg_refl].
  pose proof (Forall_inv HF) as (H1 & H2 & H3). pose proof (Forall_inv_tail HF) as HF2. cbn [map] in HN. inversion HN as [|? ? N1 N2]; subst.
  assert (chg [s_id s] m (blit m s x)) as C by (apply blit_chg; lia). eapply chg_trans; [eapply chg_incl; [exact C|]|eapply chg_incl; [eapply IH; [exact N2| |exact E]|]].
  - intros y [<-|[]]; now left.
  - destruct C as (_ & _ & C3). eapply Forall_impl; [|exact HF2]. intros y Hy. cbv beta in *. rewrite C3. exact Hy.
  - intros y Hy. now right.
Qed.
Lemma kRead_inv m sk b m' sk' r ok : kRead sz m sk b = Ret (m', sk', r, ok) ->
  (m' = m /\ sk' = sk) \/ (ext m m' /\ kinv m' sk' /\ Forall (fun i => m_next m <= i)%nat (ids sk')).
Proof.
  unfold kRead. destruct (ReadFull 8 0 b) as [|? [b1|] r1]; try (intros E; injection E as <- <- _ _; now left).
  destruct (ReadFull 8 0 r1) as [|? [b2|] r2]; try (intros E; injection E as <- <- _ _; now left).
  destruct (ReadFull 8 0 r2) as [|? [b3|] r3]; try (intros E; injection E as <- <- _ _; now left).
  destruct (kNewCustom m _ _ _) as [[m1 sk1]| |] eqn:Ek; try discriminate. cbn [obind]. destruct (kNewCustom_spec _ _ _ _ _ _ Ek) as (n' & k' & N' & E2 & K1 & K2 & K3 & X & S & I & A).
  destruct (shaped_large _ _ _ _ _ _ S) as (El & Ll & Il). rewrite El. cbn [s_len]. destruct (readWords sz _ r3) as [[l r4] ok4].
  set (m2 := blit m1 _ l). assert (chg [m_next m] m1 m2) as C by (apply (blit_chg m1 (mkS (m_next m) 0 (k' * N'))); cbn [s_off s_len s_id]; lia).
  pose proof (shaped_chg _ _ _ _ _ _ _ _ S C) as S2. assert (ext m m2) as X2 by (eapply chg_ext; [exact X|exact C|constructor; [lia|constructor]]).
  destruct ok4.
  - destruct (k_fft sk1) as [|s ss] eqn:Es; [discriminate|]. rewrite <- Es in *. destruct (readRows m2 _ _ _) as [[[m3 r5] ok5]| |] eqn:E3; try discriminate. cbn [obind]. intros E. injection E as <- <- _ _.
    pose proof S2 as (_ & _ & _ & HF & HN & _). pose proof (readRows_chg N' _ _ _ _ _ _ _ (proj2 (proj1 (NoDup_cons_iff _ _) HN)) HF E3) as C3.
    right. split; [|split; [exists (m_next m), n', k', N'; eapply shaped_chg; eassumption|exact I]]. eapply chg_ext; [exact X2|exact C3|]. unfold ids in I. exact (Forall_inv_tail I).
  - intros E. injection E as <- <- _ _. right. split; [exact X2|]. split; [exists (m_next m), n', k', N'; exact S2|exact I].
Qed.
End R.

(** ** Key generation. *)
Section G.
Variables (sz : nat) (ks : nat -> Z) (fuel : nat).
Hypothesis Hks : forall p, byte (ks p).
Lemma BSample_len v u v' u' : BSampleVecTo ks v u = (v', u') -> length v' = length v.
Proof.
  unfold BSampleVecTo. set (f := fun i st => _). assert (forall n lo st, length (fst (fst (forN lo n f st))) = length (fst (fst st))) as X.
  { induction n as [|n IH]; intros lo st; [reflexivity|]. cbn [forN]. rewrite IH. destruct st as [[a b0] s0]. unfold f. destruct (if Nat.eqb _ _ then _ else _) as [b1 s1]. cbn. apply upd_length. }
  specialize (X (length v) 0%nat (v, 0, u)). destruct (forN 0 (length v) f (v, 0, u)) as [[a b0] s0]. intros E. injection E as <- <-. exact X.
Qed.
Lemma SampleBlock_len v bs u v' u' : SampleBlockVecTo ks fuel v bs u = Ret (v', u') -> length v' = length v.
Proof.
  unfold SampleBlockVecTo. destruct (bs =? 0); [discriminate|]. destruct (negb _); [discriminate|]. destruct (_ && _); [discriminate|]. set (f := fun k r => _).
  assert (forall n lo st a s, forN lo n f st = Ret (a, s) -> exists a0 s0, st = Ret (a0, s0) /\ length a = length a0) as X.
  { induction n as [|n IH]; intros lo st a s E; cbn [forN] in E; [subst; eauto|]. destruct (IH _ _ _ _ E) as (a1 & s1 & E1 & L1). unfold f in E1. destruct st as [[a0 s0]| |]; try discriminate. exists a0, s0. split; [reflexivity|]. rewrite L1.
    destruct (SampleN _ _ _ _ _ _) as [[o s2]| |]; try discriminate. assert (forall n' lo' (y : list Z), length (forN lo' n' (fun j v => upd v j 0) y) = length y) as Y.
    { induction n' as [|n' IH']; intros lo' y; [reflexivity|]. cbn. rewrite IH'. apply upd_length. }
    unfold fillBlock in E1. destruct (o =? bs); injection E1 as <- <-; [apply Y|rewrite upd_length; apply Y]. }
  intros E. destruct (X _ _ _ _ _ E) as (a0 & s0 & E0 & L). injection E0 as <- <-. exact L.
Qed.
(** The new key: fresh arrays, the transform of its own polynomials. *)
Lemma kGen_spec m n k N bs u m' sk u' : kGen sz ks fuel m n k N bs u = Ret (m', sk, u') ->
  exists n' k' N', ext m m' /\ shaped m' (m_next m) n' k' N' sk /\ n = Z.of_nat n' /\ k = Z.of_nat k' /\ (k' <> 0%nat -> N = Z.of_nat N') /\ Forall (fun i => m_next m <= i)%nat (ids sk) /\ fftok (8 * Z.of_nat sz) (abs m' sk) /\
   (forall q, uinv ks (q * 8) u -> 0 < bs < 2 ^ 63 -> exists q', uinv ks (q' * 8) u' /\
      (forall i, (i < k' * N')%nat -> nthZ (sk_large (abs m' sk)) i = 0 \/ nthZ (sk_large (abs m' sk)) i = 1) /\
      block_binary (Z.to_nat bs) (sk_lwe (abs m' sk))).
Proof.
  unfold kGen. destruct (kNewCustom m n k N) as [[m1 sk1]| |] eqn:Ek; try discriminate. cbn [obind]. destruct (kNewCustom_spec _ _ _ _ _ _ Ek) as (n' & k' & N' & E2 & K1 & K2 & K3 & X & S & I & A).
  destruct (shaped_large _ _ _ _ _ _ S) as (El & Ll & Il). rewrite El. cbn [s_len]. pose proof S as ((_ & _ & _ & Hn) & _).
  assert (forall (mm : mem) (uu : ust) v, chg [m_next m] m1 mm -> m_arr mm (m_next m) = v -> (m', sk, u') = (kFwdFFT sz mm sk1, sk1, uu) ->
     ext m m' /\ shaped m' (m_next m) n' k' N' sk /\ Forall (fun i => m_next m <= i)%nat (ids sk) /\ fftok (8 * Z.of_nat sz) (abs m' sk) /\ sk_large (abs m' sk) = v /\ sk_lwe (abs m' sk) = firstn n' v /\ u' = uu) as Fin.
  { intros mm uu v C Ev E. injection E as -> -> ->. pose proof (shaped_chg _ _ _ _ _ _ _ _ S C) as S2. destruct (kFwdFFT_spec sz _ _ _ _ _ _ S2) as (C2 & A2).
    pose proof (shaped_chg _ _ _ _ _ _ _ _ S2 C2) as S3. split; [|split; [exact S3|split; [exact I|]]].
    - eapply chg_ext; [eapply chg_ext; [exact X|exact C|constructor; [lia|constructor]]|exact C2|]. unfold ids in I. now inversion I.
    - rewrite A2, (abs_shaped _ _ _ _ _ _ S2). unfold fftok, skViews. cbn [sk_large sk_glwe sk_fft sk_lwe]. rewrite Ev. auto. }
  destruct (Z.eqb_spec bs 1) as [->|Hbs].
  - rewrite (rd_full _ _ _ Ll). destruct (BSampleVecTo ks (m_arr m1 (m_next m)) u) as [v u1] eqn:Ev. pose proof (BSample_len _ _ _ _ Ev) as Lv. cbn [obind]. intros E. injection E as E0 E1 E3.
    destruct (Fin (blit m1 (mkS (m_next m) 0 (k' * N')) v) u1 v) as (Y1 & Y2 & Y3 & Y4 & Y5 & Y6 & Y7).
    + apply (blit_chg m1 (mkS (m_next m) 0 (k' * N'))). cbn [s_off s_len s_id]. lia.
    + pose proof (blit_arr m1 (mkS (m_next m) 0 (k' * N')) v eq_refl) as Y. cbn [s_id s_len] in Y. rewrite Y. rewrite firstn_all2 by lia. rewrite skipn_all2 by lia. apply app_nil_r.
    + congruence.
    + exists n', k', N'. repeat (split; [assumption|]). intros q Hq _. destruct (BSampleVecTo_spec ks Hks q u (m_arr m1 (m_next m)) Hq) as (u2 & E5 & Hu). rewrite Ev in E5. injection E5 as E5 E6.
      assert (forall i, (i < k' * N')%nat -> nthZ v i = 0 \/ nthZ v i = 1) as Hb.
      { intros i Hi. rewrite E5. unfold nthZ. rewrite nth_tab by lia. destruct (Z.testbit _ _); cbn; auto. }
      eexists. split; [rewrite Y7, E6; exact Hu|]. rewrite Y5, Y6. split; [exact Hb|]. split.
      * intros i Hi. rewrite firstn_length in Hi. rewrite nthZ_firstn by lia. apply Hb. lia.
      * intros a i j Ha Hi Hj. change (Z.to_nat 1) with 1%nat in *. lia.
  - unfold reslice at 1. cbn [s_id s_off]. rewrite Ll, K1, Nat2Z.id. rewrite (proj2 (Nat.leb_le 0 n')) by lia. rewrite (proj2 (Nat.leb_le (0 + n') (k' * N'))) by lia. cbn [andb obind].
    set (lo := mkS (m_next m) (0 + 0) (n' - 0)). destruct (SampleBlockVecTo ks fuel (rd m1 lo) bs u) as [[v1 u1]| |] eqn:E3; try discriminate. cbn [obind]. pose proof (SampleBlock_len _ _ _ _ _ E3) as Lv1.
    assert (length (rd m1 lo) = n') as Lr by (unfold rd, lo; cbn [s_off s_len s_id]; rewrite Nat.add_0_r, skipn_O, firstn_length_le; lia).
    set (m2 := blit m1 lo v1). assert (chg [m_next m] m1 m2) as C by (apply (blit_chg m1 lo); unfold lo; cbn [s_off s_len s_id]; lia).
    pose proof C as (_ & _ & C3). unfold reslice at 1. cbn [s_id s_off]. rewrite C3, Ll. rewrite (proj2 (Nat.leb_le n' (k' * N'))) by lia. rewrite (proj2 (Nat.leb_le (0 + k' * N') (k' * N'))) by lia. cbn [andb obind].
    set (hi := mkS (m_next m) (0 + n') (k' * N' - n')). destruct (BSampleVecTo ks (rd m2 hi) u1) as [v2 u2] eqn:E4. pose proof (BSample_len _ _ _ _ E4) as Lv2. cbn [obind]. intros E. injection E as E0 E1 E6.
    assert (length (rd m2 hi) = k' * N' - n')%nat as Lr2 by (unfold rd, hi; cbn [s_off s_len s_id]; rewrite firstn_length_le; [reflexivity|rewrite skipn_length, C3; lia]).
    assert (m_arr m2 (m_next m) = v1 ++ skipn n' (m_arr m1 (m_next m))) as A2.
    { unfold m2. pose proof (blit_arr m1 lo v1 eq_refl) as Y. unfold lo at 2 in Y. cbn [s_id] in Y. rewrite Y. unfold lo. cbn [s_len s_id]. rewrite firstn_all2 by lia. now rewrite Lv1, Lr. }
    destruct (Fin (blit m2 hi v2) u2 (v1 ++ v2)) as (Y1 & Y2 & Y3 & Y4 & Y5 & Y6 & Y7).
    + eapply chg_trans; [exact C|]. apply (blit_chg m2 hi). unfold hi. cbn [s_off s_len s_id]. rewrite C3. lia.
    + unfold blit, setA, hi. cbn [m_arr s_id s_len s_off]. rewrite Nat.eqb_refl, A2. cbn [Nat.add]. rewrite firstn_app, firstn_all2 by lia. rewrite Lv1, Lr, Nat.sub_diag, firstn_O, app_nil_r. f_equal.
      rewrite firstn_all2 by lia. rewrite skipn_all2; [apply app_nil_r|]. rewrite app_length, skipn_length. lia.
    + congruence.
    + exists n', k', N'. repeat (split; [assumption || reflexivity|]). intros q Hq Hb. destruct (SampleBlockVecTo_spec ks Hks fuel _ _ _ _ _ _ Hb Hq E3) as (os & q1 & _ & Hu1 & _ & _).
      destruct (SampleBlock_shape ks fuel _ _ _ _ _ _ Hks Hb Hq E3) as (B1 & B2).
      destruct (BSampleVecTo_spec ks Hks q1 u1 (rd m2 hi) Hu1) as (u3 & E7 & Hu). rewrite E4 in E7. injection E7 as E7 E8.
      eexists. split; [rewrite Y7, E8; exact Hu|]. rewrite Y5, Y6. split.
      * intros i Hi. unfold nthZ. destruct (Nat.lt_ge_cases i n').
        -- rewrite app_nth1 by lia. apply B1. lia.
        -- rewrite app_nth2 by lia. rewrite E7, nth_tab by lia. destruct (Z.testbit _ _); cbn; auto.
      * rewrite firstn_app, firstn_all2 by lia. rewrite Lv1, Lr, Nat.sub_diag, firstn_O, app_nil_r. split; assumption.
Qed.
End G.
