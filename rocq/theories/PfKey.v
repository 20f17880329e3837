(** Lemmas about the secret key memory. *)
From Verif Require Import Base ModelNum ModelPoly ModelGadget ModelParams SpecNum PfNum ModelSampler SpecSampler PfSampler ModelCodec SpecCodec PfCodec PfCodecT ModelKey SpecKey.

Definition ids (k : mkey) : list nat := s_id (k_large k) :: map s_id (k_fft k).
Definition shaped (m : mem) (id n kk N : nat) (k : mkey) : Prop :=
  (k_large k = mkS id 0 (kk * N) /\ k_glwe k = tab kk (fun i => mkS id (i * N) N) /\ k_lwe k = mkS id 0 n /\ (n <= kk * N)%nat) /\
  length (m_arr m id) = (kk * N)%nat /\ length (k_fft k) = kk /\
  Forall (fun s => s_off s = 0 /\ s_len s = N /\ length (m_arr m (s_id s)) = N)%nat (k_fft k) /\ NoDup (ids k) /\ Forall (fun i => i < m_next m)%nat (ids k).
Definition kinv (m : mem) (k : mkey) : Prop := exists id n kk N, shaped m id n kk N k.
Definition ext (m m' : mem) : Prop := (m_next m <= m_next m')%nat /\ forall j, (j < m_next m)%nat -> m_arr m' j = m_arr m j.
Definition chg (I : list nat) (m m' : mem) : Prop :=
  m_next m' = m_next m /\ (forall j, ~ In j I -> m_arr m' j = m_arr m j) /\ (forall j, length (m_arr m' j) = length (m_arr m j)).

Lemma ext_refl m : ext m m. Proof. split; auto. Qed.
Lemma ext_trans m1 m2 m3 : ext m1 m2 -> ext m2 m3 -> ext m1 m3.
Proof. intros [H1 H2] [H3 H4]. split; [lia|]. intros j Hj. rewrite H4 by lia. now apply H2. Qed.
Lemma chg_refl I m : chg I m m. Proof. repeat split. Qed.
Lemma chg_trans I m1 m2 m3 : chg I m1 m2 -> chg I m2 m3 -> chg I m1 m3.
Proof. intros (H1 & H2 & H3) (H4 & H5 & H6). split; [congruence|]. split; [intros j Hj; rewrite H5, H2; auto|]. intros j. now rewrite H6, H3. Qed.
Lemma chg_incl I J m m' : chg I m m' -> incl I J -> chg J m m'.
Proof. intros (H1 & H2 & H3) HI. split; [exact H1|]. split; [|exact H3]. intros j Hj. apply H2. intros X. now apply Hj, HI. Qed.
Lemma chg_ext I m m' m0 : ext m0 m -> chg I m m' -> Forall (fun i => m_next m0 <= i)%nat I -> ext m0 m'.
Proof. intros [H1 H2] (H3 & H4 & _) HF. split; [lia|]. intros j Hj. rewrite H4; [now apply H2|]. intros X. rewrite Forall_forall in HF. specialize (HF j X). lia. Qed.

Lemma rd_same m m' s : m_arr m' (s_id s) = m_arr m (s_id s) -> rd m' s = rd m s.
Proof. intros E. unfold rd. now rewrite E. Qed.
Lemma shaped_glwe_id m id n kk N k s : shaped m id n kk N k -> In s (k_glwe k) -> s_id s = id.
Proof. intros ((_ & E & _) & _) H. rewrite E in H. unfold tab in H. apply in_map_iff in H. destruct H as (i & <- & _). reflexivity. Qed.
Lemma abs_same m m' k : kinv m k -> (forall j, In j (ids k) -> m_arr m' j = m_arr m j) -> abs m' k = abs m k.
Proof.
  intros (id & n & kk & N & H) E. pose proof H as ((E1 & E2 & E3 & _) & _). assert (m_arr m' id = m_arr m id) as X by (apply E; left; now rewrite E1).
  unfold abs. f_equal.
  - apply rd_same. now rewrite E1.
  - apply map_ext_in. intros s Hs. apply rd_same. now rewrite (shaped_glwe_id _ _ _ _ _ _ _ H Hs).
  - apply map_ext_in. intros s Hs. apply rd_same. apply E. right. now apply in_map.
  - apply rd_same. now rewrite E3.
Qed.
Lemma shaped_ext m m' id n kk N k : shaped m id n kk N k -> ext m m' -> shaped m' id n kk N k.
Proof.
  intros (H1 & H2 & H3 & H4 & H5 & H6) [X1 X2]. pose proof H6 as H6'. rewrite Forall_forall in H6'. split; [exact H1|]. split.
  - rewrite X2; [exact H2|]. apply H6'. left. now destruct H1 as (-> & _).
  - split; [exact H3|]. split; [|split; [exact H5|]].
    + rewrite Forall_forall in *. intros s Hs. destruct (H4 s Hs) as (A & B & C). rewrite X2; [auto|]. apply H6'. right. now apply in_map.
    + eapply Forall_impl; [|exact H6]. cbn. intros; lia.
Qed.
Lemma shaped_chg m m' I id n kk N k : shaped m id n kk N k -> chg I m m' -> shaped m' id n kk N k.
Proof.
  intros (H1 & H2 & H3 & H4 & H5 & H6) (X1 & X2 & X3). split; [exact H1|]. rewrite X3. split; [exact H2|]. split; [exact H3|]. split; [|split; [exact H5|now rewrite X1]].
  eapply Forall_impl; [|exact H4]. cbn. intros s. now rewrite X3.
Qed.
Lemma abs_ext m m' k : kinv m k -> ext m m' -> abs m' k = abs m k.
Proof. intros H [X1 X2]. apply abs_same; [exact H|]. destruct H as (id & n & kk & N & (_ & _ & _ & _ & _ & H6)). rewrite Forall_forall in H6. auto. Qed.

(** ** Rows of a vector. *)
Lemma skipn_add {A} a b (l : list A) : skipn a (skipn b l) = skipn (b + a) l.
Proof. revert l; induction b as [|b IH]; intros [|x l]; cbn; auto. now rewrite skipn_nil. Qed.
Lemma rows_concat k N (l : list Z) : length l = (k * N)%nat -> concat (tab k (fun i => firstn N (skipn (i * N) l))) = l.
Proof.
  revert l; induction k as [|k IH]; intros l H; [destruct l; [reflexivity|discriminate]|].
  unfold tab. cbn [seq map concat Nat.mul]. rewrite <- seq_shift, map_map. cbn [skipn]. rewrite <- (firstn_skipn N l) at 2. f_equal.
  rewrite <- (IH (skipn N l)) at 1; [|rewrite skipn_length; lia]. unfold tab. f_equal. apply map_ext. intros i. rewrite skipn_add. reflexivity.
Qed.
Lemma rows_length k N (l : list Z) : length l = (k * N)%nat -> Forall (fun p => length p = N) (tab k (fun i => firstn N (skipn (i * N) l))).
Proof. intros H. unfold tab. apply Forall_map, Forall_forall. intros i Hi. apply in_seq in Hi. apply firstn_length_le. rewrite skipn_length, H. nia. Qed.

Lemma map_tab {A B} (f : A -> B) n g : map f (tab n g) = tab n (fun i => f (g i)).
Proof. unfold tab. now rewrite map_map. Qed.
Lemma rd_full m id L : length (m_arr m id) = L -> rd m (mkS id 0 L) = m_arr m id.
Proof. intros <-. unfold rd. cbn. apply firstn_all. Qed.
Lemma abs_shaped m id n kk N k : shaped m id n kk N k -> abs m k = skViews n kk N (m_arr m id) (map (rd m) (k_fft k)).
Proof.
  intros ((E1 & E2 & E3 & E4) & L & _). unfold abs, skViews. rewrite E1, E2, E3. f_equal; [now apply rd_full|now rewrite map_tab].
Qed.
Lemma skViews_views n kk N l f : length l = (kk * N)%nat -> (n <= kk * N)%nat -> views n N (skViews n kk N l f).
Proof. intros H Hn. unfold views, skViews; cbn. split; [now apply rows_concat|]. split; [now apply rows_length|]. split; [lia|reflexivity]. Qed.
Lemma shaped_views m id n kk N k : shaped m id n kk N k -> views n N (abs m k).
Proof. intros H. rewrite (abs_shaped _ _ _ _ _ _ H). destruct H as ((_ & _ & _ & E) & L & _). now apply skViews_views. Qed.

Lemma Forall2_len {A B} (P : A -> B -> Prop) l l' : Forall2 P l l' -> length l = length l'.
Proof. induction 1; cbn; congruence. Qed.
(** ** Building a key in fresh arrays. *)
Lemma alloc_spec m l m' s : alloc m l = (m', s) -> ext m m' /\ s = mkS (m_next m) 0 (length l) /\ m_arr m' (m_next m) = l /\ m_next m' = S (m_next m).
Proof.
  intros E. injection E as <- <-. split; [|cbn; rewrite Nat.eqb_refl; auto]. split; cbn; [lia|]. intros j Hj. destruct (Nat.eqb_spec j (m_next m)); [lia|reflexivity].
Qed.
Lemma allocs_spec ls : forall m m' ss, allocs m ls = (m', ss) -> ext m m' /\ map s_id ss = seq (m_next m) (length ls) /\ m_next m' = (m_next m + length ls)%nat /\
  Forall2 (fun s l => s_off s = 0%nat /\ s_len s = length l /\ m_arr m' (s_id s) = l) ss ls.
Proof.
  induction ls as [|l ls IH]; intros m m' ss E; cbn in E.
  - injection E as <- <-. split; [apply ext_refl|]. cbn. split; [reflexivity|]. split; [lia|constructor].
  - destruct (allocs _ ls) as [m2 ss2] eqn:E2. injection E as <- <-. pose proof (alloc_spec m l _ _ eq_refl) as (A1 & A2 & A3 & A4).
    destruct (IH _ _ _ E2) as (B1 & B2 & B3 & B4). cbn [m_next] in *. split; [eapply ext_trans; eassumption|]. split; [cbn; now rewrite B2|]. split; [cbn; lia|].
    constructor; [|exact B4]. cbn. split; [reflexivity|]. split; [reflexivity|]. destruct B1 as [_ B1]. rewrite B1 by (cbn; lia). exact A3.
Qed.
Lemma glweViews_spec m id N L k : forall lo, length (m_arr m id) = L -> ((lo + k) * N <= L)%nat ->
  glweViews m (mkS id 0 L) N lo k = Ret (map (fun i => mkS id (i * N) N) (seq lo k)).
Proof.
  induction k as [|k IH]; intros lo HL H; [reflexivity|]. cbn [glweViews]. unfold reslice at 1. cbn [s_id s_off s_len]. rewrite HL.
  rewrite (proj2 (Nat.leb_le (lo * N) ((lo + 1) * N))) by nia. rewrite (proj2 (Nat.leb_le (0 + (lo + 1) * N) L)) by nia. cbn [andb obind].
  rewrite IH by (auto; nia). cbn [obind seq map]. repeat f_equal; nia.
Qed.
Lemma copyViews_views m s N vs : Forall (fun v => s_len v = N) vs -> forall lo, copyViews m s lo vs = glweViews m s N lo (length vs).
Proof. induction 1 as [|v vs E _ IH]; intros lo; [reflexivity|]. cbn. rewrite E, IH. reflexivity. Qed.
Lemma build_spec m n kk N large fft m1 s m2 fs : length large = (kk * N)%nat -> (n <= kk * N)%nat -> length fft = kk -> Forall (fun f => length f = N) fft ->
  alloc m large = (m1, s) -> allocs m1 fft = (m2, fs) ->
  glweViews m1 s N 0 kk = Ret (tab kk (fun i => mkS (m_next m) (i * N) N)) /\ reslice m2 s 0 n = Ret (mkS (m_next m) 0 n) /\
  let k := mkMK s (tab kk (fun i => mkS (m_next m) (i * N) N)) fs (mkS (m_next m) 0 n) in
  ext m m2 /\ shaped m2 (m_next m) n kk N k /\ Forall (fun i => m_next m <= i)%nat (ids k) /\ abs m2 k = skViews n kk N large fft.
Proof.
  intros HL Hn HF1 HF2 EA EB. destruct (alloc_spec _ _ _ _ EA) as (A1 & A2 & A3 & A4). destruct (allocs_spec _ _ _ _ EB) as (B1 & B2 & B3 & B4).
  assert (m_arr m2 (m_next m) = large) as Em by (destruct B1 as [_ B1]; rewrite B1 by lia; exact A3).
  subst s. rewrite HL in *. split; [unfold tab; apply glweViews_spec; [now rewrite A3|lia]|]. split.
  { unfold reslice. cbn [s_id s_off]. rewrite Em, HL. rewrite (proj2 (Nat.leb_le 0 n)) by lia. rewrite (proj2 (Nat.leb_le (0 + n) (kk * N))) by lia. cbn [andb]. repeat f_equal; lia. }
  intros k. assert (length fs = kk) as Lf by (rewrite (Forall2_len _ _ _ B4); exact HF1).
  assert (ids k = seq (m_next m) (S kk)) as Ei by (unfold ids, k; cbn [k_large k_fft s_id seq]; rewrite B2, A4, HF1; reflexivity).
  assert (shaped m2 (m_next m) n kk N k) as HS.
  { split; [cbn; auto|]. split; [now rewrite Em|]. split; [exact Lf|]. split; [|split; [rewrite Ei; apply seq_NoDup|]].
    - cbn [k k_fft]. clear - B4 HF2. induction B4 as [|s l ss ls (H1 & H2 & H3) _ IH]; constructor; inversion HF2; subst; [|now apply IH]. repeat split; congruence.
    - rewrite Ei. apply Forall_forall. intros i Hi. apply in_seq in Hi. lia. }
  split; [eapply ext_trans; eassumption|]. split; [exact HS|]. split.
  { rewrite Ei. apply Forall_forall. intros i Hi. apply in_seq in Hi. lia. }
  rewrite (abs_shaped _ _ _ _ _ _ HS), Em. f_equal. cbn [k k_fft]. clear - B4. induction B4 as [|s l ss ls (H1 & H2 & H3) _ IH]; [reflexivity|]. cbn [map]. f_equal; [|exact IH].
  unfold rd. rewrite H1, H2, H3. cbn. apply firstn_all.
Qed.

(** NewSecretKeyCustom's arguments when it returns. *)
Lemma NewSK_inv n k N n' k' N' large fft : NewSecretKeyCustom n k N = Some (n', k', N', large, fft) ->
  n = Z.of_nat n' /\ k = Z.of_nat k' /\ (n' <= k' * N')%nat /\ large = repeat 0 (k' * N') /\ fft = repeat (repeat 0 N') k' /\ (k' <> 0%nat -> N = Z.of_nat N').
Proof.
  unfold NewSecretKeyCustom. destruct (_ || _) eqn:E; [discriminate|]. repeat (apply orb_false_elim in E; destruct E as [E ?]).
  unfold optBind. destruct (NewGLWESecretKeyCustom k N) as [f|] eqn:Ef; [|discriminate]. intros X. injection X as <- <- <- <- <-.
  apply Z.ltb_ge in E, H, H0, H2. unfold NewGLWESecretKeyCustom, mkN in Ef. destruct (k <? 0) eqn:E0; [discriminate|].
  destruct (Z.eqb_spec k 0) as [->|Hk].
  - injection Ef as <-. change (swrap 64 (0 * N)) with 0 in *. assert (n = 0) by lia. subst n. cbn. repeat split; auto; lia.
  - cbn [negb andb] in H1. apply orb_false_elim in H1. destruct H1 as [H1 H3]. apply Z.ltb_ge in H1. apply negb_false_iff, Z.eqb_eq in H3.
    unfold NewPoly in Ef. destruct (_ && _); [|discriminate]. injection Ef as <-. rewrite <- H3 in *. rewrite !Z2Nat.id by lia.
    split; [reflexivity|]. split; [reflexivity|]. split; [|split; [|split; [reflexivity|reflexivity]]].
    + apply Nat2Z.inj_le. rewrite Nat2Z.inj_mul, !Z2Nat.id; lia.
    + f_equal. now rewrite Z2Nat.inj_mul by lia.
Qed.
Lemma kNewCustom_spec m n k N m' sk : kNewCustom m n k N = Ret (m', sk) ->
  exists n' k' N', NewSecretKeyCustom n k N = Some (n', k', N', repeat 0 (k' * N'), repeat (repeat 0 N') k') /\ n = Z.of_nat n' /\ k = Z.of_nat k' /\ (k' <> 0%nat -> N = Z.of_nat N') /\
    ext m m' /\ shaped m' (m_next m) n' k' N' sk /\ Forall (fun i => m_next m <= i)%nat (ids sk) /\ abs m' sk = skViews n' k' N' (repeat 0 (k' * N')) (repeat (repeat 0 N') k').
Proof.
  unfold kNewCustom. destruct (NewSecretKeyCustom n k N) as [[[[[n' k'] N'] large] fft]|] eqn:E; [|discriminate].
  destruct (NewSK_inv _ _ _ _ _ _ _ _ E) as (-> & -> & Hn & -> & -> & HN). destruct (alloc m _) as [m1 s] eqn:EA. destruct (allocs m1 _) as [m2 fs] eqn:EB.
  destruct (build_spec m n' k' N' _ _ _ _ _ _ (repeat_length _ _) Hn (repeat_length _ _) (proj2 (Forall_forall _ _) (fun f Hf => eq_trans (f_equal (@length Z) (repeat_spec _ _ _ Hf)) (repeat_length _ _))) EA EB) as (G1 & G2 & G3).
  rewrite G1. cbn [obind]. try rewrite EB; rewrite G2. cbn [obind]. intros X. injection X as <- <-. exists n', k', N'. split; [reflexivity|]. auto 10.
Qed.
Lemma kCopy_spec m k m' k' id n kk N : shaped m id n kk N k -> kCopy m k = Ret (m', k') ->
  ext m m' /\ shaped m' (m_next m) n kk N k' /\ Forall (fun i => m_next m <= i)%nat (ids k') /\ abs m' k' = abs m k.
Proof.
  intros H. pose proof H as ((E1 & E2 & E3 & E4) & L & Lf & HF & _). unfold kCopy. rewrite E1, E2, E3. cbn [s_len]. rewrite (rd_full _ _ _ L).
  destruct (alloc m _) as [m1 s] eqn:EA. rewrite (copyViews_views m1 s N) by (unfold tab; apply Forall_map, Forall_forall; auto). rewrite tab_length.
  destruct (alloc_spec _ _ _ _ EA) as (A1 & _).
  destruct (allocs m1 (map (rd m1) (k_fft k))) as [m2 fs] eqn:EB.
  assert (map (rd m1) (k_fft k) = map (rd m) (k_fft k)) as Er.
  { pose proof (abs_ext m m1 k (ex_intro _ id (ex_intro _ n (ex_intro _ kk (ex_intro _ N H)))) A1) as X. unfold abs in X. now injection X. }
  destruct (build_spec m n kk N (m_arr m id) (map (rd m1) (k_fft k)) _ _ _ _ L E4 (eq_trans (map_length _ _) Lf)
    ltac:(rewrite Er; apply Forall_map; eapply Forall_impl; [|exact HF]; cbn; intros x (X1 & X2 & X3); unfold rd; rewrite X1, X2; cbn; apply firstn_length_le; lia) EA EB) as (G1 & G2 & G3).
  rewrite G1. cbn [obind]. try rewrite EB; rewrite G2. cbn [obind]. intros X. injection X as <- <-. destruct G3 as (X1 & X2 & X3 & X4). split; [exact X1|]. split; [exact X2|]. split; [exact X3|].
  rewrite X4, (abs_shaped _ _ _ _ _ _ H). now rewrite Er.
Qed.
Lemma kCopy_total m k : kinv m k -> exists m' k', kCopy m k = Ret (m', k').
Proof.
  intros (id & n & kk & N & H). pose proof H as ((E1 & E2 & E3 & E4) & L & Lf & HF & _). unfold kCopy. rewrite E1, E2, E3. cbn [s_len]. rewrite (rd_full _ _ _ L).
  destruct (alloc m _) as [m1 s] eqn:EA. rewrite (copyViews_views m1 s N) by (unfold tab; apply Forall_map, Forall_forall; auto). rewrite tab_length.
  destruct (alloc_spec _ _ _ _ EA) as (A1 & _).
  destruct (allocs m1 (map (rd m1) (k_fft k))) as [m2 fs] eqn:EB.
  destruct (build_spec m n kk N (m_arr m id) (map (rd m1) (k_fft k)) _ _ _ _ L E4 (eq_trans (map_length _ _) Lf)
    ltac:(apply Forall_map; eapply Forall_impl; [|exact (proj1 (proj2 (proj2 (proj2 (shaped_ext _ _ _ _ _ _ _ H A1)))))]; cbn; intros x (X1 & X2 & X3); unfold rd; rewrite X1, X2; cbn; apply firstn_length_le; lia) EA EB) as (G1 & G2 & _).
  rewrite G1. cbn [obind]. try rewrite EB; rewrite G2. cbn [obind]. eauto.
Qed.

(** ** Writing. *)
Lemma blit_chg m s l : (s_off s + s_len s <= length (m_arr m (s_id s)))%nat -> chg [s_id s] m (blit m s l).
Proof.
  intros H. unfold blit, setA. split; [reflexivity|]. cbn [m_arr]. split.
  - intros j Hj. destruct (Nat.eqb_spec j (s_id s)); [|reflexivity]. subst. exfalso. apply Hj. now left.
  - intros j. destruct (Nat.eqb_spec j (s_id s)) as [->|]; [|reflexivity]. rewrite !app_length, skipn_length, !firstn_length. lia.
Qed.
Lemma blit_arr m s l : s_off s = 0%nat -> m_arr (blit m s l) (s_id s) = firstn (s_len s) l ++ skipn (length (firstn (s_len s) l)) (m_arr m (s_id s)).
Proof. intros H. unfold blit, setA. cbn. now rewrite Nat.eqb_refl, H. Qed.
Lemma rd_blit_full m s l : s_off s = 0%nat -> (s_len s <= length (m_arr m (s_id s)))%nat -> length l = s_len s -> rd (blit m s l) s = l.
Proof.
  intros H1 H2 H3. unfold rd. rewrite (blit_arr _ _ _ H1), H1. cbn [skipn]. rewrite <- H3 at 2. rewrite firstn_all. rewrite <- H3, firstn_app, Nat.sub_diag, firstn_all, firstn_O. apply app_nil_r.
Qed.
Lemma store1_chg m s i x m' : (s_off s + s_len s <= length (m_arr m (s_id s)))%nat -> store1 m s i x = Ret m' ->
  (i < s_len s)%nat /\ chg [s_id s] m m' /\ m_arr m' (s_id s) = upd (m_arr m (s_id s)) (s_off s + i) x.
Proof.
  intros H. unfold store1. destruct (Nat.ltb_spec i (s_len s)) as [Hi|]; [|discriminate]. intros E. injection E as <-. split; [exact Hi|]. unfold setA. cbn [m_arr]. rewrite Nat.eqb_refl.
  split; [|reflexivity]. split; [reflexivity|]. cbn. split; [|intros j; destruct (Nat.eqb_spec j (s_id s)) as [->|]; [apply upd_length|reflexivity]].
  intros j Hj. destruct (Nat.eqb_spec j (s_id s)); [|reflexivity]. subst. exfalso. apply Hj. now left.
Qed.
Lemma shaped_large m id n kk N k : shaped m id n kk N k -> k_large k = mkS id 0 (kk * N) /\ length (m_arr m id) = (kk * N)%nat /\ In id (ids k).
Proof. intros ((E & _) & L & _). split; [exact E|]. split; [exact L|]. left. now rewrite E. Qed.
Lemma shaped_fft m id n kk N k s : shaped m id n kk N k -> In s (k_fft k) -> s_off s = 0%nat /\ s_len s = N /\ length (m_arr m (s_id s)) = N /\ In (s_id s) (ids k) /\ s_id s <> id.
Proof.
  intros ((E & _) & L & Lf & HF & HN & _) Hs. rewrite Forall_forall in HF. destruct (HF s Hs) as (A & B & C). repeat (split; [assumption|]). split; [right; now apply in_map|].
  intros X. unfold ids in HN. rewrite E in HN. cbn in HN. inversion HN as [|? ? HN1 _]; subst. apply HN1. now apply in_map.
Qed.

(** Overwriting the FFT rows of a key one after another. *)
Definition wrRows (m : mem) (ss : list slice) (ls : list (list Z)) : mem := fold_left (fun m (x : slice * list Z) => blit m (fst x) (snd x)) (combine ss ls) m.
Lemma wrRows_spec N ss : forall m ls, NoDup (map s_id ss) -> Forall (fun s => s_off s = 0 /\ s_len s = N /\ length (m_arr m (s_id s)) = N)%nat ss ->
  chg (map s_id ss) m (wrRows m ss ls) /\ (length ls = length ss -> Forall (fun l => length l = N) ls -> map (rd (wrRows m ss ls)) ss = ls).
Proof.
  induction ss as [|s ss IH]; intros m ls HN HF.
  - split; [apply chg_refl|]. destruct ls; [reflexivity|discriminate].
  - destruct ls as [|l ls]; [split; [apply chg_refl|discriminate]|]. cbn [map] in HN. inversion HN as [|? ? HN1 HN2]; subst. pose proof (Forall_inv HF) as (H1 & H2 & H3). pose proof (Forall_inv_tail HF) as HF2.
    assert (chg [s_id s] m (blit m s l)) as C by (apply blit_chg; lia).
    destruct (IH (blit m s l) ls HN2) as (J1 & J2).
    { destruct C as (_ & _ & C3). eapply Forall_impl; [|exact HF2]. intros x Hx. cbv beta in *. now rewrite C3. }
    unfold wrRows in *. cbn [combine fold_left fst snd]. split.
    + eapply chg_trans; [eapply chg_incl; [exact C|]|eapply chg_incl; [exact J1|]]; intros x; cbn; intuition.
    + intros HL HFl. pose proof (Forall_inv HFl) as K1. pose proof (Forall_inv_tail HFl) as K2. cbn beta in K1. cbn [map]. f_equal; [|apply J2; [now injection HL|assumption]].
      destruct J1 as (_ & J1 & _). rewrite (rd_same (blit m s l)) by (apply J1; exact HN1). apply rd_blit_full; lia.
Qed.
