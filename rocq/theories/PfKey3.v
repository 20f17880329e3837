(** Histories of secret key operations. *)
From Verif Require Import Base ModelNum ModelPoly ModelGadget ModelParams SpecNum PfNum ModelSampler ModelSampler SpecSampler PfSampler ModelCodec SpecCodec PfCodec PfCodecT PfCodecP ModelGLWE SpecGLWE PfGLWE4 ModelKey SpecKey PfKey PfKey2.

Definition pairw (keys : list mkey) : Prop := forall a b, In a keys -> In b keys -> a = b \/ disj (ids a) (ids b).
Definition sinv (st : kstate) : Prop := (forall k, In k (ks_keys st) -> kinv (ks_mem st) k) /\ pairw (ks_keys st).
Lemma kinv_chg I m m' k : kinv m k -> chg I m m' -> kinv m' k.
Proof. intros (id & n & kk & N & H) C. exists id, n, kk, N. eapply shaped_chg; eassumption. Qed.
Lemma kinv_ext m m' k : kinv m k -> ext m m' -> kinv m' k.
Proof. intros (id & n & kk & N & H) C. exists id, n, kk, N. eapply shaped_ext; eassumption. Qed.
Lemma kinv_bound m k i : kinv m k -> In i (ids k) -> (i < m_next m)%nat.
Proof. intros (id & n & kk & N & H) Hi. destruct H as (_ & _ & _ & _ & _ & H). rewrite Forall_forall in H. auto. Qed.
Lemma fresh_disj m k k' : kinv m k -> Forall (fun i => m_next m <= i)%nat (ids k') -> disj (ids k) (ids k').
Proof. intros H F x X Y. rewrite Forall_forall in F. specialize (F x Y). pose proof (kinv_bound _ _ _ H X). lia. Qed.
Lemma kinv_glwe m k s : kinv m k -> In s (k_glwe k) -> s_id s = s_id (k_large k).
Proof. intros (id & n & kk & N & H) Hs. rewrite (shaped_glwe_id _ _ _ _ _ _ _ H Hs). now destruct H as ((-> & _) & _). Qed.
Lemma shaped_glwe_nth m id n kk N k r s : shaped m id n kk N k -> nth_error (k_glwe k) r = Some s -> (r < kk)%nat /\ s = mkS id (r * N) N.
Proof.
  intros ((_ & E & _) & _) H. rewrite E in H. assert (r < kk)%nat as Hr by (rewrite <- (tab_length kk (fun i => mkS id (i * N) N)); apply nth_error_Some; congruence).
  split; [exact Hr|]. apply (nth_error_nth _ _ (mkS 0 0 0)) in H. now rewrite nth_tab in H by exact Hr.
Qed.

(** glwe.go AsLWEKey on the views. *)
Lemma views_AsLWEKey n N v out : views n N v -> length out = length (sk_large v) -> (0 < N)%nat -> AsLWEKeyTo N out (sk_glwe v) = sk_large v.
Proof.
  intros (V1 & V2 & _) L HN0. assert (forall rows, Forall (fun p => length p = N) rows -> length (concat rows) = (length rows * N)%nat /\ forall i j, (i < length rows)%nat -> (j < N)%nat -> nthZ (concat rows) (i * N + j) = nthZ (nth i rows []) j) as C.
  { induction 1 as [|p rows Hp _ (IH1 & IH2)]; [split; [reflexivity|cbn; lia]|]. cbn [concat length]. rewrite app_length, Hp, IH1. split; [reflexivity|]. intros [|i] j Hi Hj; unfold nthZ; cbn [nth].
    - now rewrite app_nth1 by lia.
    - rewrite app_nth2 by lia. rewrite Hp. replace (S i * N + j - N)%nat with (i * N + j)%nat by lia. apply IH2; lia. }
  destruct (C _ V2) as (C1 & C2). rewrite V1 in C1, C2. rewrite Forall_forall in V2.
  destruct (AsLWEKeyTo_spec N HN0 (sk_glwe v) out ltac:(lia) ltac:(intros i Hi; apply V2, nth_In; exact Hi)) as (F1 & F2).
  apply (nth_ext _ _ 0 0); [lia|]. intros x Hx. rewrite F1 in Hx. assert (N <> 0)%nat by lia. pose proof (Nat.div_mod x N ltac:(assumption)) as D. pose proof (Nat.mod_upper_bound x N ltac:(assumption)).
  assert (x / N < length (sk_glwe v))%nat by (apply Nat.div_lt_upper_bound; lia). replace x with (x / N * N + x mod N)%nat by lia.
  exact (eq_trans (F2 (x / N) (x mod N) ltac:(assumption) ltac:(assumption)) (eq_sym (C2 (x / N) (x mod N) ltac:(assumption) ltac:(assumption))))%nat.
Qed.

Section S.
Variables (sz : nat) (ks : nat -> Z) (fuel : nat).
Hypothesis Hks : forall p, byte (ks p).
Notation kstep := (kstep sz ks fuel).
Notation krun := (krun sz ks fuel).
Notation fguard := (fguard sz).
Notation freach := (freach sz ks fuel).
Notation w := (8 * Z.of_nat sz).

(** The variable a command writes through. *)
Definition target (c : kcmd) : option nat :=
  match c with KCopyFrom i _ | KClear i | KFFT i | KWriteLarge i _ _ | KWriteGLWE i _ _ _ | KWriteLWE i _ _ => Some i | _ => None end.
Definition step_cases (c : kcmd) (st st' : kstate) : Prop :=
  (exists i k I, target c = Some i /\ nth_error (ks_keys st) i = Some k /\ incl I (ids k) /\ chg I (ks_mem st) (ks_mem st') /\ ks_keys st' = ks_keys st) \/
  (exists k, target c = None /\ (forall i b, c <> KRead i b) /\ (forall i j, c <> KAssign i j) /\ ext (ks_mem st) (ks_mem st') /\ kinv (ks_mem st') k /\ Forall (fun i => m_next (ks_mem st) <= i)%nat (ids k) /\ ks_keys st' = ks_keys st ++ [k]) \/
  (exists i b k k0, c = KRead i b /\ nth_error (ks_keys st) i = Some k0 /\ ext (ks_mem st) (ks_mem st') /\ kinv (ks_mem st') k /\ Forall (fun i => m_next (ks_mem st) <= i)%nat (ids k) /\ ks_keys st' = upd (ks_keys st) i k) \/
  (exists i b k, c = KRead i b /\ nth_error (ks_keys st) i = Some k /\ ks_mem st' = ks_mem st /\ ks_keys st' = upd (ks_keys st) i k) \/
  (exists i j k, c = KAssign i j /\ (i < length (ks_keys st))%nat /\ nth_error (ks_keys st) j = Some k /\ ks_mem st' = ks_mem st /\ ks_keys st' = upd (ks_keys st) i k).
Lemma withKey_inv {A} st i (f : mkey -> outcome A) a : withKey st i f = Ret a -> exists k, nth_error (ks_keys st) i = Some k /\ f k = Ret a.
Proof. unfold withKey. destruct (nth_error _ i); [eauto|discriminate]. Qed.
Lemma obind_inv {A B} (o : outcome A) (f : A -> outcome B) b : obind o f = Ret b -> exists a, o = Ret a /\ f a = Ret b.
Proof. destruct o; try discriminate. eauto. Qed.
Lemma kstep_cases c st st' : sinv st -> kstep c st = Ret st' -> step_cases c st st'.
Proof.
  intros [HI HP] E. unfold step_cases. destruct c; cbn [ModelKey.kstep target] in *.
  - right; left. apply obind_inv in E. destruct E as ([m sk] & E1 & E). injection E as <-. destruct (kNewCustom_spec _ _ _ _ _ _ E1) as (n' & k' & N' & _ & _ & _ & _ & X & S & I & _).
    exists sk. cbn. split; [reflexivity|]. split; [discriminate|]. split; [discriminate|]. split; [exact X|]. split; [now exists (m_next (ks_mem st)), n', k', N'|]. auto.
  - right; left. apply obind_inv in E. destruct E as ([[m sk] u] & E1 & E). injection E as <-. destruct (kGen_spec _ _ _ Hks _ _ _ _ _ _ _ _ _ E1) as (n' & k' & N' & X & S & _ & _ & _ & I & _).
    exists sk. cbn. split; [reflexivity|]. split; [discriminate|]. split; [discriminate|]. split; [exact X|]. split; [now exists (m_next (ks_mem st)), n', k', N'|]. auto.
  - right; left. apply withKey_inv in E. destruct E as (k & Ek & E). apply obind_inv in E. destruct E as ([m sk] & E1 & E). injection E as <-.
    destruct (HI k (nth_error_In _ _ Ek)) as (id & n & kk & N & H). destruct (kCopy_spec _ _ _ _ _ _ _ _ H E1) as (X & S & I & _).
    exists sk. cbn. split; [reflexivity|]. split; [discriminate|]. split; [discriminate|]. split; [exact X|]. split; [now exists (m_next (ks_mem st)), n, kk, N|]. auto.
  - do 4 right. apply withKey_inv in E. destruct E as (k & Ek & E). apply withKey_inv in E. destruct E as (k' & Ek' & E). injection E as <-. exists i, j, k'. cbn. split; [reflexivity|]. split; [apply nth_error_Some; congruence|]. auto.
  - left. apply withKey_inv in E. destruct E as (k & Ek & E). apply withKey_inv in E. destruct E as (k' & Ek' & E). apply obind_inv in E. destruct E as (m & E1 & E). injection E as <-.
    destruct (HI k (nth_error_In _ _ Ek)) as (id & n & kk & N & H). destruct (HI k' (nth_error_In _ _ Ek')) as (id' & n' & kk' & N' & H').
    destruct (kCopyFrom_spec _ _ _ _ _ _ _ _ _ _ _ _ H H' (HP _ _ (nth_error_In _ _ Ek) (nth_error_In _ _ Ek')) E1) as (C & _). exists i, k, (ids k). cbn. split; [reflexivity|]. split; [exact Ek|]. split; [apply incl_refl|]. auto.
  - left. apply withKey_inv in E. destruct E as (k & Ek & E). injection E as <-. destruct (HI k (nth_error_In _ _ Ek)) as (id & n & kk & N & H). destruct (kClear_spec _ _ _ _ _ _ H) as (C & _).
    exists i, k, (ids k). cbn. split; [reflexivity|]. split; [exact Ek|]. split; [apply incl_refl|]. auto.
  - right; right. apply withKey_inv in E. destruct E as (k & Ek & E). apply obind_inv in E. destruct E as ([[[m sk] r] ok] & E1 & E). injection E as <-. destruct (kRead_inv _ _ _ _ _ _ _ _ E1) as [[-> ->]|(X & S & I)].
    + right; left. exists i, b, k. cbn. auto.
    + left. exists i, b, sk, k. cbn. auto 10.
  - left. apply withKey_inv in E. destruct E as (k & Ek & E). injection E as <-. destruct (HI k (nth_error_In _ _ Ek)) as (id & n & kk & N & H). destruct (kFwdFFT_spec sz _ _ _ _ _ _ H) as (C & _).
    exists i, k, (map s_id (k_fft k)). cbn. split; [reflexivity|]. split; [exact Ek|]. split; [intros x Hx; right; exact Hx|]. auto.
  - left. apply withKey_inv in E. destruct E as (k & Ek & E). apply obind_inv in E. destruct E as (m & E1 & E). injection E as <-. destruct (HI k (nth_error_In _ _ Ek)) as (id & n & kk & N & H). destruct (shaped_large _ _ _ _ _ _ H) as (El & Ll & Il).
    rewrite El in E1. pose proof (fun H0 => store1_chg _ _ _ _ _ H0 E1) as Q0; cbn [s_off s_len s_id] in Q0; destruct (Q0 ltac:(cbn; lia)) as (_ & C & _). exists i, k, [id]. cbn. split; [reflexivity|]. split; [exact Ek|]. split; [intros y [<-|[]]; exact Il|]. auto.
  - left. apply withKey_inv in E. destruct E as (k & Ek & E). destruct (nth_error (k_glwe k) r) as [s|] eqn:Es; [|discriminate]. apply obind_inv in E. destruct E as (m & E1 & E). injection E as <-.
    destruct (HI k (nth_error_In _ _ Ek)) as (id & n & kk & N & H). destruct (shaped_large _ _ _ _ _ _ H) as (El & Ll & Il). destruct (shaped_glwe_nth _ _ _ _ _ _ _ _ H Es) as (Hr & ->).
    pose proof (fun H0 => store1_chg _ _ _ _ _ H0 E1) as Q0; cbn [s_off s_len s_id] in Q0; destruct (Q0 ltac:(cbn [s_off s_len s_id]; rewrite Ll; nia)) as (_ & C & _). exists i, k, [id]. cbn. split; [reflexivity|]. split; [exact Ek|]. split; [intros y [<-|[]]; exact Il|]. auto.
  - left. apply withKey_inv in E. destruct E as (k & Ek & E). apply obind_inv in E. destruct E as (m & E1 & E). injection E as <-. destruct (HI k (nth_error_In _ _ Ek)) as (id & n & kk & N & H). destruct (shaped_large _ _ _ _ _ _ H) as (El & Ll & Il).
    pose proof H as ((_ & _ & Ew & Hn) & _). rewrite Ew in E1. pose proof (fun H0 => store1_chg _ _ _ _ _ H0 E1) as Q0; cbn [s_off s_len s_id] in Q0; destruct (Q0 ltac:(cbn [s_off s_len s_id]; lia)) as (_ & C & _). exists i, k, [id]. cbn. split; [reflexivity|]. split; [exact Ek|]. split; [intros y [<-|[]]; exact Il|]. auto.
Qed.
Lemma In_upd {A} (l : list A) i v x : In x (upd l i v) -> x = v \/ In x l.
Proof. revert i; induction l as [|y l IH]; intros [|i] H; cbn in *; auto; destruct H as [<-|H]; auto. destruct (IH _ H); auto. Qed.
Lemma sinv_step c st st' : sinv st -> kstep c st = Ret st' -> sinv st'.
Proof.
  intros HS E. pose proof HS as [HI HP]. destruct (kstep_cases c st st' HS E) as [X|[X|[X|[X|X]]]].
  - destruct X as (i & k & I & _ & _ & _ & C & Ek). split; rewrite Ek; [|exact HP]. intros k' Hk. eapply kinv_chg; [now apply HI|exact C].
  - destruct X as (k & _ & _ & _ & X & S & F & Ek). split; rewrite Ek.
    + intros k' Hk. apply in_app_iff in Hk. destruct Hk as [Hk|[<-|[]]]; [|exact S]. eapply kinv_ext; [now apply HI|exact X].
    + intros a b Ha Hb. apply in_app_iff in Ha, Hb. destruct Ha as [Ha|[<-|[]]]; destruct Hb as [Hb|[<-|[]]]; [now apply HP|right; now apply (fresh_disj (ks_mem st)); [apply HI|]|right; apply disj_sym; now apply (fresh_disj (ks_mem st)); [apply HI|]|now left].
  - destruct X as (i & b & k & k0 & _ & _ & X & S & F & Ek). split; rewrite Ek.
    + intros k' Hk. apply In_upd in Hk. destruct Hk as [->|Hk]; [exact S|]. eapply kinv_ext; [now apply HI|exact X].
    + intros a c' Ha Hb. apply In_upd in Ha, Hb. destruct Ha as [->|Ha]; destruct Hb as [->|Hb]; [now left|right; apply disj_sym; now apply (fresh_disj (ks_mem st)); [apply HI|]|right; now apply (fresh_disj (ks_mem st)); [apply HI|]|now apply HP].
  - destruct X as (i & b & k & _ & Hk & Em & Ek). split; rewrite Ek, ?Em; pose proof (nth_error_In _ _ Hk) as Hin.
    + intros k' H. apply In_upd in H. destruct H as [->|H]; auto.
    + intros a c' Ha Hb. apply In_upd in Ha, Hb. destruct Ha as [->|Ha]; destruct Hb as [->|Hb]; auto.
  - destruct X as (i & j & k & _ & _ & Hk & Em & Ek). split; rewrite Ek, ?Em; pose proof (nth_error_In _ _ Hk) as Hin.
    + intros k' H. apply In_upd in H. destruct H as [->|H]; auto.
    + intros a c' Ha Hb. apply In_upd in Ha, Hb. destruct Ha as [->|Ha]; destruct Hb as [->|Hb]; auto.
Qed.
Lemma sinv_run p : forall st st', sinv st -> krun p st = Ret st' -> sinv st'.
Proof. induction p as [|c p IH]; intros st st' H E; cbn in E; [now injection E as <-|]. apply obind_inv in E. destruct E as (st1 & E1 & E). eapply IH; [eapply sinv_step; eassumption|exact E]. Qed.
Lemma sinv_init : sinv kinit. Proof. split; [intros k []|intros a b []]. Qed.
Lemma reach_sinv p st : krun p kinit = Ret st -> sinv st. Proof. apply sinv_run, sinv_init. Qed.

(** The views relation in every reachable state. *)
Lemma reach_views p st i k : krun p kinit = Ret st -> nth_error (ks_keys st) i = Some k -> exists n N, views n N (abs (ks_mem st) k).
Proof. intros H Ek. destruct (proj1 (reach_sinv p st H) k (nth_error_In _ _ Ek)) as (id & n & kk & N & S). exists n, N. eapply shaped_views; eassumption. Qed.
Lemma write_large st st' i j x : sinv st -> kstep (KWriteLarge i j x) st = Ret st' -> seen st st' i x (fun _ => j).
Proof.
  intros [HI _] E. cbn in E. apply withKey_inv in E. destruct E as (k & Ek & E). apply obind_inv in E. destruct E as (m & E1 & E). injection E as <-. destruct (HI k (nth_error_In _ _ Ek)) as (id & n & kk & N & H).
  destruct (shaped_large _ _ _ _ _ _ H) as (El & Ll & Il). rewrite El in E1. pose proof (fun H0 => store1_chg _ _ _ _ _ H0 E1) as Q0; cbn [s_off s_len s_id] in Q0; destruct (Q0 ltac:(cbn; lia)) as (Hj & C & A). exists k, n, N. split; [exact Ek|]. split; [reflexivity|]. cbn in Hj. eapply written_spec; [exact H|exact C|exact A|exact Hj].
Qed.
Lemma write_glwe st st' i r j x : sinv st -> kstep (KWriteGLWE i r j x) st = Ret st' -> seen st st' i x (fun N => r * N + j)%nat.
Proof.
  intros [HI _] E. cbn in E. apply withKey_inv in E. destruct E as (k & Ek & E). destruct (nth_error (k_glwe k) r) as [s|] eqn:Es; [|discriminate]. apply obind_inv in E. destruct E as (m & E1 & E). injection E as <-.
  destruct (HI k (nth_error_In _ _ Ek)) as (id & n & kk & N & H). destruct (shaped_large _ _ _ _ _ _ H) as (El & Ll & Il). destruct (shaped_glwe_nth _ _ _ _ _ _ _ _ H Es) as (Hr & ->).
  pose proof (fun H0 => store1_chg _ _ _ _ _ H0 E1) as Q0; cbn [s_off s_len s_id] in Q0; destruct (Q0 ltac:(cbn [s_off s_len s_id]; rewrite Ll; nia)) as (Hj & C & A). exists k, n, N. split; [exact Ek|]. split; [reflexivity|]. cbn in Hj. eapply written_spec; [exact H|exact C|exact A|nia].
Qed.
Lemma write_lwe st st' i j x : sinv st -> kstep (KWriteLWE i j x) st = Ret st' -> seen st st' i x (fun _ => j).
Proof.
  intros [HI _] E. cbn in E. apply withKey_inv in E. destruct E as (k & Ek & E). apply obind_inv in E. destruct E as (m & E1 & E). injection E as <-. destruct (HI k (nth_error_In _ _ Ek)) as (id & n & kk & N & H).
  destruct (shaped_large _ _ _ _ _ _ H) as (El & Ll & Il). pose proof H as ((_ & _ & Ew & Hn) & _). rewrite Ew in E1. pose proof (fun H0 => store1_chg _ _ _ _ _ H0 E1) as Q0; cbn [s_off s_len s_id] in Q0; destruct (Q0 ltac:(cbn [s_off s_len s_id]; lia)) as (Hj & C & A).
  exists k, n, N. split; [exact Ek|]. split; [reflexivity|]. cbn in Hj. eapply written_spec; [exact H|exact C|exact A|lia].
Qed.

(** Two sides of variables that never share memory. *)
Definition side (P : nat -> bool) (st : kstate) : Prop := forall i j ki kj, nth_error (ks_keys st) i = Some ki -> nth_error (ks_keys st) j = Some kj -> P i = true -> P j = false -> disj (ids ki) (ids kj).
Lemma nth_error_upd {A} (l : list A) i v j : (i < length l)%nat -> nth_error (upd l i v) j = if Nat.eqb j i then Some v else nth_error l j.
Proof. revert i j; induction l as [|y l IH]; intros [|i] [|j] H; cbn in *; try lia; auto. apply IH. lia. Qed.
Lemma nth_error_snoc {A} (l : list A) v j x : nth_error (l ++ [v]) j = Some x -> (nth_error l j = Some x) \/ (j = length l /\ x = v).
Proof.
  intros H. destruct (Nat.lt_ge_cases j (length l)); [left; now rewrite nth_error_app1 in H|]. rewrite nth_error_app2 in H by assumption.
  destruct (j - length l)%nat as [|q] eqn:E; [right; cbn in H; split; [lia|congruence]|]. destruct q; discriminate.
Qed.
Lemma side_step P c st st' : sinv st -> side P st -> okcmd P c -> kstep c st = Ret st' ->
  side P st' /\ forall i k, nth_error (ks_keys st) i = Some k -> P i = true -> nth_error (ks_keys st') i = Some k /\ abs (ks_mem st') k = abs (ks_mem st) k.
Proof.
  intros HS HD Hc E. pose proof HS as [HI HP]. destruct (kstep_cases c st st' HS E) as [X|[X|[X|[X|X]]]].
  - destruct X as (i & k & I & Ht & Hk & Hi & C & Ek). split; [unfold side; now rewrite Ek|]. intros j kj Hj Pj. rewrite Ek. split; [exact Hj|]. apply abs_same; [apply HI, (nth_error_In _ _ Hj)|].
    intros x Hx. destruct C as (_ & C & _). apply C. intros Y. apply (HD _ _ _ _ Hj Hk Pj) with x; auto. destruct c; cbn in Ht; try discriminate; injection Ht as ->; exact Hc.
  - destruct X as (k & _ & _ & _ & X & S & F & Ek). split.
    + intros i j ki kj Hi Hj Pi Pj. rewrite Ek in Hi, Hj. apply nth_error_snoc in Hi, Hj. destruct Hi as [Hi|[-> ->]]; destruct Hj as [Hj|[-> ->]].
      * exact (HD _ _ _ _ Hi Hj Pi Pj).
      * apply (fresh_disj (ks_mem st)); [apply HI, (nth_error_In _ _ Hi)|exact F].
      * apply disj_sym, (fresh_disj (ks_mem st)); [apply HI, (nth_error_In _ _ Hj)|exact F].
      * congruence.
    + intros j kj Hj Pj. rewrite Ek. split; [rewrite nth_error_app1; [exact Hj|]; apply nth_error_Some; congruence|]. apply abs_ext; [apply HI, (nth_error_In _ _ Hj)|exact X].
  - destruct X as (i & b & k & k0 & -> & Hk0 & X & S & F & Ek). cbn in Hc. assert (i < length (ks_keys st))%nat as Hi0 by (apply nth_error_Some; congruence). split.
    + intros a c ka kc Ha Hb Pa Pb. rewrite Ek, nth_error_upd in Ha, Hb by exact Hi0. destruct (Nat.eqb_spec a i) as [->|Ha0]; [congruence|]. destruct (Nat.eqb_spec c i) as [->|Hb0]; [|exact (HD _ _ _ _ Ha Hb Pa Pb)].
      injection Hb as <-. apply (fresh_disj (ks_mem st)); [apply HI, (nth_error_In _ _ Ha)|exact F].
    + intros j kj Hj Pj. rewrite Ek, nth_error_upd by exact Hi0. destruct (Nat.eqb_spec j i) as [->|]; [congruence|]. split; [exact Hj|]. apply abs_ext; [apply HI, (nth_error_In _ _ Hj)|exact X].
  - destruct X as (i & b & k & -> & Hk & Em & Ek). cbn in Hc. assert (i < length (ks_keys st))%nat as Hi0 by (apply nth_error_Some; congruence).
    assert (forall j, nth_error (ks_keys st') j = nth_error (ks_keys st) j) as Es by (intros j; rewrite Ek, nth_error_upd by exact Hi0; destruct (Nat.eqb_spec j i) as [->|]; congruence).
    split; [intros a c ka kc; rewrite !Es; apply HD|]. intros j kj Hj Pj. rewrite Es, Em. auto.
  - destruct X as (i & j & k & -> & Hi0 & Hk & Em & Ek). cbn in Hc. destruct Hc as [Pi Pj]. split.
    + intros a c ka kc Ha Hb Pa Pb. rewrite Ek, nth_error_upd in Ha, Hb by exact Hi0. destruct (Nat.eqb_spec a i) as [->|Ha0]; [congruence|]. destruct (Nat.eqb_spec c i) as [->|Hb0]; [|exact (HD _ _ _ _ Ha Hb Pa Pb)].
      injection Hb as <-. exact (HD _ _ _ _ Ha Hk Pa Pj).
    + intros a ka Ha Pa. rewrite Ek, nth_error_upd by exact Hi0. destruct (Nat.eqb_spec a i) as [->|]; [congruence|]. rewrite Em. auto.
Qed.
Lemma side_run P p : forall st st', sinv st -> side P st -> Forall (okcmd P) p -> krun p st = Ret st' ->
  forall i k, nth_error (ks_keys st) i = Some k -> P i = true -> nth_error (ks_keys st') i = Some k /\ abs (ks_mem st') k = abs (ks_mem st) k.
Proof.
  induction p as [|c p IH]; intros st st' HS HD HF E i k Hi Pi; cbn in E; [injection E as <-; auto|]. apply obind_inv in E. destruct E as (st1 & E1 & E).
  destruct (side_step P c st st1 HS HD (Forall_inv HF) E1) as (D1 & F1). destruct (F1 i k Hi Pi) as (F2 & F3).
  destruct (IH st1 st' (sinv_step _ _ _ HS E1) D1 (Forall_inv_tail HF) E i k F2 Pi) as (F4 & F5). split; [exact F4|congruence].
Qed.
Lemma copy_step i st st' : sinv st -> kstep (KCopy i) st = Ret st' -> exists k k', nth_error (ks_keys st) i = Some k /\ ks_keys st' = ks_keys st ++ [k'] /\ abs (ks_mem st') k' = abs (ks_mem st) k /\ abs (ks_mem st') k = abs (ks_mem st) k /\
   Forall (fun i => m_next (ks_mem st) <= i)%nat (ids k').
Proof.
  intros [HI _] E. cbn in E. apply withKey_inv in E. destruct E as (k & Ek & E). apply obind_inv in E. destruct E as ([m sk] & E1 & E). injection E as <-.
  pose proof (HI k (nth_error_In _ _ Ek)) as HK. destruct HK as (id & n & kk & N & H). destruct (kCopy_spec _ _ _ _ _ _ _ _ H E1) as (X & S & I & A). exists k, sk. cbn. split; [exact Ek|]. split; [reflexivity|]. split; [exact A|].
  split; [|exact I]. apply abs_ext; [now exists id, n, kk, N|exact X].
Qed.
Lemma copy_side P i st st' : sinv st -> kstep (KCopy i) st = Ret st' -> (forall a, (a < length (ks_keys st))%nat -> P a = negb (P (length (ks_keys st)))) -> side P st'.
Proof.
  intros HS E HP. destruct (copy_step _ _ _ HS E) as (k & k' & Hk & Ek & _ & _ & F). destruct HS as [HI _].
  intros a b ka kb Ha Hb Pa Pb. rewrite Ek in Ha, Hb. apply nth_error_snoc in Ha, Hb. destruct Ha as [Ha|[-> ->]]; destruct Hb as [Hb|[-> ->]].
  - exfalso. assert (a < length (ks_keys st))%nat by (apply nth_error_Some; congruence). assert (b < length (ks_keys st))%nat by (apply nth_error_Some; congruence). pose proof (HP a ltac:(assumption)). pose proof (HP b ltac:(assumption)). congruence.
  - apply (fresh_disj (ks_mem st)); [apply HI, (nth_error_In _ _ Ha)|exact F].
  - apply disj_sym, (fresh_disj (ks_mem st)); [apply HI, (nth_error_In _ _ Hb)|exact F].
  - congruence.
Qed.
(** A copy and everything else. *)
Lemma copy_independent P p0 i st st1 p st2 : krun p0 kinit = Ret st -> kstep (KCopy i) st = Ret st1 ->
  (forall a, (a < length (ks_keys st))%nat -> P a = negb (P (length (ks_keys st)))) -> Forall (okcmd P) p -> krun p st1 = Ret st2 ->
  forall j k, nth_error (ks_keys st1) j = Some k -> P j = true -> nth_error (ks_keys st2) j = Some k /\ abs (ks_mem st2) k = abs (ks_mem st1) k.
Proof. intros H0 H1 HP HF H2. eapply side_run; [eapply sinv_step; [eapply reach_sinv; exact H0|exact H1]|eapply copy_side; [eapply reach_sinv; exact H0|exact H1|exact HP]|exact HF|exact H2]. Qed.

(** Transformed keys stay consistent. *)
Lemma fft_others m m' I k keys : pairw keys -> (forall k, In k keys -> kinv m k) -> In k keys -> incl I (ids k) -> chg I m m' -> fftok w (abs m' k) -> (forall k, In k keys -> fftok w (abs m k)) ->
  forall k', In k' keys -> fftok w (abs m' k').
Proof.
  intros HP HI Hk Hi (_ & C & _) Hf H k' Hk'. destruct (HP k k' Hk Hk') as [<-|D]; [exact Hf|]. rewrite (abs_same m m' k'); [now apply H|now apply HI|]. intros j Hj. apply C. intros Y. exact (D j (Hi j Y) Hj).
Qed.
Lemma zfft N kk : repeat (repeat 0 N) kk = map (fwdFFT w) (tab kk (fun i => firstn N (skipn (i * N) (repeat 0 (kk * N))))).
Proof.
  apply (nth_ext _ _ [] []); [now rewrite map_length, tab_length, repeat_length|]. rewrite repeat_length. intros i Hi. rewrite nth_repeat_lt by exact Hi.
  rewrite map_tab, nth_tab by exact Hi. unfold fwdFFT. apply (nth_ext _ _ 0 (swrap w 0)).
  - rewrite repeat_length, map_length, firstn_length_le; [reflexivity|]. rewrite skipn_length, repeat_length. nia.
  - rewrite repeat_length. intros j Hj. rewrite nth_repeat_lt by exact Hj. rewrite map_nth. fold (nthZ (firstn N (skipn (i * N) (repeat 0 (kk * N)))) j). rewrite nthZ_firstn, nthZ_skipn by exact Hj. unfold nthZ. rewrite nth_repeat_lt by nia.
    unfold swrap. cbn. destruct sz; [reflexivity|]. rewrite Z.mod_small; [lia|]. split; [apply Z.pow_nonneg; lia|]. apply Z.pow_lt_mono_r; lia.
Qed.
Lemma fft_step c st st' : sinv st -> (forall k, In k (ks_keys st) -> fftok w (abs (ks_mem st) k)) -> fguard c st -> kstep c st = Ret st' -> forall k, In k (ks_keys st') -> fftok w (abs (ks_mem st') k).
Proof.
  intros HS HF HG E. pose proof HS as [HI HP]. destruct c; cbn [ModelKey.kstep fguard] in *; try contradiction.
  - apply obind_inv in E. destruct E as ([m sk] & E1 & E). injection E as <-. destruct (kNewCustom_spec _ _ _ _ _ _ E1) as (n' & k' & N' & _ & _ & _ & _ & X & S & I & A).
    cbn. intros k0 Hk. apply in_app_iff in Hk. destruct Hk as [Hk|[<-|[]]]; [rewrite (abs_ext _ _ _ (HI _ Hk) X); auto|]. rewrite A. unfold fftok, skViews. cbn. apply zfft.
  - apply obind_inv in E. destruct E as ([[m sk] u] & E1 & E). injection E as <-. destruct (kGen_spec _ _ _ Hks _ _ _ _ _ _ _ _ _ E1) as (n' & k' & N' & X & S & _ & _ & _ & I & A & _).
    cbn. intros k0 Hk. apply in_app_iff in Hk. destruct Hk as [Hk|[<-|[]]]; [rewrite (abs_ext _ _ _ (HI _ Hk) X); auto|exact A].
  - apply withKey_inv in E. destruct E as (k & Ek & E). apply obind_inv in E. destruct E as ([m sk] & E1 & E). injection E as <-. destruct (HI k (nth_error_In _ _ Ek)) as (id & n & kk & N & H). destruct (kCopy_spec _ _ _ _ _ _ _ _ H E1) as (X & S & I & A).
    cbn. intros k0 Hk. apply in_app_iff in Hk. destruct Hk as [Hk|[<-|[]]]; [rewrite (abs_ext _ _ _ (HI _ Hk) X); auto|]. rewrite A. apply HF, (nth_error_In _ _ Ek).
  - apply withKey_inv in E. destruct E as (k & Ek & E). apply withKey_inv in E. destruct E as (k' & Ek' & E). injection E as <-. cbn. intros k0 Hk. apply In_upd in Hk. destruct Hk as [->|Hk]; [apply HF, (nth_error_In _ _ Ek')|auto].
  - apply withKey_inv in E. destruct E as (k & Ek & E). apply withKey_inv in E. destruct E as (k' & Ek' & E). apply obind_inv in E. destruct E as (m & E1 & E). injection E as <-.
    pose proof (nth_error_In _ _ Ek) as Ik. pose proof (nth_error_In _ _ Ek') as Ik'. destruct (HI k Ik) as (id & n & kk & N & H). destruct (HI k' Ik') as (id' & n' & kk' & N' & H').
    destruct (kCopyFrom_spec _ _ _ _ _ _ _ _ _ _ _ _ H H' (HP _ _ Ik Ik') E1) as (C & A). cbn. apply (fft_others (ks_mem st) m (ids k) k); auto; [apply incl_refl|].
    specialize (HG k k' Ek Ek'). rewrite (abs_shaped _ _ _ _ _ _ H), (abs_shaped _ _ _ _ _ _ H') in HG. unfold skViews in HG. cbn in HG. rewrite !map_tab in HG.
    assert (kk = kk') as <- by (apply (f_equal (@length nat)) in HG; now rewrite !tab_length in HG).
    destruct kk as [|kk].
    { pose proof (shaped_chg _ _ _ _ _ _ _ _ H C) as H2. rewrite (abs_shaped _ _ _ _ _ _ H2). pose proof H2 as (_ & _ & L0 & _). destruct (k_fft k); [reflexivity|discriminate]. }
    assert (N = N') as <-.
    { apply (f_equal (fun l => nth 0 l 0%nat)) in HG. rewrite !nth_tab in HG by lia. rewrite !firstn_length, !skipn_length in HG. destruct H as (_ & L1 & _). destruct H' as (_ & L2 & _). rewrite L1, L2 in HG. nia. }
    rewrite A by reflexivity. pose proof (HF k' Ik') as Hf. unfold fftok in Hf |- *. rewrite (abs_shaped _ _ _ _ _ _ H') in Hf |- *. unfold skViews in *. cbn in *. exact Hf.
  - apply withKey_inv in E. destruct E as (k & Ek & E). injection E as <-. pose proof (nth_error_In _ _ Ek) as Ik. destruct (HI k Ik) as (id & n & kk & N & H). destruct (kClear_spec _ _ _ _ _ _ H) as (C & A).
    cbn. apply (fft_others (ks_mem st) (kClear (ks_mem st) k) (ids k) k); auto; [apply incl_refl|]. rewrite A. unfold fftok, skViews. cbn. apply zfft.
  - apply withKey_inv in E. destruct E as (k & Ek & E). destruct HG as (old & c0 & sk0 & r0 & HR & Hf). destruct (kRead_refines sz (ks_mem st) k old b c0 sk0 r0 HR) as (m & sk & id & n & kk & N & E1 & A & X & S & I).
    rewrite E1 in E. cbn in E. injection E as <-. cbn. intros k0 Hk. apply In_upd in Hk. destruct Hk as [->|Hk]; [now rewrite A|]. rewrite (abs_ext _ _ _ (HI _ Hk) X); auto.
  - apply withKey_inv in E. destruct E as (k & Ek & E). injection E as <-. pose proof (nth_error_In _ _ Ek) as Ik. destruct (HI k Ik) as (id & n & kk & N & H). destruct (kFwdFFT_spec sz _ _ _ _ _ _ H) as (C & A).
    cbn. apply (fft_others (ks_mem st) (kFwdFFT sz (ks_mem st) k) (map s_id (k_fft k)) k); auto; [intros x Hx; now right|]. rewrite A. unfold fftok. rewrite (abs_shaped _ _ _ _ _ _ H). reflexivity.
Qed.
Lemma freach_ok st : freach st -> sinv st /\ forall k, In k (ks_keys st) -> fftok w (abs (ks_mem st) k).
Proof.
  induction 1 as [|c st st' H (IH1 & IH2) HG E]; [split; [apply sinv_init|intros k []]|]. split; [eapply sinv_step; eassumption|]. eapply fft_step; eassumption.
Qed.
(** After recomputing it the transformed key is right, whatever happened before. *)
Lemma fft_fix i st st' : sinv st -> kstep (KFFT i) st = Ret st' -> exists k, nth_error (ks_keys st') i = Some k /\ fftok w (abs (ks_mem st') k).
Proof.
  intros [HI _] E. cbn in E. apply withKey_inv in E. destruct E as (k & Ek & E). injection E as <-. exists k. cbn. split; [exact Ek|]. destruct (HI k (nth_error_In _ _ Ek)) as (id & n & kk & N & H). destruct (kFwdFFT_spec sz _ _ _ _ _ _ H) as (C & A).
  rewrite A. unfold fftok. rewrite (abs_shaped _ _ _ _ _ _ H). reflexivity.
Qed.
Lemma read_step i b st k old c v r : sinv st -> nth_error (ks_keys st) i = Some k -> SecretKey_ReadFrom sz old 0 b = RRet c (Some v) r ->
  exists st' k', kstep (KRead i b) st = Ret st' /\ nth_error (ks_keys st') i = Some k' /\ abs (ks_mem st') k' = v.
Proof.
  intros HS Ek HR. destruct (kRead_refines sz (ks_mem st) k old b c v r HR) as (m & sk & id & n & kk & N & E1 & A & X & S & I). cbn. unfold withKey. rewrite Ek, E1. cbn. eexists. exists sk. split; [reflexivity|]. cbn.
  split; [|exact A]. rewrite nth_error_upd by (apply nth_error_Some; congruence). now rewrite Nat.eqb_refl.
Qed.

(** Generated keys, in any history. *)
Definition ugood (u : ust) : Prop := exists q, uinv ks (q * 8) u.
Lemma u_step c st st' : ugood (ks_u st) -> genok c -> kstep c st = Ret st' -> ugood (ks_u st').
Proof.
  intros HU HG E. destruct c; cbn [ModelKey.kstep genok] in *; repeat (apply withKey_inv in E; destruct E as (? & ? & E)).
  2: { apply obind_inv in E. destruct E as ([[m sk] u] & E1 & E). injection E as <-. destruct (kGen_spec _ _ _ Hks _ _ _ _ _ _ _ _ _ E1) as (n' & k' & N' & _ & _ & _ & _ & _ & _ & _ & Q). destruct HU as [q HU]. destruct (Q q HU HG) as (q' & Q' & _). now exists q'. }
  all: try (injection E as <-; exact HU).
  all: try (match type of E with match ?o with _ => _ end = _ => destruct o; [|discriminate] end).
  all: apply obind_inv in E; destruct E as (rr & E1 & E); repeat (match type of rr with prod _ _ => destruct rr as [rr ?] end); injection E as <-; exact HU.
Qed.
Lemma u_run p : forall st st', ugood (ks_u st) -> Forall genok p -> krun p st = Ret st' -> ugood (ks_u st').
Proof. induction p as [|c p IH]; intros st st' H F E; cbn in E; [now injection E as <-|]. apply obind_inv in E. destruct E as (st1 & E1 & E). eapply IH; [eapply u_step; [exact H|exact (Forall_inv F)|exact E1]|exact (Forall_inv_tail F)|exact E]. Qed.
Lemma gen_step p n k N bs st st' : Forall genok p -> krun p kinit = Ret st -> 0 < bs < 2 ^ 63 -> kstep (KGen n k N bs) st = Ret st' ->
  exists sk n' k' N', ks_keys st' = ks_keys st ++ [sk] /\ n = Z.of_nat n' /\ k = Z.of_nat k' /\ (k' <> 0%nat -> N = Z.of_nat N') /\
    views n' N' (abs (ks_mem st') sk) /\ length (sk_glwe (abs (ks_mem st') sk)) = k' /\ fftok w (abs (ks_mem st') sk) /\
    Forall (fun x => x = 0 \/ x = 1) (sk_large (abs (ks_mem st') sk)) /\ block_binary (Z.to_nat bs) (sk_lwe (abs (ks_mem st') sk)).
Proof.
  intros HF H0 Hb E. assert (ugood (ks_u st)) as [q HU] by (eapply u_run; [|exact HF|exact H0]; exists 0%nat; apply uinv_new).
  cbn in E. apply obind_inv in E. destruct E as ([[m sk] u] & E1 & E). injection E as <-. destruct (kGen_spec _ _ _ Hks _ _ _ _ _ _ _ _ _ E1) as (n' & k' & N' & X & S & K1 & K2 & K3 & I & A & Q).
  exists sk, n', k', N'. cbn [ks_keys ks_mem]. destruct (Q q HU Hb) as (_ & _ & Q1 & Q2). pose proof (shaped_views _ _ _ _ _ _ S) as V. rewrite (abs_shaped _ _ _ _ _ _ S) in *.
  split; [reflexivity|]. split; [exact K1|]. split; [exact K2|]. split; [exact K3|]. split; [exact V|]. split; [unfold skViews; cbn [sk_glwe]; apply tab_length|]. split; [exact A|]. split; [|exact Q2].
  apply Forall_forall. intros x Hx. apply (In_nth _ _ 0) in Hx. destruct Hx as (i & Hi & <-). apply Q1. unfold skViews in Hi. cbn [sk_large] in Hi. destruct S as (_ & S & _). lia.
Qed.
(** Deserialising an encoded key. *)
Lemma read_enc v i st k : (1 <= sz <= 8)%nat -> wf sz TSecretKey v -> sinv st -> nth_error (ks_keys st) i = Some k ->
  exists st' k', kstep (KRead i (enc sz TSecretKey v)) st = Ret st' /\ nth_error (ks_keys st') i = Some k' /\ abs (ks_mem st') k' = v.
Proof.
  intros Hz Hv HS Hk. pose proof (cRead_top sz Hz TSecretKey v v Hv []) as R. revert R. generalize (enc sz TSecretKey v). intros bs R. rewrite app_nil_r in R. destruct R as [c E].
  exact (read_step i bs st k v c v [] HS Hk E).
Qed.
End S.
