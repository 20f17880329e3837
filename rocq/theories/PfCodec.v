(** Codec lemmas: bytes, writer programs, reader programs. *)
From Verif Require Import Base ModelNum SpecNum ModelGadget SpecGadget ModelParams SpecParams ModelCodec SpecCodec PfNum PfGadget PfParams.

(** ** Bytes *)
Lemma be_beBytes k x : beBytes k x = be k x.
Proof.
  unfold beBytes. induction k as [|k IH]; [reflexivity|].
  cbn [be]. rewrite <- IH. unfold tab. cbn [seq map]. f_equal.
  - rewrite <- (Z.pow_mul_r 2 8) by lia. do 4 f_equal. lia.
  - rewrite <- seq_shift, map_map. apply map_ext_in. intros i Hi. apply in_seq in Hi. do 5 f_equal. lia.
Qed.
Lemma be_length k x : length (be k x) = k.
Proof. induction k; cbn; congruence. Qed.
Lemma beVal_app a b : beVal (a ++ b) = beVal a * 256 ^ Z.of_nat (length b) + beVal b.
Proof.
  unfold beVal. rewrite fold_left_app. generalize (fold_left (fun a b => a * 256 + b) a 0). clear a.
  assert (forall z c, fold_left (fun a b => a * 256 + b) b (z + c) = z * 256 ^ Z.of_nat (length b) + fold_left (fun a b => a * 256 + b) b c) as H.
  { induction b as [|y b IH]; intros z c; [cbn; lia|]. cbn [fold_left length].
    replace ((z + c) * 256 + y) with (z * 256 + (c * 256 + y)) by ring. rewrite IH. rewrite Nat2Z.inj_succ, Z.pow_succ_r by lia. ring. }
  intros z. rewrite <- (Z.add_0_r z) at 1. apply H.
Qed.
Lemma beVal_be k x : 0 <= x < 256 ^ Z.of_nat k -> beVal (be k x) = x.
Proof.
  enough (forall x, beVal (be k x) = x mod 256 ^ Z.of_nat k) as H. { intros Hx. rewrite H. apply Z.mod_small; lia. }
  clear x. induction k as [|k IH]; intros x; [cbn; now rewrite Z.mod_1_r|].
  cbn [be]. change (?a :: ?b) with ([a] ++ b). rewrite beVal_app, be_length, IH.
  unfold beVal. cbn [fold_left]. rewrite Nat2Z.inj_succ, Z.pow_succ_r by lia.
  rewrite (Z.mul_comm 256), Z.rem_mul_r by (try apply Z.pow_nonzero; lia). lia.
Qed.
Lemma pow256 k : 256 ^ Z.of_nat k = 2 ^ (8 * Z.of_nat k).
Proof. change 256 with (2 ^ 8). now rewrite <- Z.pow_mul_r by lia. Qed.
Lemma beVal_word s x : uword (8 * Z.of_nat s) x -> beVal (be s x) = x.
Proof. intros H. apply beVal_be. rewrite pow256. exact H. Qed.
Lemma putInt_be x : putInt x = be64 x.
Proof. unfold putInt, be64. rewrite be_beBytes. reflexivity. Qed.
Lemma be64_length x : length (be64 x) = 8%nat. Proof. apply be_length. Qed.
Lemma beVal_be64 x : beVal (be64 x) = x mod 2 ^ 64.
Proof. apply beVal_be. rewrite pow256. apply Z.mod_pos_bound. lia. Qed.
Lemma getInt_be64 x : sword 64 x -> getInt (be64 x) = x.
Proof.
  intros H. unfold getInt. rewrite beVal_be64. unfold sword in H. change (2 ^ (64 - 1)) with 9223372036854775808 in H.
  assert (eqm (2 ^ 64) (swrap 64 (x mod 2 ^ 64)) x) as E.
  { rewrite swrap_eqm. exists (- (x / 2 ^ 64)). pose proof (Z.div_mod x (2 ^ 64) ltac:(lia)). lia. }
  pose proof (swrap_range 64 (x mod 2 ^ 64) ltac:(lia)) as Hr. unfold sword in Hr. change (2 ^ (64 - 1)) with 9223372036854775808 in Hr.
  revert E Hr. generalize (swrap 64 (x mod 2 ^ 64)). intros y [k E] Hr. change (2 ^ 64) with 18446744073709551616 in E. lia.
Qed.
Lemma getT_be64 sz x : (sz <= 8)%nat -> uword (8 * Z.of_nat sz) x -> getT sz (be64 x) = x.
Proof.
  intros Hs Hx. unfold getT. rewrite beVal_be64. unfold uword in Hx.
  assert (2 ^ (8 * Z.of_nat sz) <= 2 ^ 64) by (apply Z.pow_le_mono_r; lia).
  rewrite Z.mod_small by lia. unfold wrap. apply Z.mod_small. exact Hx.
Qed.
Lemma sword_nat n : Z.of_nat n < 2 ^ 63 -> sword 64 (Z.of_nat n).
Proof. unfold sword. change (2 ^ (64 - 1)) with (2 ^ 63). lia. Qed.
Lemma ewords_length s v : length (ewords s v) = (length v * s)%nat.
Proof. induction v; cbn; [reflexivity|]. rewrite app_length, be_length. unfold ewords in IHv. lia. Qed.
Lemma flat_ewords s v : flat_map (beBytes s) v = ewords s v.
Proof. unfold ewords. rewrite flat_map_concat_map. f_equal. apply map_ext. intros; apply be_beBytes. Qed.
Lemma concat_length_const {A B} (f : A -> list B) (l : list A) m : (forall x, In x l -> length (f x) = m) -> length (concat (map f l)) = (length l * m)%nat.
Proof. induction l as [|a l IH]; intros H; [reflexivity|]. cbn. rewrite app_length, IH, H by (intros; auto using in_eq, in_cons). reflexivity. Qed.

(** ** Writers *)
Definition wspec (x : bool) (m : W) (bs : list Z) : Prop :=
  forall O n s, exists n' e s' acc, m O n s = WRet n' e s' /\ snd s' = snd s ++ acc /\
    (x = true \/ e = false -> n' = n + lenZ acc) /\ lenZ acc <= lenZ bs /\ (lenZ acc = lenZ bs -> acc = bs) /\
    (honest O -> e = false -> acc = bs) /\ (honest O -> exists t, bs = acc ++ t) /\ (honest O -> never_fails O -> e = false).
Definition wtop (x : bool) (m : W) (bs : list Z) : Prop :=
  forall O s, exists n' e s' acc, m O 0 s = WRet n' e s' /\ snd s' = snd s ++ acc /\
    (x = true \/ e = false -> n' = lenZ acc) /\ lenZ acc <= lenZ bs /\ (lenZ acc = lenZ bs -> acc = bs) /\
    (e = false -> acc = bs) /\ (honest O -> exists t, bs = acc ++ t) /\ (honest O -> never_fails O -> e = false).
Lemma lenZ_app {A} (a b : list A) : lenZ (a ++ b) = lenZ a + lenZ b.
Proof. unfold lenZ. rewrite app_length. lia. Qed.
Lemma lenZ_nonneg {A} (a : list A) : 0 <= lenZ a. Proof. unfold lenZ. lia. Qed.
Lemma wspec_weaken m bs : wspec true m bs -> wspec false m bs.
Proof. intros H O n s. destruct (H O n s) as (n' & e & s' & acc & H1 & H2 & H3 & H4). exists n', e, s', acc. intuition. Qed.
Lemma wspec_skip x : wspec x wskip [].
Proof. intros O n s. exists n, false, s, []. unfold wskip, lenZ. rewrite app_nil_r. cbn. intuition (try lia). exists []. reflexivity. Qed.
Lemma wtake_spec O b s : exists a e, wtake O b s = (a, e, (S (fst s), snd s ++ firstn a b)) /\ (a <= length b)%nat /\
  (honest O -> e = false -> a = length b) /\ (never_fails O -> e = false).
Proof.
  unfold wtake. destruct (O (fst s) (length b)) as [a e] eqn:E. exists (Nat.min a (length b)), e.
  split; [reflexivity|]. split; [apply Nat.le_min_r|]. split.
  - intros Ho He. specialize (Ho (fst s) (length b)). rewrite E in Ho. cbn in Ho.
    destruct (Nat.lt_ge_cases a (length b)); [specialize (Ho H); congruence|]. lia.
  - intros Hn. specialize (Hn (fst s) (length b)). rewrite E in Hn. exact Hn.
Qed.
Lemma firstn_pre {A} a (b : list A) : exists t, b = firstn a b ++ t.
Proof. exists (skipn a b). now rewrite firstn_skipn. Qed.
Lemma wspec_Write x b : wspec x (Write b) b.
Proof.
  intros O n s. destruct (wtake_spec O b s) as (a & e & E & Ha & Hh & Hn).
  unfold Write. rewrite E. exists (n + Z.of_nat a), e, (S (fst s), snd s ++ firstn a b), (firstn a b).
  split; [reflexivity|]. split; [reflexivity|]. unfold lenZ. rewrite firstn_length_le by exact Ha.
  split; [auto|]. split; [lia|]. split. { intros H. rewrite firstn_all2 by lia. reflexivity. }
  split. { intros Ho He. rewrite firstn_all2; [reflexivity|]. rewrite (Hh Ho He). lia. }
  split; [intros _; apply firstn_pre|auto].
Qed.
Lemma wspec_WriteE b : wspec false (WriteE b) b.
Proof.
  intros O n s. destruct (wtake_spec O b s) as (a & e & E & Ha & Hh & Hn).
  unfold WriteE. rewrite E. exists (if e then Z.of_nat a else n + Z.of_nat a), e, (S (fst s), snd s ++ firstn a b), (firstn a b).
  split; [reflexivity|]. split; [reflexivity|]. unfold lenZ. rewrite firstn_length_le by exact Ha.
  split; [intros [H|H]; [discriminate|subst e; reflexivity]|]. split; [lia|]. split. { intros H. rewrite firstn_all2 by lia. reflexivity. }
  split. { intros Ho He. rewrite firstn_all2; [reflexivity|]. rewrite (Hh Ho He). lia. }
  split; [intros _; apply firstn_pre|auto].
Qed.
Lemma wspec_seq x m1 m2 b1 b2 : wspec x m1 b1 -> wspec x m2 b2 -> wspec x (m1 ;;w m2) (b1 ++ b2).
Proof.
  intros H1 H2 O n s. destruct (H1 O n s) as (n1 & e1 & s1 & a1 & E1 & S1 & C1 & L1 & T1 & P1 & Q1 & F1).
  unfold wseq. rewrite E1. destruct e1.
  - exists n1, true, s1, a1. split; [reflexivity|]. split; [exact S1|]. split; [exact C1|].
    rewrite lenZ_app. pose proof (lenZ_nonneg b2). split; [lia|]. split.
    { intros H0. assert (lenZ b2 = 0) as Hb by lia. unfold lenZ in Hb. destruct b2; [|cbn in Hb; lia]. rewrite app_nil_r. apply T1. cbn in H0. lia. }
    split; [discriminate|]. split.
    + intros Ho. destruct (Q1 Ho) as [t ->]. exists (t ++ b2). now rewrite app_assoc.
    + intros Ho Hn. now rewrite F1.
  - destruct (H2 O n1 s1) as (n2 & e2 & s2 & a2 & E2 & S2 & C2 & L2 & T2 & P2 & Q2 & F2).
    exists n2, e2, s2, (a1 ++ a2). split; [exact E2|]. split; [rewrite S2, S1; now rewrite app_assoc|].
    split. { intros H. rewrite (C2 H), (C1 (or_intror eq_refl)), lenZ_app. lia. }
    rewrite !lenZ_app. split; [lia|]. split; [intros H; f_equal; [apply T1|apply T2]; lia|].
    split; [intros Ho He; f_equal; auto|]. split; [|auto].
    intros Ho. rewrite (P1 Ho eq_refl). destruct (Q2 Ho) as [t ->]. exists t. now rewrite app_assoc.
Qed.
Lemma wspec_call x m bs : wtop x m bs -> wspec x (callW m) bs.
Proof.
  intros H O n s. destruct (H O s) as (n1 & e1 & s1 & a1 & E1 & S1 & C1 & L1 & T1 & P1 & Q1 & F1).
  unfold callW. rewrite E1. exists (n + n1), e1, s1, a1. repeat (split; [auto; fail|]). split; [|auto 10].
  intros Hx. now rewrite C1.
Qed.
Lemma wspec_callI x m bs : wspec x m bs -> wspec x (callW m) bs.
Proof.
  intros H O n s. destruct (H O 0 s) as (n1 & e1 & s1 & a1 & E1 & S1 & C1 & L1 & T1 & P1 & Q1 & F1).
  unfold callW. rewrite E1. exists (n + n1), e1, s1, a1. repeat (split; [auto; fail|]). split; [|auto 10].
  intros Hx. rewrite C1 by exact Hx. lia.
Qed.
Lemma wspec_loop {A} x (f : A -> W) (g : A -> list Z) l : Forall (fun a => wspec x (f a) (g a)) l -> wspec x (wloop l f) (concat (map g l)).
Proof. induction 1; cbn; [apply wspec_skip|]. now apply wspec_seq. Qed.
Lemma wspec_index {A} x (l : list A) k bs d : (1 <= length l)%nat -> wspec x (k (hd d l)) bs -> wspec x (windex l k) bs.
Proof. destruct l; cbn; [lia|auto]. Qed.
Definition weq (a b : W) : Prop := forall O n s, a O n s = b O n s.
Lemma wseq_assoc a b c : weq ((a ;;w b) ;;w c) (a ;;w (b ;;w c)).
Proof. intros O n s. unfold wseq. destruct (a O n s) as [|n' [] s']; reflexivity. Qed.
Lemma wseq_ext a b b' : weq b b' -> weq (a ;;w b) (a ;;w b').
Proof. intros H O n s. unfold wseq. destruct (a O n s) as [|n' [] s']; auto. Qed.
Lemma wtop_ext x m m' bs : weq m m' -> wtop x m bs -> wtop x m' bs.
Proof. intros E H O s. destruct (H O s) as (n1 & e1 & s1 & a1 & E1 & H'). exists n1, e1, s1, a1. rewrite <- E. auto. Qed.
Lemma wtop_check x m bs size : size = lenZ bs -> wspec x m bs -> wtop x (m ;;w shortCheck size) bs.
Proof.
  intros -> H O s. destruct (H O 0 s) as (n1 & e1 & s1 & a1 & E1 & S1 & C1 & L1 & T1 & P1 & Q1 & F1).
  unfold wseq, shortCheck. rewrite E1. destruct e1.
  - exists n1, true, s1, a1. split; [reflexivity|]. split; [exact S1|]. split; [intros Hx; apply C1; exact Hx|].
    split; [exact L1|]. split; [exact T1|]. split; [discriminate|]. split; [exact Q1|exact F1].
  - specialize (C1 (or_intror eq_refl)). rewrite Z.add_0_l in C1.
    exists n1, (n1 <? lenZ bs), s1, a1. split; [reflexivity|]. split; [exact S1|]. split; [auto|]. split; [exact L1|].
    split; [exact T1|]. split. { intros He. apply Z.ltb_ge in He. apply T1. lia. }
    split; [exact Q1|]. intros Ho Hn. apply Z.ltb_ge. rewrite (P1 Ho eq_refl) in C1. lia.
Qed.
(** The shape of most WriteTo methods. *)
Lemma wtop_hv x h v hb vb size : wspec x h hb -> wspec x v vb -> size = lenZ (hb ++ vb) ->
  wtop x (callW h ;;w callW v ;;w shortCheck size) (hb ++ vb).
Proof.
  intros Hh Hv Hs. apply (wtop_ext x ((callW h ;;w callW v) ;;w shortCheck size)); [apply wseq_assoc|].
  apply wtop_check; [exact Hs|]. apply wspec_seq; now apply wspec_callI.
Qed.

(** ** Readers *)
Definition reads {A} (m : R A) (bs : list Z) (a : A) : Prop := forall n rest, exists n', m n (bs ++ rest) = RRet n' (Some a) rest.
Lemma reads_ret {A} (a : A) : reads (rret a) [] a. Proof. intros n r. exists n. reflexivity. Qed.
Lemma reads_lift {A} (a : A) o : o = Some a -> reads (rlift o) [] a. Proof. intros -> n r. exists n. reflexivity. Qed.
Lemma reads_bind {A B} (m : R A) (k : A -> R B) a b bs cs : reads m bs a -> reads (k a) cs b -> reads (rbind m k) (bs ++ cs) b.
Proof. intros H1 H2 n r. destruct (H1 n (cs ++ r)) as [n1 E1]. destruct (H2 n1 r) as [n2 E2]. exists n2. unfold rbind. rewrite <- app_assoc, E1. exact E2. Qed.
Lemma reads_bind0 {A B} (m : R A) (k : A -> R B) a b bs : reads m bs a -> reads (k a) [] b -> reads (rbind m k) bs b.
Proof. intros H1 H2. rewrite <- (app_nil_r bs). eapply reads_bind; eauto. Qed.
Lemma reads_full k bs : length bs = k -> reads (ReadFull k) bs bs.
Proof.
  intros <- n r. exists (n + Z.of_nat (length bs)). unfold ReadFull. rewrite app_length.
  replace (Nat.leb (length bs) (length bs + length r)) with true by (symmetry; apply Nat.leb_le; lia).
  rewrite firstn_app, skipn_app, Nat.sub_diag, firstn_all, skipn_all. cbn. now rewrite app_nil_r.
Qed.
Lemma reads_fullE k bs : length bs = k -> reads (ReadFullE k) bs bs.
Proof.
  intros <- n r. exists (n + Z.of_nat (length bs)). unfold ReadFullE. rewrite app_length.
  replace (Nat.leb (length bs) (length bs + length r)) with true by (symmetry; apply Nat.leb_le; lia).
  rewrite firstn_app, skipn_app, Nat.sub_diag, firstn_all, skipn_all. cbn. now rewrite app_nil_r.
Qed.
Lemma reads_call {A} (m : R A) bs a : reads m bs a -> reads (callR m) bs a.
Proof. intros H n r. destruct (H 0 r) as [n' E]. exists (n + n'). unfold callR. now rewrite E. Qed.
Lemma reads_callLost {A} (m : R A) bs a : reads m bs a -> reads (callRlost m) bs a.
Proof. intros H n r. destruct (H 0 r) as [n' E]. exists n. unfold callRlost. now rewrite E. Qed.
Lemma reads_loop {A} (f : A -> R A) (e : A -> list Z) a0 l n : length l = n -> Forall (fun v => reads (f a0) (e v) v) l ->
  reads (rloop (repeat a0 n) f) (concat (map e l)) l.
Proof.
  intros <- H. induction H as [|v l Hv Hl IH]; [apply reads_ret|].
  cbn [length repeat rloop map concat]. eapply reads_bind; [exact Hv|]. eapply reads_bind0; [exact IH|]. apply reads_ret.
Qed.
Lemma reads_index {A B} (l : list A) (k : A -> R B) bs b d : (1 <= length l)%nat -> reads (k (hd d l)) bs b -> reads (rindex l k) bs b.
Proof. destruct l; cbn; [lia|auto]. Qed.
Lemma reads_withG {A} (f : A -> R A) (g : gadget) a0 a bs : reads (f a0) bs a -> reads (withG f (g, a0)) bs (g, a).
Proof. intros H. unfold withG. cbn. eapply reads_bind0; [exact H|apply reads_ret]. Qed.

Lemma vecReadFrom_reads sz v n : wfwords sz n v -> reads (vecReadFrom sz (repeat 0 n)) (ewords sz v) v.
Proof.
  intros [Hl Hv]. unfold vecReadFrom. apply (reads_loop (fun _ => _) (be sz)); [exact Hl|].
  eapply Forall_impl; [|exact Hv]. intros x Hx. cbn beta. eapply reads_bind0; [apply reads_full, be_length|].
  rewrite (beVal_word sz x Hx). apply reads_ret.
Qed.
Lemma vecReadFromBuf_reads s v n bl : wfwords s n v -> bl = (n * s)%nat -> reads (vecReadFromBuf s (repeat 0 n) bl) (ewords s v) v.
Proof.
  intros [Hl Hv] ->. unfold vecReadFromBuf. eapply reads_bind0; [apply reads_full; rewrite ewords_length; congruence|].
  rewrite repeat_length, Nat.leb_refl.
  replace (tab n _) with v; [apply reads_ret|].
  clear -Hl Hv. revert n Hl. induction Hv as [|x v Hx Hv IH]; intros n <-; [reflexivity|].
  cbn [length]. unfold tab. cbn [seq map]. f_equal.
  - cbn [Nat.mul skipn]. unfold ewords. cbn [map concat]. rewrite firstn_app, be_length, Nat.sub_diag, firstn_all2 by (rewrite be_length; lia).
    cbn. rewrite app_nil_r. symmetry. now apply beVal_word.
  - rewrite <- seq_shift, map_map. rewrite (IH (length v) eq_refl) at 1. apply map_ext. intros i.
    f_equal. f_equal. unfold ewords at 2. cbn [map concat]. rewrite skipn_app, be_length.
    rewrite (skipn_all2 (be s x)) by (rewrite be_length; lia). cbn [app]. f_equal. lia.
Qed.
Lemma rrows_reads s rows n m bl : wfrows s n m rows -> bl = (n * s)%nat -> reads (rrows s bl (repeat (repeat 0 n) m)) (erows s rows) rows.
Proof.
  intros [Hl Hr] ->. unfold rrows, erows. apply reads_loop; [exact Hl|].
  eapply Forall_impl; [|exact Hr]. intros v Hv. apply reads_call. now apply vecReadFromBuf_reads.
Qed.
Lemma rcube_reads s c n m l bl : length c = l -> Forall (wfrows s n m) c -> bl = (n * s)%nat ->
  reads (rloop (repeat (repeat (repeat 0 n) m) l) (rrows s bl)) (ecube s c) c.
Proof.
  intros Hl Hc ->. apply reads_loop; [exact Hl|]. eapply Forall_impl; [|exact Hc]. intros v Hv. now apply rrows_reads.
Qed.
Lemma vecWriteTo_w x sz v : wspec x (vecWriteTo sz v) (ewords sz v).
Proof. unfold vecWriteTo, ewords. apply wspec_loop. apply Forall_forall. intros a _. rewrite be_beBytes. apply wspec_Write. Qed.
Lemma vecWriteToBuf_w x s v bl : bl = (length v * s)%nat -> wspec x (vecWriteToBuf s v bl) (ewords s v).
Proof.
  intros ->. unfold vecWriteToBuf. rewrite Nat.leb_refl, Nat.sub_diag. cbn [repeat]. rewrite app_nil_r, flat_ewords. apply wspec_Write.
Qed.
Lemma wrows_w x s n m rows bl : wfrows s n m rows -> bl = (n * s)%nat -> wspec x (wrows s bl rows) (erows s rows).
Proof.
  intros [Hl Hr] ->. unfold wrows, erows. apply wspec_loop. eapply Forall_impl; [|exact Hr]. intros v [Hv _]. cbn beta.
  apply wspec_callI. apply vecWriteToBuf_w. congruence.
Qed.
Lemma wcube_w x s n m c bl : Forall (wfrows s n m) c -> bl = (n * s)%nat -> wspec x (wloop c (wrows s bl)) (ecube s c).
Proof. intros H ->. apply wspec_loop. eapply Forall_impl; [|exact H]. intros v Hv. cbn beta. eapply wrows_w; eauto. Qed.
Lemma erows_length s n m rows : wfrows s n m rows -> length (erows s rows) = (m * (n * s))%nat.
Proof.
  intros [Hl Hr]. unfold erows. rewrite <- Hl. apply concat_length_const. intros v Hv. rewrite Forall_forall in Hr.
  rewrite ewords_length. destruct (Hr v Hv) as [-> _]. reflexivity.
Qed.
Lemma ecube_length s n m c : Forall (wfrows s n m) c -> length (ecube s c) = (length c * (m * (n * s)))%nat.
Proof. intros H. unfold ecube. apply concat_length_const. intros v Hv. rewrite Forall_forall in H. eapply erows_length; eauto. Qed.

(** ** Counts and extensions *)
Definition cnt {A} (x : bool) (m : R A) : Prop := forall n p n' a r, m n p = RRet n' a r ->
  exists c, p = c ++ r /\ (x = true \/ a <> None -> n' = n + lenZ c).
Lemma cnt_ret {A} x (a : A) : cnt x (rret a).
Proof. intros n p n' a' r H. injection H as <- <- <-. exists []. split; [reflexivity|]. unfold lenZ. cbn. lia. Qed.
Lemma cnt_lift {A} x (o : option A) : cnt x (rlift o).
Proof. intros n p n' a' r H. unfold rlift in H. destruct o; [|discriminate]. injection H as <- <- <-. exists []. split; [reflexivity|]. unfold lenZ. cbn. lia. Qed.
Lemma cnt_bind {A B} x (m : R A) (k : A -> R B) : cnt x m -> (forall a, cnt x (k a)) -> cnt x (rbind m k).
Proof.
  intros H1 H2 n p n' b r H. unfold rbind in H. destruct (m n p) as [|n1 [a|] r1] eqn:E; [discriminate| |].
  - destruct (H1 _ _ _ _ _ E) as (c1 & -> & C1). destruct (H2 _ _ _ _ _ _ H) as (c2 & -> & C2).
    exists (c1 ++ c2). split; [now rewrite app_assoc|]. intros Hx. rewrite (C2 Hx), C1, lenZ_app by (right; discriminate). lia.
  - injection H as <- <- <-. destruct (H1 _ _ _ _ _ E) as (c1 & -> & C1). exists c1. split; [reflexivity|].
    intros [Hx|Hx]; [apply C1; auto|congruence].
Qed.
Lemma cnt_full x k : cnt x (ReadFull k).
Proof.
  intros n p n' a r H. unfold ReadFull in H. destruct (Nat.leb k (length p)) eqn:E; injection H as <- <- <-.
  - exists (firstn k p). split; [now rewrite firstn_skipn|]. intros _. apply Nat.leb_le in E. unfold lenZ. now rewrite firstn_length_le.
  - exists p. rewrite app_nil_r. auto.
Qed.
Lemma cnt_fullE k : cnt false (ReadFullE k).
Proof.
  intros n p n' a r H. unfold ReadFullE in H. destruct (Nat.leb k (length p)) eqn:E; injection H as <- <- <-.
  - exists (firstn k p). split; [now rewrite firstn_skipn|]. intros _. apply Nat.leb_le in E. unfold lenZ. now rewrite firstn_length_le.
  - exists p. rewrite app_nil_r. split; [reflexivity|]. intros [|]; congruence.
Qed.
Lemma cnt_call {A} x (m : R A) : cnt x m -> cnt x (callR m).
Proof.
  intros H1 n p n' a r H. unfold callR in H. destruct (m 0 p) as [|n1 a1 r1] eqn:E; [discriminate|]. injection H as <- <- <-.
  destruct (H1 _ _ _ _ _ E) as (c & -> & C). exists c. split; [reflexivity|]. intros Hx. now rewrite C.
Qed.
Lemma cnt_loop {A} x (f : A -> R A) l : (forall a, cnt x (f a)) -> cnt x (rloop l f).
Proof. intros H. induction l; cbn; [apply cnt_ret|]. apply cnt_bind; [apply H|]. intros. apply cnt_bind; [exact IHl|]. intros. apply cnt_ret. Qed.
Lemma cnt_index {A B} x (l : list A) (k : A -> R B) : (forall a, cnt x (k a)) -> cnt x (rindex l k).
Proof. intros H. destruct l; cbn; [apply cnt_lift|apply H]. Qed.
Lemma cnt_withG {A} x (f : A -> R A) v : (forall a, cnt x (f a)) -> cnt x (withG f v).
Proof. intros H. unfold withG. apply cnt_bind; [apply H|]. intros; apply cnt_ret. Qed.
Lemma cnt_weaken {A} (m : R A) : cnt true m -> cnt false m.
Proof. intros H n p n' a r E. destruct (H _ _ _ _ _ E) as (c & C1 & C2). exists c. auto. Qed.
Lemma cnt_size {A} x (sizef : Z) (a : A) : cnt x (fun n r => if n <? sizef then RRet n None r else RRet n (Some a) r).
Proof. intros n p n' b r H. exists []. destruct (n <? sizef); injection H as <- <- <-; (split; [reflexivity|]); unfold lenZ; cbn; lia. Qed.

(** A result other than an error does not change when more input follows. *)
Definition ext {A} (m : R A) : Prop := forall n p q, match m n p with
  | RPanic => m n (p ++ q) = RPanic | RRet n' (Some a) r => m n (p ++ q) = RRet n' (Some a) (r ++ q) | _ => True end.
Lemma ext_ret {A} (a : A) : ext (rret a). Proof. intros n p q. reflexivity. Qed.
Lemma ext_lift {A} (o : option A) : ext (rlift o). Proof. intros n p q. unfold rlift. destruct o; reflexivity. Qed.
Lemma ext_bind {A B} (m : R A) (k : A -> R B) : ext m -> (forall a, ext (k a)) -> ext (rbind m k).
Proof.
  intros H1 H2 n p q. specialize (H1 n p q). unfold rbind. destruct (m n p) as [|n1 [a|] r1]; [now rewrite H1| |exact I].
  rewrite H1. apply H2.
Qed.
Lemma ext_full k : ext (ReadFull k).
Proof.
  intros n p q. unfold ReadFull. destruct (Nat.leb k (length p)) eqn:E; [|exact I]. apply Nat.leb_le in E.
  rewrite app_length. replace (Nat.leb k (length p + length q)) with true by (symmetry; apply Nat.leb_le; lia).
  rewrite firstn_app, skipn_app. replace (k - length p)%nat with O by lia. cbn. now rewrite app_nil_r.
Qed.
Lemma ext_fullE k : ext (ReadFullE k).
Proof.
  intros n p q. unfold ReadFullE. destruct (Nat.leb k (length p)) eqn:E; [|exact I]. apply Nat.leb_le in E.
  rewrite app_length. replace (Nat.leb k (length p + length q)) with true by (symmetry; apply Nat.leb_le; lia).
  rewrite firstn_app, skipn_app. replace (k - length p)%nat with O by lia. cbn. now rewrite app_nil_r.
Qed.
Lemma ext_call {A} (m : R A) : ext m -> ext (callR m).
Proof. intros H n p q. specialize (H 0 p q). unfold callR. destruct (m 0 p) as [|n1 [a|] r1]; [now rewrite H|now rewrite H|exact I]. Qed.
Lemma ext_callLost {A} (m : R A) : ext m -> ext (callRlost m).
Proof. intros H n p q. specialize (H 0 p q). unfold callRlost. destruct (m 0 p) as [|n1 [a|] r1]; [now rewrite H|now rewrite H|exact I]. Qed.
Lemma ext_loop {A} (f : A -> R A) l : (forall a, ext (f a)) -> ext (rloop l f).
Proof. intros H. induction l; cbn; [apply ext_ret|]. apply ext_bind; [apply H|]. intros. apply ext_bind; [exact IHl|]. intros. apply ext_ret. Qed.
Lemma ext_index {A B} (l : list A) (k : A -> R B) : (forall a, ext (k a)) -> ext (rindex l k).
Proof. intros H. destruct l; cbn; [apply ext_lift|apply H]. Qed.
Lemma ext_withG {A} (f : A -> R A) v : (forall a, ext (f a)) -> ext (withG f v).
Proof. intros H. unfold withG. apply ext_bind; [apply H|]. intros; apply ext_ret. Qed.
Lemma ext_size {A} (sizef : Z) (a : A) : ext (fun n r => if n <? sizef then RRet n None r else RRet n (Some a) r).
Proof. intros n p q. destruct (n <? sizef); [exact I|reflexivity]. Qed.
Lemma ext_if {A} (b : bool) (m1 m2 : R A) : ext m1 -> ext m2 -> ext (if b then m1 else m2). Proof. destruct b; auto. Qed.
Lemma cnt_if {A} x (b : bool) (m1 m2 : R A) : cnt x m1 -> cnt x m2 -> cnt x (if b then m1 else m2). Proof. destruct b; auto. Qed.
