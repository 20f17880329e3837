(** Safe copies do not interfere. *)
From Verif Require Import Base ModelGadget ModelMK ModelGLWE ModelConc ModelCopy SpecConc SpecCopy PfConc PfConc3.

(* ------------------------------------------------------------------ *)
(** ** Every SafeCopy is isolated (but one) *)

Lemma NoDup_app_disj (l1 l2 : list nat) : NoDup l1 -> NoDup l2 -> (forall a, In a l1 -> In a l2 -> False) -> NoDup (l1 ++ l2).
Proof.
  intros H1 H2 D. induction l1 as [|x l1 IH]; [exact H2|]. inversion H1 as [|? ? Hx Hl]; subst. cbn. constructor.
  - rewrite in_app_iff. intros [H|H]; [tauto|]. exact (D x (or_introl eq_refl) H).
  - apply IH; [exact Hl|]. intros a Ha. apply D. right. exact Ha.
Qed.
Lemma fresh_ok k n : let '(l, n') := fresh k n in (n <= n')%nat /\ NoDup l /\ forall a, In a l -> (n <= a < n')%nat.
Proof. cbn. split; [lia|]. split; [apply seq_NoDup|]. intros a H. apply in_seq in H. lia. Qed.

Ltac part L := let H := fresh "H" in pose proof L as H;
  match type of H with let '(_, _) := ?c in _ => let x := fresh "x" in let m := fresh "m" in destruct c as (x, m) end;
  let l := fresh "Hl" in let d := fresh "Hd" in let r := fresh "Hr" in let i := fresh "Hi" in destruct H as (l & d & r & i).
Ltac part3 L := let H := fresh "H" in pose proof L as H;
  match type of H with let '(_, _) := ?c in _ => let x := fresh "x" in let m := fresh "m" in destruct c as (x, m) end;
  let l := fresh "Hl" in let d := fresh "Hd" in let r := fresh "Hr" in destruct H as (l & d & r).
Ltac rng := repeat match goal with
  | H : In _ (_ ++ _) |- _ => apply in_app_or in H; destruct H as [H|H]
  | R : (forall a, In a ?l -> (_ <= a < _)%nat), H : In ?x ?l |- _ => apply R in H
  end; try lia.
Ltac nodup := repeat (apply NoDup_app_disj; [assumption| |]); try assumption; intros; rng.
Ltac incls := repeat (apply incl_app_app; [first [assumption|apply incl_refl]|]); first [assumption|apply incl_refl].
Ltac finish := cbn; split; [lia|split; [nodup|split; [intros a Ha; rng|incls]]].

Lemma PolyEvaluator_isolated : isolated PolyEvaluator_SafeCopy pe_ro pe_rw.
Proof. intros e n. unfold PolyEvaluator_SafeCopy, mbind, ret. part3 (fresh_ok 6 n). unfold pe_ro, pe_rw. finish. Qed.
Lemma Decomposer_isolated : isolated Decomposer_SafeCopy dc_ro dc_rw.
Proof.
  intros e n. unfold Decomposer_SafeCopy, mbind, ret. part3 (fresh_ok 3 n). part (PolyEvaluator_isolated (dc_pe e) m). unfold dc_ro, dc_rw. finish.
Qed.
Lemma GLWETransformer_isolated : isolated GLWETransformer_SafeCopy pe_ro pe_rw.
Proof. exact PolyEvaluator_isolated. Qed.
Ltac trans e n := part (GLWETransformer_isolated e n).
Ltac poly e n := part (PolyEvaluator_isolated e n).
Lemma Evaluator_isolated : isolated Evaluator_SafeCopy ev_ro ev_rw.
Proof.
  intros e n. unfold Evaluator_SafeCopy, mbind, ret. trans (ev_tr e) n. part (Decomposer_isolated (ev_dc e) m). poly (ev_pe e) m0. part3 (fresh_ok 14 m1).
  unfold ev_ro, ev_rw. finish.
Qed.
Lemma Encryptor_isolated : isolated Encryptor_SafeCopy en_ro en_rw.
Proof.
  intros e n. unfold Encryptor_SafeCopy, mbind, ret. trans (en_tr e) n. part3 (fresh_ok 3 m). poly (en_pe e) m0. part3 (fresh_ok 3 m1).
  unfold en_ro, en_rw. finish.
Qed.
Lemma PublicEncryptor_isolated : isolated PublicEncryptor_SafeCopy pu_ro pu_rw.
Proof.
  intros e n. unfold PublicEncryptor_SafeCopy, mbind, ret. trans (pu_tr e) n. part3 (fresh_ok 2 m). poly (pu_pe e) m0. part3 (fresh_ok 4 m1).
  unfold pu_ro, pu_rw. finish.
Qed.
Lemma BinaryEvaluator_isolated : isolated BinaryEvaluator_SafeCopy be_ro be_rw.
Proof. intros e n. unfold BinaryEvaluator_SafeCopy, mbind, ret. part (Evaluator_isolated (be_ev e) n). unfold be_ro, be_rw. finish. Qed.

Lemma copyAll_isolated {O} (copy : O -> M O) ro rw : isolated copy ro rw -> isolated (copyAll copy) (opts ro) (opts rw).
Proof.
  intros Hc l. induction l as [|[o|] l IH]; intros n.
  - cbn. split; [lia|]. split; [constructor|]. split; [intros a []|apply incl_refl].
  - cbn [copyAll]. unfold mbind, ret. part (Hc o n). part (IH m). unfold opts in *. cbn [flat_map] in *. finish.
  - cbn [copyAll]. unfold mbind, ret. part (IH n). unfold opts in *. cbn [flat_map app] in *. finish.
Qed.
Lemma MKEvaluator_isolated : isolated MKEvaluator_SafeCopy me_ro me_rw.
Proof.
  intros e n. unfold MKEvaluator_SafeCopy, mbind, ret. part (copyAll_isolated _ _ _ Evaluator_isolated (me_subs e) n). trans (me_tr e) m.
  part (Evaluator_isolated (me_sub e) m0). part (Decomposer_isolated (me_dc e) m1). poly (me_pe e) m2. part3 (fresh_ok 3 m3). part3 (fresh_ok 13 m4).
  unfold me_ro, me_rw. finish.
Qed.
Lemma MKEncryptor_isolated : isolated MKEncryptor_SafeCopy mn_ro mn_rw.
Proof.
  intros e n. unfold MKEncryptor_SafeCopy, mbind, ret. trans (mn_tr e) n. part (Encryptor_isolated (mn_sub e) m). part3 (fresh_ok 6 m0).
  unfold mn_ro, mn_rw. finish.
Qed.
Lemma MKPublicEncryptor_isolated : isolated MKPublicEncryptor_SafeCopy mp_ro mp_rw.
Proof.
  intros e n. unfold MKPublicEncryptor_SafeCopy, mbind, ret. trans (mp_tr e) n. part (PublicEncryptor_isolated (mp_sub e) m). part3 (fresh_ok 4 m0).
  unfold mp_ro, mp_rw. finish.
Qed.
Lemma MKDecryptor_fixed_isolated : isolated MKDecryptor_SafeCopy_fixed md_ro md_rw.
Proof.
  intros e n. unfold MKDecryptor_SafeCopy_fixed, mbind, ret. part (copyAll_isolated _ _ _ Encryptor_isolated (md_subs e) n). trans (md_tr e) m.
  part3 (fresh_ok 3 m0). part3 (fresh_ok 4 m1). unfold md_ro, md_rw. finish.
Qed.
Lemma MKBinaryEvaluator_isolated : isolated MKBinaryEvaluator_SafeCopy mb_ro mb_rw.
Proof. intros e n. unfold MKBinaryEvaluator_SafeCopy, mbind, ret. part (MKEvaluator_isolated (mb_ev e) n). unfold mb_ro, mb_rw. finish. Qed.

Lemma FHEWEncryptor_isolated : isolated FHEWEncryptor_SafeCopy fn_ro fn_rw.
Proof. intros e n. unfold FHEWEncryptor_SafeCopy, mbind, ret. part (Encryptor_isolated (fn_en e) n). part3 (fresh_ok 3 m). unfold fn_ro, fn_rw. finish. Qed.
Lemma FHEWEvaluator_isolated : isolated FHEWEvaluator_SafeCopy fe_ro fe_rw.
Proof. intros e n. unfold FHEWEvaluator_SafeCopy, mbind, ret. part (Evaluator_isolated (fe_ev e) n). part3 (fresh_ok 7 m). unfold fe_ro, fe_rw. finish. Qed.
Lemma BFVKeyGenerator_isolated : isolated BFVKeyGenerator_SafeCopy bk_ro bk_rw.
Proof. intros e n. unfold BFVKeyGenerator_SafeCopy, mbind, ret. part (Encryptor_isolated (bk_en e) n). poly (bk_pe e) m. unfold bk_ro, bk_rw. finish. Qed.
Lemma BFVEvaluator_isolated : isolated BFVEvaluator_SafeCopy bv_ro bv_rw.
Proof.
  intros e n. unfold BFVEvaluator_SafeCopy, mbind, ret. part (Evaluator_isolated (bv_ev e) n). poly (bv_pe e) m. part3 (fresh_ok 5 m0). unfold bv_ro, bv_rw. finish.
Qed.
Lemma ManyLUTEvaluator_isolated : isolated ManyLUTEvaluator_SafeCopy ml_ro ml_rw.
Proof. intros e n. unfold ManyLUTEvaluator_SafeCopy, mbind, ret. part (Evaluator_isolated (ml_ev e) n). part3 (fresh_ok 8 m). unfold ml_ro, ml_rw. finish. Qed.
Lemma CircuitBootstrapper_isolated : isolated CircuitBootstrapper_SafeCopy cb_ro cb_rw.
Proof.
  intros e n. unfold CircuitBootstrapper_SafeCopy, mbind, ret. part (ManyLUTEvaluator_isolated (cb_ml e) n). part (BFVEvaluator_isolated (cb_bv e) m).
  part (Decomposer_isolated (cb_dc e) m0). part3 (fresh_ok 8 m1). unfold cb_ro, cb_rw. finish.
Qed.
Lemma Sanitizer_isolated : isolated Sanitizer_SafeCopy sn_ro sn_rw.
Proof.
  intros e n. unfold Sanitizer_SafeCopy, mbind, ret. part (Evaluator_isolated (sn_ev e) n). part3 (fresh_ok 4 m). part3 (fresh_ok 7 m0). unfold sn_ro, sn_rw. finish.
Qed.

(* ------------------------------------------------------------------ *)
(** ** Histories of copies *)

Section Hist.
Context {O : Type} (copy : O -> M O) (ro rw : O -> list nat) (Hiso : isolated copy ro rw).

(** All objects made so far: allocated, and nobody writes what somebody else uses. *)
Definition Jc (objs : list O) (n : nat) : Prop :=
  (forall i o, nth_error objs i = Some o -> forall a, In a (ro o ++ rw o) -> (a < n)%nat) /\
  (forall i j o o' a, nth_error objs i = Some o -> nth_error objs j = Some o' -> In a (rw o) -> ~ In a (ro o')) /\
  (forall i j o o' a, i <> j -> nth_error objs i = Some o -> nth_error objs j = Some o' -> In a (rw o) -> ~ In a (rw o')).
Lemma Jc_step objs n i o : Jc objs n -> nth_error objs i = Some o -> let '(o', n') := copy o n in Jc (objs ++ [o']) n'.
Proof.
  intros (A & B & C) E. pose proof (Hiso o n) as H. destruct (copy o n) as (o', n'). destruct H as (Hl & Hd & Hr & Hi).
  assert (forall j x, nth_error (objs ++ [o']) j = Some x -> nth_error objs j = Some x /\ (j < length objs)%nat \/ j = length objs /\ x = o') as Hn.
  { intros j x Ej. destruct (Nat.lt_ge_cases j (length objs)) as [Hj|Hj].
    - rewrite nth_error_app1 in Ej by exact Hj. left. tauto.
    - rewrite nth_error_app2 in Ej by exact Hj. right. destruct (j - length objs)%nat eqn:Ed; cbn in Ej; [injection Ej as <-; split; [lia|reflexivity]|]. destruct n0; discriminate. }
  assert (forall a, In a (ro o') -> (a < n)%nat) as Hro. { intros a Ha. apply (A i o E). apply in_or_app. left. exact (Hi a Ha). }
  split; [|split].
  - intros j x Ej a Ha. destruct (Hn j x Ej) as [(Ej' & _)|(-> & ->)].
    + pose proof (A j x Ej' a Ha). lia.
    + apply in_app_or in Ha. destruct Ha as [Ha|Ha]; [pose proof (Hro a Ha); lia|apply Hr; exact Ha].
  - intros j k x y a Ej Ek Ha Hb. destruct (Hn j x Ej) as [(Ej' & _)|(-> & ->)].
    + destruct (Hn k y Ek) as [(Ek' & _)|(-> & ->)]; [exact (B j k x y a Ej' Ek' Ha Hb)|]. exact (B j i x o a Ej' E Ha (Hi a Hb)).
    + pose proof (Hr a Ha). destruct (Hn k y Ek) as [(Ek' & _)|(-> & ->)].
      * pose proof (A k y Ek' a (in_or_app _ _ a (or_introl Hb))). lia.
      * pose proof (Hro a Hb). lia.
  - intros j k x y a Hjk Ej Ek Ha Hb. destruct (Hn j x Ej) as [(Ej' & Hj)|(-> & ->)]; destruct (Hn k y Ek) as [(Ek' & Hk)|(-> & ->)].
    + exact (C j k x y a Hjk Ej' Ek' Ha Hb).
    + pose proof (Hr a Hb). pose proof (A j x Ej' a (in_or_app _ _ a (or_intror Ha))). lia.
    + pose proof (Hr a Ha). pose proof (A k y Ek' a (in_or_app _ _ a (or_intror Hb))). lia.
    + congruence.
Qed.
Lemma Jc_copies steps : forall objs n, Jc objs n -> let '(objs', n') := copies copy objs n steps in Jc objs' n'.
Proof.
  induction steps as [|i steps IH]; intros objs n HJ; [exact HJ|]. cbn [copies]. destruct (nth_error objs i) as [o|] eqn:E; [|apply IH; exact HJ].
  pose proof (Jc_step objs n i o HJ E) as H. destruct (copy o n) as (o', n'). apply IH. exact H.
Qed.
Lemma Jc_init o n : wellMade ro rw o n -> Jc [o] n.
Proof.
  intros (A & B). assert (forall i x, nth_error [o] i = Some x -> i = 0%nat /\ x = o) as Hn.
  { intros i x E. destruct i as [|[|i]]; cbn in E; try discriminate. injection E as <-. tauto. }
  split; [|split].
  - intros i x E a Ha. destruct (Hn i x E) as (-> & ->). exact (A a Ha).
  - intros i j x y a Ei Ej Ha. destruct (Hn i x Ei) as (-> & ->). destruct (Hn j y Ej) as (-> & ->). exact (B a Ha).
  - intros i j x y a Hij Ei Ej. destruct (Hn i x Ei) as (-> & ->). destruct (Hn j y Ej) as (-> & ->). congruence.
Qed.

Definition Rc (objs : list O) (i : nat) (c : cell) : Prop := match nth_error objs i with Some o => mayRead ro o c | None => False end.
Definition Wc (objs : list O) (i : nat) (c : cell) : Prop := match nth_error objs i with Some o => mayWrite rw o i c | None => False end.

(** Goroutines that each work on their own copy: every schedule gives each of them exactly what it computes alone, and there is never a data race. *)
Lemma copies_interleave {A} o n hist (ps0 : list (prog cell Z A)) m0 s :
  wellMade ro rw o n -> let objs := fst (copies copy [o] n hist) in callsOn ro rw objs ps0 ->
  let '(ps, m) := runS cell_dec ps0 m0 s in
  length ps = length ps0 /\
  (forall i a p0, nth_error ps i = Some (Ret a) -> nth_error ps0 i = Some p0 ->
     a = fst (solo cell_dec p0 m0) /\ (forall t, m (UArg i t) = snd (solo cell_dec p0 m0) (UArg i t)) /\
     forall o r t, nth_error objs i = Some o -> In r (rw o) -> m (UReg r t) = snd (solo cell_dec p0 m0) (UReg r t)) /\
  (forall i o r t, nth_error objs i = Some o -> In r (ro o) -> m (UReg r t) = m0 (UReg r t)) /\
  (forall i p p0, nth_error ps i = Some p -> nth_error ps0 i = Some p0 -> (steps cell_dec p0 m0 <= turns i s)%nat -> exists a, p = Ret a) /\
  ~ race ps.
Proof.
  intros Hw objs (Hlen & Hfp). pose proof (Jc_copies hist [o] n (Jc_init o n Hw)) as HJ. subst objs. destruct (copies copy [o] n hist) as (objs, n').
  cbn [fst] in *. destruct HJ as (A0 & B & C).
  assert (forall i p, nth_error ps0 i = Some p -> exists o, nth_error objs i = Some o) as Hex.
  { intros i p E. destruct (nth_error objs i) eqn:Eo; [eauto|]. apply nth_error_None in Eo. pose proof (proj1 (nth_error_Some ps0 i) ltac:(congruence)). lia. }
  pose proof (interleave cell Z cell_dec A ps0 m0 (Rc objs) (Wc objs)) as HI.
  assert (forall i p, nth_error ps0 i = Some p -> fp (Rc objs i) (Wc objs i) p) as Hfp'.
  { intros i p E. destruct (Hex i p E) as (x & Ex). unfold Rc, Wc. rewrite Ex. exact (Hfp i x p Ex E). }
  assert (separate (length ps0) (Rc objs) (Wc objs)) as Hsep.
  { intros i j c Hi Hj Hij Hc. unfold Rc, Wc in *. destruct (nth_error objs i) as [x|] eqn:Ei; [|contradiction]. destruct (nth_error objs j) as [y|] eqn:Ej; [|tauto].
    destruct c as [a t|k t]; cbn [mayRead mayWrite] in *.
    - split; [exact (B i j x y a Ei Ej Hc)|exact (C i j x y a Hij Ei Ej Hc)].
    - split; [tauto|]. congruence. }
  specialize (HI Hfp' Hsep s). destruct (runS cell_dec ps0 m0 s) as (ps, m). destruct HI as (H1 & H2 & H3 & H4 & H5).
  split; [exact H1|]. split; [|split; [|split; [exact H4|exact H5]]].
  - intros i a p0 Ei E0. destruct (H2 i a p0 Ei E0) as (Ha & Hm). destruct (Hex i p0 E0) as (x & Ex). split; [exact Ha|]. split.
    + intros t. apply Hm. unfold Wc. rewrite Ex. reflexivity.
    + intros y r t Ey Hr. apply Hm. unfold Wc. rewrite Ey. exact Hr.
  - intros i x r t Ex Hr. apply H3. intros j Hj Hc. unfold Wc in Hc. destruct (nth_error objs j) as [y|] eqn:Ey; [|contradiction]. exact (B j i y x r Ey Ex Hc Hr).
Qed.
End Hist.

(** The decryption method touches only its decryptor and the caller's arguments. *)
Lemma decPhase_fp w logN N P bm fsks d i : (3 < length (md_buf d))%nat -> fp (mayRead md_ro d) (mayWrite md_rw d i) (decPhase w logN N P bm fsks d i).
Proof.
  intros H3. set (W := mayWrite md_rw d i). set (R := mayRead md_ro d).
  assert (forall c t, W (UReg (nth 3 (md_buf d) 0%nat) (c * N + t)%nat)) as Hs.
  { intros c t. cbn. unfold md_rw. apply in_or_app. right. apply in_or_app. right. apply in_or_app. right. apply nth_In. exact H3. }
  assert (forall t, W (UArg i t)) as Ha by reflexivity.
  unfold decPhase. apply fp_bind.
  { apply fp_seqFrom. intros t _. cbn [fp wr1]. split; [right; apply Ha|]. intros v. split; [apply Hs|exact I]. }
  intros _. apply fp_bind.
  { apply fp_seqFrom. intros j _. destruct (active bm j); [|exact I]. apply fp_bind.
    - apply fp_seqFrom. intros t _. cbn [fp wr1]. split; [right; apply Ha|]. intros v. split; [apply Hs|exact I].
    - intros _. apply fp_bind.
      + apply fp_rdFrom. intros c _. apply fp_rdFrom. intros t _. cbn [fp rd1]. split; [right; apply Hs|intros; exact I].
      + intros s. apply fp_seqFrom. intros t _. cbn [fp wr1]. split; [apply Hs|exact I]. }
  intros _. apply fp_seqFrom. intros t _. cbn [fp wr1]. split; [right; apply Hs|]. intros v. split; [apply Ha|exact I].
Qed.
