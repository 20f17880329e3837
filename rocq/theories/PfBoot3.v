(** Extended blind rotation. *)
From Verif Require Import Base NegaRing SpecNum ModelNum PfNum ModelVec SpecVec PfVec ModelPoly SpecPoly PfPoly ModelGadget SpecGadget PfGadget ModelEncoder ModelLWE SpecLWE PfLWE ModelGLWE SpecGLWE PfGLWE PfGLWE2 PfGLWE3 PfGLWE4 ModelBoot SpecBoot PfBoot2.

Lemma fin_choice {A} (d : A) n (P : nat -> A -> Prop) : (forall i, (i < n)%nat -> exists x, P i x) -> exists f, forall i, (i < n)%nat -> P i (f i).
Proof.
  induction n as [|n IH]; intros H; [exists (fun _ => d); lia|].
  destruct IH as (f & Hf); [intros i Hi; apply H; lia|]. destruct (H n ltac:(lia)) as (x & Hx).
  exists (fun i => if Nat.eqb i n then x else f i). intros i Hi. destruct (Nat.eqb_spec i n) as [->|]; [exact Hx|]. apply Hf. lia.
Qed.

Section Weave.
Variables (N E : nat).
Hypothesis HE : (0 < E)%nat.
Notation EZ := (Z.of_nat E).
Notation M := (E * N)%nat.
Variable Q : Z.

Lemma weave_cf_eq (F : nat -> npoly N) x : cf (weave E F) x = cf (F (Z.to_nat (x mod EZ))) (x / EZ).
Proof. cbn. unfold weave_cf. destruct E; [lia|reflexivity]. Qed.
Lemma widx x : (Z.to_nat (x mod EZ) < E)%nat.
Proof. pose proof (Z.mod_pos_bound x EZ ltac:(lia)). lia. Qed.
Lemma weave_proper (F G : nat -> npoly N) : (forall i, (i < E)%nat -> peq Q (F i) (G i)) -> peq Q (weave E F) (weave E G).
Proof. intros H x. rewrite !weave_cf_eq. apply H. apply widx. Qed.
Lemma weave_add (F G : nat -> npoly N) : peq Q (weave E (fun i => padd (F i) (G i))) (padd (weave E F) (weave E G)).
Proof. intros x. cbn [cf padd]. rewrite !weave_cf_eq. reflexivity. Qed.
Lemma weave_sub (F G : nat -> npoly N) : peq Q (weave E (fun i => psub (F i) (G i))) (psub (weave E F) (weave E G)).
Proof. intros x. cbn [cf psub]. rewrite !weave_cf_eq. reflexivity. Qed.
Lemma weave_scale c (F : nat -> npoly N) : peq Q (weave E (fun i => pscale c (F i))) (pscale c (weave E F)).
Proof. intros x. cbn [cf pscale]. rewrite !weave_cf_eq. reflexivity. Qed.
Lemma weave_bound b (F : nat -> npoly N) : (forall i, (i < E)%nat -> pbound b (F i)) -> pbound b (weave E F).
Proof. intros H x. rewrite !weave_cf_eq. apply H. apply widx. Qed.

Lemma weave_shift a (F : nat -> npoly N) : peq Q (pshift a (weave E F)) (weave E (fun kk =>
  if (kk <? Z.to_nat (a mod EZ))%nat then pshift (a / EZ + 1) (F (E - Z.to_nat (a mod EZ) + kk)%nat) else pshift (a / EZ) (F (kk - Z.to_nat (a mod EZ))%nat))).
Proof.
  intros x. apply eqm_eq. cbn [cf pshift]. rewrite !weave_cf_eq.
  pose proof (Z.mod_pos_bound x EZ ltac:(lia)) as Hx. pose proof (Z.mod_pos_bound a EZ ltac:(lia)) as Ha.
  pose proof (Z.div_mod x EZ ltac:(lia)) as Dx. pose proof (Z.div_mod a EZ ltac:(lia)) as Da.
  set (xm := x mod EZ) in *. set (xd := x / EZ) in *. set (am := a mod EZ) in *. set (ad := a / EZ) in *. clearbody xm xd am ad.
  destruct (Nat.ltb_spec (Z.to_nat xm) (Z.to_nat am)) as [C|C].
  - rewrite <- (Z.div_unique_pos (x - a) EZ (xd - ad - 1) (xm - am + EZ)) by lia.
    rewrite <- (Z.mod_unique_pos (x - a) EZ (xd - ad - 1) (xm - am + EZ)) by lia.
    cbn [cf pshift]. f_equal; [|lia]. f_equal. lia.
  - rewrite <- (Z.div_unique_pos (x - a) EZ (xd - ad) (xm - am)) by lia.
    rewrite <- (Z.mod_unique_pos (x - a) EZ (xd - ad) (xm - am)) by lia.
    cbn [cf pshift]. f_equal. f_equal. lia.
Qed.

Lemma comp_weave (F : nat -> npoly N) i : (i < E)%nat -> peq Q (comp (weave E F) (Z.of_nat i)) (F i).
Proof.
  intros Hi x. apply eqm_eq. cbn [cf comp]. rewrite weave_cf_eq.
  rewrite <- (Z.div_unique_pos (x * EZ + Z.of_nat i) EZ x (Z.of_nat i)) by lia.
  rewrite <- (Z.mod_unique_pos (x * EZ + Z.of_nat i) EZ x (Z.of_nat i)) by lia. now rewrite Nat2Z.id.
Qed.
Lemma comp_proper (p q : npoly M) i : peq Q p q -> peq Q (comp p i) (comp q i).
Proof. intros H x. cbn. apply H. Qed.
Lemma comp_add (p q : npoly M) i : peq Q (comp (padd p q) i) (padd (comp p i) (comp q i)).
Proof. intros x. cbn. reflexivity. Qed.
Lemma comp_sub (p q : npoly M) i : peq Q (comp (psub p q) i) (psub (comp p i) (comp q i)).
Proof. intros x. cbn. reflexivity. Qed.
Lemma comp_psum n (f : nat -> npoly M) i : peq Q (comp (psum n f) i) (psum n (fun j => comp (f j) i)).
Proof. intros x. cbn. rewrite !cf_psum. cbn. reflexivity. Qed.
Lemma comp_dist (p q : npoly M) i b : pdist_le Q p q b -> pdist_le Q (comp p i) (comp q i) b.
Proof. intros (r & A & B). exists (comp r i). split; [intros x; cbn; apply A|intros x; cbn; apply B]. Qed.
End Weave.

Section W.
Variable w : Z.
Hypothesis Hw : 0 < w.
Notation Q := (2 ^ w).
Variable N : nat.
Hypothesis HN : (0 < N)%nat.
Variable n0 : Z.
Hypothesis Hn0 : 0 <= n0.
Hypothesis HNn : Z.of_nat N = 2 ^ n0.
Variable k : nat.
Add Ring nring : (@npoly_ring N Q) (setoid (@peq_equiv N Q) (@npoly_ring_ext N Q)).
Variable E : nat.
Hypothesis HE : (0 < E)%nat.
Notation EZ := (Z.of_nat E).
Notation M := (E * N)%nat.
Add Ring mring : (@npoly_ring M Q) (setoid (@peq_equiv M Q) (@npoly_ring_ext M Q)).
Variable sk : list (list Z).
Notation gph := (gphase N k sk).
Notation S_ i := (pol N (nth i sk [])).
Hypothesis Hsk : forall i, (i < k)%nat -> pbound 1 (S_ i).
Variable p : gadget.
Hypothesis Hok : gadget_ok w p.
Notation l := (g_level p).
Notation eps := (gadEps w p).
Notation NZ := (Z.of_nat N).
Notation kZ := (Z.of_nat k).
Notation bR := (eps * (1 + kZ * NZ)).
Notation bE Ek := (rowNoise N p (kZ + 1) Ek).
Definition gphE (X : list (list (list Z))) : npoly M := weave E (fun i => gph (nth i X [])).
Definition shapesE (X : list (list (list Z))) : Prop := length X = E /\ forall i, (i < E)%nat -> gshape N k (nth i X []).

Lemma gshape_fgSub a b : gshape N k a -> gshape N k b -> gshape N k (fgSub k a b).
Proof. intros (La & Ha) (Lb & Hb). split; [apply tab_length|]. intros i Hi. unfold fgSub. rewrite nth_tab by lia. rewrite fsub_length, Ha, Hb by exact Hi. lia. Qed.
Lemma gphase_fgSub a b : gshape N k a -> gshape N k b -> peq Q (gph (fgSub k a b)) (psub (gph a) (gph b)).
Proof.
  intros (La & Ha) (Lb & Hb). apply gphase_sub; [exact HN|]. intros i Hi. unfold fgSub. rewrite nth_tab by lia.
  apply peq_0_any. apply (pol_fsub N HN); auto.
Qed.

Lemma quot_rem a : 0 <= a -> Z.quot a EZ = a / EZ /\ Z.rem a EZ = a mod EZ.
Proof. intros Ha. split; [apply Z.quot_div_nonneg; lia|apply Z.rem_mod_nonneg; lia]. Qed.

(** The table of component kk of Y^a T - T. *)
Definition rotComp (a : Z) (F : nat -> npoly N) (kk : nat) : npoly N :=
  psub (if (kk <? Z.to_nat (a mod EZ))%nat then pshift (a / EZ + 1) (F (E - Z.to_nat (a mod EZ) + kk)%nat) else pshift (a / EZ) (F (kk - Z.to_nat (a mod EZ))%nat)) (F kk).
Lemma rotComp_weave a F : peq Q (weave E (rotComp a F)) (psub (pshift a (weave E F)) (weave E F)).
Proof. unfold rotComp. rewrite (weave_sub N E HE Q). rewrite (weave_shift N E HE Q a F). reflexivity. Qed.

(** A multiplication that adds [base old] to the product. *)
Definition good_mul (mul : list (list Z) -> list (list Z) -> list Z -> list (list Z)) (ok : list (list Z) -> Prop) (base : list (list Z) -> npoly N) : Prop :=
  forall old x f, ok old -> gshape N k x -> gshape N k (mul old x f) /\ peq Q (gph (mul old x f)) (padd (base old) (pmul (pol N f) (gph x))).
Lemma good_set : good_mul (mulSet N k) (fun _ => True) (fun _ => pzero).
Proof. intros old x f _ Hx. unfold mulSet. split; [now apply gshape_fgMul|]. rewrite (gphase_fgMul w N HN k sk). ring. Qed.
Lemma good_add : good_mul (mulAdd N k) (gshape N k) gph.
Proof. intros old x f Ho Hx. unfold mulAdd. split; [now apply gshape_fgMulAdd|]. now rewrite (gphase_fgMulAdd w N HN k sk). Qed.

Lemma mono_mul d ct : peq Q (pmul (pol N (fmono N d)) (gph ct)) (pshift d (gph ct)).
Proof. now rewrite (peq_0_any Q _ _ (pol_fmono N HN d)), <- pshift_mono. Qed.
Lemma monoSub_mul d ct : peq Q (pmul (pol N (fmonoSubOne N d)) (gph ct)) (psub (pshift d (gph ct)) (gph ct)).
Proof. rewrite (peq_0_any Q _ _ (pol_fmonoSubOne N HN d)), pshift_mono. ring. Qed.

Lemma rotAcc_nth mul ok base a blk acc kk : good_mul mul ok base -> 0 <= a -> (kk < E)%nat -> ok (nth kk acc []) -> (forall i, (i < E)%nat -> gshape N k (nth i blk [])) ->
  gshape N k (nth kk (rotAcc N k E mul a blk acc) []) /\
  peq Q (gph (nth kk (rotAcc N k E mul a blk acc) [])) (padd (base (nth kk acc [])) (rotComp a (fun i => gph (nth i blk [])) kk)).
Proof.
  intros Hg Ha Hk Hok' Hb. unfold rotAcc. destruct (quot_rem a Ha) as (-> & ->). pose proof (Z.mod_pos_bound a EZ ltac:(lia)) as Hm. unfold rotComp.
  set (idx := Z.to_nat (a mod EZ)) in *. assert (idx < E)%nat by (unfold idx; lia). clearbody idx. set (mono := a / EZ). clearbody mono.
  destruct (Nat.eqb_spec idx 0) as [E0|E0].
  - rewrite nth_tab by exact Hk. destruct (Hg (nth kk acc []) (nth kk blk []) (fmonoSubOne N mono) Hok' (Hb kk Hk)) as (A & B). split; [exact A|].
    rewrite B, monoSub_mul. subst idx. destruct (Nat.ltb_spec kk 0); [lia|]. now rewrite Nat.sub_0_r.
  - rewrite nth_tab by exact Hk. destruct (Nat.ltb_spec kk idx).
    + destruct (Hg (nth kk acc []) (nth (E - idx + kk) blk []) (fmono N (mono + 1)) Hok' (Hb (E - idx + kk)%nat ltac:(lia))) as (A & B).
      split; [apply gshape_fgSub; auto|]. rewrite gphase_fgSub by auto. rewrite B, mono_mul. ring.
    + destruct (Hg (nth kk acc []) (nth (kk - idx) blk []) (fmono N mono) Hok' (Hb (kk - idx)%nat ltac:(lia))) as (A & B).
      split; [apply gshape_fgSub; auto|]. rewrite gphase_fgSub by auto. rewrite B, mono_mul. ring.
Qed.
Lemma rotAcc_length mul a blk acc : length (rotAcc N k E mul a blk acc) = E.
Proof. unfold rotAcc. destruct (Nat.eqb _ 0); apply tab_length. Qed.

Lemma weave_zero : peq Q (weave E (fun _ : nat => @pzero N)) pzero.
Proof. intros x. rewrite (weave_cf_eq N E HE). cbn. reflexivity. Qed.
Lemma rotAcc_set a blk acc : 0 <= a -> shapesE blk -> shapesE (rotAcc N k E (mulSet N k) a blk acc) /\
  peq Q (gphE (rotAcc N k E (mulSet N k) a blk acc)) (psub (pshift a (gphE blk)) (gphE blk)).
Proof.
  intros Ha (Lb & Hb). split.
  - split; [apply rotAcc_length|]. intros i Hi. apply (rotAcc_nth _ _ _ a blk acc i good_set Ha Hi I Hb).
  - unfold gphE. rewrite (weave_proper N E HE Q _ (fun i => padd pzero (rotComp a (fun i => gph (nth i blk [])) i))).
    2:{ intros i Hi. apply (rotAcc_nth _ _ _ a blk acc i good_set Ha Hi I Hb). }
    rewrite (weave_add N E HE Q), rotComp_weave, weave_zero. ring.
Qed.
Lemma rotAcc_add a blk acc : 0 <= a -> shapesE blk -> shapesE acc -> shapesE (rotAcc N k E (mulAdd N k) a blk acc) /\
  peq Q (gphE (rotAcc N k E (mulAdd N k) a blk acc)) (padd (gphE acc) (psub (pshift a (gphE blk)) (gphE blk))).
Proof.
  intros Ha (Lb & Hb) (La & Hacc). split.
  - split; [apply rotAcc_length|]. intros i Hi. apply (rotAcc_nth _ _ _ a blk acc i good_add Ha Hi (Hacc i Hi) Hb).
  - unfold gphE. rewrite (weave_proper N E HE Q _ (fun i => padd (gph (nth i acc [])) (rotComp a (fun i => gph (nth i blk [])) i))).
    2:{ intros i Hi. apply (rotAcc_nth _ _ _ a blk acc i good_add Ha Hi (Hacc i Hi) Hb). }
    rewrite (weave_add N E HE Q), rotComp_weave. reflexivity.
Qed.

Lemma rotAcc0_spec mul ok base a (blk : nat -> list (list Z)) acc0 : good_mul mul ok base -> 0 <= a -> ok acc0 -> (forall i, (i < E)%nat -> gshape N k (blk i)) ->
  gshape N k (rotAcc0 N k E mul a blk acc0) /\
  peq Q (gph (rotAcc0 N k E mul a blk acc0)) (padd (base acc0) (comp (psub (pshift a (weave E (fun i => gph (blk i)))) (weave E (fun i => gph (blk i)))) 0)).
Proof.
  intros Hg Ha Hok' Hb.
  assert (peq Q (comp (psub (pshift a (weave E (fun i => gph (blk i)))) (weave E (fun i => gph (blk i)))) 0) (rotComp a (fun i => gph (blk i)) 0)) as Hc.
  { rewrite <- (comp_weave N E HE Q (rotComp a (fun i => gph (blk i))) 0 HE). apply comp_proper. symmetry. apply rotComp_weave. }
  rewrite Hc. unfold rotAcc0. destruct (quot_rem a Ha) as (-> & ->). pose proof (Z.mod_pos_bound a EZ ltac:(lia)) as Hm. unfold rotComp.
  set (idx := Z.to_nat (a mod EZ)) in *. assert (idx < E)%nat by (unfold idx; lia). clearbody idx. set (mono := a / EZ). clearbody mono.
  destruct (Nat.eqb_spec idx 0) as [E0|E0].
  - destruct (Hg acc0 (blk O) (fmonoSubOne N mono) Hok' (Hb O HE)) as (A & B). split; [exact A|].
    rewrite B, monoSub_mul. subst idx. destruct (Nat.ltb_spec 0 0); [lia|]. reflexivity.
  - destruct (Nat.ltb_spec 0 idx); [|lia]. rewrite Nat.add_0_r.
    destruct (Hg acc0 (blk (E - idx)%nat) (fmono N (mono + 1)) Hok' (Hb (E - idx)%nat ltac:(lia))) as (A & B).
    split; [apply gshape_fgSub; auto|]. rewrite gphase_fgSub by auto. rewrite B, mono_mul. ring.
Qed.

(** Accumulating a whole block. *)
Lemma rotLoop (blk : nat -> list (list (list Z))) (rot : nat -> Z) lo m : (forall j, (j <= m)%nat -> 0 <= rot (lo + j)%nat /\ shapesE (blk (lo + j)%nat)) ->
  let r := forN (S lo) m (fun j f => rotAcc N k E (mulAdd N k) (rot j) (blk j) f) (rotAcc N k E (mulSet N k) (rot lo) (blk lo) []) in
  shapesE r /\ peq Q (gphE r) (psum (S m) (fun j => psub (pshift (rot (lo + j)%nat) (gphE (blk (lo + j)%nat))) (gphE (blk (lo + j)%nat)))).
Proof.
  intros Hb. cbv zeta.
  set (P := fun (c : nat) r => (c <= m)%nat -> shapesE r /\ peq Q (gphE r) (psum (S c) (fun j => psub (pshift (rot (lo + j)%nat) (gphE (blk (lo + j)%nat))) (gphE (blk (lo + j)%nat))))).
  match goal with |- shapesE ?r /\ _ => assert (P m r) as HP; [|exact (HP ltac:(lia))] end.
  apply (forN_ind P); unfold P; clear P.
  - intros _. destruct (Hb O ltac:(lia)) as (H1 & H2). rewrite Nat.add_0_r in *. destruct (rotAcc_set (rot lo) (blk lo) [] H1 H2) as (A & B). split; [exact A|]. rewrite B. cbn [psum]. rewrite Nat.add_0_r. ring.
  - intros c r Hc H Hc'. destruct (H ltac:(lia)) as (A & B). destruct (Hb (S c) ltac:(lia)) as (H1 & H2). replace (S lo + c)%nat with (lo + S c)%nat by lia.
    destruct (rotAcc_add (rot (lo + S c)%nat) (blk (lo + S c)%nat) r H1 H2 A) as (X & Y). split; [exact X|]. rewrite Y, B. cbn [psum]. ring.
Qed.
Lemma rotLoop0 (blk : nat -> nat -> list (list Z)) (rot : nat -> Z) lo m : (forall j, (j <= m)%nat -> 0 <= rot (lo + j)%nat /\ forall i, (i < E)%nat -> gshape N k (blk (lo + j)%nat i)) ->
  let T j := weave E (fun i => gph (blk j i)) in
  let r := forN (S lo) m (fun j f => rotAcc0 N k E (mulAdd N k) (rot j) (blk j) f) (rotAcc0 N k E (mulSet N k) (rot lo) (blk lo) []) in
  gshape N k r /\ peq Q (gph r) (comp (psum (S m) (fun j => psub (pshift (rot (lo + j)%nat) (T (lo + j)%nat)) (T (lo + j)%nat))) 0).
Proof.
  intros Hb T. cbv zeta.
  set (P := fun (c : nat) r => (c <= m)%nat -> gshape N k r /\ peq Q (gph r) (comp (psum (S c) (fun j => psub (pshift (rot (lo + j)%nat) (T (lo + j)%nat)) (T (lo + j)%nat))) 0)).
  match goal with |- gshape N k ?r /\ _ => assert (P m r) as HP; [|exact (HP ltac:(lia))] end.
  apply (forN_ind P); unfold P; clear P.
  - intros _. destruct (Hb O ltac:(lia)) as (H1 & H2). rewrite Nat.add_0_r in *. destruct (rotAcc0_spec _ _ _ (rot lo) (blk lo) [] good_set H1 I H2) as (A & B). split; [exact A|]. rewrite B. 
    rewrite (comp_psum N E Q). cbn [psum]. rewrite Nat.add_0_r. fold (T lo). reflexivity.
  - intros c r Hc H Hc'. destruct (H ltac:(lia)) as (A & B). destruct (Hb (S c) ltac:(lia)) as (H1 & H2). replace (S lo + c)%nat with (lo + S c)%nat by lia.
    destruct (rotAcc0_spec _ _ _ (rot (lo + S c)%nat) (blk (lo + S c)%nat) r good_add H1 A H2) as (X & Y). split; [exact X|]. rewrite Y, B. fold (T (lo + S c)%nat).
    rewrite !(comp_psum N E Q). cbn [psum]. reflexivity.
Qed.

(** Initial rotation. *)
Lemma extInit_spec acc0 lut b : length acc0 = E -> (forall i, (i < E)%nat -> length (nth i acc0 []) = N) -> lut_ok w N E lut -> 0 <= b ->
  length (extInit w N E acc0 lut b) = E /\ (forall i, (i < E)%nat -> wpoly w N (nth i (extInit w N E acc0 lut b) [])) /\
  peq Q (weave E (fun i => pol N (nth i (extInit w N E acc0 lut b) []))) (misrot (tableOf N E lut) b).
Proof.
  intros La Ha (Ll & Hl) Hb. unfold extInit. destruct (quot_rem b Hb) as (-> & ->). pose proof (Z.mod_pos_bound b EZ ltac:(lia)) as Hm.
  set (idx := Z.to_nat (b mod EZ)). assert (idx < E)%nat as Hi by (unfold idx; lia). set (mono := b / EZ).
  assert (forall out q d, length out = N -> wpoly w N q -> wpoly w N (MonomialMulPolyTo w N out q d) /\ peq Q (pol N (MonomialMulPolyTo w N out q d)) (pshift d (pol N q))) as HM.
  { intros out q d Lo Hq. destruct (MonomialMulPolyTo_spec N HN w n0 out q d Hn0 ltac:(lia) HNn Lo Hq) as (X & Y). split; [exact X|]. now rewrite Y, <- pshift_mono. }
  set (val := fun i => if (i <? E - idx)%nat then pshift mono (pol N (nth (i + idx) lut [])) else pshift (mono + 1) (pol N (nth (i - (E - idx)) lut []))).
  set (P1 := fun (m : nat) (a : list (list Z)) => (m <= idx)%nat -> length a = E /\ (forall i, (i < E)%nat -> length (nth i a []) = N) /\ (forall i, (E - idx <= i < E - idx + m)%nat -> wpoly w N (nth i a []) /\ peq Q (pol N (nth i a [])) (val i))).
  match goal with |- context [forN idx (E - idx) ?f (forN 0 idx ?g acc0)] => assert (P1 idx (forN 0 idx g acc0)) as HP1 end.
  { apply (forN_ind P1); unfold P1; clear P1.
    - intros _. split; [exact La|]. split; [exact Ha|]. intros; lia.
    - intros m a Hm' H Hm2. destruct (H ltac:(lia)) as (A & B & C). cbn [Nat.add]. destruct (HM (nth (E - idx + m) a []) (nth m lut []) (mono + 1) (B (E - idx + m)%nat ltac:(lia)) (Hl m ltac:(lia))) as (X & Y).
      split; [now rewrite upd_length|]. split; intros i Hi'; rewrite nth_upd_if by lia; destruct (Nat.eqb_spec i (E - idx + m)) as [->|].
      + apply X.
      + apply B; exact Hi'.
      + split; [exact X|]. rewrite Y. unfold val. destruct (Nat.ltb_spec (E - idx + m) (E - idx)); [lia|]. now replace (E - idx + m - (E - idx))%nat with m by lia.
      + apply C. lia. }
  destruct (HP1 ltac:(lia)) as (A1 & B1 & C1). match goal with |- context [forN idx (E - idx) ?f ?a] => set (a1 := a) in * end. clearbody a1.
  set (P2 := fun (m : nat) (a : list (list Z)) => (m <= E - idx)%nat -> length a = E /\ (forall i, (i < E)%nat -> length (nth i a []) = N) /\ (forall i, (i < m)%nat \/ (E - idx <= i < E)%nat -> wpoly w N (nth i a []) /\ peq Q (pol N (nth i a [])) (val i))).
  match goal with |- context [forN idx (E - idx) ?f a1] => assert (P2 (E - idx)%nat (forN idx (E - idx) f a1)) as HP2 end.
  { apply (forN_ind P2); unfold P2; clear P2.
    - intros _. split; [exact A1|]. split; [exact B1|]. intros i [?|?]; [lia|]. apply C1. lia.
    - intros m a Hm' H Hm2. destruct (H ltac:(lia)) as (A & B & C). replace (idx + m - idx)%nat with m by lia. destruct (HM (nth m a []) (nth (idx + m) lut []) mono (B m ltac:(lia)) (Hl (idx + m)%nat ltac:(lia))) as (X & Y).
      split; [now rewrite upd_length|]. split; intros i Hi'; rewrite nth_upd_if by lia; destruct (Nat.eqb_spec i m) as [->|].
      + apply X.
      + apply B; exact Hi'.
      + split; [exact X|]. rewrite Y. unfold val. destruct (Nat.ltb_spec m (E - idx)); [|lia]. now rewrite (Nat.add_comm m idx).
      + apply C. lia. }
  destruct (HP2 ltac:(lia)) as (A2 & B2 & C2). match goal with |- context [forN idx (E - idx) ?f a1] => set (r := forN idx (E - idx) f a1) in * end. clearbody r.
  assert (forall i, (i < E)%nat -> wpoly w N (nth i r []) /\ peq Q (pol N (nth i r [])) (val i)) as HR by (intros i Hi'; apply C2; lia).
  split; [exact A2|]. split; [intros i Hi'; now apply HR|].
  rewrite (weave_proper N E HE Q _ val) by (intros i Hi'; now apply HR).
  intros x. apply eqm_eq. rewrite (weave_cf_eq N E HE). cbn [cf misrot]. unfold misrot_cf. cbv zeta. unfold tableOf, val.
  pose proof (Z.mod_pos_bound x EZ ltac:(lia)) as Hx. pose proof (Z.div_mod x EZ ltac:(lia)) as Dx. pose proof (Z.div_mod b EZ ltac:(lia)) as Db. fold mono in Db.
  set (xm := x mod EZ) in *. set (xd := x / EZ) in *. set (bm := b mod EZ) in *. assert (idx = Z.to_nat bm) as Eidx by reflexivity. clearbody xm xd bm mono idx.
  destruct (Nat.ltb_spec (Z.to_nat xm) (E - idx)) as [C|C]; destruct (Z.ltb_spec xm (EZ - bm)); try lia.
  - rewrite (weave_cf_eq N E HE). rewrite <- (Z.div_unique_pos (x - b + 2 * bm) EZ (xd - mono) (xm + bm)) by lia.
    rewrite <- (Z.mod_unique_pos (x - b + 2 * bm) EZ (xd - mono) (xm + bm)) by lia. cbn [cf pshift].
    replace (Z.to_nat xm + idx)%nat with (Z.to_nat (xm + bm)) by lia. reflexivity.
  - rewrite (weave_cf_eq N E HE). rewrite <- (Z.div_unique_pos (x - b + 2 * bm - 2 * EZ) EZ (xd - mono - 1) (xm + bm - EZ)) by lia.
    rewrite <- (Z.mod_unique_pos (x - b + 2 * bm - 2 * EZ) EZ (xd - mono - 1) (xm + bm - EZ)) by lia. cbn [cf pshift].
    replace (Z.to_nat xm - (E - idx))%nat with (Z.to_nat (xm + bm - EZ)) by lia.
    replace (xd - (mono + 1)) with (xd - mono - 1) by lia. reflexivity.
Qed.

Section BR.
Variables (ms : Z -> Z) (s : list Z) (brk : list (list (list (list (list Z))))) (e : nat -> nat -> nat -> npoly N) (Ek : Z).
Notation L2 := (2 * (EZ * NZ)).
Hypothesis Hbrk : brk_enc w N k p sk s brk e.
Hypothesis HEk : 0 <= Ek.
Hypothesis He : forall j a b, (j < length s)%nat -> (a <= k)%nat -> (b < l)%nat -> pbound Ek (e j a b).
Variables (bs bc : nat).
Hypothesis Hbs : (0 < bs)%nat.
Hypothesis Hbc : (2 <= bc)%nat.
Hypothesis Hlen : length s = (bc * bs)%nat.
Hypothesis Hblk : block_binary bs s.
Variables (acc0 : list (list Z)) (ct : list Z) (lut : list (list Z)).
Hypothesis Hms : forall j, 0 <= ms (nthZ ct j) <= L2.
Hypothesis Hacc0 : length acc0 = E /\ forall i, (i < E)%nat -> length (nth i acc0 []) = N.
Hypothesis Hlut : lut_ok w N E lut.

Notation A0 := (misrot (tableOf N E lut) (L2 - ms (nthZ ct 0))).
Notation rot j := (L2 - ms (nthZ ct (S j))).
Definition maskSum (m : nat) : Z := zsum m (fun i => ms (nthZ ct (S i)) * nthZ s i).
Definition ebound (i : nat) : Z := Z.of_nat i * (2 * bR) + Z.of_nat (i * bs) * (2 * bE Ek).
Definition ctsE (X : list (list (list Z))) : Prop := length X = E /\ forall i, (i < E)%nat -> glwe_ct w N k (nth i X []).
Definition einv (i : nat) (acc : list (list (list Z))) : Prop :=
  ctsE acc /\ pdist_le Q (gphE acc) (pshift (- maskSum (i * bs)) A0) (ebound i).

Lemma ebound_S i : ebound (S i) = ebound i + (2 * bR + Z.of_nat bs * (2 * bE Ek)).
Proof. unfold ebound. rewrite !Nat2Z.inj_mul, Nat2Z.inj_succ. ring. Qed.
Lemma maskSum_S i : maskSum (S i * bs) = maskSum (i * bs) + zsum bs (fun j => ms (nthZ ct (S (i * bs + j))) * nthZ s (i * bs + j)).
Proof. unfold maskSum. replace (S i * bs)%nat with (i * bs + bs)%nat by lia. rewrite zsum_app. lia. Qed.

(** Value of the woven phase after the block, given the block's products T. *)
Lemma eblock_value i (P rho : npoly M) (T eta : nat -> npoly M) : (i < bc)%nat ->
  pdist_le Q P (pshift (- maskSum (i * bs)) A0) (ebound i) -> pbound bR rho ->
  (forall j, (j < length s)%nat -> pbound (bE Ek) (eta j) /\ peq Q (T j) (padd (pscale (nthZ s j) (psub P rho)) (eta j))) ->
  pdist_le Q (padd P (psum bs (fun j => psub (pshift (rot (i * bs + j)) (T (i * bs + j)%nat)) (T (i * bs + j)%nat)))) (pshift (- maskSum (S i * bs)) A0) (ebound (S i)).
Proof.
  intros Hi Hd Hr Hp. rewrite ebound_S, maskSum_S.
  assert (forall j, (j < bs)%nat -> (i * bs + j < length s)%nat) as Hidx by (intros j Hj; rewrite Hlen; nia).
  set (sg := zsum bs (fun j => ms (nthZ ct (S (i * bs + j))) * nthZ s (i * bs + j))).
  assert (eqm (2 * Z.of_nat M) (- sg) (zsum bs (fun j => rot (i * bs + j) * nthZ s (i * bs + j)))) as Hsg.
  { exists (- zsum bs (fun j => nthZ s (i * bs + j))). unfold sg. rewrite <- !zsum_opp. rewrite <- zsum_sub. rewrite <- zsum_scale_r. apply zsum_ext. intros. rewrite Nat2Z.inj_mul. ring. }
  eapply pdist_le_peq; [reflexivity| |].
  { instantiate (1 := pshift (- sg) (pshift (- maskSum (i * bs)) A0)). rewrite pshift_add. replace (- sg + - maskSum (i * bs)) with (- (maskSum (i * bs) + sg)) by lia. reflexivity. }
  rewrite Z.add_comm. apply (pdist_trans Q _ (pshift (- sg) P)); [|now apply pdist_shift].
  eapply pdist_le_peq; [reflexivity|symmetry; apply pshift_eqm; exact Hsg|].
  apply (block_core Q bs (fun j => nthZ s (i * bs + j)) (fun j => rot (i * bs + j)) P rho (fun j => eta (i * bs + j)%nat) (fun j => T (i * bs + j)%nat)).
  - apply onehot_block; try assumption. rewrite Hlen. nia.
  - exact Hr.
  - intros j Hj. apply Hp. now apply Hidx.
  - intros j Hj. apply Hp. now apply Hidx.
Qed.

Lemma rot_nonneg j : 0 <= rot j.
Proof. specialize (Hms (S j)). lia. Qed.

(** Products with all components of the accumulator, woven. *)
Lemma ext_weave acc : ctsE acc -> exists rho eta, pbound bR rho /\ forall j, (j < length s)%nat -> pbound (bE Ek) (eta j) /\
  (forall i, (i < E)%nat -> gshape N k (ExternalProdFFTGLWETo N k p (nth j brk []) (fdAll w k p (nth i acc [])))) /\
  peq Q (weave E (fun i => gph (ExternalProdFFTGLWETo N k p (nth j brk []) (fdAll w k p (nth i acc []))))) (padd (pscale (nthZ s j) (psub (gphE acc) rho)) (eta j)).
Proof.
  intros (La & Ha).
  destruct (fin_choice (pzero, fun _ => pzero) E (fun i x => pbound bR (fst x) /\ (forall j, (j < length s)%nat -> pbound (bE Ek) (snd x j) /\
    gshape N k (ExternalProdFFTGLWETo N k p (nth j brk []) (fdAll w k p (nth i acc []))) /\
    peq Q (gph (ExternalProdFFTGLWETo N k p (nth j brk []) (fdAll w k p (nth i acc [])))) (padd (pscale (nthZ s j) (psub (gph (nth i acc [])) (fst x))) (snd x j))))) as (f & Hf).
  { intros i Hi. destruct (ext_step w Hw N HN k sk Hsk p Hok s brk e Ek (nth i acc []) Hbrk (Ha i Hi) He) as (rho & eta & H1 & H2). exists (rho, eta). split; [exact H1|exact H2]. }
  exists (weave E (fun i => fst (f i))), (fun j => weave E (fun i => snd (f i) j)). split.
  - apply (weave_bound N E HE). intros i Hi. now apply Hf.
  - intros j Hj. split; [|split].
    + apply (weave_bound N E HE). intros i Hi. destruct (Hf i Hi) as (_ & H). now apply H.
    + intros i Hi. destruct (Hf i Hi) as (_ & H). now apply H.
    + rewrite (weave_proper N E HE Q _ (fun i => padd (pscale (nthZ s j) (psub (gph (nth i acc [])) (fst (f i)))) (snd (f i) j))).
      2:{ intros i Hi. destruct (Hf i Hi) as (_ & H). now apply H. }
      rewrite (weave_add N E HE Q), (weave_scale N E HE Q), (weave_sub N E HE Q). reflexivity.
Qed.
Lemma gad_weave (bodies : nat -> list Z) : (forall i, (i < E)%nat -> wpoly w N (bodies i)) -> exists rho eta, pbound bR rho /\ forall j, (j < length s)%nat -> pbound (bE Ek) (eta j) /\
  (forall i, (i < E)%nat -> gshape N k (GadgetProdFFTGLWETo N k p (nth 0 (nth j brk []) []) (fdigits w p (bodies i)))) /\
  peq Q (weave E (fun i => gph (GadgetProdFFTGLWETo N k p (nth 0 (nth j brk []) []) (fdigits w p (bodies i))))) (padd (pscale (nthZ s j) (psub (weave E (fun i => pol N (bodies i))) rho)) (eta j)).
Proof.
  intros Ha.
  destruct (fin_choice (pzero, fun _ => pzero) E (fun i x => pbound bR (fst x) /\ (forall j, (j < length s)%nat -> pbound (bE Ek) (snd x j) /\
    gshape N k (GadgetProdFFTGLWETo N k p (nth 0 (nth j brk []) []) (fdigits w p (bodies i))) /\
    peq Q (gph (GadgetProdFFTGLWETo N k p (nth 0 (nth j brk []) []) (fdigits w p (bodies i)))) (padd (pscale (nthZ s j) (psub (pol N (bodies i)) (fst x))) (snd x j))))) as (f & Hf).
  { intros i Hi. destruct (gad_step w Hw N HN n0 Hn0 k sk Hsk p Hok s brk e Ek (bodies i) Hbrk (Ha i Hi) HEk He) as (rho & eta & H1 & H2). exists (rho, eta). split; [exact H1|exact H2]. }
  exists (weave E (fun i => fst (f i))), (fun j => weave E (fun i => snd (f i) j)). split.
  - apply (weave_bound N E HE). intros i Hi. now apply Hf.
  - intros j Hj. split; [|split].
    + apply (weave_bound N E HE). intros i Hi. destruct (Hf i Hi) as (_ & H). now apply H.
    + intros i Hi. destruct (Hf i Hi) as (_ & H). now apply H.
    + rewrite (weave_proper N E HE Q _ (fun i => padd (pscale (nthZ s j) (psub (pol N (bodies i)) (fst (f i)))) (snd (f i) j))).
      2:{ intros i Hi. destruct (Hf i Hi) as (_ & H). now apply H. }
      rewrite (weave_add N E HE Q), (weave_scale N E HE Q), (weave_sub N E HE Q). reflexivity.
Qed.

Lemma addAll acc facc : ctsE acc -> shapesE facc -> let r := tab E (fun j => gInvAdd w k (nth j acc []) (nth j facc [])) in
  ctsE r /\ peq Q (gphE r) (padd (gphE acc) (gphE facc)).
Proof.
  intros (La & Ha) (Lf & Hf). cbv zeta. split.
  - split; [apply tab_length|]. intros i Hi. rewrite nth_tab by exact Hi. apply (gInvAdd_spec w Hw N HN k sk); [apply (glwe_shape w); auto|auto].
  - unfold gphE. rewrite <- (weave_add N E HE Q). apply (weave_proper N E HE Q). intros i Hi. rewrite nth_tab by exact Hi. apply (gInvAdd_spec w Hw N HN k sk); [apply (glwe_shape w); auto|auto].
Qed.

(** A block on the whole accumulator. *)
Lemma eblock_step i acc (blk : nat -> list (list (list Z))) rho eta : (i < bc)%nat -> einv i acc -> pbound bR rho ->
  (forall j, (j < length s)%nat -> pbound (bE Ek) (eta j) /\ shapesE (blk j) /\ peq Q (gphE (blk j)) (padd (pscale (nthZ s j) (psub (gphE acc) rho)) (eta j))) ->
  let facc := forN (S (i * bs)) (bs - 1) (fun j f => rotAcc N k E (mulAdd N k) (rot j) (blk j) f) (rotAcc N k E (mulSet N k) (rot (i * bs)%nat) (blk (i * bs)%nat) []) in
  einv (S i) (tab E (fun j => gInvAdd w k (nth j acc []) (nth j facc []))).
Proof.
  intros Hi (Hc & Hd) Hr Hp facc.
  destruct (rotLoop blk (fun j => rot j) (i * bs) (bs - 1)) as (A & B).
  { intros j Hj. split; [apply rot_nonneg|]. apply Hp. rewrite Hlen. nia. }
  fold facc in A, B. replace (S (bs - 1)) with bs in B by lia. clearbody facc.
  destruct (addAll acc facc Hc A) as (X & Y). split; [exact X|].
  eapply pdist_le_peq; [symmetry; exact Y|reflexivity|]. eapply pdist_le_peq; [rewrite B; reflexivity|reflexivity|].
  apply (eblock_value i (gphE acc) rho (fun j => gphE (blk j)) eta Hi Hd Hr). intros j Hj. destruct (Hp j Hj) as (H1 & _ & H3). now split.
Qed.

Lemma blindRotateExtended_spec : let r := blindRotateExtendedTo w N k E ms p brk bs bc (length s) acc0 ct lut in
  glwe_ct w N k r /\ pdist_le Q (gph r) (comp (pshift (- maskSum (length s)) A0) 0) (brNoise w N k p bc (length s) Ek).
Proof.
  cbv zeta. unfold blindRotateExtendedTo. cbv zeta.
  destruct Hacc0 as (L0 & HL0). destruct (extInit_spec acc0 lut (L2 - ms (nthZ ct 0)) L0 HL0 Hlut ltac:(specialize (Hms O); lia)) as (I1 & I2 & I3).
  set (bodies := extInit w N E acc0 lut (L2 - ms (nthZ ct 0))) in *. clearbody bodies.
  set (acc1 := tab E (fun i => nth i bodies [] :: repeat (repeat 0 N) k)).
  assert (forall i, (i < E)%nat -> nth i acc1 [] = nth i bodies [] :: repeat (repeat 0 N) k) as Ha1 by (intros i Hi; unfold acc1; now rewrite nth_tab by exact Hi).
  assert (ctsE acc1) as C1.
  { split; [apply tab_length|]. intros i Hi. rewrite Ha1 by exact Hi. split; [cbn; now rewrite repeat_length|]. intros [|j] Hj; cbn [nth]; [now apply I2|].
    rewrite nth_repeat_lt by lia. split; [apply repeat_length|]. apply Forall_forall. intros x Hx. apply repeat_spec in Hx. subst. pose proof (pow2_pos w ltac:(lia)). unfold uword. lia. }
  assert (forall i, (i < E)%nat -> peq Q (gph (nth i acc1 [])) (pol N (nth i bodies []))) as G1.
  { intros i Hi. rewrite Ha1 by exact Hi. apply (gph_trivial w N HN n0 k sk Hsk). intros j Hj. destruct j as [|j]; [lia|]. cbn [nth]. apply nth_repeat_lt. lia. }
  assert (einv 0 acc1) as E0.
  { split; [exact C1|]. unfold maskSum, ebound. cbn [Nat.mul zsum]. eapply pdist_le_peq; [|rewrite pshift_0; reflexivity|apply pdist_refl; lia].
    rewrite <- I3. unfold gphE. symmetry. now apply (weave_proper N E HE Q). }
  (* first block *)
  set (fd0 := tab E (fun j => fdigits w p (nth 0 (nth j acc1 []) []))).
  set (blk1 := fun j => tab E (fun kk => GadgetProdFFTGLWETo N k p (nth 0 (nth j brk []) []) (nth kk fd0 []))).
  assert (forall j i, (i < E)%nat -> nth i (blk1 j) [] = GadgetProdFFTGLWETo N k p (nth 0 (nth j brk []) []) (fdigits w p (nth i bodies []))) as Hblk1.
  { intros j i Hi. unfold blk1, fd0. rewrite !nth_tab by exact Hi. rewrite Ha1 by exact Hi. reflexivity. }
  destruct (gad_weave (fun i => nth i bodies [])) as (rho1 & eta1 & Hr1 & Hp1); [exact I2|].
  match goal with |- context [tab E (fun j => gInvAdd w k (nth j acc1 []) (nth j ?f []))] => set (facc1 := f) end.
  assert (einv 1 (tab E (fun j => gInvAdd w k (nth j acc1 []) (nth j facc1 [])))) as E1.
  { apply (eblock_step 0 acc1 blk1 rho1 eta1); try assumption; try lia. intros j Hj. destruct (Hp1 j Hj) as (X1 & X2 & X3). split; [exact X1|]. split.
    - split; [apply tab_length|]. intros i Hi. rewrite Hblk1 by exact Hi. now apply X2.
    - assert (peq Q (gphE acc1) (weave E (fun i => pol N (nth i bodies [])))) as EG by (apply (weave_proper N E HE Q); exact G1).
      rewrite EG. rewrite <- X3. apply (weave_proper N E HE Q). intros i Hi. rewrite Hblk1 by exact Hi. reflexivity. }
  set (acc2 := tab E (fun j => gInvAdd w k (nth j acc1 []) (nth j facc1 []))) in *. clearbody acc2. clear facc1.
  (* middle blocks *)
  match goal with |- context [forN 1 (bc - 2) ?f acc2] => set (body := f) end.
  assert (einv (bc - 1) (forN 1 (bc - 2) body acc2)) as E2.
  { set (P := fun (m : nat) acc => (m <= bc - 2)%nat -> einv (S m) acc).
    assert (P (bc - 2)%nat (forN 1 (bc - 2) body acc2)) as HP; [|replace (bc - 1)%nat with (S (bc - 2)) by lia; exact (HP ltac:(lia))].
    apply (forN_ind P); unfold P; clear P; [intros _; exact E1|]. intros m acc Hm H Hm'. specialize (H ltac:(lia)). cbn [Nat.add]. unfold body.
    replace (S m * bs + 1)%nat with (S (S m * bs)) by lia.
    destruct (ext_weave acc (proj1 H)) as (rho & eta & Hr & Hp).
    apply (eblock_step (S m) acc (fun j => tab E (fun kk => ExternalProdFFTGLWETo N k p (nth j brk []) (nth kk (tab E (fun j0 => fdAll w k p (nth j0 acc []))) []))) rho eta); try assumption; try lia.
    intros j Hj. destruct (Hp j Hj) as (X1 & X2 & X3). split; [exact X1|]. split.
    - split; [apply tab_length|]. intros i Hi. rewrite !nth_tab by exact Hi. now apply X2.
    - rewrite <- X3. apply (weave_proper N E HE Q). intros i Hi. rewrite !nth_tab by exact Hi. reflexivity. }
  set (acc3 := forN 1 (bc - 2) body acc2) in *. clearbody acc3. clear body.
  (* last block *)
  destruct E2 as (C3 & D3). destruct (ext_weave acc3 C3) as (rho & eta & Hr & Hp).
  replace (length s - bs)%nat with ((bc - 1) * bs)%nat by (rewrite Hlen; nia). replace ((bc - 1) * bs + 1)%nat with (S ((bc - 1) * bs)) by lia.
  set (blk := fun j kk => ExternalProdFFTGLWETo N k p (nth j brk []) (nth kk (tab E (fun j => fdAll w k p (nth j acc3 []))) [])).
  assert (forall j i, (i < E)%nat -> blk j i = ExternalProdFFTGLWETo N k p (nth j brk []) (fdAll w k p (nth i acc3 []))) as Hblk3 by (intros j i Hi; unfold blk; now rewrite nth_tab by exact Hi).
  destruct (rotLoop0 blk (fun j => rot j) ((bc - 1) * bs) (bs - 1)) as (A & B).
  { intros j Hj. split; [apply rot_nonneg|]. intros i Hi. rewrite Hblk3 by exact Hi. apply Hp; [|exact Hi]. rewrite Hlen. nia. }
  replace (S (bs - 1)) with bs in B by lia.
  match type of A with gshape N k ?f => set (facc := f) in * end. match goal with |- context [gInvAdd w k (nth 0 acc3 []) ?f] => change f with facc end. clearbody facc.
  destruct (gInvAdd_spec w Hw N HN k sk (nth 0 acc3 []) facc (glwe_shape w N k _ (proj2 C3 O HE)) A) as (X & Y). split; [exact X|].
  replace (brNoise w N k p bc (length s) Ek) with (ebound bc) by (unfold ebound, brNoise; now rewrite Hlen).
  rewrite Hlen. replace bc with (S (bc - 1)) at 1 2 by lia.
  eapply pdist_le_peq; [symmetry; rewrite Y, B; rewrite <- (comp_weave N E HE Q (fun i => gph (nth i acc3 [])) 0 HE) at 1; fold (gphE acc3); rewrite <- comp_add; reflexivity|reflexivity|].
  apply comp_dist.
  apply (eblock_value (bc - 1) (gphE acc3) rho (fun j => weave E (fun i => gph (blk j i))) eta); try assumption; try lia.
  intros j Hj. destruct (Hp j Hj) as (X1 & X2 & X3). split; [exact X1|]. rewrite <- X3. apply (weave_proper N E HE Q). intros i Hi. rewrite Hblk3 by exact Hi. reflexivity.
Qed.
End BR.
End W.
