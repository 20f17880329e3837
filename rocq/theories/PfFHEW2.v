From Verif Require Import Base NegaRing SpecNum ModelNum PfNum ModelVec SpecVec PfVec ModelPoly SpecPoly PfPoly PfPerm PfSplit ModelGadget SpecGadget PfGadget ModelEncoder ModelLWE SpecLWE PfLWE PfLWE2 PfKS PfKS2 ModelGLWE SpecGLWE PfGLWE PfGLWE2 PfGLWE3 PfGLWE4
  ModelBoot SpecBoot PfBoot PfBoot2 PfBoot4 ModelBFV SpecBFV PfBFV PfBFV2 PfBFV4 ModelFHEW SpecFHEW PfFHEW.

(** ** Sums over classes *)
Fixpoint lsum (f : nat -> Z) (l : list nat) : Z := match l with [] => 0 | j :: l => f j + lsum f l end.
Lemma lsum_app f l m : lsum f (l ++ m) = lsum f l + lsum f m.
Proof. induction l as [|a l IH]; cbn; [reflexivity|]. rewrite IH. ring. Qed.
Lemma lsum_one l : lsum (fun _ => 1) l = Z.of_nat (length l).
Proof. induction l as [|a l IH]; cbn [lsum length]; [reflexivity|]. rewrite IH. lia. Qed.

Lemma lor1 x : 0 <= x -> Z.lor x 1 = 2 * (x / 2) + 1.
Proof. intros Hx. rewrite <- Z.div2_div. destruct x as [|[q|q|]|q]; try reflexivity. lia. Qed.

Section Classes.
Variables (w : Z) (N : nat) (n : Z).
Hypothesis Hn : 1 <= n.
Hypothesis HNn : Z.of_nat N = 2 ^ n.
Notation NZ := (Z.of_nat N).
Notation M := (2 * NZ).
Variables (ms : Z -> Z) (ct : list Z).
Hypothesis Hw : 0 < w.
Hypothesis Hms : forall x, uword w x -> 0 <= ms x < M.

Definition oddAt i := FHEWModSwitch ms (wrap w (- nthZ ct i)).
Definition clsAt i := nthZ (autIdxMap N) (Z.to_nat (oddAt (S i))).

Lemma oddAt_ok i : 0 <= oddAt i < M /\ Z.odd (oddAt i) = true.
Proof.
  unfold oddAt, FHEWModSwitch. set (x := ms _). assert (0 <= x < M) as Hx by (apply Hms; apply wrap_word; exact Hw). destruct (tN2 N n Hn HNn) as (h & Eh & _ & Hh & _).
  rewrite lor1 by lia. split; [pose proof (Z.mod_pos_bound x 2 ltac:(lia)); pose proof (Z.div_mod x 2 ltac:(lia)); lia|].
  rewrite Z.add_comm. now rewrite Z.odd_add_mul_2.
Qed.
Lemma clsAt_ok i : entry_ok N (clsAt i) (oddAt (S i)).
Proof. destruct (oddAt_ok (S i)) as (A & B). now apply (autIdxMap_spec N n Hn HNn). Qed.

Lemma autClasses_S m y : autClasses w N ms (S m) ct y = autClasses w N ms m ct y ++ (if y =? clsAt m then [m] else []).
Proof.
  unfold autClasses. rewrite forN_S_r, Nat.add_0_l. fold (oddAt (S m)). fold (clsAt m). destruct (y =? clsAt m); [reflexivity|now rewrite app_nil_r].
Qed.
Lemma autClasses_lt m y : Forall (fun j => (j < m)%nat) (autClasses w N ms m ct y).
Proof.
  induction m as [|m IH]; [constructor|]. rewrite autClasses_S. apply Forall_app. split; [eapply Forall_impl; [|exact IH]; cbn; intros; lia|].
  destruct (y =? clsAt m); [constructor; [lia|constructor]|constructor].
Qed.

(** Weighted class sums are sums over the mask. *)
Notation H := (N / 2 - 1)%nat.
Definition classSum (c : Z -> Z) (f : nat -> Z) (m : Z -> list nat) : Z :=
  zsum H (fun q => c (- Z.of_nat (H - q)) * lsum f (m (- Z.of_nat (H - q)))) + c M * lsum f (m M) +
  zsum H (fun q => c (Z.of_nat (H - q)) * lsum f (m (Z.of_nat (H - q)))) + c 0 * lsum f (m 0).
Lemma classSum_spec c f m : classSum c f (autClasses w N ms m ct) = zsum m (fun j => c (clsAt j) * f j).
Proof.
  destruct (tN2 N n Hn HNn) as (h & Eh & _ & Hh & EH).
  induction m as [|m IH]; [unfold classSum, autClasses; cbn [zsum forN lsum]; rewrite (zsum_ext H (fun q => c (- Z.of_nat (H - q)) * 0) (fun _ => 0)), (zsum_ext H (fun q => c (Z.of_nat (H - q)) * 0) (fun _ => 0)) by (intros; ring); rewrite !zsum_zero; ring|].
  cbn [zsum]. rewrite <- IH. unfold classSum. pose (g := fun y => if y =? clsAt m then f m else 0).
  assert (forall y, lsum f (autClasses w N ms (S m) ct y) = lsum f (autClasses w N ms m ct y) + g y) as EX.
  { intros y. rewrite autClasses_S, lsum_app. f_equal. unfold g. destruct (y =? clsAt m); cbn; ring. }
  rewrite (zsum_ext H (fun q => c (- Z.of_nat (H - q)) * lsum f (autClasses w N ms (S m) ct (- Z.of_nat (H - q)))) (fun q => c (- Z.of_nat (H - q)) * lsum f (autClasses w N ms m ct (- Z.of_nat (H - q))) + c (- Z.of_nat (H - q)) * g (- Z.of_nat (H - q)))) by (intros; rewrite EX; ring).
  rewrite (zsum_ext H (fun q => c (Z.of_nat (H - q)) * lsum f (autClasses w N ms (S m) ct (Z.of_nat (H - q)))) (fun q => c (Z.of_nat (H - q)) * lsum f (autClasses w N ms m ct (Z.of_nat (H - q))) + c (Z.of_nat (H - q)) * g (Z.of_nat (H - q)))) by (intros; rewrite EX; ring).
  rewrite !zsum_add, !EX.
  enough (zsum H (fun q => c (- Z.of_nat (H - q)) * g (- Z.of_nat (H - q))) + c M * g M + zsum H (fun q => c (Z.of_nat (H - q)) * g (Z.of_nat (H - q))) + c 0 * g 0 = c (clsAt m) * f m) as X by (rewrite <- X; ring).
  assert (forall y, y <> clsAt m -> g y = 0) as G0 by (intros y Hy; unfold g; destruct (Z.eqb_spec y (clsAt m)); [contradiction|reflexivity]).
  assert (g (clsAt m) = f m) as G1 by (unfold g; now rewrite Z.eqb_refl).
  assert (forall s, (forall q, (q < H)%nat -> s q <> clsAt m) -> zsum H (fun q => c (s q) * g (s q)) = 0) as Z0.
  { intros s Hs. rewrite (zsum_ext H _ (fun _ => 0)); [apply zsum_zero|]. intros q Hq. rewrite G0 by now apply Hs. ring. }
  destruct (clsAt_ok m) as [(i & Hi & Ei & _)|[(i & Hi & Ei & _)|[(Ei & _)|(Ei & _)]]].
  - rewrite (Z0 (fun q => - Z.of_nat (H - q))) by (intros q Hq; rewrite Ei; lia). rewrite (G0 M), (G0 0) by (rewrite Ei; lia).
    rewrite (zsum_single H _ (H - i)); [|lia|intros q Hq Hne; rewrite G0 by (rewrite Ei; lia); ring]. replace (H - (H - i))%nat with i by lia. rewrite Ei in *. rewrite G1. ring.
  - rewrite (Z0 (fun q => Z.of_nat (H - q))) by (intros q Hq; rewrite Ei; lia). rewrite (G0 M), (G0 0) by (rewrite Ei; lia).
    rewrite (zsum_single H _ (H - i)); [|lia|intros q Hq Hne; rewrite G0 by (rewrite Ei; lia); ring]. replace (H - (H - i))%nat with i by lia. rewrite Ei in *. rewrite G1. ring.
  - rewrite (Z0 (fun q => - Z.of_nat (H - q))) by (intros q Hq; rewrite Ei; lia). rewrite (Z0 (fun q => Z.of_nat (H - q))) by (intros q Hq; rewrite Ei; lia). rewrite (G0 0) by (rewrite Ei; lia). rewrite Ei in *. rewrite G1. ring.
  - rewrite (Z0 (fun q => - Z.of_nat (H - q))) by (intros q Hq; rewrite Ei; lia). rewrite (Z0 (fun q => Z.of_nat (H - q))) by (intros q Hq; rewrite Ei; lia). rewrite (G0 M) by (rewrite Ei; lia). rewrite Ei in *. rewrite G1. ring.
Qed.

(** The multiplier of a class. *)
Definition clsMul (y : Z) : Z := if y =? M then -1 else if y <? 0 then - 5 ^ (- y) else 5 ^ y.
Lemma clsMul_spec i : eqm M (clsMul (clsAt i)) (oddAt (S i)).
Proof.
  destruct (tN2 N n Hn HNn) as (h & Eh & _ & Hh & EH). unfold clsMul.
  destruct (clsAt_ok i) as [(j & Hj & -> & E)|[(j & Hj & -> & E)|[(-> & E)|(-> & E)]]].
  - rewrite (proj2 (Z.eqb_neq _ _)) by lia. rewrite (proj2 (Z.ltb_ge _ _)) by lia. now rewrite E.
  - rewrite (proj2 (Z.eqb_neq _ _)) by lia. rewrite (proj2 (Z.ltb_lt _ _)) by lia. rewrite Z.opp_involutive. now rewrite E.
  - rewrite Z.eqb_refl. now rewrite E.
  - rewrite (proj2 (Z.eqb_neq _ _)) by lia. cbn. now rewrite E.
Qed.
End Classes.
