(** Lemmas: euclidean norms of complex numbers and of vectors. *)
From Verif Require Import Base.
From Coq Require Import Reals Lra Lia.
Open Scope R_scope.

Definition hyp (a b : R) : R := sqrt (a * a + b * b).
Lemma hyp_nn a b : 0 <= hyp a b. Proof. apply sqrt_pos. Qed.
Lemma sq_nn a : 0 <= a * a. Proof. nra. Qed.
Lemma hyp_sq a b : hyp a b * hyp a b = a * a + b * b.
Proof. unfold hyp. apply sqrt_sqrt. pose proof (sq_nn a). pose proof (sq_nn b). lra. Qed.
Lemma le_of_sq a b : 0 <= b -> a * a <= b * b -> a <= b.
Proof. intros Hb H. destruct (Rle_dec a b) as [|C]; [assumption|]. exfalso. nra. Qed.
Lemma hyp_le a b c d : Rabs a <= c -> Rabs b <= d -> hyp a b <= hyp c d.
Proof.
  intros H1 H2. apply le_of_sq; [apply hyp_nn|]. rewrite !hyp_sq.
  assert (a * a <= c * c). { rewrite <- (Rabs_pos_eq (a * a)) by apply sq_nn. rewrite Rabs_mult. pose proof (Rabs_pos a). nra. }
  assert (b * b <= d * d). { rewrite <- (Rabs_pos_eq (b * b)) by apply sq_nn. rewrite Rabs_mult. pose proof (Rabs_pos b). nra. }
  lra.
Qed.
Lemma hyp_abs a b : hyp (Rabs a) (Rabs b) = hyp a b.
Proof.
  unfold hyp. f_equal. rewrite <- !Rabs_mult, !Rabs_pos_eq by apply sq_nn. reflexivity.
Qed.
Lemma hyp_fst a b : Rabs a <= hyp a b.
Proof. apply le_of_sq; [apply hyp_nn|]. rewrite hyp_sq, <- Rabs_mult, Rabs_pos_eq by apply sq_nn. pose proof (sq_nn b). lra. Qed.
Lemma hyp_snd a b : Rabs b <= hyp a b.
Proof. apply le_of_sq; [apply hyp_nn|]. rewrite hyp_sq, <- Rabs_mult, Rabs_pos_eq by apply sq_nn. pose proof (sq_nn a). lra. Qed.
Lemma hyp_sum a b : hyp a b <= Rabs a + Rabs b.
Proof.
  pose proof (Rabs_pos a). pose proof (Rabs_pos b). apply le_of_sq; [lra|]. rewrite <- hyp_abs, hyp_sq. nra.
Qed.
Lemma hyp_scale c a b : hyp (c * a) (c * b) = Rabs c * hyp a b.
Proof.
  unfold hyp. replace (c * a * (c * a) + c * b * (c * b)) with ((c * c) * (a * a + b * b)) by ring. pose proof (sq_nn a). pose proof (sq_nn b). rewrite sqrt_mult by (try apply sq_nn; lra).
  f_equal. rewrite <- sqrt_Rsqr_abs. reflexivity.
Qed.
Lemma cauchy a b c d : a * b + c * d <= hyp a c * hyp b d.
Proof.
  apply le_of_sq; [apply Rmult_le_pos; apply hyp_nn|].
  replace (hyp a c * hyp b d * (hyp a c * hyp b d)) with ((hyp a c * hyp a c) * (hyp b d * hyp b d)) by ring. rewrite !hyp_sq.
  pose proof (sq_nn (a * d - b * c)). nra.
Qed.
Lemma hyp_tri a b c d : hyp (a + b) (c + d) <= hyp a c + hyp b d.
Proof.
  pose proof (hyp_nn a c). pose proof (hyp_nn b d). apply le_of_sq; [lra|].
  rewrite hyp_sq. replace ((hyp a c + hyp b d) * (hyp a c + hyp b d)) with (hyp a c * hyp a c + hyp b d * hyp b d + 2 * (hyp a c * hyp b d)) by ring.
  rewrite !hyp_sq. pose proof (cauchy a b c d). lra.
Qed.

(** Complex numbers. *)
Notation Cx := (R * R)%type.
Definition Cadd (x y : Cx) : Cx := (fst x + fst y, snd x + snd y).
Definition Csub (x y : Cx) : Cx := (fst x - fst y, snd x - snd y).
Definition Cmul (x y : Cx) : Cx := (fst x * fst y - snd x * snd y, fst x * snd y + snd x * fst y).
Definition nm (z : Cx) : R := hyp (fst z) (snd z).
Lemma nm_nn z : 0 <= nm z. Proof. apply hyp_nn. Qed.
Lemma nm_sq z : nm z * nm z = fst z * fst z + snd z * snd z. Proof. apply hyp_sq. Qed.
Lemma nm_tri x y : nm (Cadd x y) <= nm x + nm y. Proof. apply hyp_tri. Qed.
Lemma nm_opp x : nm (- fst x, - snd x) = nm x.
Proof. unfold nm. cbn [fst snd]. rewrite <- hyp_abs, !Rabs_Ropp. apply hyp_abs. Qed.
Lemma nm_sub_tri x y : nm (Csub x y) <= nm x + nm y.
Proof. rewrite <- (nm_opp y). eapply Rle_trans; [|apply nm_tri]. right. unfold Csub, Cadd. cbn [fst snd]. f_equal; f_equal; ring. Qed.
Lemma nm_dist x y z : nm (Csub x z) <= nm (Csub x y) + nm (Csub y z).
Proof. eapply Rle_trans; [|apply nm_tri]. right. unfold nm, Csub, Cadd. cbn [fst snd]. f_equal; ring. Qed.
Lemma nm_le_dist x y : nm x <= nm y + nm (Csub x y).
Proof. eapply Rle_trans; [|apply nm_tri]. right. unfold nm, Csub, Cadd. cbn [fst snd]. f_equal; ring. Qed.
Lemma nm_mul x y : nm (Cmul x y) = nm x * nm y.
Proof.
  assert (H : forall a b, 0 <= a -> 0 <= b -> a * a = b * b -> a = b) by (intros a b Ha Hb E; apply Rle_antisym; apply le_of_sq; lra).
  apply H; [apply nm_nn|apply Rmult_le_pos; apply nm_nn|].
  replace (nm x * nm y * (nm x * nm y)) with ((nm x * nm x) * (nm y * nm y)) by ring. rewrite !nm_sq. unfold Cmul. cbn [fst snd]. ring.
Qed.

(** Vectors. *)
Fixpoint l2 (n : nat) (r : nat -> R) : R := match n with O => 0 | S n => hyp (l2 n r) (r n) end.
Fixpoint sm (n : nat) (r : nat -> R) : R := match n with O => 0 | S n => sm n r + r n end.
Lemma l2_nn n r : 0 <= l2 n r. Proof. destruct n; [cbn; lra|apply hyp_nn]. Qed.
Lemma l2_sq n r : l2 n r * l2 n r = sm n (fun k => r k * r k).
Proof. induction n as [|n IH]; cbn [l2 sm]; [ring|]. rewrite hyp_sq, IH. reflexivity. Qed.
Lemma l2_le n r s : (forall k, (k < n)%nat -> Rabs (r k) <= s k) -> l2 n r <= l2 n s.
Proof.
  induction n as [|n IH]; intros H; cbn [l2]; [lra|]. apply hyp_le.
  - rewrite Rabs_pos_eq by apply l2_nn. apply IH. intros; apply H; lia.
  - apply H. lia.
Qed.
Lemma l2_ext n r s : (forall k, (k < n)%nat -> r k = s k) -> l2 n r = l2 n s.
Proof. induction n as [|n IH]; intros H; cbn [l2]; [reflexivity|]. rewrite IH by (intros; apply H; lia). rewrite H by lia. reflexivity. Qed.
Lemma l2_tri n r s : l2 n (fun k => r k + s k) <= l2 n r + l2 n s.
Proof.
  induction n as [|n IH]; cbn [l2]; [lra|]. eapply Rle_trans; [|apply hyp_tri]. rewrite <- (hyp_abs (l2 n r + l2 n s)). apply hyp_le; [|lra].
  rewrite !Rabs_pos_eq; [exact IH|pose proof (l2_nn n r); pose proof (l2_nn n s); lra|apply l2_nn].
Qed.
Lemma l2_scale n c r : 0 <= c -> l2 n (fun k => c * r k) = c * l2 n r.
Proof. intros Hc. induction n as [|n IH]; cbn [l2]; [ring|]. rewrite IH, hyp_scale, Rabs_pos_eq by exact Hc. reflexivity. Qed.
Lemma l2_at n r k : (k < n)%nat -> Rabs (r k) <= l2 n r.
Proof.
  induction n as [|n IH]; intros H; [lia|]. cbn [l2]. destruct (Nat.eq_dec k n) as [-> | ]; [apply hyp_snd|].
  eapply Rle_trans; [apply IH; lia|]. eapply Rle_trans; [|apply hyp_fst]. apply Rle_abs.
Qed.
Lemma l2_const n c : 0 <= c -> l2 n (fun _ => c) <= INR n * c.
Proof.
  intros Hc. induction n as [|n IH]; [cbn; lra|]. rewrite S_INR. cbn [l2]. eapply Rle_trans; [apply hyp_sum|].
  rewrite !Rabs_pos_eq by (try apply l2_nn; assumption). lra.
Qed.
Lemma l2_const_sqrt n c : 0 <= c -> l2 n (fun _ => c) = sqrt (INR n) * c.
Proof.
  intros Hc. apply Rle_antisym; apply le_of_sq; try (apply l2_nn); try (apply Rmult_le_pos; [apply sqrt_pos|exact Hc]);
    rewrite l2_sq; replace (sqrt (INR n) * c * (sqrt (INR n) * c)) with ((sqrt (INR n) * sqrt (INR n)) * (c * c)) by ring;
    rewrite sqrt_sqrt by apply pos_INR; right; induction n as [|n IH]; cbn [sm]; rewrite ?S_INR; try (cbn; ring); lra.
Qed.

Lemma sm_app a b f : sm (a + b) f = sm a f + sm b (fun k => f (a + k)%nat).
Proof. induction b as [|b IH]; [rewrite Nat.add_0_r; cbn [sm]; ring|]. rewrite Nat.add_succ_r. cbn [sm]. rewrite IH. ring. Qed.
Lemma sm_le n f g : (forall k, (k < n)%nat -> f k <= g k) -> sm n f <= sm n g.
Proof. induction n as [|n IH]; intros H; cbn [sm]; [lra|]. pose proof (H n ltac:(lia)). specialize (IH ltac:(intros; apply H; lia)). lra. Qed.
Lemma sm_plus n f g : sm n (fun k => f k + g k) = sm n f + sm n g.
Proof. induction n as [|n IH]; cbn [sm]; [ring|]. rewrite IH. ring. Qed.
Lemma sm_scale n c f : sm n (fun k => c * f k) = c * sm n f.
Proof. induction n as [|n IH]; cbn [sm]; [ring|]. rewrite IH. ring. Qed.
(** Sums over pairs (k, k+h). *)
Lemma sm_pairs h f g : (0 < h)%nat -> forall m, (forall k, (k < 2 * h * m)%nat -> (k mod (2 * h) < h)%nat -> f k + f (k + h)%nat <= g k + g (k + h)%nat) ->
  sm (2 * h * m) f <= sm (2 * h * m) g.
Proof.
  intros Hh. induction m as [|m IH]; intros H; [rewrite Nat.mul_0_r; cbn [sm]; lra|].
  replace (2 * h * S m)%nat with (2 * h * m + (h + h))%nat by lia. rewrite !sm_app.
  assert (sm (2 * h * m) f <= sm (2 * h * m) g) by (apply IH; intros; apply H; [lia|assumption]).
  assert (sm h (fun k => f (2 * h * m + k)%nat) + sm h (fun k => f (2 * h * m + (h + k))%nat) <= sm h (fun k => g (2 * h * m + k)%nat) + sm h (fun k => g (2 * h * m + (h + k))%nat)); [|lra].
  rewrite <- !sm_plus. apply sm_le. intros k Hk.
  replace (2 * h * m + (h + k))%nat with (2 * h * m + k + h)%nat by lia. apply H; [lia|].
  replace (2 * h * m + k)%nat with (k + m * (2 * h))%nat by lia. rewrite Nat.mod_add by lia. rewrite Nat.mod_small by lia. exact Hk.
Qed.
