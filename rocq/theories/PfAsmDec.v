(** The decomposition kernels. *)
From Coq Require Import String Lia.
From Verif Require Import Base ModelNum ModelGadget SpecGadget PfGadget ModelAsm ModelAsmInt SpecAsm SpecAsmDec PfAsm PfAsmVec.
Import ListNotations.
Open Scope Z_scope.

(** ** Lanes *)
Lemma map2_map {B C D} (f : B -> C -> D) (a : nat -> B) (b : nat -> C) l : map2 f (map a l) (map b l) = map (fun j => f (a j) (b j)) l.
Proof. induction l as [|x l IH]; cbn; [reflexivity|]. now rewrite IH. Qed.
Lemma land_split (a b : nat -> Z) l : map2 (fun x y => Z.land y x) (splitl (map a l)) (splitl (map b l)) = splitl (map (fun j => Z.land (b j) (a j)) l).
Proof.
  induction l as [|x l IH]; [reflexivity|]. cbn [map splitl flat_map splitq app map2]. fold (splitl (map a l)) (splitl (map b l)).
  rewrite IH. f_equal; [|f_equal].
  - rewrite <- !Z.land_ones by lia. apply Z.bits_inj'. intros i _. rewrite !Z.land_spec. now destruct (Z.testbit (a x) i), (Z.testbit (b x) i), (Z.testbit (Z.ones 32) i).
  - rewrite <- !Z.shiftr_div_pow2 by lia. symmetry. apply Z.shiftr_land.
Qed.

Section Dec.
Context {A : Type}.
Variable F : fops A.
Variable s0 : state A.
Notation m0 := (mm s0).
Variable g : gadget.
Variables h p : gslice.
Variable d : Z -> gslice.
Variable e : Z.
Hypothesis He : e = 4 \/ e = 8.
Hypothesis Hg : gadget_ok (8 * e) g.
Hypothesis HL : gn h = Z.of_nat (g_level g).
Hypothesis Hp : polys m0 e h d.
Hypothesis Sp : islice m0 e p.
Hypothesis Ha : apart h p d.
Notation w := (8 * e).
Notation L := (gn h).
Notation n := (gn p).
Notation x i := (ival m0 p i).
Notation dig j i := (nthZ (DecomposeScalar w g (x i)) (Z.to_nat j)).
Notation f := (fun j i => dig j i).

Lemma dig_eq j i : 0 <= j < L -> dig j i = fst (digitStep w g (uiter g (Z.to_nat (L - 1 - j)) (u0 w g (x i)))).
Proof.
  intros Hj. unfold DecomposeScalar. destruct (DecomposeScalarTo_nth w g Hg (repeat 0 (g_level g)) (x i)) as (_ & H & _); [rewrite repeat_length; lia|].
  rewrite H by lia. rewrite fst_step by exact Hg. unfold sdig. do 3 f_equal. lia.
Qed.

(** One vector store into polynomial j. *)
Lemma dec_store (B : Z -> Z) s j i k y : written L d B f m0 (mm s) -> 0 <= j < L -> B j = i -> 0 <= i -> (forall j, 0 <= j < L -> 0 <= B j <= n) ->
  32 = e * k -> i + k <= n ->
  y = YI ((if e =? 4 then fun l => l else splitl) (map (fun q => dig j (i + Z.of_nat q)) (seq 0 (Z.to_nat k)))) ->
  exists m', vst F (mm s) 32 (gb (d j), e * go (d j) + swrap 64 i * e + 0) y = Some m' /\
    written L d (fun j' => if j' =? j then i + k else B j') f m0 m'.
Proof.
  intros (Wz & Ww & Wo) Hj HB Hi Hbn Hk Hik Hy. destruct Hp as (_ & _ & _ & Hpj). destruct (Hpj j Hj) as (_ & Sd). pose proof Sd as (Se & Sg & Sn & Sb & Sc).
  destruct Ha as (Ha1 & Ha2). destruct (Ha1 j Hj) as (_ & Hnj & _).
  set (l := map (fun q => @WI A (dig j (i + Z.of_nat q))) (seq 0 (Z.to_nat k))).
  assert (Hlen : Z.of_nat (length l) = k). { unfold l. rewrite map_length, seq_length. lia. }
  destruct (stn_spec (gb (d j)) l (mm s) (go (d j) + i)) as (m' & Es & Ez & Eg).
  { intros q Hq. rewrite Hlen in Hq. destruct (Z.lt_ge_cases (i + q) (B j)) as [Hlt|Hge]; [rewrite <- Z.add_assoc, Ww by lia; discriminate|].
    rewrite Wo. - rewrite <- Z.add_assoc. destruct (Sc (i + q)) as (z & -> & _); [lia|discriminate].
    - intros j' Hj' (Eb & Er). destruct (Z.eq_dec j' j) as [-> | Hne]; [lia|].
      pose proof (Hbn j' Hj'). destruct (Ha2 j j' Hj Hj' ltac:(lia)) as [H3|[H3|H3]]; [contradiction|lia|lia]. }
  exists m'. split.
  - unfold vst. rewrite Wz, Se. rewrite (swrap64_id i) by lia. replace (e * go (d j) + i * e + 0) with ((go (d j) + i) * e) by lia. subst y.
    destruct He as [-> | ->]; cbn [Z.eqb Pos.eqb andb asI].
    + rewrite Z.mod_mul, Z.div_mul by lia. cbn [Z.eqb]. rewrite <- Es. f_equal. unfold l. replace k with 8 by lia. change (Z.to_nat (32 / 4)) with 8%nat.
      rewrite firstn_all2 by (rewrite map_length, seq_length; lia). now rewrite map_map.
    + rewrite Z.mod_mul, Z.div_mul by lia. cbn [Z.eqb]. rewrite <- Es. f_equal. unfold l. replace k with 4 by lia. change (Z.to_nat (32 / 8)) with 4%nat.
      rewrite joinq_splitl. rewrite firstn_all2 by (rewrite !map_length, seq_length; lia). now rewrite map_map.
  - split; [intros b; rewrite Ez; apply Wz|]. split.
    + intros j' q Hj' Hq. rewrite Eg. destruct (Nat.eqb_spec (gb (d j')) (gb (d j))) as [Eb|Nb]; cbn [andb].
      2:{ apply Ww; [exact Hj'|]. destruct (Z.eqb_spec j' j) as [-> | _]; [congruence|exact Hq]. }
      destruct (Z.eqb_spec j' j) as [-> | Hne].
      * destruct (Z.leb_spec (go (d j) + i) (go (d j) + q)), (Z.ltb_spec (go (d j) + q) (go (d j) + i + Z.of_nat (length l))); cbn [andb]; try lia.
        -- unfold l. rewrite nth_error_map. rewrite (nth_error_nth' _ 0%nat) by (rewrite seq_length; lia). rewrite seq_nth by lia. cbn [option_map]. do 4 f_equal. f_equal. f_equal. lia.
        -- apply Ww; [exact Hj|lia].
      * pose proof (Hbn j' Hj'). destruct (Z.leb_spec (go (d j) + i) (go (d j') + q)), (Z.ltb_spec (go (d j') + q) (go (d j) + i + Z.of_nat (length l))); cbn [andb]; try (apply Ww; assumption).
        exfalso. destruct (Ha2 j' j Hj' Hj Hne) as [H3|[H3|H3]]; [contradiction|lia|lia].
    + intros b q Hq. rewrite Eg. destruct (Nat.eqb_spec b (gb (d j))) as [Eb|Nb]; cbn [andb].
      * pose proof (Hq j Hj) as Hqj. rewrite Z.eqb_refl in Hqj.
        destruct (Z.leb_spec (go (d j) + i) q), (Z.ltb_spec q (go (d j) + i + Z.of_nat (length l))); cbn [andb]; try (exfalso; apply Hqj; split; [exact Eb|lia]);
          (apply Wo; intros j' Hj' (Eb' & Hr); destruct (Z.eq_dec j' j) as [-> | Hne]; [apply Hqj; split; [exact Eb|lia]|
             apply (Hq j' Hj'); destruct (Z.eqb_spec j' j); [contradiction|]; split; [exact Eb'|exact Hr]]).
      * apply Wo. intros j' Hj' (Eb' & Hr). apply (Hq j' Hj'). destruct (Z.eqb_spec j' j) as [-> | _]; [contradiction|]. split; assumption.
Qed.

Lemma dec_load (B : Z -> Z) s i k : written L d B f m0 (mm s) -> (forall j, 0 <= j < L -> B j = i) -> 0 <= i -> 32 = e * k -> i + k <= n ->
  vld (mm s) 32 (gb p, e * go p + swrap 64 i * e + 0) = Some (YI ((if e =? 4 then fun l => l else splitl) (map (fun q => x (i + Z.of_nat q)) (seq 0 (Z.to_nat k))))).
Proof.
  intros (Wz & Ww & Wo) HB Hi Hk Hik. pose proof Sp as (Se & Sg & Sn & Sb & _). rewrite (swrap64_id i) by lia. replace (e * go p + i * e + 0) with (e * (go p + i)) by lia.
  assert (G : forall q, 0 <= q < k -> getm (mm s) (gb p) (go p + i + q) = Some (WI (x (i + q)))).
  { intros q Hq. rewrite Wo.
    - rewrite <- Z.add_assoc. apply (islice_get m0 e p (i + q) Sp). lia.
    - intros j Hj (Eb & Hr). rewrite (HB j Hj) in Hr. destruct Ha as (Ha1 & _). destruct (Ha1 j Hj) as (_ & _ & Hf). destruct Hf as [Hf|[Hf|Hf]]; [contradiction|lia|lia]. }
  destruct He as [-> | ->]; cbn [Z.eqb Pos.eqb].
  - replace k with 8 in * by lia. apply (vld4 (mm s) (gb p) (go p + i) 32 8 (fun q => x (i + q))); [|reflexivity|exact G]. rewrite Wz. exact Se.
  - replace k with 4 in * by lia. apply (vld8 (mm s) (gb p) (go p + i) 32 4 (fun q => x (i + q))); [|reflexivity|exact G]. rewrite Wz. exact Se.
Qed.
Lemma dec_head (B : Z -> Z) s j : written L d B f m0 (mm s) -> 0 <= j < L ->
  ldw (mm s) 8 (gb h, 8 * go h + swrap 64 (3 * j) * 8 + 0) = Some (WP (gb (d j)) (e * go (d j))).
Proof.
  intros (Wz & Ww & Wo) Hj. destruct Hp as (Pe & Pg & Pb & Hpj). destruct (Hpj j Hj) as (Hd & _).
  rewrite swrap64_id by lia. replace (8 * go h + 3 * j * 8 + 0) with (8 * (go h + 3 * j)) by lia. apply ldw_spec; [lia|rewrite Wz; exact Pe|].
  rewrite Wo; [exact Hd|]. intros j' Hj' (Eb & _). destruct Ha as (Ha1 & _). destruct (Ha1 j' Hj') as (Hb & _). congruence.
Qed.
End Dec.
