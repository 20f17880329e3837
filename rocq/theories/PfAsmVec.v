(** The integer vector kernels. *)
From Coq Require Import String Lia.
From Verif Require Import Base ModelNum ModelAsm ModelAsmInt SpecAsm PfAsm.
Import ListNotations.
Open Scope Z_scope.

Section Stage.
Context {A : Type}.
Definition upto (o : gslice) (i : Z) : gslice := mkG (gb o) (go o) i (gc o).
Lemma stg0 (o : gslice) f (m : mem A) : window (upto o 0) f m m.
Proof.
  split; [reflexivity|]. intros b i. cbn [gb go gn upto].
  destruct (Nat.eqb b (gb o)), (Z.leb_spec (go o) i), (Z.ltb_spec i (go o + 0)); cbn [andb]; try reflexivity; lia.
Qed.
Lemma stg_read (o v : gslice) f (m0 m : mem A) i k : window (upto o i) f m0 m -> no_fwd o v -> i <= k < gn v ->
  getm m (gb v) (go v + k) = getm m0 (gb v) (go v + k).
Proof.
  intros [_ H] Hf Hk. rewrite H. cbn [gb go gn upto].
  destruct (Nat.eqb_spec (gb v) (gb o)), (Z.leb_spec (go o) (go v + k)), (Z.ltb_spec (go v + k) (go o + i)); cbn [andb]; try reflexivity.
  exfalso. destruct Hf as [Hf|[Hf|Hf]]; [contradiction|lia|lia].
Qed.
Lemma stg_step (o : gslice) f (m0 m : mem A) i l k : window (upto o i) f m0 m -> 0 <= i -> 0 <= k -> k = Z.of_nat (length l) ->
  (forall j, 0 <= j < k -> getm m (gb o) (go o + i + j) <> None) ->
  l = map (fun j => f (i + Z.of_nat j)) (seq 0 (length l)) ->
  exists m', stn m (gb o) (go o + i) l = Some m' /\ window (upto o (i + k)) f m0 m'.
Proof.
  intros [Hz Hw] Hi Hk0 Hk Hn Hl. subst k. destruct (stn_spec (gb o) l m (go o + i) Hn) as (m' & Es & Ez & Eg).
  exists m'. split; [exact Es|]. split; [intros b; rewrite Ez; apply Hz|]. intros b k. rewrite Eg, Hw. cbn [gb go gn upto].
  destruct (Nat.eqb b (gb o)); cbn [andb]; [|reflexivity].
  destruct (Z.leb_spec (go o + i) k), (Z.leb_spec (go o) k), (Z.ltb_spec k (go o + i + Z.of_nat (length l))), (Z.ltb_spec k (go o + (i + Z.of_nat (length l)))), (Z.ltb_spec k (go o + i));
    cbn [andb]; try lia; try reflexivity.
  rewrite Hl, nth_error_map. rewrite (nth_error_nth' _ 0%nat) by (rewrite seq_length; lia). rewrite seq_nth by lia. cbn [option_map].
  f_equal. f_equal. lia.
Qed.
End Stage.

Ltac cc := cbn [ex exec1 src dst arith bsrc addr vget vset vwidth setr setvr setfl setmm rg vr ModelAsm.fl mm rid Nat.eqb branch dop qop shop
  Z.eqb Pos.eqb lookup String.eqb Ascii.eqb Bool.eqb].

Lemma mul64_lane x y :
  let a := wrap 32 ((y mod 2 ^ 32) * (x / 2 ^ 32)) in let b := wrap 32 ((y / 2 ^ 32) * (x mod 2 ^ 32)) in
  wrap 64 (wrap 64 (2 ^ 32 * Z.land b (2 ^ 32 - 1) + wrap 64 (Z.shiftl (a + 2 ^ 32 * b) 32)) + (y mod 2 ^ 32) * (x mod 2 ^ 32)) = (y * x) mod 2 ^ 64.
Proof.
  intros a b. change (2 ^ 32 - 1) with (Z.ones 32). rewrite Z.land_ones by lia.
  rewrite Z.shiftl_mul_pow2 by lia. unfold wrap in *.
  rewrite Zplus_mod_idemp_l, <- Z.add_assoc, (Z.add_comm ((_ * _) mod 2 ^ 64)), Z.add_assoc, Zplus_mod_idemp_r.
  rewrite (Z.mod_small b) by (apply Z.mod_pos_bound; reflexivity). subst a b.
  pose proof (Z.div_mod x (2 ^ 32) ltac:(discriminate)) as Ex. pose proof (Z.div_mod y (2 ^ 32) ltac:(discriminate)) as Ey.
  set (xh := x / 2 ^ 32) in *. set (xl := x mod 2 ^ 32) in *. set (yh := y / 2 ^ 32) in *. set (yl := y mod 2 ^ 32) in *.
  pose proof (Z.div_mod (yl * xh) (2 ^ 32) ltac:(discriminate)) as E1. pose proof (Z.div_mod (yh * xl) (2 ^ 32) ltac:(discriminate)) as E2.
  set (k1 := (yl * xh) / 2 ^ 32) in *. set (r1 := (yl * xh) mod 2 ^ 32) in *. set (k2 := (yh * xl) / 2 ^ 32) in *. set (r2 := (yh * xl) mod 2 ^ 32) in *.
  rewrite Ex, Ey.
  replace ((2 ^ 32 * yh + yl) * (2 ^ 32 * xh + xl)) with (2 ^ 32 * r2 + yl * xl + (r1 + 2 ^ 32 * r2) * 2 ^ 32 + (yh * xh + k1 + k2 - r2) * 2 ^ 64).
  - rewrite Z_mod_plus_full. f_equal.
  - change (2 ^ 64) with (2 ^ 32 * 2 ^ 32). nia.
Qed.

Section Vec.
Context {A : Type}.
Variable F : fops A.
Variable s0 : state A.
Notation m0 := (mm s0).
Variables o v0 v1 : gslice.
Notation n := (gn o).

Lemma islice_get m e g i : @islice A m e g -> 0 <= i < gn g -> getm m (gb g) (go g + i) = Some (WI (ival m g i)) /\ 0 <= ival m g i < 2 ^ (8 * e).
Proof. intros (_ & _ & _ & _ & H) Hi. unfold ival. destruct (H i Hi) as (z & -> & Hz). split; [reflexivity|exact Hz]. Qed.
Lemma no_fwd_refl g : no_fwd g g. Proof. right; left; lia. Qed.

(** Facts about a partially written output. *)
Section Loads.
Variable f : Z -> word A.
Variables (s : state A) (i : Z) (v : gslice) (e : Z).
Hypothesis He : e = 4 \/ e = 8.
Hypothesis W : window (upto o i) f m0 (mm s).
Hypothesis Hi : 0 <= i.
Hypothesis Sv : islice m0 e v.
Hypothesis Fv : no_fwd o v.

Lemma addr_eq : i < 2 ^ 63 -> e * go v + swrap 64 i * e + 0 = e * (go v + i).
Proof. intros H. rewrite swrap64_id by lia. lia. Qed.
Lemma Lv k : 32 = e * k -> i + k <= gn v ->
  vld (mm s) 32 (gb v, e * go v + swrap 64 i * e + 0) =
    Some (YI ((if e =? 4 then fun l => l else splitl) (map (fun j => ival m0 v (i + Z.of_nat j)) (seq 0 (Z.to_nat k))))).
Proof.
  intros Hk Hv. pose proof Sv as (Se & Sg & Sn & Sb & _). rewrite addr_eq by lia.
  assert (G : forall j, 0 <= j < k -> getm (mm s) (gb v) (go v + i + j) = Some (WI (ival m0 v (i + j)))).
  { intros j Hj. rewrite <- Z.add_assoc, (stg_read o v f m0 (mm s) i (i + j) W Fv) by lia.
    apply (islice_get m0 e v (i + j) Sv). lia. }
  destruct He as [-> | ->]; cbn [Z.eqb Pos.eqb].
  - replace k with 8 in * by lia. apply (vld4 (mm s) (gb v) (go v + i) 32 8 (fun j => ival m0 v (i + j))); [|reflexivity|exact G].
    destruct W as [Wz _]. rewrite Wz. exact Se.
  - replace k with 4 in * by lia. apply (vld8 (mm s) (gb v) (go v + i) 32 4 (fun j => ival m0 v (i + j))); [|reflexivity|exact G].
    destruct W as [Wz _]. rewrite Wz. exact Se.
Qed.
Lemma Ls : i < gn v -> ldw (mm s) e (gb v, e * go v + swrap 64 i * e + 0) = Some (WI (ival m0 v i)).
Proof.
  intros Hv. pose proof Sv as (Se & Sg & Sn & Sb & _). rewrite addr_eq by lia. apply ldw_spec; [lia|destruct W as [Wz _]; rewrite Wz; exact Se|].
  rewrite (stg_read o v f m0 (mm s) i i W Fv) by lia. apply (islice_get m0 e v i Sv). lia.
Qed.
End Loads.

Section Stores.
Variable f : Z -> word A.
Variables (s : state A) (i : Z) (e : Z).
Hypothesis He : e = 4 \/ e = 8.
Hypothesis W : window (upto o i) f m0 (mm s).
Hypothesis Hi : 0 <= i.
Hypothesis So : islice m0 e o.
Lemma Wv y k : 32 = e * k -> i + k <= n ->
  (if e =? 4 then firstn 8 (asI F y) else match y with YI l => firstn 4 (joinq l) | YF _ => [] end) = map (fun j => match f (i + Z.of_nat j) with WI z => z | _ => 0 end) (seq 0 (Z.to_nat k)) ->
  (forall j, 0 <= j < n -> exists z, f j = WI z) -> (match y with YI _ => True | _ => False end) ->
  exists m', vst F (mm s) 32 (gb o, e * go o + swrap 64 i * e + 0) y = Some m' /\ window (upto o (i + k)) f m0 m'.
Proof.
  intros Hk Hv Hy Hf Hy'. pose proof So as (Se & Sg & Sn & Sb & _).
  rewrite (swrap64_id i) by lia. replace (e * go o + i * e + 0) with ((go o + i) * e) by lia.
  assert (Hm : map (@WI A) (map (fun j => match f (i + Z.of_nat j) with WI z => z | _ => 0 end) (seq 0 (Z.to_nat k))) = map (fun j => f (i + Z.of_nat j)) (seq 0 (Z.to_nat k))).
  { rewrite map_map. apply map_ext_in. intros j Hj. apply in_seq in Hj. destruct (Hf (i + Z.of_nat j)) as (z & ->); [lia|reflexivity]. }
  assert (G : exists m', stn (mm s) (gb o) (go o + i) (map (fun j => f (i + Z.of_nat j)) (seq 0 (Z.to_nat k))) = Some m' /\ window (upto o (i + k)) f m0 m').
  { apply (stg_step o f m0 (mm s) i _ k W Hi); [lia|rewrite map_length, seq_length; lia| |rewrite map_length, seq_length; reflexivity].
    intros j Hj. rewrite <- Z.add_assoc, (stg_read o o f m0 (mm s) i (i + j) W (no_fwd_refl o)) by lia.
    rewrite (proj1 (islice_get m0 e o (i + j) So ltac:(lia))). discriminate. }
  unfold vst. destruct W as [Wz _]. rewrite Wz, Se. rewrite <- Hm in G. 
  destruct He as [-> | ->]; cbn [Z.eqb Pos.eqb andb] in *.
  - rewrite Z.mod_mul, Z.div_mul by lia. cbn [Z.eqb]. change (Z.to_nat (32 / 4)) with 8%nat. rewrite Hy. exact G.
  - rewrite Z.mod_mul, Z.div_mul by lia. cbn [Z.eqb]. change (Z.to_nat (32 / 8)) with 4%nat. destruct y as [l|l]; [|contradiction].
    rewrite firstn_map, Hy. exact G.
Qed.
Lemma Ws x : i < n -> f i = x ->
  stw (mm s) e (gb o, e * go o + swrap 64 i * e + 0) x = Some (putm (mm s) (gb o) (go o + i) x) /\
  window (upto o (i + 1)) f m0 (putm (mm s) (gb o) (go o + i) x).
Proof.
  intros Hv Hx. pose proof So as (Se & Sg & Sn & Sb & _). rewrite swrap64_id by lia. replace (e * go o + i * e + 0) with (e * (go o + i)) by lia.
  assert (G : getm (mm s) (gb o) (go o + i) <> None).
  { rewrite (stg_read o o f m0 (mm s) i i W (no_fwd_refl o)) by lia. rewrite (proj1 (islice_get m0 e o i So ltac:(lia))). discriminate. }
  split; [apply stw_spec; [lia|destruct W as [Wz _]; rewrite Wz; exact Se|exact G]|].
  destruct (stg_step o f m0 (mm s) i [x] 1 W Hi) as (m' & Em & Wm); [lia|reflexivity| |cbn; rewrite Z.add_0_r, Hx; reflexivity|].
  - intros j Hj. replace (go o + i + j) with (go o + i) by lia. exact G.
  - cbn [stn] in Em. destruct (getm (mm s) (gb o) (go o + i)); [|contradiction]. injection Em as <-. exact Wm.
Qed.
End Stores.

(** A kernel with a vector loop over multiples of k and a scalar loop for the rest. *)
Section Shape.
Variable E : env A.
Variables (pre vb sb : list instr) (lr nr : reg) (e k : Z).
Variable K : state A -> Prop.
Variable f : Z -> word A.
Hypothesis Hk : 0 < k.
Hypothesis Hn : 0 <= n < 2 ^ 59.
Hypothesis Hlr : rid DI <> rid lr.
Hypothesis Hnr : rid DI <> rid nr.
Notation p := [(""%string, pre); ("loop_body"%string, vb);
  ("loop_end"%string, [Ins CMPQ [R DI; R lr]; JL "loop_body"; JMP "leftover_loop_end"]);
  ("leftover_loop_body"%string, sb);
  ("leftover_loop_end"%string, [Ins CMPQ [R DI; R nr]; JL "leftover_loop_body"; RET])].
Definition JJ (s : state A) (i : Z) := K s /\ rg s nr = WI n /\ rg s DI = WI i /\ window (upto o i) f m0 (mm s).
Hypothesis HK : forall s x, K s -> K (setfl s x).
Hypothesis Hpre : exists s1, ex F E pre s0 = Goto "loop_end" s1 /\ K s1 /\ rg s1 nr = WI n /\ rg s1 lr = WI (k * (n / k)) /\ rg s1 DI = WI 0 /\ mm s1 = mm s0.
Hypothesis Hvb : forall s i, JJ s i -> rg s lr = WI (k * (n / k)) -> 0 <= i -> i + k <= n -> exists s', ex F E vb s = Next s' /\ JJ s' (i + k) /\ rg s' lr = WI (k * (n / k)).
Hypothesis Hsb : forall s i, JJ s i -> 0 <= i -> i + 1 <= n -> exists s', ex F E sb s = Next s' /\ JJ s' (i + 1).

Lemma shape : terminates F E p s0 (window o f m0).
Proof.
  destruct Hpre as (s1 & E1 & K1 & N1 & L1 & D1 & M1).
  assert (J1 : JJ s1 0). { split; [exact K1|]. split; [exact N1|]. split; [exact D1|]. rewrite M1. apply stg0. }
  set (lim := k * (n / k)) in *.
  assert (Hlim : 0 <= lim <= n). { subst lim. pose proof (Z.mul_div_le n k Hk). pose proof (Z.div_pos n k ltac:(lia) Hk). nia. }
  assert (Sfl : forall s i x, JJ s i -> JJ (setfl s x) i). { intros s i x (Ka & Kb & Kc & Kd). split; [apply HK; exact Ka|]. split; [exact Kb|]. split; [exact Kc|exact Kd]. }
  (* the vector loop *)
  destruct (loop F E p (lookup "loop_end" p) (fun i s => JJ s i /\ rg s lr = WI lim) k lim) with (t := Z.to_nat (n / k)) (i := 0) (s := s1) as (s2 & G2 & J2 & L2).
  { intros i s Hi Hil [Ji Li]. destruct (Hvb (setfl s (Some (i, lim))) i (Sfl s i _ Ji) Li Hi ltac:(lia)) as (s' & Ev & J' & L').
    exists s'. split; [|split; assumption]. eapply goes_trans; [|eapply goes_next; exact Ev].
    eapply (goes_goto F E p "loop_end" _ _ s "loop_body" (setfl s (Some (i, lim)))).
    destruct Ji as (_ & _ & Di & _). cc. rewrite Di, Li. cc. rewrite !swrap64_id by lia.
    destruct (Z.ltb_spec i lim); [reflexivity|lia]. }
  { lia. } { lia. } { subst lim. rewrite Z2Nat.id by (apply Z.div_pos; lia). lia. } { split; assumption. }
  (* the scalar loop *)
  assert (G3 : goes F E p (lookup "loop_end" p) s2 (lookup "leftover_loop_end" p) (setfl s2 (Some (lim, lim)))).
  { eapply (goes_goto F E p "loop_end" _ _ s2 "leftover_loop_end"). destruct J2 as (_ & _ & Di & _). cc. rewrite Di, L2. cc. rewrite !swrap64_id by lia.
    rewrite Z.ltb_irrefl. reflexivity. }
  destruct (loop F E p (lookup "leftover_loop_end" p) (fun i s => JJ s i) 1 n) with (t := Z.to_nat (n - lim)) (i := lim) (s := setfl s2 (Some (lim, lim))) as (s4 & G4 & J4).
  { intros i s Hi Hil Ji. destruct (Hsb (setfl s (Some (i, n))) i (Sfl s i _ Ji) Hi ltac:(lia)) as (s' & Ev & J').
    exists s'. split; [|assumption]. eapply goes_trans; [|eapply goes_next; exact Ev].
    eapply (goes_goto F E p "leftover_loop_end" _ _ s "leftover_loop_body" (setfl s (Some (i, n)))).
    destruct Ji as (_ & Ni & Di & _). cc. rewrite Di, Ni. cc. rewrite !swrap64_id by lia.
    destruct (Z.ltb_spec i n); [reflexivity|lia]. }
  { lia. } { lia. } { lia. } { apply Sfl. exact J2. }
  apply (ends_terminates F E p s0 (setfl s4 (Some (n, n)))).
  - eapply goes_ends; [eapply (goes_goto F E p ""); exact E1|]. eapply goes_ends; [exact G2|]. eapply goes_ends; [exact G3|]. eapply goes_ends; [exact G4|].
    eapply (ends_done F E p "leftover_loop_end"). destruct J4 as (_ & Ni & Di & _). cc. rewrite Di, Ni. cc. rewrite !swrap64_id by lia. rewrite Z.ltb_irrefl. reflexivity.
  - destruct J4 as (_ & _ & _ & W). cbn [setfl mm]. exact W.
Qed.
End Shape.
End Vec.
