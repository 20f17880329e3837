(** The inverse AVX2 transform: the loops and the whole kernel. *)
From Coq Require Import String Lia Ring_theory.
From Verif Require Import Base ModelNum ModelAsm ModelAsmInt ModelAsmFlt SpecAsm PfAsm PfAsmVec PfAsmVec2 ModelFFT ModelFused SpecAsmFlt PfAsmFlt PfAsmFlt2 PfAsmFFT PfAsmStep PfAsmFFT2 PfAsmFFT4.
Import ListNotations.
Open Scope Z_scope.

(** Multiplying the results of the butterflies of a node multiplies the entries it writes. *)
Section Scale.
Variable A : arith.
Notation T := (car A).
Notation get v i := (nth i v (a0 A)).
Variable post : T -> T.
Variable bf : T -> T -> T -> T -> T -> T -> T * T * T * T.
Notation g x := (post x).
Ltac lanes := first [rewrite nth_upd_other by lia | rewrite nth_upd_eq by (rewrite ?upd_length; lia)].
Lemma block_scaled w j t r s : (8 <= t)%nat -> (j + t + 8 <= length r)%nat -> length s = length r ->
  (forall i, (j <= i < j + 8 \/ j + t <= i < j + t + 8)%nat -> get s i = get r i) ->
  length (block A (scaled post bf) w j t s) = length r /\ length (block A bf w j t r) = length r /\
  (forall i, (j <= i < j + 8 \/ j + t <= i < j + t + 8)%nat -> get (block A (scaled post bf) w j t s) i = g (get (block A bf w j t r) i)) /\
  (forall i, (i < j \/ j + 8 <= i < j + t \/ j + t + 8 <= i)%nat -> get (block A (scaled post bf) w j t s) i = get s i /\ get (block A bf w j t r) i = get r i).
Proof.
  intros Ht Hr Hs Heq.
  destruct (bf (get r j) (get r (j + 4)%nat) (get r (j + t)%nat) (get r (j + t + 4)%nat) (fst w) (snd w)) as [[[x0 y0] z0] u0] eqn:E0.
  destruct (bf (get r (j + 1)%nat) (get r (j + 4 + 1)%nat) (get r (j + t + 1)%nat) (get r (j + t + 4 + 1)%nat) (fst w) (snd w)) as [[[x1 y1] z1] u1] eqn:E1.
  destruct (bf (get r (j + 2)%nat) (get r (j + 4 + 2)%nat) (get r (j + t + 2)%nat) (get r (j + t + 4 + 2)%nat) (fst w) (snd w)) as [[[x2 y2] z2] u2] eqn:E2.
  destruct (bf (get r (j + 3)%nat) (get r (j + 4 + 3)%nat) (get r (j + t + 3)%nat) (get r (j + t + 4 + 3)%nat) (fst w) (snd w)) as [[[x3 y3] z3] u3] eqn:E3.
  rewrite (block_putl A bf w j t r _ _ _ _ _ _ _ _ _ _ _ _ _ _ _ _ Ht Hr E0 E1 E2 E3).
  rewrite (block_putl A (scaled post bf) w j t s (g x0) (g y0) (g z0) (g u0) (g x1) (g y1) (g z1) (g u1) (g x2) (g y2) (g z2) (g u2) (g x3) (g y3) (g z3) (g u3))
    by first [exact Ht | lia | unfold scaled; rewrite !Heq by lia; first [rewrite E0 | rewrite E1 | rewrite E2 | rewrite E3]; reflexivity].
  clear E0 E1 E2 E3. rewrite !putl_length. split; [exact Hs|]. split; [reflexivity|]. cbn [putl]. split.
  - intros i Hi.
    assert (i = j \/ i = j + 1 \/ i = j + 2 \/ i = j + 3 \/ i = j + 4 \/ i = j + 4 + 1 \/ i = j + 4 + 2 \/ i = j + 4 + 3 \/
      i = j + t \/ i = j + t + 1 \/ i = j + t + 2 \/ i = j + t + 3 \/ i = j + t + 4 \/ i = j + t + 4 + 1 \/ i = j + t + 4 + 2 \/ i = j + t + 4 + 3)%nat as HC by lia. clear Hi.
    repeat match type of HC with _ \/ _ => destruct HC as [HC | HC] end; repeat lanes; reflexivity.
  - intros i Hi. split; repeat lanes; reflexivity.
Qed.
Lemma node_scaled w B v : length v = (16 * B)%nat -> node A (scaled post bf) w 0 (8 * B) v = map (fun x => g x) (node A bf w 0 (8 * B) v).
Proof.
  intros Hv. unfold node. assert (EB : ((8 * B + 7) / 8 = B)%nat) by (symmetry; apply (Nat.div_unique _ _ _ 7); lia). rewrite EB.
  set (fs := fun b v => block A (scaled post bf) w (0 + 8 * b) (8 * B) v). set (fr := fun b v => block A bf w (0 + 8 * b) (8 * B) v).
  assert (H : forall b, (b <= B)%nat -> length (forN 0 b fs v) = length v /\ length (forN 0 b fr v) = length v /\
    forall i, get (forN 0 b fs v) i = if (Nat.ltb i (8 * b) || (Nat.leb (8 * B) i && Nat.ltb i (8 * B + 8 * b)))%bool then g (get (forN 0 b fr v) i) else get (forN 0 b fr v) i).
  { induction b as [|b IH]; intros Hb.
    - split; [reflexivity|]. split; [reflexivity|]. intros i. cbn [forN]. destruct (Nat.ltb_spec i (8 * 0)), (Nat.leb_spec (8 * B) i), (Nat.ltb_spec i (8 * B + 8 * 0)); cbn [orb andb]; try lia; reflexivity.
    - destruct (IH ltac:(lia)) as (L1 & L2 & G). rewrite !forN_S_r. cbn [Nat.add].
      destruct (block_scaled w (0 + 8 * b) (8 * B) (forN 0 b fr v) (forN 0 b fs v)) as (L3 & L4 & G1 & G2); [lia|lia|lia| |].
      { intros i Hi. rewrite G. destruct (Nat.ltb_spec i (8 * b)), (Nat.leb_spec (8 * B) i), (Nat.ltb_spec i (8 * B + 8 * b)); cbn [orb andb]; try lia; reflexivity. }
      fold (fs b (forN 0 b fs v)) in L3, G1, G2. fold (fr b (forN 0 b fr v)) in L4, G1, G2.
      split; [lia|]. split; [lia|]. intros i.
      assert (HC : ((0 + 8 * b <= i < 0 + 8 * b + 8 \/ 0 + 8 * b + 8 * B <= i < 0 + 8 * b + 8 * B + 8) \/ (i < 0 + 8 * b \/ 0 + 8 * b + 8 <= i < 0 + 8 * b + 8 * B \/ 0 + 8 * b + 8 * B + 8 <= i))%nat) by lia.
      destruct HC as [HC | HC].
      + rewrite G1 by exact HC. destruct (Nat.ltb_spec i (8 * S b)), (Nat.leb_spec (8 * B) i), (Nat.ltb_spec i (8 * B + 8 * S b)); cbn [orb andb]; try lia; reflexivity.
      + destruct (G2 i HC) as [-> ->]. rewrite G.
        destruct (Nat.ltb_spec i (8 * b)), (Nat.ltb_spec i (8 * S b)), (Nat.leb_spec (8 * B) i), (Nat.ltb_spec i (8 * B + 8 * b)), (Nat.ltb_spec i (8 * B + 8 * S b)); cbn [orb andb]; try lia; reflexivity. }
  destruct (H B (le_n B)) as (L1 & L2 & G). apply (nth_ext _ _ (a0 A) (g (a0 A))); [rewrite map_length; lia|].
  intros i Hi. rewrite (map_nth (fun x => g x)). rewrite G. destruct (Nat.ltb_spec i (8 * B)), (Nat.leb_spec (8 * B) i), (Nat.ltb_spec i (8 * B + 8 * B)); cbn [orb andb]; try lia; reflexivity.
Qed.
End Scale.

Section Inv5.
Variable A : arith.
Notation T := (car A).
Variable F : fops T.
Variables bA bB : bfT T.
Hypothesis X : invOK A F bA bB.
Variable s0 : state T.
Notation m0 := (mm s0).
Variables o tw : gslice.
Variable sc : T.
Hypothesis So : fslice A m0 o.
Hypothesis St : cslice A m0 tw.
Hypothesis D : gb tw <> gb o \/ go tw + 2 * gn tw <= go o \/ go o + gn o <= go tw.
Notation N := (Z.to_nat (gn o)).
Notation M := (Z.to_nat (gn tw)).
Notation W i := (nth i (cvals A m0 tw) (a0 A, a0 A)).
Notation bec := (becomes A o).
Notation E := (mkEnv (frame2c o tw 8 (WF sc)) noData).
Notation p := invFFTInPlaceAVX2.
Notation L l := (lookup l p).
Notation go' := (goes F E p).
Notation K2 := (K2 A o tw).

Lemma inv_first1 s c Bn : N = (8 * Bn)%nat -> (2 * Bn <= M)%nat -> K2 s -> rg s SI = WI 0 -> rg s BX = WI 0 -> bec c m0 (mm s) ->
  exists s', go' (L "first_loop_1_end") s (L "first_loop_1_end") s' /\ K2 s' /\ rg s' SI = zn N /\ rg s' BX = zn (2 * (2 * Bn))%nat /\
    bec (forN 0 Bn (fun b v => half1 A bB (W (2 * b)%nat) (W (2 * b + 1)%nat) (8 * b) v) c) m0 (mm s').
Proof.
  intros EN HM HK Rj Rb Bc. pose proof So as (_ & Sg & Sn & Sb & _). pose proof St as (_ & Tg & Tn & Tb & _).
  match goal with |- context [forN 0 Bn ?f c] => set (body := f) end.
  destruct (loopN F E p (L "first_loop_1_end") (fun b s1 => K2 s1 /\ rg s1 SI = zn (8 * b)%nat /\ rg s1 BX = zn (2 * (2 * b))%nat /\ bec (forN 0 b body c) m0 (mm s1)) Bn) with (s := s) as (s' & G & J1).
  - intros b s1 Hb ((Ra & Rc & Rd) & H1 & H2 & H3).
    set (s2 := setfl s1 (Some (Z.of_nat (8 * b), Z.of_nat N))).
    destruct (inv_body1 A F bA bB X s0 o tw sc So St D s2 (forN 0 b body c) (8 * b) (2 * b)) as (s3 & E3 & D3 & B3 & K3 & M3); try assumption; try lia.
    exists s3. split.
    + eapply goes_trans.
      * eapply goes_goto. rewrite (exJL F E SI DX _ _ s1 (8 * b) N H1 Rd) by lia. cbv zeta. destruct (Nat.ltb_spec (8 * b) N); [reflexivity|lia].
      * apply goes_next. exact E3.
    + split; [split; [rewrite (K3 AX eq_refl); exact Ra|split; [rewrite (K3 CX eq_refl); exact Rc|rewrite (K3 DX eq_refl); exact Rd]]|].
      split; [rewrite D3; do 2 f_equal; lia|]. split; [rewrite B3; do 2 f_equal; lia|]. rewrite forN_S_r. exact M3.
  - split; [exact HK|]. split; [rewrite Rj; reflexivity|]. split; [exact Rb|exact Bc].
  - destruct J1 as (H1 & H2 & H3 & H4). exists s'. split; [exact G|]. split; [exact H1|]. split; [rewrite H2; do 2 f_equal; lia|]. split; [exact H3|exact H4].
Qed.
Lemma inv_first2 s c w0 Bn : N = (8 * Bn)%nat -> (w0 + Bn <= M)%nat -> K2 s -> rg s SI = WI 0 -> rg s BX = zn (2 * w0)%nat -> bec c m0 (mm s) ->
  exists s', go' (L "first_loop_2_end") s (L "first_loop_2_end") s' /\ K2 s' /\ rg s' SI = zn N /\ rg s' BX = zn (2 * (w0 + Bn))%nat /\
    bec (forN 0 Bn (fun b v => half2 A bA (W (w0 + b)%nat) (8 * b) v) c) m0 (mm s').
Proof.
  intros EN HM HK Rj Rb Bc. pose proof So as (_ & Sg & Sn & Sb & _). pose proof St as (_ & Tg & Tn & Tb & _).
  match goal with |- context [forN 0 Bn ?f c] => set (body := f) end.
  destruct (loopN F E p (L "first_loop_2_end") (fun b s1 => K2 s1 /\ rg s1 SI = zn (8 * b)%nat /\ rg s1 BX = zn (2 * (w0 + b))%nat /\ bec (forN 0 b body c) m0 (mm s1)) Bn) with (s := s) as (s' & G & J1).
  - intros b s1 Hb ((Ra & Rc & Rd) & H1 & H2 & H3).
    set (s2 := setfl s1 (Some (Z.of_nat (8 * b), Z.of_nat N))).
    destruct (inv_body2 A F bA bB X s0 o tw sc So St D s2 (forN 0 b body c) (8 * b) (w0 + b)) as (s3 & E3 & D3 & B3 & K3 & M3); try assumption; try lia.
    exists s3. split.
    + eapply goes_trans.
      * eapply goes_goto. rewrite (exJL F E SI DX _ _ s1 (8 * b) N H1 Rd) by lia. cbv zeta. destruct (Nat.ltb_spec (8 * b) N); [reflexivity|lia].
      * apply goes_next. exact E3.
    + split; [split; [rewrite (K3 AX eq_refl); exact Ra|split; [rewrite (K3 CX eq_refl); exact Rc|rewrite (K3 DX eq_refl); exact Rd]]|].
      split; [rewrite D3; do 2 f_equal; lia|]. split; [rewrite B3; do 2 f_equal; lia|]. rewrite forN_S_r. exact M3.
  - split; [exact HK|]. split; [rewrite Rj; reflexivity|]. split; [rewrite Nat.add_0_r; exact Rb|exact Bc].
  - destruct J1 as (H1 & H2 & H3 & H4). exists s'. split; [exact G|]. split; [exact H1|]. split; [rewrite H2; do 2 f_equal; lia|]. split; [exact H3|exact H4].
Qed.

Lemma inv_node s c j1 t B w : t = (8 * B)%nat -> rg s AX = WP (gb o) (8 * go o) -> rg s R9 = zn j1 -> rg s R11 = zn (j1 + t)%nat -> rg s R10 = zn (j1 + t)%nat ->
  vr s 0%nat = YF [fst w; fst w; fst w; fst w] -> vr s 1%nat = YF [snd w; snd w; snd w; snd w] -> bec c m0 (mm s) -> (j1 + 2 * t <= N)%nat ->
  exists s', go' (L "j_loop_end") s (L "j_loop_end") s' /\ rg s' R9 = zn (j1 + t)%nat /\ keeps [R9; R11] s s' /\ bec (node A bA w j1 t c) m0 (mm s').
Proof.
  intros Et Ra Rj Rt Rl V0 V1 Bc HN. pose proof So as (_ & Sg & Sn & Sb & _).
  assert (EB : ((t + 7) / 8 = B)%nat) by (symmetry; apply (Nat.div_unique _ _ _ 7); lia). unfold node. rewrite EB.
  set (body := fun b v => block A bA w (j1 + 8 * b) t v).
  set (J := fun b s1 => rg s1 R9 = zn (j1 + 8 * b)%nat /\ rg s1 R11 = zn (j1 + 8 * b + t)%nat /\ keeps [R9; R11] s s1 /\
    vr s1 0%nat = YF [fst w; fst w; fst w; fst w] /\ vr s1 1%nat = YF [snd w; snd w; snd w; snd w] /\ bec (forN 0 b body c) m0 (mm s1)).
  destruct (loopN F E p (L "j_loop_end") J B) with (s := s) as (s' & G & J1).
  - intros b s1 Hb (H1 & H2 & H3 & H4 & H5 & H6).
    set (s2 := setfl s1 (Some (Z.of_nat (j1 + 8 * b), Z.of_nat (j1 + t)))).
    destruct (inv_body A F bA bB X s0 o tw sc So D s2 (forN 0 b body c) (j1 + 8 * b) t w) as (s3 & E3 & D3 & R3 & K3 & V3 & V3' & B3).
    { change (rg s1 AX = WP (gb o) (8 * go o)). rewrite (H3 AX eq_refl). exact Ra. }
    { exact H1. } { exact H2. } { exact H4. } { exact H5. } { exact H6. } { lia. } { lia. }
    exists s3. split.
    + eapply goes_trans.
      * eapply goes_goto. rewrite (exJL F E R9 R10 _ _ s1 (j1 + 8 * b) (j1 + t) H1) by first [rewrite (H3 R10 eq_refl); exact Rl | lia].
        cbv zeta. destruct (Nat.ltb_spec (j1 + 8 * b) (j1 + t)); [reflexivity|lia].
      * apply goes_next. exact E3.
    + split; [rewrite D3; do 2 f_equal; lia|]. split; [rewrite R3; do 2 f_equal; lia|]. split; [intros r Hr; rewrite (K3 r Hr); exact (H3 r Hr)|].
      split; [rewrite V3; exact H4|]. split; [rewrite V3'; exact H5|]. rewrite forN_S_r. exact B3.
  - split; [rewrite Nat.mul_0_r, Nat.add_0_r; exact Rj|]. split; [rewrite Nat.mul_0_r, Nat.add_0_r; exact Rt|]. split; [apply keeps_refl|]. split; [exact V0|]. split; [exact V1|exact Bc].
  - destruct J1 as (H1 & H2 & H3 & H4 & H5 & H6). exists s'. split; [exact G|]. split; [rewrite H1; do 2 f_equal; lia|]. split; [exact H3|exact H6].
Qed.
Lemma inv_last s c t B w : t = (8 * B)%nat -> rg s AX = WP (gb o) (8 * go o) -> rg s R9 = WI 0 -> rg s R11 = zn t -> rg s CX = zn t ->
  vr s 0%nat = YF [sc; sc; sc; sc] -> vr s 1%nat = YF [fst w; fst w; fst w; fst w] -> vr s 6%nat = YF [snd w; snd w; snd w; snd w] -> bec c m0 (mm s) -> (2 * t <= N)%nat ->
  exists s', go' (L "last_loop_end") s (L "last_loop_end") s' /\ rg s' R9 = zn t /\ keeps [R9; R11] s s' /\ bec (node A (scaled (fun x => fmul F x sc) bA) w 0 t c) m0 (mm s').
Proof.
  intros Et Ra Rj Rt Rl V0 V1 V6 Bc HN. pose proof So as (_ & Sg & Sn & Sb & _).
  assert (EB : ((t + 7) / 8 = B)%nat) by (symmetry; apply (Nat.div_unique _ _ _ 7); lia). unfold node. rewrite EB.
  set (body := fun b v => block A (scaled (fun x => fmul F x sc) bA) w (0 + 8 * b) t v).
  set (J := fun b s1 => rg s1 R9 = zn (8 * b)%nat /\ rg s1 R11 = zn (8 * b + t)%nat /\ keeps [R9; R11] s s1 /\
    vr s1 0%nat = YF [sc; sc; sc; sc] /\ vr s1 1%nat = YF [fst w; fst w; fst w; fst w] /\ vr s1 6%nat = YF [snd w; snd w; snd w; snd w] /\ bec (forN 0 b body c) m0 (mm s1)).
  destruct (loopN F E p (L "last_loop_end") J B) with (s := s) as (s' & G & J1).
  - intros b s1 Hb (H1 & H2 & H3 & H0 & H4 & H5 & H6).
    set (s2 := setfl s1 (Some (Z.of_nat (8 * b), Z.of_nat t))).
    destruct (inv_bodyL A F bA bB X s0 o tw sc So D s2 (forN 0 b body c) (8 * b) t w) as (s3 & E3 & D3 & R3 & K3 & V3 & V3' & V3'' & B3).
    { change (rg s1 AX = WP (gb o) (8 * go o)). rewrite (H3 AX eq_refl). exact Ra. }
    { exact H1. } { exact H2. } { exact H0. } { exact H4. } { exact H5. } { exact H6. } { lia. } { lia. }
    exists s3. split.
    + eapply goes_trans.
      * eapply goes_goto. rewrite (exJL F E R9 CX _ _ s1 (8 * b) t H1) by first [rewrite (H3 CX eq_refl); exact Rl | lia].
        cbv zeta. destruct (Nat.ltb_spec (8 * b) t); [reflexivity|lia].
      * apply goes_next. exact E3.
    + split; [rewrite D3; do 2 f_equal; lia|]. split; [rewrite R3; do 2 f_equal; lia|]. split; [intros r Hr; rewrite (K3 r Hr); exact (H3 r Hr)|].
      split; [rewrite V3; exact H0|]. split; [rewrite V3'; exact H4|]. split; [rewrite V3''; exact H5|]. rewrite forN_S_r. exact B3.
  - split; [exact Rj|]. split; [exact Rt|]. split; [apply keeps_refl|]. split; [exact V0|]. split; [exact V1|]. split; [exact V6|exact Bc].
  - destruct J1 as (H1 & H2 & H3 & H0 & H4 & H5 & H6). exists s'. split; [exact G|]. split; [rewrite H1; do 2 f_equal; lia|]. split; [exact H3|exact H6].
Qed.

Lemma inv_level s c wIdx m t B : t = (8 * B)%nat -> (2 * m * t <= N)%nat -> (wIdx + m <= M)%nat ->
  rg s AX = WP (gb o) (8 * go o) -> rg s CX = WP (gb tw) (8 * go tw) -> rg s SI = zn t -> rg s DI = zn m -> rg s R8 = WI 0 -> rg s BX = zn (2 * wIdx)%nat -> bec c m0 (mm s) ->
  exists s', go' (L "i_loop_end") s (L "i_loop_end") s' /\ rg s' R8 = zn m /\ rg s' BX = zn (2 * (wIdx + m))%nat /\ keeps [BX; R8; R9; R10; R11] s s' /\
    bec (level A bA (cvals A m0 tw) wIdx m t c) m0 (mm s').
Proof.
  intros Et HN HM Ra Rc Rs Rd R8' Rb Bc. pose proof So as (_ & Sg & Sn & Sb & _). pose proof St as (_ & Tg & Tn & Tb & _).
  unfold level. set (body := fun i v => node A bA (W (wIdx + i)%nat) (2 * i * t) t v).
  set (J := fun i s1 => rg s1 R8 = zn i /\ rg s1 BX = zn (2 * (wIdx + i))%nat /\ keeps [BX; R8; R9; R10; R11] s s1 /\ bec (forN 0 i body c) m0 (mm s1)).
  destruct (loopN F E p (L "i_loop_end") J m) with (s := s) as (s' & G & J1).
  - intros i s1 Hi (H1 & H2 & H3 & H4).
    assert (Hit : (2 * i * t + 2 * t <= N)%nat) by nia.
    pose proof (H3 AX eq_refl) as Ra1. rewrite Ra in Ra1. pose proof (H3 CX eq_refl) as Rc1. rewrite Rc in Rc1.
    pose proof (H3 SI eq_refl) as Rs1. rewrite Rs in Rs1. pose proof (H3 DI eq_refl) as Rd1. rewrite Rd in Rd1.
    assert (exists s2, go' (L "i_loop_end") s1 (L "j_loop_end") s2 /\ rg s2 R9 = zn (2 * i * t)%nat /\ rg s2 R11 = zn (2 * i * t + t)%nat /\ rg s2 R10 = zn (2 * i * t + t)%nat /\
      rg s2 BX = zn (2 * (wIdx + S i))%nat /\ keeps [BX; R9; R10; R11] s1 s2 /\
      vr s2 0%nat = YF [fst (W (wIdx + i)%nat); fst (W (wIdx + i)%nat); fst (W (wIdx + i)%nat); fst (W (wIdx + i)%nat)] /\ vr s2 1%nat = YF [snd (W (wIdx + i)%nat); snd (W (wIdx + i)%nat); snd (W (wIdx + i)%nat); snd (W (wIdx + i)%nat)] /\ mm s2 = mm s1) as (s2 & G2 & Q1 & Q2 & Q3 & Q4 & Q5 & Q6 & Q7 & Q8).
    { eexists. split.
      - eapply goes_trans.
        + eapply goes_goto. rewrite (exJL F E R8 DI _ _ s1 i m H1 Rd1) by nia. cbv zeta. destruct (Nat.ltb_spec i m); [reflexivity|lia].
        + eapply goes_goto. runs.
          ldt A (mm s0) o tw St D H4 (wIdx + i)%nat. ldt A (mm s0) o tw St D H4 (wIdx + i)%nat. reflexivity.
      - assert (Z1 : 0 <= Z.of_nat t * Z.of_nat i < 2 ^ 60) by nia.
        assert (Z2 : 2 * (Z.of_nat t * Z.of_nat i) = Z.of_nat (2 * i * t)) by nia.
        fcc. rewrite (wr8 (Z.of_nat t * Z.of_nat i)) by lia. rewrite shl1 by lia. rewrite Z2.
        split; [reflexivity|]. split; [f_equal; rewrite wr8 by lia; lia|]. split; [f_equal; rewrite wr8 by lia; lia|].
        split; [f_equal; rewrite inc_eq by lia; lia|]. split; [keep|]. split; [reflexivity|]. split; reflexivity. }
    destruct (inv_node s2 (forN 0 i body c) (2 * i * t) t B (W (wIdx + i)%nat) Et) as (s3 & G3 & U1 & U2 & U3); try assumption.
    { rewrite (Q5 AX eq_refl). exact Ra1. } { rewrite Q8. exact H4. }
    assert (R10' : rg s3 R10 = zn (2 * i * t + t)%nat) by (rewrite (U2 R10 eq_refl); exact Q3).
    assert (R8'' : rg s3 R8 = zn i) by (rewrite (U2 R8 eq_refl), (Q5 R8 eq_refl); exact H1).
    eexists. split.
    + eapply goes_trans; [exact G2|]. eapply goes_trans; [exact G3|]. eapply goes_next.
      rewrite (exJL F E R9 R10 _ _ s3 (2 * i * t + t) (2 * i * t + t) U1 R10') by lia. cbv zeta. rewrite Nat.ltb_irrefl. runs. reflexivity.
    + split; [fcc; f_equal; rewrite inc_eq by nia; lia|]. split; [fcc; rewrite (U2 BX eq_refl); exact Q4|]. split.
      * intros r Hr. pose proof (H3 r Hr) as E1. destruct r; cbn in Hr; try discriminate Hr; fcc; (unfold keeps in U2, Q5; rewrite U2, Q5 by reflexivity; exact E1).
      * rewrite forN_S_r. exact U3.
  - split; [rewrite R8'; reflexivity|]. split; [rewrite Nat.add_0_r; exact Rb|]. split; [apply keeps_refl|exact Bc].
  - destruct J1 as (H1 & H2 & H3 & H4). exists s'. split; [exact G|]. split; [exact H1|]. split; [exact H2|]. split; [exact H3|exact H4].
Qed.

(** The levels t = 8, 16, ..., N/4; the next factor is number N/2 - 2^(a+1) when there are 2^a nodes. *)
Definition PI (s : state T) (a b : nat) (c : list T) : Prop :=
  K2 s /\ rg s SI = zn (2 ^ b)%nat /\ rg s DI = zn (2 ^ a)%nat /\ rg s BX = zn (2 * (N / 2 - 2 * 2 ^ a))%nat /\ bec c m0 (mm s).
Lemma inv_mid k : N = (2 ^ S k)%nat -> (2 ^ k - 1 <= M)%nat -> forall fuel a b c s, (a + b = k)%nat -> (3 <= b)%nat -> (a <= fuel)%nat -> PI s a b c ->
  exists s' c', go' (L "m_loop_end") s (L "m_loop_end") s' /\ PI s' 0 k c' /\
    invMidB A bA fuel (2 ^ a) (2 ^ b) (N / 2 - 2 * 2 ^ a) (cvals A m0 tw) c = (c', N / 2 - 2)%nat.
Proof.
  intros EN HM. induction fuel as [|fuel IH]; intros a b c s Hab Hb Hf HP.
  { assert (a = 0)%nat by lia. subst a. replace k with b by lia. exists s, c. split; [apply goes_refl|]. split; [exact HP|reflexivity]. }
  destruct a as [|a].
  { replace k with b by lia. exists s, c. split; [apply goes_refl|]. split; [exact HP|reflexivity]. }
  pose proof So as (_ & Sg & Sn & Sb & _). pose proof St as (_ & Tg & Tn & Tb & _).
  assert (Pa : (1 <= 2 ^ a)%nat) by (pose proof (Nat.pow_nonzero 2 a); lia).
  assert (EN2 : N = (4 * 2 ^ a * 2 ^ b)%nat) by (rewrite EN; replace k with (S (a + b)) by lia; cbn [Nat.pow]; rewrite Nat.pow_add_r; lia).
  assert (EB : (2 ^ b = 8 * 2 ^ (b - 3))%nat) by (replace b with (3 + (b - 3))%nat at 1 by lia; rewrite Nat.pow_add_r; reflexivity).
  assert (PB : (1 <= 2 ^ (b - 3))%nat) by (pose proof (Nat.pow_nonzero 2 (b - 3)); lia).
  assert (EH : (N / 2 = 2 * 2 ^ a * 2 ^ b)%nat) by (symmetry; apply (Nat.div_unique _ _ _ 0); lia).
  assert (EHk : (2 ^ k = N / 2)%nat) by (apply (Nat.div_unique_exact _ _); [lia|exact EN]).
  assert (Hab2 : (8 * 2 ^ a <= 2 ^ a * 2 ^ b)%nat) by (clear - EB PB Pa; rewrite EB; nia).
  set (m := (2 ^ S a)%nat) in *. assert (Em : m = (2 * 2 ^ a)%nat) by reflexivity. set (t := (2 ^ b)%nat) in *.
  assert (Hm : (m / 2 = 2 ^ a)%nat) by (symmetry; apply (Nat.div_unique_exact _ _); [lia|exact Em]).
  assert (HmN : (2 * m * t <= N)%nat) by (rewrite EN2, Em; lia).
  assert (HtN : (2 * t <= N)%nat) by (clear - EN2 Pa; nia). assert (HmN' : (2 * m <= N)%nat) by (clear - EN2 Em Hab2; lia).
  destruct HP as ((Ra & Rc & Rdx) & Rs & Rd & Rb & Bc). fold t in Rs. fold m in Rd, Rb.
  assert (Ew : (N / 2 - 2 * m + m = N / 2 - 2 * 2 ^ a)%nat) by (clear - EH Em Hab2; lia).
  assert (exists s2, go' (L "m_loop_end") s (L "i_loop_end") s2 /\ rg s2 R8 = WI 0 /\ keeps [R8] s s2 /\ mm s2 = mm s) as (s2 & G2 & Q2 & Q3 & Q4).
  { eexists. split.
    - eapply goes_trans.
      + eapply goes_goto. rewrite (exJGE F E DI 2 _ _ s m Rd) by lia. cbv zeta. change (Z.to_nat 2) with 2%nat. destruct (Nat.leb_spec 2 m); [reflexivity|lia].
      + eapply goes_goto. runs. reflexivity.
    - fcc. split; [reflexivity|]. split; [keep|reflexivity]. }
  destruct (inv_level s2 c (N / 2 - 2 * m) m t (2 ^ (b - 3)) EB) as (s3 & G3 & U1 & U2 & U3 & U4).
  { exact HmN. } { rewrite Ew. rewrite EHk in HM. clear - HM Pa. lia. } { rewrite (Q3 AX eq_refl). exact Ra. } { rewrite (Q3 CX eq_refl). exact Rc. } { rewrite (Q3 SI eq_refl). exact Rs. } { rewrite (Q3 DI eq_refl). exact Rd. } { exact Q2. }
  { rewrite (Q3 BX eq_refl). exact Rb. } { rewrite Q4. exact Bc. }
  assert (RD3 : rg s3 DI = zn m) by (rewrite (U3 DI eq_refl), (Q3 DI eq_refl); exact Rd).
  assert (RS3 : rg s3 SI = zn t) by (rewrite (U3 SI eq_refl), (Q3 SI eq_refl); exact Rs).
  assert (exists s4, go' (L "i_loop_end") s3 (L "m_loop_end") s4 /\ rg s4 SI = zn (2 ^ S b)%nat /\ rg s4 DI = zn (2 ^ a)%nat /\ keeps [SI; DI] s3 s4 /\ mm s4 = mm s3) as (s4 & G4 & V0 & V1 & V2 & V3).
  { eexists. split.
    - eapply goes_next. rewrite (exJL F E R8 DI _ _ s3 m m U1 RD3) by lia. cbv zeta. rewrite Nat.ltb_irrefl. runs. reflexivity.
    - fcc. split; [f_equal; rewrite shl1 by lia; cbn [Nat.pow]; fold t; lia|]. split; [f_equal; rewrite (shr_nat m 1 2) by first [reflexivity | lia]; rewrite Hm; reflexivity|]. split; [keep|reflexivity]. }
  destruct (IH a (S b) (level A bA (cvals A m0 tw) (N / 2 - 2 * m) m t c) s4) as (s' & c' & G5 & P5 & M5); try lia.
  { unfold keeps in *. split; [split; [rewrite V2, U3, Q3 by reflexivity; exact Ra|split; [rewrite V2, U3, Q3 by reflexivity; exact Rc|rewrite V2, U3, Q3 by reflexivity; exact Rdx]]|].
    split; [exact V0|]. split; [exact V1|]. split; [rewrite V2 by reflexivity; rewrite U2; rewrite Ew; reflexivity|]. rewrite V3. exact U4. }
  exists s', c'. split; [eapply goes_trans; [exact G2|]; eapply goes_trans; [exact G3|]; eapply goes_trans; [exact G4|exact G5]|]. split; [exact P5|].
  cbn [invMidB]. destruct (Nat.leb_spec 2 m); [|lia]. rewrite Hm, Ew. exact M5.
Qed.

Lemma inv_all k : (4 <= k)%nat -> N = (2 ^ k)%nat -> (2 ^ (k - 1) - 1 <= M)%nat ->
  terminates F E p s0 (bec (invFFTB A bA bB (fun x => fmul F x sc) (fvals A m0 o) (cvals A m0 tw)) m0).
Proof.
  intros Hk EN HM. pose proof So as (_ & Sg & Sn & Sb & _). pose proof St as (_ & Tg & Tn & Tb & _).
  set (h := (k - 4)%nat). assert (EN16 : N = (16 * 2 ^ h)%nat) by (rewrite EN; replace k with (4 + h)%nat by (unfold h; lia); rewrite Nat.pow_add_r; reflexivity).
  assert (EM : (2 ^ (k - 1) = 8 * 2 ^ h)%nat) by (replace (k - 1)%nat with (3 + h)%nat by (unfold h; lia); rewrite Nat.pow_add_r; reflexivity).
  assert (Ph : (1 <= 2 ^ h)%nat) by (pose proof (Nat.pow_nonzero 2 h); lia).
  assert (Hh : (N / 2 = 8 * 2 ^ h)%nat) by (symmetry; apply (Nat.div_unique _ _ _ 0); lia).
  assert (H8 : ((N + 7) / 8 = 2 * 2 ^ h)%nat) by (symmetry; apply (Nat.div_unique _ _ _ 7); lia).
  assert (H16 : (N / 16 = 2 ^ h)%nat) by (symmetry; apply (Nat.div_unique _ _ _ 0); lia).
  assert (NB : Z.of_nat N < 2 ^ 62) by lia.
  assert (MW : (8 * 2 ^ h - 1 <= M)%nat) by (rewrite <- EM; exact HM).
  set (v0 := fvals A m0 o). assert (Lv : length v0 = N) by apply fvals_length.
  pose proof (bec0 A m0 o So) as B0. fold v0 in B0.
  (* the first two levels *)
  assert (exists s1, go' p s0 (L "first_loop_1_end") s1 /\ K2 s1 /\ rg s1 SI = WI 0 /\ rg s1 BX = WI 0 /\ mm s1 = m0) as (s1 & G1 & K1 & Q1 & Q2 & Q3).
  { eexists. split.
    - eapply goes_goto. runs. cbn [frame]. change (frame2c o tw 8 (WF sc) 0) with (Some (8, @WP T (gb o) (8 * go o))). change (frame2c o tw 8 (WF sc) 24) with (Some (8, @WP T (gb tw) (8 * go tw))). change (frame2c o tw 8 (WF sc) 8) with (Some (8, @WI T (gn o))).
      runs. reflexivity.
    - split; [split; [reflexivity|split; [reflexivity|fcc; rewrite Z2Nat.id by lia; reflexivity]]|]. split; [reflexivity|]. split; reflexivity. }
  destruct (inv_first1 s1 v0 (2 * 2 ^ h)) as (s2 & G2 & (Ka2 & Kc2 & Kd2) & D2 & B2 & C2); [lia|lia|exact K1|exact Q1|exact Q2|rewrite Q3; exact B0|].
  match type of C2 with bec ?c _ _ => set (c2 := c) in C2 end.
  assert (exists s3, go' (L "first_loop_1_end") s2 (L "first_loop_2_end") s3 /\ K2 s3 /\ rg s3 SI = WI 0 /\ rg s3 BX = zn (2 * (4 * 2 ^ h))%nat /\ mm s3 = mm s2) as (s3 & G3 & K3 & D3 & B3 & M3).
  { eexists. split.
    - eapply goes_goto. rewrite (exJL F E SI DX _ _ s2 N N D2 Kd2) by lia. cbv zeta. rewrite Nat.ltb_irrefl. runs. reflexivity.
    - split; [split; [exact Ka2|split; [exact Kc2|exact Kd2]]|]. split; [reflexivity|]. split; [fcc; rewrite B2; do 2 f_equal; lia|reflexivity]. }
  destruct (inv_first2 s3 c2 (4 * 2 ^ h) (2 * 2 ^ h)) as (s4 & G4 & (Ka4 & Kc4 & Kd4) & D4 & B4 & C4); [lia|lia|exact K3|exact D3|exact B3|rewrite M3; exact C2|].
  match type of C4 with bec ?c _ _ => set (c4 := c) in C4 end.
  (* the middle levels *)
  assert (exists s5, go' (L "first_loop_2_end") s4 (L "m_loop_end") s5 /\ PI s5 h 3 c4) as (s5 & G5 & P5).
  { eexists. split.
    - eapply goes_goto. rewrite (exJL F E SI DX _ _ s4 N N D4 Kd4) by lia. cbv zeta. rewrite Nat.ltb_irrefl. runs. reflexivity.
    - split; [split; [exact Ka4|split; [exact Kc4|exact Kd4]]|]. fcc. rewrite (shr_nat N 4 16 NB) by first [lia | reflexivity]. rewrite H16, Hh.
      split; [reflexivity|]. split; [reflexivity|]. split; [rewrite B4; do 2 f_equal; lia|exact C4]. }
  assert (Ek : S (k - 1) = k) by (clear - Hk; lia).
  destruct (inv_mid (k - 1)) with (fuel := N) (a := h) (b := 3%nat) (c := c4) (s := s5) as (s6 & c6 & G6 & ((Ka6 & Kc6 & Kd6) & Rs & Rd & Rb & Bc) & M6).
  { rewrite Ek. exact EN. } { exact HM. } { unfold h. clear - Hk. lia. } { lia. } { pose proof (Nat.pow_gt_lin_r 2 h). lia. } { exact P5. }
  rewrite Hh in Rb. change (2 * 2 ^ 0)%nat with 2%nat in Rb. set (wi := (8 * 2 ^ h - 2)%nat) in *. assert (Hwi : (wi < M)%nat) by (unfold wi; lia).
  (* the last level *)
  assert (S1 : wrap (8 * 8) (Z.shiftr (Z.of_nat N) (wrap 64 1)) = Z.of_nat (8 * 2 ^ h)) by (rewrite (shr_nat N 1 2 NB) by first [lia | reflexivity]; rewrite Hh; reflexivity).
  assert (exists s7, go' (L "m_loop_end") s6 (L "last_loop_end") s7 /\ rg s7 AX = WP (gb o) (8 * go o) /\ rg s7 R9 = WI 0 /\ rg s7 R11 = zn (8 * 2 ^ h)%nat /\ rg s7 CX = zn (8 * 2 ^ h)%nat /\
    vr s7 0%nat = YF [sc; sc; sc; sc] /\ vr s7 1%nat = YF [fst (W wi); fst (W wi); fst (W wi); fst (W wi)] /\ vr s7 6%nat = YF [snd (W wi); snd (W wi); snd (W wi); snd (W wi)] /\ mm s7 = mm s6)
    as (s7 & G7 & Ra7 & R97 & R117 & Rc7 & V0 & V1 & V6 & M7).
  { eexists. split.
    - eapply goes_goto. change (2 ^ 0)%nat with 1%nat in Rd. rewrite (exJGE F E DI 2 _ _ s6 1 Rd) by lia. cbv zeta. change (Nat.leb (Z.to_nat 2) 1) with false. cbv iota.
      rewrite (ex_bcFP F E 48 0 _ _ sc eq_refl). runs. ldt A (mm s0) o tw St D Bc wi. ldt A (mm s0) o tw St D Bc wi. reflexivity.
    - fcc. rewrite S1. do 7 (split; [first [exact Ka6 | reflexivity]|]). reflexivity. }
  destruct (inv_last s7 c6 (8 * 2 ^ h) (2 ^ h) (W wi) eq_refl Ra7 R97 R117 Rc7 V0 V1 V6) as (s8 & G8 & D8 & K8 & C8); [rewrite M7; exact Bc|lia|].
  assert (Rc8 : rg s8 CX = zn (8 * 2 ^ h)%nat) by (rewrite (K8 CX eq_refl); exact Rc7).
  apply (ends_terminates F E p s0 (setfl s8 (Some (Z.of_nat (8 * 2 ^ h), Z.of_nat (8 * 2 ^ h))))).
  - do 8 (eapply goes_ends; [eassumption|]). eapply ends_done. rewrite (exJL F E R9 CX _ _ s8 (8 * 2 ^ h) (8 * 2 ^ h) D8 Rc8) by lia. cbv zeta. rewrite Nat.ltb_irrefl. reflexivity.
  - cbn [mm setfl]. assert (L6 : length c6 = N) by apply Bc. rewrite node_scaled in C8 by lia.
    assert (EQ : invFFTB A bA bB (fun x => fmul F x sc) v0 (cvals A m0 tw) = map (fun x => fmul F x sc) (node A bA (W wi) 0 (8 * 2 ^ h) c6)).
    { unfold invFFTB. rewrite Lv. rewrite H8, Hh, H16. cbv zeta. fold c2.
      replace (2 * (2 * 2 ^ h))%nat with (4 * 2 ^ h)%nat by lia. fold c4. rewrite Hh in M6. change (2 ^ 3)%nat with 8%nat in M6.
      replace (4 * 2 ^ h + 2 * 2 ^ h)%nat with (8 * 2 ^ h - 2 * 2 ^ h)%nat by lia. rewrite M6. reflexivity. }
    rewrite EQ. exact C8.
Qed.
End Inv5.
