(** The forward AVX2 transform. *)
From Coq Require Import String Lia Ring_theory.
From Verif Require Import Base ModelNum ModelAsm ModelAsmInt ModelAsmFlt SpecAsm PfAsm PfAsmVec PfAsmVec2 ModelFFT ModelFused SpecAsmFlt PfAsmFlt PfAsmFlt2 PfAsmFFT PfAsmStep.
Import ListNotations.
Open Scope Z_scope.

Notation zn x := (WI (Z.of_nat x)).
Ltac runs := repeat fstep.
Ltac adr := first [lia | rewrite swrap64_id by lia; lia | rewrite ?Nat2Z.inj_add; rewrite swrap64_id by lia; lia].
(** Index of a float from the address. *)
Ltac idx x d := lazymatch d with 0 => x | 16 => constr:((x + 2)%nat) | 32 => constr:((x + 4)%nat) | 48 => constr:((x + 6)%nat) end.
Ltac solve_ld A m0 o tw So St D := lazymatch goal with
  | |- vld ?m 32 (gb o, 8 * go o + swrap 64 (Z.of_nat ?x) * 8 + ?d) = _ => let q := idx x d in eapply (bec_ld4 A m0 o So _ m q); [eassumption|lia|adr]
  | |- vld ?m 16 (gb o, 8 * go o + swrap 64 (Z.of_nat ?x) * 8 + ?d) = _ => let q := idx x d in eapply (bec_ld2 A m0 o So _ m q); [eassumption|lia|adr]
  | |- vld ?m 32 (gb tw, 8 * go tw + swrap 64 (Z.of_nat (2 * ?x)) * 8 + _) = _ => eapply (tw_ld4 A m0 o tw St D _ m x); [eassumption|lia|adr]
  | |- vld ?m 16 (gb tw, 8 * go tw + swrap 64 (Z.of_nat (2 * ?x)) * 8 + _) = _ => eapply (tw_ld2 A m0 o tw St D _ m x); [eassumption|lia|adr]
  | |- ldw ?m 8 (gb tw, 8 * go tw + swrap 64 (Z.of_nat (2 * ?x)) * 8 + 0) = _ => eapply (tw_ldr A m0 o tw St D _ m x); [eassumption|lia|adr]
  | |- ldw ?m 8 (gb tw, 8 * go tw + swrap 64 (Z.of_nat (2 * ?x)) * 8 + 8) = _ => eapply (tw_ldi A m0 o tw St D _ m x); [eassumption|lia|adr]
  end.
Ltac ldt A m0 o tw St D B i := match goal with
  | |- context [ldw ?m 8 (gb tw, ?a)] => first [rewrite (tw_ldr A m0 o tw St D _ m i a B) by adr | rewrite (tw_ldi A m0 o tw St D _ m i a B) by adr]
  end; repeat fstep.
Ltac fin := lk; first [eassumption | reflexivity].
Ltac vnorm := cbn [map2 map3 altmap combine fst snd]; bits.
(** Execute one instruction. *)
Ltac stp A m0 o tw So St D :=
  match goal with |- context [ex ?F ?E (Ins ?op ?a :: ?is) ?s = _] =>
    let H := fresh "H" in
    lazymatch constr:((op, a)) with
    | (VMOVUPD, [MI _ _ _ _; Y _]) => eassert (H : ex F E (Ins op a :: is) s = _); [eapply ex_ldY; [fin|fin|lk; solve_ld A m0 o tw So St D]|rewrite H; clear H]
    | (VMOVUPD, [MI _ _ _ _; X _]) => eassert (H : ex F E (Ins op a :: is) s = _); [eapply ex_ldX; [fin|fin|lk; solve_ld A m0 o tw So St D]|rewrite H; clear H]
    | (VBROADCASTSD, [MI _ _ _ _; Y _]) => eassert (H : ex F E (Ins op a :: is) s = _); [eapply ex_bc; [fin|fin|lk; solve_ld A m0 o tw So St D]|rewrite H; clear H]
    | (VMOVUPD, [Y ?n; MI ?d ?b ?i ?c]) =>
        let V := fresh "V" in let Ri := fresh "Ri" in eassert (V : vr s n = YF [_; _; _; _]); [fin|]; eassert (Ri : rg s i = zn _); [fin|];
        match type of Ri with _ = zn ?x => match type of V with _ = YF [?x0; ?x1; ?x2; ?x3] =>
          let q := idx x d in let m' := fresh "m'" in let Em := fresh "Em" in let Bm := fresh "B" in
          match goal with Bo : becomes A o ?cc m0 ?m |- _ => destruct (bec_st4 A F m0 o So cc m q (8 * go o + swrap 64 (Z.of_nat x) * 8 + d) x0 x1 x2 x3 Bo ltac:(lia) ltac:(adr)) as (m' & Em & Bm);
            rewrite (ex_stY F E d b i c n is s (gb o) (8 * go o) (Z.of_nat x) (YF [x0; x1; x2; x3]) m') by first [exact V | exact Ri | lk; first [exact Em | eassumption]];
            clear V Ri Em Bo end end end
    | (VMOVUPD, [X ?n; MI ?d ?b ?i ?c]) =>
        let V := fresh "V" in let Ri := fresh "Ri" in eassert (V : vr s n = YF [_; _; _; _]); [fin|]; eassert (Ri : rg s i = zn _); [fin|];
        match type of Ri with _ = zn ?x => match type of V with _ = YF [?x0; ?x1; ?x2; ?x3] =>
          let q := idx x d in let m' := fresh "m'" in let Em := fresh "Em" in let Bm := fresh "B" in
          match goal with Bo : becomes A o ?cc m0 ?m |- _ => destruct (bec_st2 A F m0 o So cc m q (8 * go o + swrap 64 (Z.of_nat x) * 8 + d) x0 x1 Bo ltac:(lia) ltac:(adr)) as (m' & Em & Bm);
            rewrite (ex_stX F E d b i c n is s (gb o) (8 * go o) (Z.of_nat x) x0 x1 x2 x3 m') by first [exact V | exact Ri | lk; first [exact Em | eassumption]];
            clear V Ri Em Bo end end end
    | (VSHUFPD, [_; Y _; _; _]) => eassert (H : ex F E (Ins op a :: is) s = _); [eapply ex_shY; [fin|fin]|rewrite H; clear H; vnorm]
    | (VSHUFPD, [_; X _; _; _]) => eassert (H : ex F E (Ins op a :: is) s = _); [eapply ex_shX; [fin|fin]|rewrite H; clear H; vnorm]
    | (VFMADD231PD, [X _; _; _]) => eassert (H : ex F E (Ins op a :: is) s = _); [eapply ex_fmaX; [fin|fin|fin]|rewrite H; clear H]
    | (VFNMADD231PD, [X _; _; _]) => eassert (H : ex F E (Ins op a :: is) s = _); [eapply ex_fnmaX; [fin|fin|fin]|rewrite H; clear H]
    | (ADDQ, [I _; R _]) => eassert (H : ex F E (Ins op a :: is) s = _); [eapply ex_addI; [fin|lia|lia]|rewrite H; clear H]
    | (_, [Y _; Y _; Y _]) => eassert (H : ex F E (Ins op a :: is) s = _);
        [first [eapply ex_f2Y; [reflexivity|fin|fin] | eapply ex_f3Y; [reflexivity|fin|fin|fin]]|rewrite H; clear H; cbv beta; rewrite ?asF_YF, ?asF_z; vnorm]
    | (_, [X _; X _; X _]) => eassert (H : ex F E (Ins op a :: is) s = _); [eapply ex_f2X; [reflexivity|fin|fin]|rewrite H; clear H; cbv beta]
    end
  end.
Lemma pair4 {T} (a a' b b' c c' d d' : T) : a = a' -> b = b' -> c = c' -> d = d' -> (a, b, c, d) = (a', b', c', d').
Proof. intros -> -> -> ->. reflexivity. Qed.
Ltac keep := intros r Hr; destruct r; cbn in Hr; try discriminate Hr; reflexivity.

Lemma exJL {T} (F : fops T) E r1 r2 l rest s x y : rg s r1 = zn x -> rg s r2 = zn y -> Z.of_nat x < 2 ^ 62 -> Z.of_nat y < 2 ^ 62 ->
  ex F E (Ins CMPQ [R r1; R r2] :: JL l :: rest) s =
    let s' := setfl s (Some (Z.of_nat x, Z.of_nat y)) in if Nat.ltb x y then Goto l s' else ex F E rest s'.
Proof.
  intros H1 H2 B1 B2. cbn [ex exec1 src]. rewrite H1, H2. cbn [Z.eqb Pos.eqb]. unfold branch. cbn [ModelAsm.fl setfl]. rewrite !swrap64_id by lia.
  cbv zeta. destruct (Z.ltb_spec (Z.of_nat x) (Z.of_nat y)), (Nat.ltb_spec x y); try lia; reflexivity.
Qed.
Lemma exJLE {T} (F : fops T) E r1 r2 l rest s x y : rg s r1 = zn x -> rg s r2 = zn y -> Z.of_nat x < 2 ^ 62 -> Z.of_nat y < 2 ^ 62 ->
  ex F E (Ins CMPQ [R r1; R r2] :: JLE l :: rest) s =
    let s' := setfl s (Some (Z.of_nat x, Z.of_nat y)) in if Nat.leb x y then Goto l s' else ex F E rest s'.
Proof.
  intros H1 H2 B1 B2. cbn [ex exec1 src]. rewrite H1, H2. cbn [Z.eqb Pos.eqb]. unfold branch. cbn [ModelAsm.fl setfl]. rewrite !swrap64_id by lia.
  cbv zeta. destruct (Z.leb_spec (Z.of_nat x) (Z.of_nat y)), (Nat.leb_spec x y); try lia; reflexivity.
Qed.
Lemma shr_nat x c d : Z.of_nat x < 2 ^ 62 -> 0 <= c < 63 -> d = (2 ^ Z.to_nat c)%nat -> wrap (8 * 8) (Z.shiftr (Z.of_nat x) (wrap 64 c)) = Z.of_nat (x / d).
Proof.
  intros H Hc ->. rewrite (wrap64_id c) by lia. rewrite Z.shiftr_div_pow2 by lia. rewrite Nat2Z.inj_div.
  replace (Z.of_nat (2 ^ Z.to_nat c)) with (2 ^ c) by (rewrite Nat2Z.inj_pow, Z2Nat.id by lia; reflexivity).
  change (8 * 8) with 64. apply wrap64_id. pose proof (Z.pow_pos_nonneg 2 c). split; [apply Z.div_pos; lia|].
  assert (Z.of_nat x / 2 ^ c <= Z.of_nat x) by (apply Z.div_le_upper_bound; nia). lia.
Qed.
Lemma shl1 x : 0 <= x < 2 ^ 62 -> wrap (8 * 8) (Z.shiftl x (wrap 64 1)) = 2 * x.
Proof. intros H. change (wrap 64 1) with 1. rewrite Z.shiftl_mul_pow2 by lia. change (8 * 8) with 64. rewrite wrap64_id by lia. lia. Qed.
Lemma wr8 x : 0 <= x < 2 ^ 62 -> wrap (8 * 8) x = x. Proof. intros H. apply wrap64_id. lia. Qed.

(** The butterflies do the operations of the kernel. *)
Definition bfT (T : Type) : Type := T -> T -> T -> T -> T -> T -> T * T * T * T.
Definition fwdOK (A : arith) (F : fops (car A)) (bA bB : bfT (car A)) : Prop :=
  (forall uR uI vR vI wR wI, bA uR uI vR vI wR wI = fwdA F uR uI vR vI wR wI) /\
  (forall uR uI vR vI wR wI, bB uR uI vR vI wR wI = fwdB F uR uI vR vI wR wI).
Definition invOK (A : arith) (F : fops (car A)) (bA bB : bfT (car A)) : Prop :=
  (forall uR uI vR vI wR wI, bA uR uI vR vI wR wI = invA F uR uI vR vI wR wI) /\
  (forall uR uI vR vI wR wI, bB uR uI vR vI wR wI = invB F uR uI vR vI wR wI).

Section Fwd.
Variable A : arith.
Notation T := (car A).
Variable F : fops T.
Variables bA bB : bfT T.
Hypothesis X : fwdOK A F bA bB.
Variable s0 : state T.
Notation m0 := (mm s0).
Variables o tw : gslice.
Hypothesis So : fslice A m0 o.
Hypothesis St : cslice A m0 tw.
Hypothesis D : gb tw <> gb o \/ go tw + 2 * gn tw <= go o \/ go o + gn o <= go tw.
Notation N := (Z.to_nat (gn o)).
Notation M := (Z.to_nat (gn tw)).
Notation W i := (nth i (cvals A m0 tw) (a0 A, a0 A)).
Notation bec := (becomes A o).
Notation E := (mkEnv (frame2 o tw) noData).
Notation p := fwdFFTInPlaceAVX2.
Ltac bfv := rewrite ?(proj1 X), ?(proj2 X); reflexivity.

Definition jbody : list instr := Eval vm_compute in match lookup "j_loop_body" p with (_, b) :: _ => b | [] => [] end.
Lemma fwd_body s c j t w : rg s AX = WP (gb o) (8 * go o) -> rg s DI = zn j -> rg s R8 = zn (j + t)%nat ->
  vr s 0%nat = YF [fst w; fst w; fst w; fst w] -> vr s 1%nat = YF [snd w; snd w; snd w; snd w] -> bec c m0 (mm s) -> (8 <= t)%nat -> (j + t + 8 <= N)%nat ->
  exists s', ex F E jbody s = Next s' /\ rg s' DI = zn (j + 8)%nat /\ rg s' R8 = zn (j + t + 8)%nat /\ keeps [DI; R8] s s' /\
    vr s' 0%nat = vr s 0%nat /\ vr s' 1%nat = vr s 1%nat /\ bec (block A bA w j t c) m0 (mm s').
Proof.
  intros Ra Rj Rt V0 V1 B Ht Hj. pose proof So as (_ & Sg & Sn & Sb & _). assert (Lc : length c = N) by apply B. unfold jbody.
  repeat stp A (mm s0) o tw So St D. cbn [ex]. eexists. split; [reflexivity|]. split; [lk; f_equal; lia|]. split; [lk; f_equal; lia|]. split; [keep|]. split; [reflexivity|]. split; [reflexivity|]. lk.
  erewrite block_putl; [eassumption|exact Ht|lia|bfv..].
Qed.

Notation L l := (lookup l p).
Notation go' := (goes F E p).
Lemma fwd_node lb le rl rest q' : L le = (le, Ins CMPQ [R DI; R rl] :: JL lb :: rest) :: q' -> L lb = (lb, jbody) :: L le ->
  existsb (fun x => Nat.eqb (rid x) (rid rl)) [DI; R8] = false ->
  forall s c j1 t B w, t = (8 * B)%nat -> rg s AX = WP (gb o) (8 * go o) -> rg s DI = zn j1 -> rg s R8 = zn (j1 + t)%nat -> rg s rl = zn (j1 + t)%nat ->
  vr s 0%nat = YF [fst w; fst w; fst w; fst w] -> vr s 1%nat = YF [snd w; snd w; snd w; snd w] -> bec c m0 (mm s) -> (j1 + 2 * t <= N)%nat ->
  exists s', go' (L le) s (L le) s' /\ rg s' DI = zn (j1 + t)%nat /\ keeps [DI; R8] s s' /\ bec (node A bA w j1 t c) m0 (mm s').
Proof.
  intros HLe HLb Hrl s c j1 t B w Et Ra Rj Rt Rl V0 V1 Bc HN. pose proof So as (_ & Sg & Sn & Sb & _).
  assert (EB : ((t + 7) / 8 = B)%nat) by (symmetry; apply (Nat.div_unique _ _ _ 7); lia). unfold node. rewrite EB.
  set (body := fun b v => block A bA w (j1 + 8 * b) t v).
  set (J := fun b s1 => rg s1 DI = zn (j1 + 8 * b)%nat /\ rg s1 R8 = zn (j1 + 8 * b + t)%nat /\ keeps [DI; R8] s s1 /\
    vr s1 0%nat = YF [fst w; fst w; fst w; fst w] /\ vr s1 1%nat = YF [snd w; snd w; snd w; snd w] /\ bec (forN 0 b body c) m0 (mm s1)).
  destruct (loopN F E p (L le) J B) with (s := s) as (s' & G & J1).
  - intros b s1 Hb (H1 & H2 & H3 & H4 & H5 & H6).
    set (s2 := setfl s1 (Some (Z.of_nat (j1 + 8 * b), Z.of_nat (j1 + t)))).
    destruct (fwd_body s2 (forN 0 b body c) (j1 + 8 * b) t w) as (s3 & E3 & D3 & R3 & K3 & V3 & V3' & B3).
    { change (rg s1 AX = WP (gb o) (8 * go o)). rewrite (H3 AX eq_refl). exact Ra. }
    { exact H1. } { exact H2. } { exact H4. } { exact H5. } { exact H6. } { lia. } { lia. }
    exists s3. split.
    + eapply goes_trans.
      * rewrite HLe at 1. eapply goes_goto. rewrite (exJL F E DI rl lb rest s1 (j1 + 8 * b) (j1 + t) H1) by first [rewrite (H3 rl Hrl); exact Rl | lia].
        cbv zeta. destruct (Nat.ltb_spec (j1 + 8 * b) (j1 + t)); [reflexivity|lia].
      * rewrite HLb. apply goes_next. exact E3.
    + split; [rewrite D3; do 2 f_equal; lia|]. split; [rewrite R3; do 2 f_equal; lia|]. split; [intros r Hr; rewrite (K3 r Hr); exact (H3 r Hr)|].
      split; [rewrite V3; exact H4|]. split; [rewrite V3'; exact H5|]. rewrite forN_S_r. exact B3.
  - split; [rewrite Nat.mul_0_r, Nat.add_0_r; exact Rj|]. split; [rewrite Nat.mul_0_r, Nat.add_0_r; exact Rt|]. split; [apply keeps_refl|]. split; [exact V0|]. split; [exact V1|exact Bc].
  - destruct J1 as (H1 & H2 & H3 & H4 & H5 & H6). exists s'. split; [exact G|]. split; [rewrite H1; do 2 f_equal; lia|]. split; [exact H3|exact H6].
Qed.

Lemma fwd_level s c wIdx m t B : t = (8 * B)%nat -> (2 * m * t <= N)%nat -> (wIdx + m <= M)%nat ->
  rg s AX = WP (gb o) (8 * go o) -> rg s CX = WP (gb tw) (8 * go tw) -> rg s R9 = zn t -> rg s R10 = zn m -> rg s R11 = WI 0 -> rg s BX = zn (2 * wIdx)%nat -> bec c m0 (mm s) ->
  exists s', go' (L "i_loop_end") s (L "i_loop_end") s' /\ rg s' R11 = zn m /\ rg s' BX = zn (2 * (wIdx + m))%nat /\ keeps [BX; DI; R8; R11; R12] s s' /\
    bec (level A bA (cvals A m0 tw) wIdx m t c) m0 (mm s').
Proof.
  intros Et HN HM Ra Rc R9' R10' R11' Rb Bc. pose proof So as (_ & Sg & Sn & Sb & _). pose proof St as (_ & Tg & Tn & Tb & _).
  unfold level. set (body := fun i v => node A bA (W (wIdx + i)%nat) (2 * i * t) t v).
  set (J := fun i s1 => rg s1 R11 = zn i /\ rg s1 BX = zn (2 * (wIdx + i))%nat /\ keeps [BX; DI; R8; R11; R12] s s1 /\ bec (forN 0 i body c) m0 (mm s1)).
  destruct (loopN F E p (L "i_loop_end") J m) with (s := s) as (s' & G & J1).
  - intros i s1 Hi (H1 & H2 & H3 & H4).
    assert (Hit : (2 * i * t + 2 * t <= N)%nat) by nia.
    pose proof (H3 AX eq_refl) as Ra1. rewrite Ra in Ra1. pose proof (H3 CX eq_refl) as Rc1. rewrite Rc in Rc1.
    pose proof (H3 R9 eq_refl) as R91. rewrite R9' in R91. pose proof (H3 R10 eq_refl) as R101. rewrite R10' in R101.
    assert (exists s2, go' (L "i_loop_end") s1 (L "j_loop_end") s2 /\ rg s2 DI = zn (2 * i * t)%nat /\ rg s2 R8 = zn (2 * i * t + t)%nat /\ rg s2 R12 = zn (2 * i * t + t)%nat /\
      rg s2 BX = zn (2 * (wIdx + S i))%nat /\ keeps [BX; DI; R8; R12] s1 s2 /\
      vr s2 0%nat = YF [fst (W (wIdx + i)%nat); fst (W (wIdx + i)%nat); fst (W (wIdx + i)%nat); fst (W (wIdx + i)%nat)] /\ vr s2 1%nat = YF [snd (W (wIdx + i)%nat); snd (W (wIdx + i)%nat); snd (W (wIdx + i)%nat); snd (W (wIdx + i)%nat)] /\ mm s2 = mm s1) as (s2 & G2 & Q1 & Q2 & Q3 & Q4 & Q5 & Q6 & Q7 & Q8).
    { eexists. split.
      - eapply goes_trans.
        + eapply goes_goto. rewrite (exJL F E R11 R10 _ _ s1 i m H1 R101) by nia. cbv zeta. destruct (Nat.ltb_spec i m); [reflexivity|lia].
        + eapply goes_goto. runs.
          ldt A (mm s0) o tw St D H4 (wIdx + i)%nat. ldt A (mm s0) o tw St D H4 (wIdx + i)%nat. reflexivity.
      - assert (Z1 : 0 <= Z.of_nat t * Z.of_nat i < 2 ^ 60) by nia.
        assert (Z2 : 2 * (Z.of_nat t * Z.of_nat i) = Z.of_nat (2 * i * t)) by nia.
        fcc. rewrite (wr8 (Z.of_nat t * Z.of_nat i)) by lia. rewrite shl1 by lia. rewrite Z2.
        split; [reflexivity|]. split; [f_equal; rewrite wr8 by lia; lia|]. split; [f_equal; rewrite wr8 by lia; lia|].
        split; [f_equal; rewrite inc_eq by lia; lia|]. split; [keep|]. split; [reflexivity|]. split; reflexivity. }
    destruct (fwd_node "j_loop_body" "j_loop_end" R12 [Ins ADDQ [I 1; R R11]] (L "i_loop_end") eq_refl eq_refl eq_refl s2 (forN 0 i body c) (2 * i * t) t B (W (wIdx + i)%nat) Et)
      as (s3 & G3 & U1 & U2 & U3); try assumption.
    { rewrite (Q5 AX eq_refl). exact Ra1. } { rewrite Q8. exact H4. }
    assert (R12' : rg s3 R12 = zn (2 * i * t + t)%nat) by (rewrite (U2 R12 eq_refl); exact Q3).
    assert (R11'' : rg s3 R11 = zn i) by (rewrite (U2 R11 eq_refl), (Q5 R11 eq_refl); exact H1).
    eexists. split.
    + eapply goes_trans; [exact G2|]. eapply goes_trans; [exact G3|]. eapply goes_next.
      rewrite (exJL F E DI R12 _ _ s3 (2 * i * t + t) (2 * i * t + t) U1 R12') by lia. cbv zeta. rewrite Nat.ltb_irrefl. runs. reflexivity.
    + split; [fcc; f_equal; rewrite inc_eq by nia; lia|]. split; [fcc; rewrite (U2 BX eq_refl); exact Q4|]. split.
      * intros r Hr. pose proof (H3 r Hr) as E1. destruct r; cbn in Hr; try discriminate Hr; fcc; (unfold keeps in U2, Q5; rewrite U2, Q5 by reflexivity; exact E1).
      * rewrite forN_S_r. exact U3.
  - split; [rewrite R11'; reflexivity|]. split; [rewrite Nat.add_0_r; exact Rb|]. split; [apply keeps_refl|exact Bc].
  - destruct J1 as (H1 & H2 & H3 & H4). exists s'. split; [exact G|]. split; [exact H1|]. split; [exact H2|]. split; [exact H3|exact H4].
Qed.

Definition P (s : state T) (a b : nat) (c : list T) : Prop :=
  rg s AX = WP (gb o) (8 * go o) /\ rg s CX = WP (gb tw) (8 * go tw) /\ rg s DX = zn N /\ rg s SI = zn (N / 16)%nat /\ rg s R9 = zn (2 ^ b)%nat /\
  rg s R10 = zn (2 ^ a)%nat /\ rg s BX = zn (2 * (2 ^ a - 1))%nat /\ bec c m0 (mm s).
Lemma fwd_mid k : N = (2 ^ k)%nat -> (2 ^ (k - 1) - 1 <= M)%nat -> forall fuel b a c s, (a + b = k)%nat -> (3 <= b)%nat -> (b <= fuel + 3)%nat -> P s a b c ->
  exists s' c', go' (L "m_loop_end") s (L "m_loop_end") s' /\ P s' (k - 3) 3 c' /\
    fwdMidB A bA fuel N (2 ^ a) (2 ^ b) (2 ^ a - 1) (cvals A m0 tw) c = (c', 2 ^ (k - 3) - 1)%nat.
Proof.
  intros EN HM. induction fuel as [|fuel IH]; intros b a c s Hab Hb Hf HP.
  { assert (b = 3)%nat by lia. subst b. replace (k - 3)%nat with a by lia. exists s, c. split; [apply goes_refl|]. split; [exact HP|reflexivity]. }
  pose proof So as (_ & Sg & Sn & Sb & _). pose proof St as (_ & Tg & Tn & Tb & _).
  assert (Pa : (1 <= 2 ^ a)%nat) by (pose proof (Nat.pow_nonzero 2 a); lia).
  destruct (Nat.eq_dec b 3) as [-> | Hb3].
  { replace (k - 3)%nat with a by lia. exists s, c. split; [apply goes_refl|]. split; [exact HP|]. cbn [fwdMidB].
    replace (N / 16)%nat with (2 ^ a / 2)%nat.
    - destruct (Nat.leb_spec (2 ^ a) (2 ^ a / 2)) as [H |]; [|reflexivity]. pose proof (Nat.div_lt (2 ^ a) 2). lia.
    - rewrite EN. replace k with (3 + a)%nat by lia. rewrite Nat.pow_add_r. change 16%nat with (2 ^ 3 * 2)%nat. rewrite Nat.div_mul_cancel_l by lia. reflexivity. }
  destruct b as [|b]; [lia|].
  assert (EN2 : N = (2 * 2 ^ a * 2 ^ b)%nat) by (rewrite EN; replace k with (S (a + b)) by lia; cbn [Nat.pow]; rewrite Nat.pow_add_r; lia).
  assert (EB : (2 ^ b = 8 * 2 ^ (b - 3))%nat) by (replace b with (3 + (b - 3))%nat at 1 by lia; rewrite Nat.pow_add_r; reflexivity).
  assert (PB : (1 <= 2 ^ (b - 3))%nat) by (pose proof (Nat.pow_nonzero 2 (b - 3)); lia).
  assert (Hle : (2 ^ a <= N / 16)%nat) by (apply Nat.div_le_lower_bound; [lia|]; nia).
  assert (HN16 : (N / 16 <= N)%nat) by (apply Nat.div_le_upper_bound; lia).
  assert (Hm2 : (2 ^ a + 2 ^ a <= 2 ^ (k - 1))%nat).
  { replace (2 ^ a + 2 ^ a)%nat with (2 ^ S a)%nat by (cbn [Nat.pow]; lia). apply Nat.pow_le_mono_r; lia. }
  assert (HaN : (2 * 2 ^ a <= N)%nat) by nia. assert (HbN : (2 * 2 ^ b <= N)%nat) by nia.
  assert (Ehalf : (2 ^ S b / 2 = 2 ^ b)%nat) by (cbn [Nat.pow]; rewrite Nat.mul_comm; apply Nat.div_mul; lia).
  pose proof HP as (Ra & Rc & Rd & Rs & R9' & R10' & Rb & Bc).
  set (m := (2 ^ a)%nat) in *. set (t := (2 ^ b)%nat) in *.
  assert (Ew : (m - 1 + m = 2 ^ S a - 1)%nat) by (cbn [Nat.pow]; fold m; clear - Pa; lia).
  assert (exists s2, go' (L "m_loop_end") s (L "i_loop_end") s2 /\ rg s2 R9 = zn t /\ rg s2 R11 = WI 0 /\ keeps [R9; R11] s s2 /\ mm s2 = mm s) as (s2 & G2 & Q1 & Q2 & Q3 & Q4).
  { eexists. split.
    - eapply goes_trans.
      + eapply goes_goto. rewrite (exJLE F E R10 SI _ _ s m (N / 16) R10' Rs) by lia. cbv zeta. destruct (Nat.leb_spec m (N / 16)); [reflexivity|lia].
      + eapply goes_goto. runs. reflexivity.
    - fcc. split; [f_equal; rewrite (shr_nat _ 1 2) by first [reflexivity | cbn [Nat.pow]; lia]; rewrite Ehalf; reflexivity|]. split; [reflexivity|]. split; [keep|reflexivity]. }
  destruct (fwd_level s2 c (m - 1) m t (2 ^ (b - 3)) EB) as (s3 & G3 & U1 & U2 & U3 & U4).
  { lia. } { lia. } { rewrite (Q3 AX eq_refl). exact Ra. } { rewrite (Q3 CX eq_refl). exact Rc. } { exact Q1. } { rewrite (Q3 R10 eq_refl). exact R10'. } { exact Q2. }
  { rewrite (Q3 BX eq_refl). exact Rb. } { rewrite Q4. exact Bc. }
  assert (R103 : rg s3 R10 = zn m) by (rewrite (U3 R10 eq_refl), (Q3 R10 eq_refl); exact R10').
  assert (exists s4, go' (L "i_loop_end") s3 (L "m_loop_end") s4 /\ rg s4 R10 = zn (2 * m)%nat /\ keeps [R10] s3 s4 /\ mm s4 = mm s3) as (s4 & G4 & V1 & V2 & V3).
  { eexists. split.
    - eapply goes_next. rewrite (exJL F E R11 R10 _ _ s3 m m U1 R103) by lia. cbv zeta. rewrite Nat.ltb_irrefl. runs. reflexivity.
    - fcc. split; [f_equal; rewrite shl1 by lia; lia|]. split; [keep|reflexivity]. }
  destruct (IH b (S a) (level A bA (cvals A m0 tw) (m - 1) m t c) s4) as (s' & c' & G5 & P5 & M5); try lia.
  { unfold keeps in *. split; [rewrite V2, U3, Q3 by reflexivity; exact Ra|]. split; [rewrite V2, U3, Q3 by reflexivity; exact Rc|].
    split; [rewrite V2, U3, Q3 by reflexivity; exact Rd|]. split; [rewrite V2, U3, Q3 by reflexivity; exact Rs|].
    split; [rewrite V2, U3 by reflexivity; exact Q1|]. split; [rewrite V1; reflexivity|].
    split; [rewrite V2 by reflexivity; rewrite U2; do 2 f_equal; rewrite Ew; reflexivity|]. rewrite V3. exact U4. }
  exists s', c'. split; [eapply goes_trans; [exact G2|]; eapply goes_trans; [exact G3|]; eapply goes_trans; [exact G4|exact G5]|]. split; [exact P5|].
  cbn [fwdMidB]. destruct (Nat.leb_spec m (N / 16)); [|lia]. cbv zeta. rewrite Ehalf. rewrite Ew. exact M5.
Qed.

(** The last two levels, inside blocks of 8. *)
Definition body2 : list instr := Eval vm_compute in match L "last_loop_2_body" with (_, b) :: _ => b | [] => [] end.
Definition body1 : list instr := Eval vm_compute in match L "last_loop_1_body" with (_, b) :: _ => b | [] => [] end.
Definition K2 (s : state T) : Prop := rg s AX = WP (gb o) (8 * go o) /\ rg s CX = WP (gb tw) (8 * go tw) /\ rg s DX = zn N.
Lemma fwd_body2 s c j wi : rg s AX = WP (gb o) (8 * go o) -> rg s CX = WP (gb tw) (8 * go tw) -> rg s DI = zn j -> rg s BX = zn (2 * wi)%nat ->
  bec c m0 (mm s) -> (j + 8 <= N)%nat -> (wi < M)%nat ->
  exists s', ex F E body2 s = Next s' /\ rg s' DI = zn (j + 8)%nat /\ rg s' BX = zn (2 * wi + 2)%nat /\ keeps [DI; BX] s s' /\
    bec (half2 A bA (W wi) j c) m0 (mm s').
Proof.
  intros Ra Rc Rj Rb B Hj Hw. pose proof So as (_ & Sg & Sn & Sb & _). pose proof St as (_ & Tg & Tn & Tb & _). assert (Lc : length c = N) by apply B. unfold body2.
  repeat stp A (mm s0) o tw So St D. cbn [ex]. eexists. split; [reflexivity|]. split; [lk; f_equal; lia|]. split; [lk; f_equal; lia|]. split; [keep|]. lk.
  erewrite half2_putl; [eassumption|lia|bfv..].
Qed.
Lemma fwd_body1 s c j wi : rg s AX = WP (gb o) (8 * go o) -> rg s CX = WP (gb tw) (8 * go tw) -> rg s DI = zn j -> rg s BX = zn (2 * wi)%nat ->
  vr s 0%nat = YI (repeat 0 8) -> bec c m0 (mm s) -> (j + 8 <= N)%nat -> (S wi < M)%nat ->
  exists s', ex F E body1 s = Next s' /\ rg s' DI = zn (j + 8)%nat /\ rg s' BX = zn (2 * wi + 4)%nat /\ keeps [DI; BX] s s' /\ vr s' 0%nat = vr s 0%nat /\
    bec (half1 A bB (W wi) (W (wi + 1)%nat) j c) m0 (mm s').
Proof.
  intros Ra Rc Rj Rb V0 B Hj Hw. pose proof So as (_ & Sg & Sn & Sb & _). pose proof St as (_ & Tg & Tn & Tb & _). assert (Lc : length c = N) by apply B. unfold body1.
  repeat stp A (mm s0) o tw So St D. cbn [ex]. eexists. split; [reflexivity|]. split; [lk; f_equal; lia|]. split; [lk; f_equal; lia|]. split; [keep|]. split; [reflexivity|]. lk.
  erewrite half1_putl; [eassumption|lia|bfv..].
Qed.
Lemma fwd_last2 s c w0 Bn : N = (8 * Bn)%nat -> (w0 + Bn <= M)%nat -> K2 s -> rg s DI = WI 0 -> rg s BX = zn (2 * w0)%nat -> bec c m0 (mm s) ->
  exists s', go' (L "last_loop_2_end") s (L "last_loop_2_end") s' /\ K2 s' /\ rg s' DI = zn N /\ rg s' BX = zn (2 * (w0 + Bn))%nat /\
    bec (forN 0 Bn (fun b v => half2 A bA (W (w0 + b)%nat) (8 * b) v) c) m0 (mm s').
Proof.
  intros EN HM HK Rj Rb Bc. pose proof So as (_ & Sg & Sn & Sb & _). pose proof St as (_ & Tg & Tn & Tb & _).
  match goal with |- context [forN 0 Bn ?f c] => set (body := f) end.
  destruct (loopN F E p (L "last_loop_2_end") (fun b s1 => K2 s1 /\ rg s1 DI = zn (8 * b)%nat /\ rg s1 BX = zn (2 * (w0 + b))%nat /\ bec (forN 0 b body c) m0 (mm s1)) Bn) with (s := s) as (s' & G & J1).
  - intros b s1 Hb ((Ra & Rc & Rd) & H1 & H2 & H3).
    set (s2 := setfl s1 (Some (Z.of_nat (8 * b), Z.of_nat N))).
    destruct (fwd_body2 s2 (forN 0 b body c) (8 * b) (w0 + b)) as (s3 & E3 & D3 & B3 & K3 & M3); try assumption; try lia.
    exists s3. split.
    + eapply goes_trans.
      * eapply goes_goto. rewrite (exJL F E DI DX _ _ s1 (8 * b) N H1 Rd) by lia. cbv zeta. destruct (Nat.ltb_spec (8 * b) N); [reflexivity|lia].
      * apply goes_next. exact E3.
    + split; [split; [rewrite (K3 AX eq_refl); exact Ra|split; [rewrite (K3 CX eq_refl); exact Rc|rewrite (K3 DX eq_refl); exact Rd]]|].
      split; [rewrite D3; do 2 f_equal; lia|]. split; [rewrite B3; do 2 f_equal; lia|]. rewrite forN_S_r. exact M3.
  - split; [exact HK|]. split; [rewrite Rj; reflexivity|]. split; [rewrite Nat.add_0_r; exact Rb|exact Bc].
  - destruct J1 as (H1 & H2 & H3 & H4). exists s'. split; [exact G|]. split; [exact H1|]. split; [rewrite H2; do 2 f_equal; lia|]. split; [exact H3|exact H4].
Qed.
Lemma fwd_last1 s c w0 Bn : N = (8 * Bn)%nat -> (w0 + 2 * Bn <= M)%nat -> K2 s -> rg s DI = WI 0 -> rg s BX = zn (2 * w0)%nat -> vr s 0%nat = YI (repeat 0 8) -> bec c m0 (mm s) ->
  exists s', go' (L "last_loop_1_end") s (L "last_loop_1_end") s' /\ K2 s' /\ rg s' DI = zn N /\
    bec (forN 0 Bn (fun b v => half1 A bB (W (w0 + 2 * b)%nat) (W (w0 + 2 * b + 1)%nat) (8 * b) v) c) m0 (mm s').
Proof.
  intros EN HM HK Rj Rb V0 Bc. pose proof So as (_ & Sg & Sn & Sb & _). pose proof St as (_ & Tg & Tn & Tb & _).
  match goal with |- context [forN 0 Bn ?f c] => set (body := f) end.
  destruct (loopN F E p (L "last_loop_1_end") (fun b s1 => K2 s1 /\ rg s1 DI = zn (8 * b)%nat /\ rg s1 BX = zn (2 * (w0 + 2 * b))%nat /\ vr s1 0%nat = YI (repeat 0 8) /\ bec (forN 0 b body c) m0 (mm s1)) Bn) with (s := s) as (s' & G & J1).
  - intros b s1 Hb ((Ra & Rc & Rd) & H1 & H2 & HV & H3).
    set (s2 := setfl s1 (Some (Z.of_nat (8 * b), Z.of_nat N))).
    destruct (fwd_body1 s2 (forN 0 b body c) (8 * b) (w0 + 2 * b)) as (s3 & E3 & D3 & B3 & K3 & V3 & M3); try assumption; try lia.
    exists s3. split.
    + eapply goes_trans.
      * eapply goes_goto. rewrite (exJL F E DI DX _ _ s1 (8 * b) N H1 Rd) by lia. cbv zeta. destruct (Nat.ltb_spec (8 * b) N); [reflexivity|lia].
      * apply goes_next. exact E3.
    + split; [split; [rewrite (K3 AX eq_refl); exact Ra|split; [rewrite (K3 CX eq_refl); exact Rc|rewrite (K3 DX eq_refl); exact Rd]]|].
      split; [rewrite D3; do 2 f_equal; lia|]. split; [rewrite B3; do 2 f_equal; lia|]. split; [rewrite V3; exact HV|]. rewrite forN_S_r. exact M3.
  - split; [exact HK|]. split; [rewrite Rj; reflexivity|]. split; [rewrite Nat.add_0_r; exact Rb|]. split; [exact V0|exact Bc].
  - destruct J1 as (H1 & H2 & H3 & H4 & H5). exists s'. split; [exact G|]. split; [exact H1|]. split; [rewrite H2; do 2 f_equal; lia|exact H5].
Qed.
End Fwd.
