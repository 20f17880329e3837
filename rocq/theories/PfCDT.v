(** Lemmas: a sum of non-negative floats does not decrease, and the table built from it does not either. *)
From Coq Require Import Lia Floats.SpecFloat.
From Verif Require Import Base ModelNum ModelAsm ModelF64 ModelFFT ModelF64Arith PfF64 PfF64b PfF64d SpecRound PfRound PfValid ModelSampler SpecSampler ModelCDT SpecCDT.
From Coq Require Import Reals Lra.
Open Scope Z_scope.

(** The shape of a rounded result: signed, valid, and at least the truncated mantissa. *)
Definition shape (s : bool) (b : f64) (y : R) (f : Z) : Prop :=
  vb b = true /\ (b = S754_infinity s \/ exists q, 0 <= q /\ (y < IZR q + 1)%R /\
    ((b = S754_zero s /\ q = 0) \/ exists p f2, b = S754_finite s p f2 /\ (IZR (Zpos p) * pw f2 = IZR q * pw f)%R)).
Lemma BRA_shape s m e l y : inb (shr_record_of_loc m l) y -> e <= fexp64 (Zdigits2 m + e) ->
  shape s (BRA s m e l) (y * pw (- (fexp64 (Zdigits2 m + e) - e))) (fexp64 (Zdigits2 m + e)).
Proof.
  intros Hy Hf. set (f := fexp64 (Zdigits2 m + e)) in *.
  assert (Em : shr_m (shr_record_of_loc m l) = m) by (destruct l as [|[]]; reflexivity).
  pose proof (inb_bounds _ _ Hy) as By. rewrite Em in By.
  assert (Hm : 0 <= m) by (destruct Hy as [Hy _]; rewrite Em in Hy; exact Hy).
  destruct (inb_shr _ e (f - e) _ ltac:(lia) Hy) as [Hi He']. destruct (shr (shr_record_of_loc m l) e (f - e)) as [mr e'] eqn:E.
  cbn [fst snd] in Hi, He'. subst e'. pose proof (inb_bounds _ _ Hi) as Bi. destruct (inb_round _ _ Hi) as (N0 & _ & N2 & _).
  set (q := round_nearest_even (shr_m mr) (loc_of_shr_record mr)) in *.
  assert (EB : BRA s m e l = let '(mr2, f2) := shr_fexp 53 1024 q f loc_Exact in
    match shr_m mr2 with Z0 => S754_zero s | Zpos p => if Zle_bool f2 (1024 - 53) then S754_finite s p f2 else S754_infinity s | Zneg _ => S754_nan end).
  { unfold binary_round_aux. change (shr_fexp 53 1024 m e l) with (shr (shr_record_of_loc m l) e (f - e)). rewrite E.
    replace (e + (f - e)) with f by lia. fold q. reflexivity. }
  rewrite EB. clear EB. destruct (Zdigits_bounds m Hm) as (D0 & D1 & D2).
  assert (Hy2 : (y < pw (Zdigits2 m))%R).
  { eapply Rlt_le_trans; [apply By|]. rewrite <- pw_IZR by lia. change 1%R with (IZR 1). rewrite <- plus_IZR. apply IZR_le. lia. }
  assert (Hq : q <= 2 ^ 53).
  { assert (shr_m mr < 2 ^ 53); [|lia]. apply lt_IZR. rewrite pw_IZR by lia. eapply Rle_lt_trans; [apply Bi|].
    apply Rlt_le_trans with (pw (Zdigits2 m) * pw (- (f - e)))%R; [apply Rmult_lt_compat_r; [apply pw_pos|assumption]|].
    rewrite <- pw_add. apply pw_le. unfold f. rewrite fexp_def. lia. }
  assert (Hq2 : -1074 < f -> 2 ^ 52 <= q).
  { intros Cf. assert (f = Zdigits2 m + e - 53) as Ef by (revert Cf; unfold f; rewrite fexp_def; lia).
    assert (Hm1 : 0 < m). { destruct (Z.eq_dec m 0) as [Z0|]; [|lia]. rewrite Z0 in Ef. cbn in Ef. lia. }
    destruct (D2 Hm1) as (D3 & D4). assert (2 ^ 52 < shr_m mr + 1); [|lia]. apply lt_IZR. rewrite plus_IZR. eapply Rle_lt_trans; [|apply Bi].
    rewrite pw_IZR by lia. replace 52 with (Zdigits2 m - 1 + - (f - e)) at 1 by lia. rewrite pw_add. apply Rmult_le_compat_r; [apply Rlt_le, pw_pos|].
    apply Rle_trans with (IZR m); [|apply By]. rewrite <- pw_IZR by lia. apply IZR_le. exact D3. }
  assert (Hfm : -1074 <= f) by (unfold f; rewrite fexp_def; lia).
  assert (Hyq : (y * pw (- (f - e)) < IZR q + 1)%R).
  { eapply Rlt_le_trans; [apply Bi|]. apply Rplus_le_compat_r, IZR_le. lia. }
  clearbody q f. clear Bi Hi E mr N2. rewrite shr_fexp_exact.
  destruct (Z.le_gt_cases (fexp64 (Zdigits2 q + f)) f) as [C|C].
  - rewrite shr_neg by lia. cbn [shr_m]. destruct q as [|p|p]; [| |lia].
    + split; [reflexivity|]. right. exists 0. split; [lia|]. split; [exact Hyq|]. left. split; reflexivity.
    + destruct (Z.leb f (1024 - 53)) eqn:Ef; [|split; [reflexivity|left; reflexivity]]. split.
      * apply vb_intro; [|apply Z.leb_le in Ef; lia].
        destruct (Z.eq_dec f (-1074)) as [C1|C1]; [rewrite fexp_def in *; lia|].
        pose proof (digits_ge (Zpos p) 52 (Hq2 ltac:(lia)) ltac:(lia)). rewrite fexp_def in *. lia.
      * right. exists (Zpos p). split; [lia|]. split; [exact Hyq|]. right. exists p, f. split; reflexivity.
  - assert (q = 2 ^ 53).
    { destruct (Z.eq_dec q (2 ^ 53)) as [|Hn]; [assumption|]. exfalso. rewrite fexp_def in C.
      destruct (Zdigits_bounds q ltac:(lia)) as (E0 & E1 & E2).
      destruct (Z.eq_dec q 0) as [-> | H0]; [cbn in C; lia|]. destruct (E2 ltac:(lia)) as (E3 & E4).
      assert (2 ^ (Zdigits2 q - 1) < 2 ^ 53) by lia. apply (Z.pow_lt_mono_r_iff 2) in H; lia. }
    subst q. replace (Zdigits2 (2 ^ 53)) with 54 by reflexivity. rewrite fexp_def. replace (Z.max (54 + f - 53) (-1074) - f) with 1 by lia.
    change (shr (rec0 (2 ^ 53)) f 1) with (rec0 (2 ^ 52), f + 1). cbn [shr_m].
    change (2 ^ 52) with (Zpos (2 ^ 52)). destruct (Z.leb (f + 1) (1024 - 53)) eqn:Ef; [|split; [reflexivity|left; reflexivity]]. split.
    + apply vb_intro; [|apply Z.leb_le in Ef; lia].
      replace (Zdigits2 (Zpos (2 ^ 52))) with 53 by reflexivity. rewrite fexp_def. lia.
    + right. exists (2 ^ 53). split; [lia|]. split; [exact Hyq|]. right. exists (2 ^ 52)%positive, (f + 1). split; [reflexivity|].
      rewrite pw_add, pw_1. replace (2 ^ 53) with (Zpos (2 ^ 52) * 2) by reflexivity. rewrite mult_IZR. ring.
Qed.

Lemma BR_shape s m e : 0 < m -> let f := fexp64 (Zdigits2 m + e) in shape s (BR s m e) (IZR m * pw (e - f)) f.
Proof.
  intros Hm f. rewrite BR_eq by exact Hm. cbv zeta. fold f. destruct (Z.ltb_spec f e) as [C|C].
  - assert (0 < 2 ^ (e - f)) by (apply Z.pow_pos_nonneg; lia).
    assert (Ed : Zdigits2 (m * 2 ^ (e - f)) + f = Zdigits2 m + e) by (rewrite Zdigits_shift by lia; lia).
    pose proof (BRA_shape s (m * 2 ^ (e - f)) f loc_Exact _ (inb_exact (m * 2 ^ (e - f)) ltac:(nia))) as B. rewrite Ed in B. fold f in B.
    specialize (B ltac:(lia)). replace (- (f - f)) with 0 in B by lia. rewrite pw_0, Rmult_1_r, mult_IZR, pw_IZR in B by lia. exact B.
  - pose proof (BRA_shape s m e loc_Exact _ (inb_exact m ltac:(lia)) C) as B. fold f in B. replace (- (f - e)) with (e - f) in B by lia. exact B.
Qed.

(** x <= y for zero or positive floats. *)
Definition lef (x y : f64) : Prop := is_nonneg x /\ is_nonneg y /\ (y = S754_infinity false \/ (x <> S754_infinity false /\ (val x <= val y)%R)).
Lemma shape_nonneg b y f : shape false b y f -> is_nonneg b.
Proof. intros (V & [-> | (q & _ & _ & [[-> _] | (p & f2 & -> & _)])]); [exact Logic.I|exact Logic.I|exact V]. Qed.
Lemma shape_nonan s b y f : shape s b y f -> b <> S754_nan.
Proof. intros (V & [-> | (q & _ & _ & [[-> _] | (p & f2 & -> & _)])]); discriminate. Qed.

Lemma add_le x d : is_nonneg x -> is_nonneg d -> lef x (SFadd 53 1024 x d).
Proof.
  intros Hx Hd. destruct x as [[]|[]| |[] mx ex]; try (exfalso; exact Hx); destruct d as [[]|[]| |[] md ed]; try (exfalso; exact Hd); cbn [SFadd Bool.eqb].
  all: try (split; [exact Hx|]; split; [exact Logic.I|]; left; reflexivity).
  - split; [exact Hx|]. split; [exact Logic.I|]. right. split; [discriminate|]. apply Rle_refl.
  - split; [exact Hx|]. split; [exact Hd|]. right. split; [discriminate|]. rewrite val_fin. cbn [val sgR]. pose proof (IZR_pw_pos (Zpos md) ed ltac:(lia)). lra.
  - split; [exact Hx|]. split; [exact Hx|]. right. split; [discriminate|]. apply Rle_refl.
  - set (ez := Z.min ex ed). rewrite !shl_mul by (unfold ez; lia).
    change (cond_Zopp false (Zpos mx * 2 ^ (ex - ez))) with (Zpos mx * 2 ^ (ex - ez)). change (cond_Zopp false (Zpos md * 2 ^ (ed - ez))) with (Zpos md * 2 ^ (ed - ez)).
    assert (P1 : 0 < 2 ^ (ex - ez)) by (apply Z.pow_pos_nonneg; unfold ez; lia). assert (P2 : 0 < 2 ^ (ed - ez)) by (apply Z.pow_pos_nonneg; unfold ez; lia).
    set (X := Zpos mx * 2 ^ (ex - ez)). set (S := X + Zpos md * 2 ^ (ed - ez)).
    assert (HX : 0 < X) by (unfold X; nia). assert (HS : X < S) by (unfold S; nia).
    rewrite BN_BR. destruct (Z.eqb_spec S 0) as [C|_]; [lia|]. destruct (Z.ltb_spec S 0) as [C|_]; [lia|]. rewrite Z.abs_eq by lia.
    pose proof (BR_shape false S ez ltac:(lia)) as B. cbv zeta in B. set (f := fexp64 (Zdigits2 S + ez)) in *.
    split; [exact Hx|]. split; [apply (shape_nonneg _ _ _ B)|].
    destruct B as (_ & [-> | (q & Q0 & Q1 & Q2)]); [left; reflexivity|]. right. split; [discriminate|].
    assert (Ev : val (BR false S ez) = (IZR q * pw f)%R).
    { destruct Q2 as [[-> ->] | (p & f2 & -> & E)]; [cbn [val]; ring|]. rewrite val_fin, E. cbn [sgR]. ring. }
    rewrite Ev, val_fin. cbn [sgR]. rewrite Rmult_1_l.
    destruct (valid_cases _ _ _ Hx) as [Hn|Hn]; destruct (Z.le_gt_cases f ex) as [Cf|Cf].
    Local Ltac grid ex f ez mx q S X HS Q1 :=
      (assert (Zpos mx * 2 ^ (ex - f) <= q);
      [ apply Z.lt_succ_r; apply lt_IZR; rewrite succ_IZR; eapply Rle_lt_trans; [|exact Q1];
        rewrite mult_IZR, pw_IZR by lia; apply Rle_trans with (IZR X * pw (ez - f))%R;
        [ unfold X; rewrite mult_IZR, pw_IZR, Rmult_assoc, <- pw_add by (unfold ez; lia); apply Req_le; do 2 f_equal; lia
        | apply Rmult_le_compat_r; [apply Rlt_le, pw_pos|apply IZR_le; lia] ]
      | apply Rle_trans with (IZR (Zpos mx * 2 ^ (ex - f)) * pw f)%R;
        [ rewrite mult_IZR, pw_IZR, Rmult_assoc, <- pw_add by lia; apply Req_le; do 2 f_equal; lia
        | apply Rmult_le_compat_r; [apply Rlt_le, pw_pos|apply IZR_le; assumption] ] ]).
    + grid ex f ez mx q S X HS Q1.
    + destruct Hn as [Hm He].
      assert (Ef : f = Zdigits2 S + ez - 53) by (revert Cf; unfold f; rewrite fexp_def; lia).
      destruct (Zdigits_bound S ltac:(lia)) as ((D1 & D2) & D3).
      assert (2 ^ 52 <= q).
      { apply Z.lt_succ_r; apply lt_IZR; rewrite succ_IZR; eapply Rle_lt_trans; [|exact Q1].
        rewrite pw_IZR by lia. replace 52 with (Zdigits2 S - 1 + (ez - f)) by lia. rewrite pw_add. apply Rmult_le_compat_r; [apply Rlt_le, pw_pos|].
        rewrite <- pw_IZR by lia. apply IZR_le. exact D1. }
      apply Rle_trans with (pw 53 * pw ex)%R; [apply Rmult_le_compat_r; [apply Rlt_le, pw_pos|]; rewrite <- pw_IZR by lia; apply IZR_le; lia|].
      apply Rle_trans with (pw 52 * pw f)%R; [rewrite <- !pw_add; apply pw_le; lia|].
      apply Rmult_le_compat_r; [apply Rlt_le, pw_pos|]; rewrite <- pw_IZR by lia; apply IZR_le; lia.
    + grid ex f ez mx q S X HS Q1.
    + destruct Hn as [Hm He].
      assert (Ef : f = Zdigits2 S + ez - 53) by (revert Cf; unfold f; rewrite fexp_def; lia).
      destruct (Zdigits_bound S ltac:(lia)) as ((D1 & D2) & D3).
      assert (2 ^ 52 <= q).
      { apply Z.lt_succ_r; apply lt_IZR; rewrite succ_IZR; eapply Rle_lt_trans; [|exact Q1].
        rewrite pw_IZR by lia. replace 52 with (Zdigits2 S - 1 + (ez - f)) by lia. rewrite pw_add. apply Rmult_le_compat_r; [apply Rlt_le, pw_pos|].
        rewrite <- pw_IZR by lia. apply IZR_le. exact D1. }
      apply Rle_trans with (pw 53 * pw ex)%R; [apply Rmult_le_compat_r; [apply Rlt_le, pw_pos|]; rewrite <- pw_IZR by lia; apply IZR_le; lia|].
      apply Rle_trans with (pw 52 * pw f)%R; [rewrite <- !pw_add; apply pw_le; lia|].
      apply Rmult_le_compat_r; [apply Rlt_le, pw_pos|]; rewrite <- pw_IZR by lia; apply IZR_le; lia.
Qed.
