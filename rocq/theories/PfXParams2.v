From Verif Require Import Base ModelNum ModelFloat ModelGadget ModelParams ModelXParams SpecNum PfNum SpecGadget SpecParams PfGadget PfParams.

Ltac okinv H := match type of H with
  | (if negb (?a =? ?b) then _ else _) = Ok _ => destruct (Z.eqb_spec a b); cbn [negb] in H; [|discriminate H]
  | (if negb ?c then _ else _) = Ok _ => destruct c eqn:?; cbn [negb] in H; [|discriminate H]
  | (if ?a <=? ?b then _ else _) = Ok _ => destruct (Z.leb_spec a b); [discriminate H|]
  | (if ?c then _ else _) = Ok _ => destruct c eqn:?; [discriminate H|]
  | match ?r with _ => _ end = Ok _ => destruct r eqn:?; try discriminate H
  | Ok _ = Ok _ => injection H as <-
  end.

Lemma ml_compile w p g : 0 < w <= 64 -> lit_sane w (mll_Base p) ->
  (MLCompile w p = Ok g <->
   Compile w (mll_Base p) = Ok (mlp_base g) /\ p_lutSize (mlp_base g) = p_polyRank (mlp_base g) /\
   mlp_lutCount g = mll_LUTCount p /\ 0 <= mlp_logLUTCount g /\ mlp_lutCount g = 2 ^ mlp_logLUTCount g).
Proof.
  intros Hw Hs. unfold MLCompile. split.
  - intros H. repeat okinv H. cbn [mlp_base mlp_lutCount mlp_logLUTCount].
    match goal with A : IsPowerOfTwo _ = true |- _ => apply IsPowerOfTwo_spec in A; destruct A as (k & Hk & PA) end.
    match goal with B : Log2 _ = Ok _ |- _ => apply Log2_spec in B; destruct B as (B0 & B1 & B2 & B3) end.
    rewrite PA in B2, B3. apply Z.pow_le_mono_r_iff in B2; [|lia|lia]. apply Z.pow_lt_mono_r_iff in B3; [|lia|lia].
    repeat split; try assumption; try lia. rewrite PA. f_equal. lia.
  - intros (E & E1 & E2 & E3 & E4). rewrite E, E1, Z.eqb_refl. cbn [negb]. rewrite <- E2.
    rewrite (proj2 (IsPowerOfTwo_spec (mlp_lutCount g))) by (exists (mlp_logLUTCount g); split; assumption). cbn [negb].
    rewrite (proj2 (Log2_spec (mlp_lutCount g) (mlp_logLUTCount g))).
    + destruct g. cbn in *. now subst.
    + rewrite E4. split; [apply Z.pow_pos_nonneg; lia|]. split; [exact E3|]. split; [lia|]. apply Z.pow_lt_mono_r; lia.
Qed.
Lemma cb_compile w p g : 
  (CBCompile w p = Ok g <->
   MLCompile w (cbl_ManyLUT p) = Ok (cbp_manyLUT g) /\ CompileGadget w (cbl_SchemeSwitch p) = Ok (cbp_schemeSwitch g) /\
   CompileGadget w (cbl_Trace p) = Ok (cbp_trace g) /\ CompileGadget w (cbl_Output p) = Ok (cbp_output g)).
Proof.
  unfold CBCompile. split.
  - intros H. repeat okinv H. cbn. repeat split.
  - intros (-> & -> & -> & ->). now destruct g.
Qed.
Lemma gadget_in_range w l g : 0 < w <= 64 -> uword w (gl_base l) -> 0 <= gl_level l * 64 < 2 ^ 63 -> CompileGadget w l = Ok g -> gadget_ok w g.
Proof. intros Hw B L H. exact (proj1 (CompileGadget_inv w _ _ Hw B L H)). Qed.
Lemma cb_sound w p g : 0 < w <= 64 -> lit_sane w (mll_Base (cbl_ManyLUT p)) ->
  (forall l, In l [cbl_SchemeSwitch p; cbl_Trace p; cbl_Output p] -> uword w (gl_base l) /\ 0 <= gl_level l * 64 < 2 ^ 63) ->
  CBCompile w p = Ok g ->
  params_ok w (mlp_base (cbp_manyLUT g)) /\ p_lutSize (mlp_base (cbp_manyLUT g)) = p_polyRank (mlp_base (cbp_manyLUT g)) /\
  0 <= mlp_logLUTCount (cbp_manyLUT g) /\ mll_LUTCount (cbl_ManyLUT p) = 2 ^ mlp_logLUTCount (cbp_manyLUT g) /\
  gadget_ok w (cbp_schemeSwitch g) /\ gadget_ok w (cbp_trace g) /\ gadget_ok w (cbp_output g).
Proof.
  intros Hw Hs Hl H. apply cb_compile in H. destruct H as (H & A & B & C). apply (ml_compile w _ _ Hw Hs) in H. destruct H as (H & E1 & E2 & E3 & E4).
  split; [eapply Compile_sound; eassumption|]. split; [exact E1|]. split; [exact E3|]. split; [congruence|].
  split; [|split]; [eapply (gadget_in_range w (cbl_SchemeSwitch p))|eapply (gadget_in_range w (cbl_Trace p))|eapply (gadget_in_range w (cbl_Output p))];
    try eassumption; apply Hl; cbn; auto.
Qed.
Lemma f64_le0_iff x : uword 64 x -> f64_le0 x = false <-> f64_pos_or_nan x.
Proof.
  intros Hx. split; [now apply f64_le0_false|]. unfold f64_le0, f64_pos_or_nan. intros [-> | H]; [reflexivity|].
  destruct (f64_nan x); [reflexivity|]. cbn [negb andb]. destruct (Z.leb_spec (2 ^ 63) x); [lia|]. destruct (Z.eqb_spec x 0); [lia|reflexivity].
Qed.
Lemma fhew_compile tooLarge w p g : uword 64 (fl_SecretKeyStdDev p) ->
  (FHEWCompile tooLarge w p = Ok g <->
   Compile w (fl_Base p) = Ok (fp_base g) /\ p_blockSize (fp_base g) = 1 /\ p_lutSize (fp_base g) = p_polyRank (fp_base g) /\
   fp_secretKeyStdDev g = fl_SecretKeyStdDev p /\ fp_windowSize g = fl_WindowSize p /\
   f64_pos_or_nan (fp_secretKeyStdDev g) /\ tooLarge (fp_secretKeyStdDev g) = false /\ 1 <= fp_windowSize g).
Proof.
  intros Hx. unfold FHEWCompile. split.
  - intros H. repeat okinv H. cbn [fp_base fp_secretKeyStdDev fp_windowSize].
    repeat match goal with |- _ /\ _ => split end; try reflexivity; try assumption; try lia. now apply f64_le0_iff.
  - intros (-> & -> & -> & E1 & E2 & E3 & E4 & E5). rewrite !Z.eqb_refl. cbn [negb]. rewrite E1, E2 in *. rewrite (proj2 (f64_le0_iff _ Hx) E3), E4.
    destruct (Z.leb_spec (fl_WindowSize p) 0); [lia|]. destruct g. cbn in *. now subst.
Qed.
Lemma san_compile w p g : uword 64 (sl_RandSigma p) -> uword 64 (sl_RandTau p) -> uword 64 (sl_LinEvalSigma p) -> uword 64 (sl_LinEvalTau p) ->
  (SanCompile w p = Ok g <->
   Compile w (sl_Base p) = Ok (sp_base g) /\ p_glweRank (sp_base g) = 1 /\ p_lutSize (sp_base g) = p_polyRank (sp_base g) /\ p_order (sp_base g) = OrderKeySwitchBlindRotate /\
   sp_randSigma g = sl_RandSigma p /\ sp_randTau g = sl_RandTau p /\ sp_linEvalSigma g = sl_LinEvalSigma p /\ sp_linEvalTau g = sl_LinEvalTau p /\
   f64_pos_or_nan (sp_randSigma g) /\ f64_pos_or_nan (sp_randTau g) /\ f64_pos_or_nan (sp_linEvalSigma g) /\ f64_pos_or_nan (sp_linEvalTau g)).
Proof.
  intros X1 X2 X3 X4. unfold SanCompile. split.
  - intros H. repeat okinv H. cbn [sp_base sp_randSigma sp_randTau sp_linEvalSigma sp_linEvalTau].
    repeat match goal with |- _ /\ _ => split end; try reflexivity; try assumption; try lia; now apply f64_le0_iff.
  - intros (-> & -> & -> & -> & E1 & E2 & E3 & E4 & F1 & F2 & F3 & F4). rewrite !Z.eqb_refl. cbn [negb]. rewrite E1, E2, E3, E4 in *.
    rewrite (proj2 (f64_le0_iff _ X1) F1), (proj2 (f64_le0_iff _ X2) F2), (proj2 (f64_le0_iff _ X3) F3), (proj2 (f64_le0_iff _ X4) F4).
    destruct g. cbn in *. now subst.
Qed.
