From Verif Require Import Base ModelNum ModelFloat ModelGadget ModelParams ModelXParams SpecNum SpecGadget SpecParams PfGadget PfParams.

(** A compiled set whose base parameters are right, with equal rank and table size. *)
Definition base_good (w : Z) (l : paramsLit) (g : params) : Prop :=
  Compile w l = Ok g /\ params_ok w g /\ scale_exact w (p_messageModulus g) (p_scale g) /\ 16 <= p_polyRank g /\ p_lutSize g = p_polyRank g.
Definition ml_good (w : Z) (l : mlParamsLit) (g : mlParams) : Prop :=
  base_good w (mll_Base l) (mlp_base g) /\ mlp_lutCount g = mll_LUTCount l /\ mlp_lutCount g = 2 ^ mlp_logLUTCount g /\ 0 <= mlp_logLUTCount g /\
  (2 * p_messageModulus (mlp_base g) * mlp_lutCount g | p_polyRank (mlp_base g)).

Lemma base_good_of w p : 0 < w <= 64 -> lit_sane w p ->
  match Compile w p with Ok g => (p_scale g * p_messageModulus g =? 2 ^ (w - 1)) && (16 <=? p_polyRank g) && (p_lutSize g =? p_polyRank g) | _ => false end = true ->
  exists g, base_good w p g.
Proof.
  intros Hw Hs H. destruct (Compile w p) as [g| |] eqn:E; try discriminate. rewrite !andb_true_iff in H. destruct H as ((H1 & H2) & H3).
  exists g. split; [exact E|]. split; [now apply (Compile_sound w p)|]. split; [now apply Z.eqb_eq|]. split; [now apply Z.leb_le|now apply Z.eqb_eq].
Qed.
Lemma ml_good_of w p : 0 < w <= 64 -> lit_sane w (mll_Base p) ->
  match MLCompile w p with Ok g => let b := mlp_base g in (p_scale b * p_messageModulus b =? 2 ^ (w - 1)) && (16 <=? p_polyRank b) && (p_lutSize b =? p_polyRank b) &&
    (mlp_lutCount g =? 2 ^ mlp_logLUTCount g) && (0 <=? mlp_logLUTCount g) && (0 <? p_messageModulus b) && (p_polyRank b mod (2 * p_messageModulus b * mlp_lutCount g) =? 0) | _ => false end = true ->
  exists g, MLCompile w p = Ok g /\ ml_good w p g.
Proof.
  intros Hw Hs H. destruct (MLCompile w p) as [g| |] eqn:E; try discriminate. cbv zeta in H. rewrite !andb_true_iff in H. destruct H as ((((((H1 & H2) & H3) & H4) & H5) & H6) & H7).
  exists g. split; [reflexivity|]. unfold MLCompile in E. destruct (Compile w (mll_Base p)) as [b| |] eqn:EB; try discriminate.
  destruct (negb (p_polyRank b =? p_lutSize b)); [discriminate|]. destruct (negb (IsPowerOfTwo (mll_LUTCount p))); [discriminate|]. destruct (Log2 (mll_LUTCount p)) as [l| |]; try discriminate.
  injection E as <-. cbn [mlp_base mlp_lutCount mlp_logLUTCount] in *. apply Z.eqb_eq in H4. apply Z.leb_le in H5. apply Z.ltb_lt in H6. apply Z.eqb_eq in H7.
  split; [|split; [reflexivity|split; [exact H4|split; [exact H5|]]]].
  - split; [exact EB|]. split; [now apply (Compile_sound w (mll_Base p))|]. split; [now apply Z.eqb_eq|]. split; [now apply Z.leb_le|now apply Z.eqb_eq].
  - cbn [mlp_base mlp_lutCount mlp_logLUTCount]. apply Z.mod_divide; [|exact H7]. rewrite H4. assert (0 < 2 ^ l) as P by (apply Z.pow_pos_nonneg; lia). intros X. apply Z.mul_eq_0 in X. destruct X; lia.
Qed.

Definition good_all : Prop :=
  Forall (fun l => exists g, MLCompile 32 l = Ok g /\ ml_good 32 l g) [ParamsBinaryLUT2; ParamsBinaryCompactLUT2] /\
  Forall (fun l => exists g, MLCompile 64 l = Ok g /\ ml_good 64 l g) [ParamsUint2LUT4; ParamsUint3LUT2].
Lemma shippedML : good_all.
Proof. split; repeat (constructor; [apply ml_good_of; [lia|sane|vm_compute; reflexivity]|]); constructor. Qed.

(** Circuit bootstrapping: the output levels fit in the LUT count and every gadget is in range. *)
Definition cb_good (w : Z) (l : cbParamsLit) : Prop := exists g, CBCompile w l = Ok g /\ ml_good w (cbl_ManyLUT l) (cbp_manyLUT g) /\
  gadget_ok w (cbp_schemeSwitch g) /\ gadget_ok w (cbp_trace g) /\ gadget_ok w (cbp_output g) /\ Z.of_nat (g_level (cbp_output g)) <= mlp_lutCount (cbp_manyLUT g).
Lemma shippedCB : Forall (cb_good 64) [ParamsCircuitBootstrapMedium; ParamsCircuitBootstrapLarge].
Proof.
  assert (forall l, (exists m, MLCompile 64 (cbl_ManyLUT l) = Ok m /\ ml_good 64 (cbl_ManyLUT l) m) ->
    (exists s t o, CompileGadget 64 (cbl_SchemeSwitch l) = Ok s /\ CompileGadget 64 (cbl_Trace l) = Ok t /\ CompileGadget 64 (cbl_Output l) = Ok o /\
      gadget_ok 64 s /\ gadget_ok 64 t /\ gadget_ok 64 o /\ Z.of_nat (g_level o) <= mll_LUTCount (cbl_ManyLUT l)) -> cb_good 64 l) as H.
  { intros l (m & E & G) (s & t & o & Es & Et & Eo & Gs & Gt & Go & Hl). exists (mkCbParams m s t o). unfold CBCompile. rewrite E, Es, Et, Eo. cbn.
    split; [reflexivity|]. split; [exact G|]. repeat (split; [assumption|]). destruct G as (_ & -> & _). exact Hl. }
  repeat (constructor; [apply H; [apply ml_good_of; [lia|sane|vm_compute; reflexivity]|]|]); [| |constructor];
    (eexists _, _, _; split; [vm_compute; reflexivity|]; split; [vm_compute; reflexivity|]; split; [vm_compute; reflexivity|]; unfold gadget_ok; vm_compute; repeat split; discriminate || lia).
Qed.
Lemma base_good_more w p (c : params -> bool) : 0 < w <= 64 -> lit_sane w p ->
  match Compile w p with Ok g => (p_scale g * p_messageModulus g =? 2 ^ (w - 1)) && (16 <=? p_polyRank g) && (p_lutSize g =? p_polyRank g) && c g | _ => false end = true ->
  exists g, base_good w p g /\ c g = true.
Proof.
  intros Hw Hs H. destruct (Compile w p) as [g| |] eqn:E; try discriminate. apply andb_true_iff in H. destruct H as (H1 & H2).
  destruct (base_good_of w p Hw Hs) as (g' & G); [rewrite E; exact H1|]. pose proof (proj1 G) as E'. rewrite E in E'. injection E' as <-. exists g. auto.
Qed.
Definition fhewCheck (g : params) : bool := p_blockSize g =? 1.
Lemma shippedFHEW tooLarge : tooLarge (fl_SecretKeyStdDev ParamsFHEWBinary) = false ->
  exists g, FHEWCompile tooLarge 64 ParamsFHEWBinary = Ok g /\ base_good 64 (fl_Base ParamsFHEWBinary) (fp_base g) /\ p_blockSize (fp_base g) = 1 /\ 0 < fp_windowSize g.
Proof.
  intros H. destruct (base_good_more 64 (fl_Base ParamsFHEWBinary) fhewCheck) as (b & Hb & Hc); [lia|sane|vm_compute; reflexivity|].
  assert (f64_le0 (fl_SecretKeyStdDev ParamsFHEWBinary) = false) as Hf by (vm_compute; reflexivity).
  exists (mkFhewParams b (fl_SecretKeyStdDev ParamsFHEWBinary) (fl_WindowSize ParamsFHEWBinary)). cbn [fp_base fp_windowSize]. apply Z.eqb_eq in Hc. split; [|split; [exact Hb|split; [exact Hc|reflexivity]]].
  unfold FHEWCompile. destruct Hb as (-> & _ & _ & _ & El). rewrite Hc, El, !Z.eqb_refl, Hf, H. reflexivity.
Qed.
Definition sanCheck (g : params) : bool := (p_glweRank g =? 1) && (p_order g =? OrderKeySwitchBlindRotate).
Lemma shippedSan : exists g, SanCompile 64 ParamsSanitizeBinary = Ok g /\ base_good 64 (sl_Base ParamsSanitizeBinary) (sp_base g) /\ p_glweRank (sp_base g) = 1 /\ p_order (sp_base g) = OrderKeySwitchBlindRotate.
Proof.
  destruct (base_good_more 64 (sl_Base ParamsSanitizeBinary) sanCheck) as (b & Hb & Hc); [lia|sane|vm_compute; reflexivity|].
  apply andb_true_iff in Hc. destruct Hc as (H1 & H2). apply Z.eqb_eq in H1, H2.
  assert (f64_le0 (sl_RandSigma ParamsSanitizeBinary) = false) as F1 by (vm_compute; reflexivity).
  assert (f64_le0 (sl_RandTau ParamsSanitizeBinary) = false) as F2 by (vm_compute; reflexivity).
  assert (f64_le0 (sl_LinEvalSigma ParamsSanitizeBinary) = false) as F3 by (vm_compute; reflexivity).
  assert (f64_le0 (sl_LinEvalTau ParamsSanitizeBinary) = false) as F4 by (vm_compute; reflexivity).
  eexists (mkSanParams b _ _ _ _). cbn [sp_base]. split; [|split; [exact Hb|split; [exact H1|exact H2]]].
  unfold SanCompile. destruct Hb as (-> & _ & _ & _ & El). rewrite H1, H2, El, !Z.eqb_refl, F1, F2, F3, F4. reflexivity.
Qed.
Lemma shippedBFV : exists g, CompileGadget 64 ParamsBFVKeySwitchLogN11 = Ok g /\ gadget_ok 64 g.
Proof. eexists. split; [vm_compute; reflexivity|]. unfold gadget_ok. vm_compute. repeat split; discriminate || lia. Qed.
