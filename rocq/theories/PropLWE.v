(** Properties C21, C22, C23 (LWE part) and C26. *)
From Verif Require Import Base ModelNum ModelVec ModelPoly ModelGadget ModelParams ModelEncoder ModelLWE SpecNum SpecGadget SpecParams SpecLWE
  PfLWE PfKS PfKS2 PfLWE2.

(** A small concrete setting: 32-bit torus, key of length 3, gadget base 2^4 with 3 levels, noise in {-3..3}. *)
Definition exU (i : nat) : Z := 2654435761 * Z.of_nat (i * i + 3).
Definition exG (i : nat) : Z := (Z.of_nat i * 5) mod 7 - 3.
Definition exsk : list Z := [1; 0; 1].
Definition exskIn : list Z := [1; 1; 0; 1; 0].
Definition exgad : gadget := {| g_base := 16; g_logBase := 4; g_level := 3; g_sizeT := 32 |}.
Example exgad_ok : gadget_ok 32 exgad.
Proof. repeat split; vm_compute; congruence || lia. Qed.

(** ** C21 *)
Theorem C21_LWE_phase : forall w U G sk out pt st ct' st', 0 < w -> length out = S (length sk) ->
  EncryptLWEPlaintextTo w U G sk out pt st = (ct', st') ->
  lwe_ct w (length sk) ct' /\ eqm (2 ^ w) (phase sk ct') (pt + G (snd st)) /\
  st' = ((fst st + length sk)%nat, S (snd st)) /\
  (forall i, (i < length sk)%nat -> nthZ ct' (S i) = U (fst st + i)%nat mod 2 ^ w).
Proof. intros w U G sk out pt st ct' st' Hw. exact (EncryptLWEPlaintextTo_spec w Hw U G sk out pt st ct' st'). Qed.
Print Assumptions C21_LWE_phase.
Theorem C21_LWE_decrypt_phase : forall w U G sk out pt st ct' st', 0 < w -> length out = S (length sk) ->
  EncryptLWEPlaintextTo w U G sk out pt st = (ct', st') -> DecryptLWEPhase w sk ct' = (pt + G (snd st)) mod 2 ^ w.
Proof. intros w U G sk out pt st ct' st' Hw. exact (EncDec_LWE w Hw U G sk out pt st ct' st'). Qed.
Print Assumptions C21_LWE_decrypt_phase.
(** Decryption computes the phase of every ciphertext. *)
Theorem C21_LWE_decrypt_any : forall w sk ct, 0 < w -> length ct = S (length sk) ->
  uword w (DecryptLWEPhase w sk ct) /\ eqm (2 ^ w) (DecryptLWEPhase w sk ct) (phase sk ct).
Proof. intros w sk ct Hw. exact (DecryptLWEPhase_spec w Hw sk ct). Qed.
Print Assumptions C21_LWE_decrypt_any.
Theorem C21_LWE_overwrites : forall w U G sk out1 out2 pt st, length out1 = S (length sk) -> length out2 = S (length sk) ->
  EncryptLWEPlaintextTo w U G sk out1 pt st = EncryptLWEPlaintextTo w U G sk out2 pt st.
Proof. exact EncryptLWEPlaintextTo_over. Qed.
Print Assumptions C21_LWE_overwrites.
(** End to end, default parameters (message modulus 2^k). *)
Theorem C21_LWE_message_small : forall w k U G sk out msg st ct' st', 0 < w <= 52 -> 0 <= k <= w - 2 -> length out = S (length sk) ->
  let mm := 2 ^ k in let scale := scaleOf w mm in
  - scale <= 2 * G (snd st) < scale ->
  EncryptLWETo w U G mm scale sk out msg st = (ct', st') -> DecryptLWE w mm scale sk ct' = Some (msg mod mm).
Proof. exact EncDec_small. Qed.
Print Assumptions C21_LWE_message_small.
Theorem C21_LWE_message_large : forall w k U G sk out msg st ct' st', 0 < w <= 64 -> 0 <= k <= w - 2 -> length out = S (length sk) ->
  let mm := 2 ^ k in let scale := scaleOf w mm in
  2 * Z.abs (G (snd st)) + 2 ^ 13 + 2 < scale ->
  EncryptLWETo w U G mm scale sk out msg st = (ct', st') -> DecryptLWE w mm scale sk ct' = Some (msg mod mm).
Proof. exact EncDec_large. Qed.
Print Assumptions C21_LWE_message_large.
Example C21_LWE_ex : let ct := fst (EncryptLWETo 32 exU exG (2 ^ 3) (scaleOf 32 (2 ^ 3)) exsk [9; 9; 9; 9] (-2) (2, 4)%nat) in
  DecryptLWE 32 (2 ^ 3) (scaleOf 32 (2 ^ 3)) exsk ct = Some 6 /\ DecryptLWEPhase 32 exsk ct = 6 * 2 ^ 28 + 3 /\
  ct <> fst (EncryptLWETo 32 exU exG (2 ^ 3) (scaleOf 32 (2 ^ 3)) exsk [9; 9; 9; 9] (-2) (3, 4)%nat).
Proof. vm_compute. repeat split; congruence. Qed.

(** ** C22, LWE operations; [st] maps ciphertext variables to values, so out may be a or b. *)
Theorem C22_AddLWE : forall w s st out a b, 0 < w -> length (st a) = S (length s) -> length (st b) = S (length s) ->
  let st' := AddLWETo w st out a b in
  lwe_ct w (length s) (st' out) /\ eqm (2 ^ w) (phase s (st' out)) (phase s (st a) + phase s (st b)) /\ (forall y, y <> out -> st' y = st y).
Proof. intros w s st out a b Hw. exact (AddLWETo_spec w Hw s st out a b). Qed.
Print Assumptions C22_AddLWE.
Theorem C22_SubLWE : forall w s st out a b, 0 < w -> length (st a) = S (length s) -> length (st b) = S (length s) ->
  let st' := SubLWETo w st out a b in
  lwe_ct w (length s) (st' out) /\ eqm (2 ^ w) (phase s (st' out)) (phase s (st a) - phase s (st b)) /\ (forall y, y <> out -> st' y = st y).
Proof. intros w s st out a b Hw. exact (SubLWETo_spec w Hw s st out a b). Qed.
Print Assumptions C22_SubLWE.
Theorem C22_NegLWE : forall w s st out a, 0 < w -> length (st a) = S (length s) ->
  let st' := NegLWETo w st out a in
  lwe_ct w (length s) (st' out) /\ eqm (2 ^ w) (phase s (st' out)) (- phase s (st a)) /\ (forall y, y <> out -> st' y = st y).
Proof. intros w s st out a Hw. exact (NegLWETo_spec w Hw s st out a). Qed.
Print Assumptions C22_NegLWE.
Theorem C22_ScalarMulLWE : forall w s st out a c, 0 < w -> length (st a) = S (length s) ->
  let st' := ScalarMulLWETo w st out a c in
  lwe_ct w (length s) (st' out) /\ eqm (2 ^ w) (phase s (st' out)) (c * phase s (st a)) /\ (forall y, y <> out -> st' y = st y).
Proof. intros w s st out a c Hw. exact (ScalarMulLWETo_spec w Hw s st out a c). Qed.
Print Assumptions C22_ScalarMulLWE.
Theorem C22_ScalarMulAddLWE : forall w s st out a c, 0 < w -> length (st a) = S (length s) -> length (st out) = S (length s) ->
  let st' := ScalarMulAddLWETo w st out a c in
  lwe_ct w (length s) (st' out) /\ eqm (2 ^ w) (phase s (st' out)) (phase s (st out) + c * phase s (st a)) /\ (forall y, y <> out -> st' y = st y).
Proof. intros w s st out a c Hw. exact (ScalarMulAddLWETo_spec w Hw s st out a c). Qed.
Print Assumptions C22_ScalarMulAddLWE.
Theorem C22_ScalarMulSubLWE : forall w s st out a c, 0 < w -> length (st a) = S (length s) -> length (st out) = S (length s) ->
  let st' := ScalarMulSubLWETo w st out a c in
  lwe_ct w (length s) (st' out) /\ eqm (2 ^ w) (phase s (st' out)) (phase s (st out) - c * phase s (st a)) /\ (forall y, y <> out -> st' y = st y).
Proof. intros w s st out a c Hw. exact (ScalarMulSubLWETo_spec w Hw s st out a c). Qed.
Print Assumptions C22_ScalarMulSubLWE.
Theorem C22_AddPlainLWE : forall w s st out a pt, 0 < w -> length (st out) = S (length s) -> lwe_ct w (length s) (st a) ->
  let st' := AddPlainLWETo w st out a pt in
  lwe_ct w (length s) (st' out) /\ eqm (2 ^ w) (phase s (st' out)) (phase s (st a) + pt) /\ (forall y, y <> out -> st' y = st y).
Proof. intros w s st out a pt Hw. exact (AddPlainLWETo_spec w Hw s st out a pt). Qed.
Print Assumptions C22_AddPlainLWE.
Theorem C22_SubPlainLWE : forall w s st out a pt, 0 < w -> length (st out) = S (length s) -> lwe_ct w (length s) (st a) ->
  let st' := SubPlainLWETo w st out a pt in
  lwe_ct w (length s) (st' out) /\ eqm (2 ^ w) (phase s (st' out)) (phase s (st a) - pt) /\ (forall y, y <> out -> st' y = st y).
Proof. intros w s st out a pt Hw. exact (SubPlainLWETo_spec w Hw s st out a pt). Qed.
Print Assumptions C22_SubPlainLWE.
Example C22_LWE_ex : let st0 := fun i : nat => [Z.of_nat i + 7; 5; 250; 3] in
  let st1 := SubLWETo 8 (ScalarMulAddLWETo 8 (AddPlainLWETo 8 st0 1 1 9) 1 1 250) 1 2 1 in
  st1 1%nat = [94; 30; 220; 18] /\ st1 2%nat = st0 2%nat.
Proof. vm_compute. split; reflexivity. Qed.

(** ** C23, Lev and GSW *)
Theorem C23_EncryptLev : forall w U G p sk o c st o' st', 0 < w -> gadget_ok w p ->
  length o = g_level p -> (forall j, (j < g_level p)%nat -> length (nth j o []) = S (length sk)) ->
  EncryptLevScalarTo w U G sk p o c st = (o', st') ->
  lev_enc w p sk o' c (fun j => G (snd st + j)%nat) /\ st' = ((fst st + g_level p * length sk)%nat, (snd st + g_level p)%nat).
Proof. intros w U G p sk o c st o' st' Hw Hok. exact (EncryptLevScalarTo_spec w Hw U G p Hok sk o c st o' st'). Qed.
Print Assumptions C23_EncryptLev.
Theorem C23_DecryptLevScalar : forall w p sk ct m e, 0 < w -> gadget_ok w p -> lev_enc w p sk ct m e ->
  - 2 ^ (w - g_logBase p) <= 2 * e O < 2 ^ (w - g_logBase p) -> DecryptLevScalar w sk p ct = m mod g_base p.
Proof. intros w p sk ct m e Hw Hok. exact (DecryptLevScalar_spec w Hw p Hok sk ct m e). Qed.
Print Assumptions C23_DecryptLevScalar.
Theorem C23_DecryptLev : forall w p mm sk ct m e, 0 < w -> gadget_ok w p -> w <= 64 -> 0 < mm -> g_base p <= 2 ^ 63 \/ mm <= 2 ^ 63 ->
  lev_enc w p sk ct m e -> - 2 ^ (w - g_logBase p) <= 2 * e O < 2 ^ (w - g_logBase p) ->
  DecryptLev w mm sk p ct = (m mod g_base p) mod mm.
Proof. intros w p mm sk ct m e Hw Hok. exact (DecryptLev_spec w Hw p Hok mm sk ct m e). Qed.
Print Assumptions C23_DecryptLev.
(** shape3 n m o: o is n rows of g_level p vectors of length m. *)
Theorem C23_EncryptGSW : forall w U G p sk o c st o' st', 0 < w -> gadget_ok w p ->
  shape3 p (S (length sk)) (S (length sk)) o ->
  EncryptGSWScalarTo w U G sk p o c st = (o', st') ->
  gsw_enc w p sk o' c (fun i j => G (snd st + i * g_level p + j)%nat) /\
  st' = ((fst st + S (length sk) * (g_level p * length sk))%nat, (snd st + S (length sk) * g_level p)%nat).
Proof. intros w U G p sk o c st o' st' Hw Hok. exact (EncryptGSWScalarTo_spec w Hw p Hok U G sk o c st o' st'). Qed.
Print Assumptions C23_EncryptGSW.
Theorem C23_DecryptGSW : forall w p sk ct m e, 0 < w -> gadget_ok w p -> gsw_enc w p sk ct m e ->
  - 2 ^ (w - g_logBase p) <= 2 * e O O < 2 ^ (w - g_logBase p) -> DecryptGSWScalar w sk p ct = m mod g_base p.
Proof. intros w p sk ct m e Hw Hok (_ & H & _). exact (DecryptLevScalar_spec w Hw p Hok sk _ m (e O) H). Qed.
Print Assumptions C23_DecryptGSW.
(** Message 21 with base 16 comes back as 5. *)
Example C23_ex : let z := repeat (repeat 7 4) 3 in
  let ct := fst (EncryptGSWScalarTo 32 exU exG exsk exgad (repeat z 4) 11 (2, 4)%nat) in
  DecryptGSWScalar 32 exsk exgad ct = 11 /\
  DecryptLevScalar 32 exsk exgad (fst (EncryptLevScalarTo 32 exU exG exsk exgad z 21 (0, 0)%nat)) = 5.
Proof. vm_compute. split; reflexivity. Qed.

(** ** C26 *)
Theorem C26_GenLWEKeySwitchKey : forall w p U G sk skIn st o' st', 0 < w -> gadget_ok w p ->
  GenLWEKeySwitchKey w U G sk skIn p st = (o', st') ->
  ksk_enc w p sk skIn o' (fun i j => G (snd st + i * g_level p + j)%nat) /\
  st' = ((fst st + length skIn * (g_level p * length sk))%nat, (snd st + length skIn * g_level p)%nat).
Proof. intros w p U G sk skIn st o' st' Hw Hok. exact (GenLWEKeySwitchKey_spec w Hw p Hok U G sk skIn st o' st'). Qed.
Print Assumptions C26_GenLWEKeySwitchKey.
Theorem C26_GenDefaultKeySwitchKey : forall w p U G sk skIn st o' st', 0 < w -> gadget_ok w p ->
  GenDefaultKeySwitchKey w U G sk skIn p st = (o', st') ->
  ksk_enc w p sk skIn o' (fun i j => G (snd st + i * g_level p + j)%nat) /\
  st' = ((fst st + length skIn * (g_level p * length sk))%nat, (snd st + length skIn * g_level p)%nat).
Proof. intros w p U G sk skIn st o' st' Hw Hok. exact (GenDefaultKeySwitchKey_spec w Hw p Hok U G sk skIn st o' st'). Qed.
Print Assumptions C26_GenDefaultKeySwitchKey.
Theorem C26_KeySwitch : forall w s p sIn out ct ksk e, 0 < w -> gadget_ok w p ->
  (0 < length sIn)%nat -> length out = S (length s) -> lwe_ct w (length sIn) ct -> ksk_enc w p s sIn ksk e ->
  lwe_ct w (length s) (KeySwitchLWETo w p out ct ksk) /\
  exists (d : nat -> nat -> Z) (r : nat -> Z),
    (forall i, (i < length sIn)%nat -> is_dcmp w p (nthZ ct (S i)) (d i) (r i)) /\
    eqm (2 ^ w) (phase s (KeySwitchLWETo w p out ct ksk))
      (phase sIn ct + zsum (length sIn) (fun i => zsum (g_level p) (fun j => d i j * e i j) - nthZ sIn i * r i)).
Proof. intros w s p sIn out ct ksk e Hw Hok. exact (KeySwitch_dcmp w Hw s p Hok sIn out ct ksk e). Qed.
Print Assumptions C26_KeySwitch.
Theorem C26_KeySwitch_bound : forall w s p sIn out ct ksk e E, 0 < w -> gadget_ok w p ->
  (0 < length sIn)%nat -> length out = S (length s) -> lwe_ct w (length sIn) ct -> ksk_enc w p s sIn ksk e -> binary sIn ->
  (forall i j, (i < length sIn)%nat -> (j < g_level p)%nat -> Z.abs (e i j) <= E) ->
  dist_le (2 ^ w) (phase s (KeySwitchLWETo w p out ct ksk)) (phase sIn ct)
    (Z.of_nat (length sIn) * (Z.of_nat (g_level p) * (2 ^ (g_logBase p - 1) * E) + 2 ^ (w - Z.of_nat (g_level p) * g_logBase p) / 2)).
Proof. intros w s p sIn out ct ksk e E Hw Hok. exact (KeySwitch_bound w Hw s p Hok sIn out ct ksk e E). Qed.
Print Assumptions C26_KeySwitch_bound.
(** DefaultKeySwitch: the first n coordinates are kept, only the tail of the large key is switched. *)
Theorem C26_DefaultKeySwitch : forall w s p large out ct ksk e, 0 < w -> gadget_ok w p ->
  let n := length s in let D := length large in
  s = firstn n large -> (n <= D)%nat -> length out = S n -> lwe_ct w D ct -> ksk_enc w p s (skipn n large) ksk e ->
  lwe_ct w n (DefaultKeySwitchTo w n D p out ct ksk) /\
  exists (d : nat -> nat -> Z) (r : nat -> Z),
    (forall i, (i < D - n)%nat -> is_dcmp w p (nthZ ct (n + S i)) (d i) (r i)) /\
    eqm (2 ^ w) (phase s (DefaultKeySwitchTo w n D p out ct ksk))
      (phase large ct + zsum (D - n) (fun i => zsum (g_level p) (fun j => d i j * e i j) - nthZ large (n + i) * r i)).
Proof. intros w s p large out ct ksk e Hw Hok. exact (DefaultKeySwitch_dcmp w Hw s p Hok large out ct ksk e). Qed.
Print Assumptions C26_DefaultKeySwitch.
Theorem C26_DefaultKeySwitch_bound : forall w s p large out ct ksk e E, 0 < w -> gadget_ok w p ->
  let n := length s in let D := length large in
  s = firstn n large -> (n <= D)%nat -> length out = S n -> lwe_ct w D ct ->
  ksk_enc w p s (skipn n large) ksk e -> binary large ->
  (forall i j, (i < D - n)%nat -> (j < g_level p)%nat -> Z.abs (e i j) <= E) ->
  dist_le (2 ^ w) (phase s (DefaultKeySwitchTo w n D p out ct ksk)) (phase large ct)
    (Z.of_nat (D - n) * (Z.of_nat (g_level p) * (2 ^ (g_logBase p - 1) * E) + 2 ^ (w - Z.of_nat (g_level p) * g_logBase p) / 2)).
Proof. intros w s p large out ct ksk e E Hw Hok. exact (DefaultKeySwitch_bound w Hw s p Hok large out ct ksk e E). Qed.
Print Assumptions C26_DefaultKeySwitch_bound.
(** A ciphertext under the 5-bit key, switched to the 3-bit key: encrypted value 2^30, small error, and
    the error is not zero. *)
Definition exct : list Z := fst (EncryptLWEPlaintextTo 32 exU exG exskIn (repeat 0 6) (2 ^ 30) (50, 60)%nat).
Definition exksk := fst (GenLWEKeySwitchKey 32 exU exG exsk exskIn exgad (0, 0)%nat).
Example C26_ex : let out := KeySwitchLWETo 32 exgad (repeat 1 4) exct exksk in
  DecryptLWEPhase 32 exsk out = 1073915348 /\ DecryptLWEPhase 32 exskIn exct = 2 ^ 30 + 3.
Proof. vm_compute. split; reflexivity. Qed.
(** The large key exskIn has the small key [1;1;0] as prefix. *)
Example C26_default_ex : let ksk := fst (GenDefaultKeySwitchKey 32 exU exG [1; 1; 0] [1; 0] exgad (0, 0)%nat) in
  DecryptLWEPhase 32 [1; 1; 0] (DefaultKeySwitchTo 32 3 5 exgad (repeat 1 4) exct ksk) = 1073957796.
Proof. vm_compute. reflexivity. Qed.

(** ** C28, LWE part *)
Theorem C28_ExternalProdLWE : forall w s p out gsw m e ct, 0 < w -> gadget_ok w p ->
  length out = S (length s) -> lwe_ct w (length s) ct -> gsw_enc w p s gsw m e ->
  lwe_ct w (length s) (ExternalProdLWETo w (length s) p out gsw ct) /\
  exists (d : nat -> nat -> Z) (r : nat -> Z),
    (forall i, (i <= length s)%nat -> is_dcmp w p (nthZ ct i) (d i) (r i)) /\
    eqm (2 ^ w) (phase s (ExternalProdLWETo w (length s) p out gsw ct))
      (m * (phase s ct - (r O + zsum (length s) (fun i => r (S i) * nthZ s i)))
       + zsum (S (length s)) (fun i => zsum (g_level p) (fun j => d i j * e i j))).
Proof. intros w s p out gsw m e ct Hw Hok. exact (ExternalProd_dcmp w Hw s p Hok out gsw m e ct). Qed.
Print Assumptions C28_ExternalProdLWE.
Theorem C28_ExternalProdLWE_addsub : forall w s p out o0 gsw m e ct, 0 < w -> gadget_ok w p ->
  let n := length s in lwe_ct w n out -> length o0 = S n -> gsw_enc w p s gsw m e ->
  ExternalProdAddLWETo w n p out gsw ct = vadd w out (ExternalProdLWETo w n p o0 gsw ct) /\
  ExternalProdSubLWETo w n p out gsw ct = vsub w out (ExternalProdLWETo w n p o0 gsw ct) /\
  eqm (2 ^ w) (phase s (ExternalProdAddLWETo w n p out gsw ct)) (phase s out + phase s (ExternalProdLWETo w n p o0 gsw ct)) /\
  eqm (2 ^ w) (phase s (ExternalProdSubLWETo w n p out gsw ct)) (phase s out - phase s (ExternalProdLWETo w n p o0 gsw ct)).
Proof. intros w s p out o0 gsw m e ct Hw Hok. exact (ExternalProd_var w Hw s p Hok out o0 gsw m e ct). Qed.
Print Assumptions C28_ExternalProdLWE_addsub.
Theorem C28_ExternalProdLWE_bound : forall w s p out gsw m e ct E, 0 < w -> gadget_ok w p ->
  let n := length s in length out = S n -> lwe_ct w n ct -> gsw_enc w p s gsw m e -> binary s ->
  (forall i j, (i <= n)%nat -> (j < g_level p)%nat -> Z.abs (e i j) <= E) ->
  dist_le (2 ^ w) (phase s (ExternalProdLWETo w n p out gsw ct)) (m * phase s ct)
    ((Z.of_nat n + 1) * (Z.of_nat (g_level p) * (2 ^ (g_logBase p - 1) * E) + Z.abs m * (2 ^ (w - Z.of_nat (g_level p) * g_logBase p) / 2))).
Proof. intros w s p out gsw m e ct E Hw Hok. exact (ExternalProd_bound w Hw s p Hok out gsw m e ct E). Qed.
Print Assumptions C28_ExternalProdLWE_bound.
Theorem C28_GadgetProdLWE : forall w s p lev m e x out, 0 < w -> gadget_ok w p ->
  uword w x -> lwe_ct w (length s) out -> lev_enc w p s lev m e ->
  exists (d : nat -> Z) (r : Z), is_dcmp w p x d r /\
    let v := m * (x - r) + zsum (g_level p) (fun j => d j * e j) in
    lwe_ct w (length s) (GadgetProdLWETo w p lev x) /\ eqm (2 ^ w) (phase s (GadgetProdLWETo w p lev x)) v /\
    lwe_ct w (length s) (GadgetProdAddLWETo w p out lev x) /\ eqm (2 ^ w) (phase s (GadgetProdAddLWETo w p out lev x)) (phase s out + v) /\
    lwe_ct w (length s) (GadgetProdSubLWETo w p out lev x) /\ eqm (2 ^ w) (phase s (GadgetProdSubLWETo w p out lev x)) (phase s out - v).
Proof. intros w s p lev m e x out Hw Hok. exact (GadgetProd_dcmp w Hw s p Hok lev m e x out). Qed.
Print Assumptions C28_GadgetProdLWE.
(** GSW(3) times an encryption of 2^28: about 3 * 2^28. *)
Example C28_LWE_ex :
  let gsw := fst (EncryptGSWScalarTo 32 exU exG exsk exgad (repeat (repeat (repeat 0 4) 3) 4) 3 (2, 4)%nat) in
  let ct := fst (EncryptLWEPlaintextTo 32 exU exG exsk (repeat 0 4) (2 ^ 28) (50, 60)%nat) in
  DecryptLWEPhase 32 exsk (ExternalProdLWETo 32 3 exgad (repeat 0 4) gsw ct) - 3 * 2 ^ 28 = -42.
Proof. vm_compute. reflexivity. Qed.
