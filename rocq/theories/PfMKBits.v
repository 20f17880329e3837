(** Lemmas behind PropMKBits.v. *)
From Verif Require Import Base NegaRing SpecNum ModelNum PfNum ModelVec SpecVec PfVec ModelPoly SpecPoly PfPoly ModelGadget SpecGadget ModelParams ModelEncoder ModelLWE SpecLWE ModelGLWE SpecGLWE ModelBoot SpecBoot ModelBinary SpecBinary PfBinary
  ModelMK ModelMKBin ModelMKBits SpecMK PfLWE PfMK2 PfMK3 PfMK4.

Lemma MKDecryptLWEBool_joint w n P bm keys ct : 3 <= w -> length bm = P -> pkeys n P keys -> lwe_ct w (length (ljkey n bm keys)) ct ->
  MKDecryptLWEBool w n bm keys ct = DecryptLWEBool w (ljkey n bm keys) ct.
Proof.
  intros Hw Lbm Hk (Lc & Hc). unfold MKDecryptLWEBool, DecryptLWEBool. f_equal.
  pose proof (ljkey_length n P bm keys Lbm Hk) as Ll.
  pose proof (Forall_nth_lt _ _ 0 0%nat Hc ltac:(lia)) as H0.
  rewrite (MKDecryptLWE_spec w ltac:(lia)); [|rewrite Lbm; exact Hk|rewrite Lc, Ll, Lbm; reflexivity|exact H0].
  destruct (DecryptLWEPhase_spec w ltac:(lia) (ljkey n bm keys) ct Lc) as (A1 & A2). apply eqm_mod_eq in A2. rewrite (Z.mod_small _ _ A1) in A2. now rewrite A2.
Qed.
Lemma mk_bits_decrypt w n P bm keys cts B (b : nat -> bool) : 3 <= w -> length bm = P -> pkeys n P keys -> B < 2 ^ (w - 3) ->
  (forall i, (i < length cts)%nat -> bool_enc w (ljkey n bm keys) B (nth i cts []) (b i)) ->
  MKDecryptLWEBits w n bm keys cts = swrap 64 (zsum (length cts) (fun i => (if b i then 1 else 0) * 2 ^ Z.of_nat i)).
Proof.
  intros Hw Lbm Hk HB H. rewrite <- (bits_decrypt w (ljkey n bm keys) cts B b Hw HB H). unfold MKDecryptLWEBits, DecryptLWEBits.
  apply forN_ext. intros i s Hi. cbv zeta. rewrite (MKDecryptLWEBool_joint w n P bm keys) by (try assumption; apply (H (length cts - 1 - i)%nat); lia). reflexivity.
Qed.
Lemma mk_bool_encrypt w U G n P bm keys idx sub out m st r sub' st' : 3 <= w -> (0 < n)%nat -> length bm = P -> pkeys n P keys -> nth idx bm false = true ->
  length sub = S n -> length out = S (P * n) -> MKEncryptLWEBoolTo w U G (nth idx keys []) sub idx out m st = (r, (sub', st')) ->
  exists c, r = Some c /\ bool_enc w (ljkey n bm keys) (Z.abs (G (snd st))) c m /\ length sub' = S n /\ st' = ((fst st + n)%nat, S (snd st)).
Proof.
  intros Hw Hn Lbm Hk Hb Ls Lo E. pose proof (ljkey_length n P bm keys Lbm Hk) as Ll.
  destruct (MKEncryptLWE_spec w ltac:(lia) n Hn P bm keys Lbm Hk U G idx sub out _ st r sub' st' Hb Ls Lo E) as (c & -> & Hc & Hs & Hst & (t & B) & _).
  exists c. split; [reflexivity|]. split; [|split; assumption]. split; [rewrite Ll; exact Hc|].
  exists (G (snd st)). split; [|lia]. pose proof (pow_w3 w Hw). pose proof (pow_pos3 w Hw). unfold EncodeLWEBool in B. rewrite !Z.shiftl_mul_pow2 in B by lia. unfold wrap in B.
  destruct m; rewrite Z.mod_small in B by lia; [exists t|exists (t + 1)]; lia.
Qed.
Lemma mk_bits_encrypt w U G n P bm keys idx sub msg bits st B : 3 <= w -> (0 < n)%nat -> length bm = P -> pkeys n P keys -> nth idx bm false = true ->
  length sub = S n -> (forall i, (i < bits)%nat -> Z.abs (G (snd st + i)%nat) <= B) ->
  exists cts, MKEncryptLWEBits w U G P n (nth idx keys []) sub idx msg bits st = Some cts /\ length cts = bits /\
    forall i, (i < bits)%nat -> bool_enc w (ljkey n bm keys) B (nth i cts []) (Z.testbit msg (Z.of_nat i)).
Proof.
  intros Hw Hn Lbm Hk Hb Ls HG. unfold MKEncryptLWEBits, MKEncryptLWEBitsTo. rewrite repeat_length.
  set (Inv := fun m (t : option (list (list Z)) * (Z * (list Z * rst))) => exists o, fst t = Some o /\ length o = bits /\ fst (snd t) = Z.shiftr msg (Z.of_nat m) /\
    length (fst (snd (snd t))) = S n /\ snd (snd (snd (snd t))) = (snd st + m)%nat /\
    forall i, (i < m)%nat -> bool_enc w (ljkey n bm keys) B (nth i o []) (Z.testbit msg (Z.of_nat i))).
  match goal with |- context [forN 0 bits ?b ?s] => assert (Inv bits (forN 0 bits b s)) as (o & Eo & A & _ & _ & _ & D) end.
  { apply (forN_ind Inv).
    - exists (repeat [] bits). cbn [fst snd]. split; [reflexivity|]. split; [apply repeat_length|]. split; [reflexivity|]. split; [exact Ls|]. split; [lia|]. intros i Hi; lia.
    - intros m (o' & (x & (sb & r))) Hm (o & Eo & A & X & Sb & C & D). cbn [Nat.add]. cbn [fst snd] in *. subst o'.
      match goal with |- Inv _ (let '(_, _) := ?e in _) => destruct e as (c & (sb' & r')) eqn:Ec end. unfold MKEncryptLWEBool in Ec.
      destruct (mk_bool_encrypt w U G n P bm keys idx sb (repeat 0 (S (P * n))) _ r c sb' r' Hw Hn Lbm Hk Hb Sb ltac:(apply repeat_length) Ec) as (c' & -> & E1 & E2 & E3).
      exists (upd o m c'). cbn [fst snd]. split; [reflexivity|]. split; [now rewrite upd_length|]. split; [|split; [exact E2|split]].
      + rewrite X, Z.shiftr_shiftr by lia. f_equal. lia.
      + rewrite E3. cbn. lia.
      + intros i Hi. destruct (Nat.eq_dec i m) as [-> | Hne].
        * rewrite nth_upd_same by lia. replace (Z.testbit msg (Z.of_nat m)) with (Z.land x 1 =? 1).
          -- destruct E1 as (E1 & e & E4 & E5). split; [exact E1|]. exists e. split; [exact E4|]. rewrite C in E5. specialize (HG m Hm). lia.
          -- rewrite X. change 1 with (Z.ones 1) at 1. rewrite Z.land_ones by lia. rewrite <- (Z.add_0_l (Z.of_nat m)) at 2. rewrite <- Z.shiftr_spec by lia.
             rewrite Z.bit0_odd. change (2 ^ 1) with 2. rewrite Zmod_odd. destruct (Z.odd _); reflexivity.
        * rewrite nth_upd_other by lia. apply D. lia. }
  exists o. split; [exact Eo|]. split; [exact A|exact D].
Qed.
Lemma mk_bits_roundtrip w U G n P bm keys idx sub msg bits st : 3 <= w -> (0 < n)%nat -> length bm = P -> pkeys n P keys -> nth idx bm false = true ->
  length sub = S n -> (forall i, (i < bits)%nat -> Z.abs (G (snd st + i)%nat) < 2 ^ (w - 3)) ->
  exists cts, MKEncryptLWEBits w U G P n (nth idx keys []) sub idx msg bits st = Some cts /\
    MKDecryptLWEBits w n bm keys cts = swrap 64 (msg mod 2 ^ Z.of_nat bits).
Proof.
  intros Hw Hn Lbm Hk Hb Ls HG.
  destruct (mk_bits_encrypt w U G n P bm keys idx sub msg bits st (2 ^ (w - 3) - 1) Hw Hn Lbm Hk Hb Ls) as (cts & E & L & H); [intros i Hi; specialize (HG i Hi); lia|].
  exists cts. split; [exact E|]. rewrite (mk_bits_decrypt w n P bm keys cts (2 ^ (w - 3) - 1) (fun i => Z.testbit msg (Z.of_nat i))); try assumption; try lia.
  - rewrite L. now rewrite <- bits_sum.
  - rewrite L. exact H.
Qed.
