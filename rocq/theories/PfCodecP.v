(** Codec lemmas in the form of the properties. *)
From Verif Require Import Base ModelNum SpecNum ModelGadget SpecGadget ModelParams SpecParams ModelCodec SpecCodec PfNum PfGadget PfParams PfCodec PfCodecT.

Section S.
Variable sz : nat.
Hypothesis Hsz : (1 <= sz <= 8)%nat.
Notation w := (8 * Z.of_nat sz).
Lemma enc_inj t v v' : wf sz t v -> wf sz t v' -> enc sz t v = enc sz t v' -> v = v'.
Proof.
  intros H H' E. destruct (cRead_top sz Hsz t v v H []) as [n En]. destruct (cRead_top sz Hsz t v v' H' []) as [n' En'].
  rewrite E in En. rewrite En in En'. congruence.
Qed.
Lemma ByteSize_ok t v b e : wf sz t v -> MarshalBinary (cWrite sz t v) = Some (b, e) -> e = false /\ cSize sz t v = Z.of_nat (length b).
Proof. intros H E. rewrite (Marshal_ok sz Hsz t v H) in E. injection E as <- <-. split; [reflexivity|]. now apply cSize_ok. Qed.
Lemma streams (l old : list obj) rest : Forall (fun o : obj => wf sz (projT1 o) (projT2 o)) l -> map (@projT1 _ _) old = map (@projT1 _ _) l ->
  exists b, MarshalBinary (writeAll sz l) = Some (b, false) /\ readAll sz old (b ++ rest) = Some (l, rest).
Proof. intros H E. exists (stream sz l). split; [now apply writeAll_ok|now apply readAll_ok]. Qed.
Lemma params_roundtrip p old : wfParams sz p ->
  exists b, MarshalBinary (Parameters_WriteTo p) = Some (b, false) /\ length b = 97%nat /\ UnmarshalBinary (Parameters_ReadFrom sz) old b = Some (Some p).
Proof.
  intros H. destruct (roundtrip sz Hsz TParameters p old H) as (b & H1 & H2). exists b. split; [exact H1|]. split; [|exact H2].
  pose proof (Marshal_ok sz Hsz TParameters p H) as E. cbn [cWrite] in *. rewrite E in H1. injection H1 as <-. cbn [enc]. pose proof (Params_len p) as L. unfold lenZ in L. lia.
Qed.
End S.
Lemma read_count sz t old p n a r : read_count_exact t = true -> cRead sz t old 0 p = RRet n a r -> exists c, p = c ++ r /\ n = Z.of_nat (length c).
Proof. intros H E. destruct (cRead_cnt sz t old H _ _ _ _ _ E) as (c & E1 & E2). exists c. split; [exact E1|]. apply E2. auto. Qed.
Lemma read_countS sz t old p n a r : read_count_success t = true -> cRead sz t old 0 p = RRet n (Some a) r -> exists c, p = c ++ r /\ n = Z.of_nat (length c).
Proof. intros H E. destruct (cRead_cntS sz t old H _ _ _ _ _ E) as (c & E1 & E2). exists c. split; [exact E1|]. apply E2. right. discriminate. Qed.
Lemma read_more sz t old p q n a r : cRead sz t old 0 p = RRet n (Some a) r -> cRead sz t old 0 (p ++ q) = RRet n (Some a) (r ++ q).
Proof. intros E. pose proof (cRead_ext sz t old 0 p q) as X. now rewrite E in X. Qed.

(** A literal of Go values, and one whose products do not overflow: together [lit_sane]. *)
Lemma lit_sane_split w l : lit_go w l -> lit_small l -> lit_sane w l.
Proof. intros (H1 & H2 & H3 & H4 & H5 & H6 & H7 & H8 & H9 & H10) (H11 & H12 & H13). repeat (split; [assumption|]). assumption. Qed.
Lemma beVal_range b : Forall (fun x => 0 <= x < 256) b -> 0 <= beVal b < 256 ^ Z.of_nat (length b).
Proof.
  intros H. rewrite <- (rev_involutive b) in *. induction (rev b) as [|x l IH]; [cbn; lia|]. cbn [rev] in *.
  apply Forall_app in H. destruct H as [H1 H2]. specialize (IH H1). rewrite beVal_app, app_length. cbn [length]. inversion H2 as [|? ? Hx _]; subst.
  change (beVal [x]) with (0 * 256 + x). rewrite Nat2Z.inj_add, Z.pow_add_r by lia. change (256 ^ Z.of_nat 1) with 256. nia.
Qed.
Lemma getInt_sword b : sword 64 (getInt b). Proof. apply swrap_range. lia. Qed.
Lemma getT_uword sz b : uword (8 * Z.of_nat sz) (getT sz b). Proof. apply wrap_range. lia. Qed.
Lemma rbind_inv {A B} (m : R A) (k : A -> R B) n p n' b r : rbind m k n p = RRet n' (Some b) r -> exists n1 a r1, m n p = RRet n1 (Some a) r1 /\ k a n1 r1 = RRet n' (Some b) r.
Proof. unfold rbind. destruct (m n p) as [|n1 [a|] r1]; try discriminate. eauto 6. Qed.
Lemma full_inv k n p n' b r : ReadFull k n p = RRet n' (Some b) r -> p = b ++ r /\ length b = k.
Proof.
  unfold ReadFull. destruct (Nat.leb k (length p)) eqn:E; [|discriminate]. intros H. injection H as <- <- <-. apply Nat.leb_le in E.
  split; [now rewrite firstn_skipn|now apply firstn_length_le].
Qed.
Lemma callR_inv {A} (f : R A) n p n' a r : callR f n p = RRet n' (Some a) r -> exists m, f 0 p = RRet m (Some a) r.
Proof. unfold callR. destruct (f 0 p) as [|m a' r']; [discriminate|]. intros H. injection H as _ -> ->. eauto. Qed.
Lemma gad_inv sz old n p n' g r : (1 <= sz <= 8)%nat -> GadgetParameters_ReadFrom sz old n p = RRet n' (Some g) r ->
  exists b2, (exists c, p = c ++ r) /\ uword (8 * Z.of_nat sz) (g_base g) /\ CompileGadget (8 * Z.of_nat sz) (mkGadgetLit (g_base g) (getInt b2)) = Ok g.
Proof.
  intros Hsz. unfold GadgetParameters_ReadFrom. intros H. apply rbind_inv in H. destruct H as (n1 & b1 & r1 & H1 & H). apply rbind_inv in H. destruct H as (n2 & b2 & r2 & H2 & H).
  apply full_inv in H1, H2. destruct H1 as [-> L1]. destruct H2 as [-> L2]. unfold rlift in H. destruct (gadOf sz (getT sz b1) (getInt b2)) as [g'|] eqn:E; [|discriminate].
  injection H as <- <- <-. exists b2. split; [exists (b1 ++ b2); now rewrite app_assoc|]. unfold gadOf in E.
  destruct (CompileGadget _ _) as [g''| |] eqn:E2; try discriminate. cbn in E. injection E as ->.
  assert (g_base g' = getT sz b1) as ->.
  { unfold CompileGadget in E2. cbn [gl_base gl_level] in E2.
    repeat (match type of E2 with (if ?b then _ else _) = _ => destruct b; [discriminate|] end).
    destruct (Log2 _); try discriminate. repeat (match type of E2 with (if ?b then _ else _) = _ => destruct b; [discriminate|] end). now injection E2 as <-. }
  split; [apply getT_uword|exact E2].
Qed.
Lemma emptyKSK : exists g k, NewLWEKeySwitchKeyCustom 0 0 g = Some k /\ forall O s, cWrite 4 TLWEKeySwitchKey k O 0 s = WPanic \/ exists n s', cWrite 4 TLWEKeySwitchKey k O 0 s = WRet n true s'.
Proof.
  exists (mkGadget 64 6 2 32), (mkGadget 64 6 2 32, []). split; [reflexivity|]. intros O s. cbn [cWrite]. unfold LWEKeySwitchKey_WriteTo, LWEKeySwitchKey_header.
  unfold wseq, callW, Write. cbn [fst snd windex g_base g_level].
  destruct (wtake O _ s) as [[a1 e1] s1]. destruct e1; [right; eauto|].
  destruct (wtake O _ s1) as [[a2 e2] s2]. destruct e2; [right; eauto|].
  destruct (wtake O _ s2) as [[a3 e3] s3]. destruct e3; [right; eauto|]. left. reflexivity.
Qed.
Lemma params_accepted sz old b n p r : (1 <= sz <= 8)%nat -> Forall (fun x => 0 <= x < 256) b -> Parameters_ReadFrom sz old 0 b = RRet n (Some p) r ->
  exists l, Compile (8 * Z.of_nat sz) l = Ok p /\ lit_go (8 * Z.of_nat sz) l /\ (lit_small l -> params_ok (8 * Z.of_nat sz) p).
Proof.
  intros Hsz Hb H. unfold Parameters_ReadFrom in H.
  do 8 (apply rbind_inv in H; let n := fresh "n" in let b := fresh "b" in let r := fresh "r" in let E := fresh "E" in destruct H as (n & b & r & E & H);
    apply full_inv in E; let L := fresh "L" in destruct E as [E L]; subst; apply Forall_app in Hb; let F := fresh "F" in destruct Hb as [F Hb]).
  apply rbind_inv in H. destruct H as (? & br & ? & E1 & H). apply callR_inv in E1. destruct E1 as [? E1]. destruct (gad_inv _ _ _ _ _ _ _ Hsz E1) as (lb & _ & U1 & C1).
  apply rbind_inv in H. destruct H as (? & ks & ? & E2 & H). apply callR_inv in E2. destruct E2 as [? E2]. destruct (gad_inv _ _ _ _ _ _ _ Hsz E2) as (lk & _ & U2 & C2).
  apply rbind_inv in H. destruct H as (? & b9 & ? & E3 & H). unfold rlift, resOpt in H.
  destruct (Compile _ _) as [p'| |] eqn:E; try discriminate. injection H as _ -> _. eexists. split; [exact E|].
  match type of E with Compile _ ?x = _ => set (l := x) in * end.
  assert (lit_go (8 * Z.of_nat sz) l) as HG.
  { subst l. unfold lit_go. cbn [l_LWEDimension l_PolyRank l_GLWERank l_LUTSize l_BlockSize l_LWEStdDev l_GLWEStdDev l_MessageModulus l_BlindRotate l_KeySwitch GadgetLiteral gl_base].
    repeat (split; [first [apply getInt_sword|apply getT_uword|unfold uword; match goal with L : length ?x = 8%nat, F : Forall _ ?x |- 0 <= beVal ?x < _ => pose proof (beVal_range x F) as V; rewrite L in V; exact V end|exact U1]|]).
    all: try exact U2; try exact U1. }
  split; [exact HG|]. intros HS. eapply Compile_sound; [|apply lit_sane_split; [exact HG|exact HS]|exact E]. lia.
Qed.
