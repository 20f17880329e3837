(** The decomposition kernels: the blocks. *)
From Coq Require Import String Lia.
From Verif Require Import Base ModelNum SpecNum PfNum ModelGadget SpecGadget PfGadget ModelAsm ModelAsmInt SpecAsm SpecAsmDec PfAsm PfAsmVec PfAsmVec2 PfAsmDec PfAsmDec2.
Import ListNotations.
Open Scope Z_scope.

Section Lanes.
Context {A : Type}.
Variable F : fops A.
Lemma pk_ext e k (a b : nat -> Z) : (forall q, a q = b q) -> @pk A e k a = pk e k b.
Proof. intros H. unfold pk. now rewrite (map_ext a b H). Qed.
Lemma pk4 (op : Z -> Z -> Z) (a b : nat -> Z) : YI (map2 op (asI F (pk 4 8 a)) (asI F (pk 4 8 b))) = @pk A 4 8 (fun q => op (a q) (b q)).
Proof. unfold pk. cbn [Z.eqb Pos.eqb asI]. now rewrite map2_map. Qed.
Lemma pk4s (op : Z -> Z) (a : nat -> Z) : YI (map op (asI F (pk 4 8 a))) = @pk A 4 8 (fun q => op (a q)).
Proof. unfold pk. cbn [Z.eqb Pos.eqb asI]. now rewrite map_map. Qed.
Lemma pk4r (z : Z) : YI (repeat z 8) = @pk A 4 8 (fun _ => z).
Proof. reflexivity. Qed.
Lemma pk8 (op : Z -> Z -> Z) (a b : nat -> Z) : YI (splitl (map2 op (joinq (asI F (pk 8 4 a))) (joinq (asI F (pk 8 4 b))))) = @pk A 8 4 (fun q => op (a q) (b q)).
Proof. unfold pk. cbn [Z.eqb Pos.eqb asI]. now rewrite !joinq_splitl, map2_map. Qed.
Lemma pk8a (a b : nat -> Z) : YI (map2 (fun x y => Z.land y x) (asI F (pk 8 4 a)) (asI F (pk 8 4 b))) = @pk A 8 4 (fun q => Z.land (b q) (a q)).
Proof. unfold pk. cbn [Z.eqb Pos.eqb asI]. now rewrite land_split. Qed.
Lemma pk8s (op : Z -> Z) (a : nat -> Z) : YI (splitl (map op (joinq (asI F (pk 8 4 a))))) = @pk A 8 4 (fun q => op (a q)).
Proof. unfold pk. cbn [Z.eqb Pos.eqb asI]. now rewrite joinq_splitl, map_map. Qed.
Lemma pk8r (z : Z) : YI (splitl (repeat z 4)) = @pk A 8 4 (fun _ => z).
Proof. reflexivity. Qed.
End Lanes.
Ltac pks := rewrite ?pk4, ?pk4s, ?pk4r, ?pk8a, ?pk8, ?pk8s, ?pk8r.

Section Dec.
Context {A : Type}.
Variable F : fops A.
Variable s0 : state A.
Notation m0 := (mm s0).
Variable g : gadget.
Variables h p : gslice.
Variable d : Z -> gslice.
Ltac regs' := repeat match goal with H : rg ?s ?r = _ |- context [rg ?s ?r] => rewrite H | H : vr ?s ?r = _ |- context [vr ?s ?r] => rewrite H end.
Ltac st := first [progress cc | progress regs' | progress unfold arith | progress pks].


Ltac kd := repeat match goal with H : KD _ _ _ _ _ _ |- _ => destruct H as (Ra & Rc & Rd & Rb & V0 & V1 & V2 & V3 & V4 & V5) end.
Ltac shcond := repeat match goal with |- context [?a <? 32] => rewrite (proj2 (Z.ltb_lt a 32)) by lia | |- context [?a <? 64] => rewrite (proj2 (Z.ltb_lt a 64)) by lia end.
Ltac small64 := change (8 * 8) with 64 in *; rewrite ?(wrap64_id 1), ?(wrap64_id 3), ?(wrap64_id 8), ?(wrap64_id 4) by lia; repeat match goal with |- context [wrap 64 ?x] => rewrite (wrap64_id x) by lia end.


Lemma written_ext n (B B' : Z -> Z) f (m m' : mem A) : (forall j, 0 <= j < n -> B j = B' j) -> written n d B f m m' -> written n d B' f m m'.
Proof.
  intros H (H1 & H2 & H3). split; [exact H1|]. split.
  - intros j i Hj Hi. apply H2; [exact Hj|]. rewrite H by exact Hj. exact Hi.
  - intros b i Hb. apply H3. intros j Hj. rewrite H by exact Hj. apply Hb. exact Hj.
Qed.
Ltac split10 := unfold KD; repeat match goal with |- _ /\ _ => split end; cc; assumption.

Lemma dec32 : gadget_ok (8 * 4) g -> gn h = Z.of_nat (g_level g) -> polys m0 4 h d -> islice m0 4 p -> apart h p d -> gn p mod 8 = 0 ->
  terminates F (mkEnv (frameD h p 4 (g_base g) (g_logBase g) (LogLastBaseQ g)) intData) decomposePolyToUint32AVX2 s0
    (written (gn h) d (fun _ => gn p) (fun j i => nthZ (DecomposeScalar (8 * 4) g (ival m0 p i)) (Z.to_nat j)) m0).
Proof.
  intros Hg HL Hp Sp Ha Hn.
  assert (HE : 4 = 4 \/ 4 = 8) by lia. assert (Hek : 32 = 4 * 8) by lia.
  pose proof (LogLast_range _ _ Hg) as HLL. pose proof Hg as (G1 & G2 & G3 & G4 & G5 & G6). change (8 * 4) with 32 in G5, HLL.
  pose proof Sp as (_ & Spg & Spn & Spb & _). pose proof Hp as (_ & Phg & Phb & _).
  apply (dshape F s0 g h p d 4 8); try assumption.
  - eexists. split; [repeat st; reflexivity|]. split; [|split; [reflexivity|]].
    + unfold KD. repeat match goal with |- _ /\ _ => split end; try reflexivity; cc; pks; try reflexivity; cbn [asI]; pks; apply pk_ext; intros q; shcond; try reflexivity.
      change (1 mod 2 ^ (8 * 4)) with 1. rewrite wrap_small; [reflexivity|]. unfold uword. change (2 ^ 32) with 4294967296. lia.
    + cc. split; [reflexivity|]. split; [intros; lia|]. intros; reflexivity.
  - intros s i (HK & Si & W) Hi Hin. kd.
    pose proof (dec_load s0 g h p d 4 HE Hg Hp Sp Ha _ s i 8 W ltac:(intros; reflexivity) Hi Hek Hin) as Ld. fold (@pk A 4 8 (fun q => ival m0 p (i + Z.of_nat q))) in Ld.
    eexists. split; [repeat first [st | rewrite Ld]; reflexivity|].
    split; [split10|]. split; [cc; assumption|]. split; [cc; f_equal; small64; lia|]. split; [cc; f_equal; small64; lia|]. split.
    + cc. apply pk_ext. intros q. shcond. reflexivity.
    + cc. eapply written_ext; [|exact W]. intros j Hj. cbv beta. destruct (Z.ltb_spec (gn h - 1 - 0) j); [lia|reflexivity].
  - intros s i t (HK & Si & Di & R8' & V6 & W) Hi Hin Ht Htl. kd.
    pose proof (dec_head s0 g h p d 4 Hp Ha _ s (gn h - 1 - t) W ltac:(lia)) as Lh.
    repeat first [st | rewrite Lh].
    match goal with |- context [vst F (mm ?s) 32 _ ?y] =>
      destruct (dec_store F s0 g h p d 4 HE Hg Hp Sp Ha _ s (gn h - 1 - t) i 8 y W ltac:(lia)) as (m' & Em & Wm) end;
      [cbv beta; now rewrite Z.ltb_irrefl|lia|intros j _; destruct (_ <? j); lia|lia|lia
      |change (YI ((if 4 =? 4 then fun l => l else splitl) (map ?u (seq 0 (Z.to_nat 8))))) with (@pk A 4 8 u);
       apply pk_ext; intros q; shcond; rewrite (dig_eq s0 g h p 4 Hg HL) by lia; replace (gn h - 1 - (gn h - 1 - t)) with t by lia; reflexivity|].
    eexists. split; [repeat first [st | rewrite Em]; reflexivity|].
    split; [split10|]. split; [cc; assumption|]. split; [cc; f_equal; small64; lia|]. split; [cc; f_equal; small64; lia|]. split.
    + cc. apply pk_ext. intros q. shcond. replace (Z.to_nat (t + 1)) with (S (Z.to_nat t)) by lia. rewrite <- (snd_step _ _ Hg). reflexivity.
    + cc. eapply written_ext; [|exact Wm]. intros j Hj. cbv beta. destruct (Z.eqb_spec j (gn h - 1 - t)), (Z.ltb_spec (gn h - 1 - t) j), (Z.ltb_spec (gn h - 1 - (t + 1)) j); lia.
  - intros s i (HK & Si & Di & R8' & V6 & W) Hi Hin. kd.
    pose proof (dec_head s0 g h p d 4 Hp Ha _ s 0 W ltac:(lia)) as Lh. change (8 * go h + swrap 64 (3 * 0) * 8 + 0) with (8 * go h + 0 + 0) in Lh. rewrite Z.add_0_r in Lh.
    repeat first [st | rewrite Lh].
    match goal with |- context [vst F (mm ?s) 32 _ ?y] =>
      destruct (dec_store F s0 g h p d 4 HE Hg Hp Sp Ha _ s 0 i 8 y W ltac:(lia)) as (m' & Em & Wm) end;
      [cbv beta; replace (gn h - 1 - (gn h - 1)) with 0 by lia; reflexivity|lia|intros j _; destruct (_ <? j); lia|lia|lia
      |change (YI ((if 4 =? 4 then fun l => l else splitl) (map ?u (seq 0 (Z.to_nat 8))))) with (@pk A 4 8 u);
       apply pk_ext; intros q; shcond; rewrite (dig_eq s0 g h p 4 Hg HL) by lia; rewrite Z.sub_0_r; reflexivity|].
    eexists. split; [repeat first [st | rewrite Em]; reflexivity|].
    split; [split10|]. split; [cc; f_equal; apply inc_eq; lia|].
    cc. eapply written_ext; [|exact Wm]. intros j Hj. cbv beta. destruct (Z.eqb_spec j 0), (Z.ltb_spec (gn h - 1 - (gn h - 1)) j); lia.
Qed.

Lemma dec64 : gadget_ok (8 * 8) g -> gn h = Z.of_nat (g_level g) -> polys m0 8 h d -> islice m0 8 p -> apart h p d -> gn p mod 4 = 0 ->
  terminates F (mkEnv (frameD h p 8 (g_base g) (g_logBase g) (LogLastBaseQ g)) intData) decomposePolyToUint64AVX2 s0
    (written (gn h) d (fun _ => gn p) (fun j i => nthZ (DecomposeScalar (8 * 8) g (ival m0 p i)) (Z.to_nat j)) m0).
Proof.
  intros Hg HL Hp Sp Ha Hn.
  assert (HE : 8 = 4 \/ 8 = 8) by lia. assert (Hek : 32 = 8 * 4) by lia.
  pose proof (LogLast_range _ _ Hg) as HLL. pose proof Hg as (G1 & G2 & G3 & G4 & G5 & G6). change (8 * 8) with 64 in G5, HLL.
  pose proof Sp as (_ & Spg & Spn & Spb & _). pose proof Hp as (_ & Phg & Phb & _).
  apply (dshape F s0 g h p d 8 4); try assumption.
  - eexists. split; [repeat st; reflexivity|]. split; [|split; [reflexivity|]].
    + unfold KD. repeat match goal with |- _ /\ _ => split end; try reflexivity; cc; pks; try reflexivity; cbn [asI]; pks; apply pk_ext; intros q; shcond; try reflexivity.
      change (1 mod 2 ^ (8 * 8)) with 1. rewrite wrap_small; [reflexivity|]. unfold uword. change (2 ^ 64) with 18446744073709551616. lia.
    + cc. split; [reflexivity|]. split; [intros; lia|]. intros; reflexivity.
  - intros s i (HK & Si & W) Hi Hin. kd.
    pose proof (dec_load s0 g h p d 8 HE Hg Hp Sp Ha _ s i 4 W ltac:(intros; reflexivity) Hi Hek Hin) as Ld. fold (@pk A 8 4 (fun q => ival m0 p (i + Z.of_nat q))) in Ld.
    eexists. split; [repeat first [st | rewrite Ld]; reflexivity|].
    split; [split10|]. split; [cc; assumption|]. split; [cc; f_equal; small64; lia|]. split; [cc; f_equal; small64; lia|]. split.
    + cc. apply pk_ext. intros q. shcond. reflexivity.
    + cc. eapply written_ext; [|exact W]. intros j Hj. cbv beta. destruct (Z.ltb_spec (gn h - 1 - 0) j); [lia|reflexivity].
  - intros s i t (HK & Si & Di & R8' & V6 & W) Hi Hin Ht Htl. kd.
    pose proof (dec_head s0 g h p d 8 Hp Ha _ s (gn h - 1 - t) W ltac:(lia)) as Lh.
    repeat first [st | rewrite Lh].
    match goal with |- context [vst F (mm ?s) 32 _ ?y] =>
      destruct (dec_store F s0 g h p d 8 HE Hg Hp Sp Ha _ s (gn h - 1 - t) i 4 y W ltac:(lia)) as (m' & Em & Wm) end;
      [cbv beta; now rewrite Z.ltb_irrefl|lia|intros j _; destruct (_ <? j); lia|lia|lia
      |change (YI ((if 8 =? 4 then fun l => l else splitl) (map ?u (seq 0 (Z.to_nat 4))))) with (@pk A 8 4 u);
       apply pk_ext; intros q; shcond; rewrite (dig_eq s0 g h p 8 Hg HL) by lia; replace (gn h - 1 - (gn h - 1 - t)) with t by lia; reflexivity|].
    eexists. split; [repeat first [st | rewrite Em]; reflexivity|].
    split; [split10|]. split; [cc; assumption|]. split; [cc; f_equal; small64; lia|]. split; [cc; f_equal; small64; lia|]. split.
    + cc. apply pk_ext. intros q. shcond. replace (Z.to_nat (t + 1)) with (S (Z.to_nat t)) by lia. rewrite <- (snd_step _ _ Hg). reflexivity.
    + cc. eapply written_ext; [|exact Wm]. intros j Hj. cbv beta. destruct (Z.eqb_spec j (gn h - 1 - t)), (Z.ltb_spec (gn h - 1 - t) j), (Z.ltb_spec (gn h - 1 - (t + 1)) j); lia.
  - intros s i (HK & Si & Di & R8' & V6 & W) Hi Hin. kd.
    pose proof (dec_head s0 g h p d 8 Hp Ha _ s 0 W ltac:(lia)) as Lh. change (8 * go h + swrap 64 (3 * 0) * 8 + 0) with (8 * go h + 0 + 0) in Lh. rewrite Z.add_0_r in Lh.
    repeat first [st | rewrite Lh].
    match goal with |- context [vst F (mm ?s) 32 _ ?y] =>
      destruct (dec_store F s0 g h p d 8 HE Hg Hp Sp Ha _ s 0 i 4 y W ltac:(lia)) as (m' & Em & Wm) end;
      [cbv beta; replace (gn h - 1 - (gn h - 1)) with 0 by lia; reflexivity|lia|intros j _; destruct (_ <? j); lia|lia|lia
      |change (YI ((if 8 =? 4 then fun l => l else splitl) (map ?u (seq 0 (Z.to_nat 4))))) with (@pk A 8 4 u);
       apply pk_ext; intros q; shcond; rewrite (dig_eq s0 g h p 8 Hg HL) by lia; rewrite Z.sub_0_r; reflexivity|].
    eexists. split; [repeat first [st | rewrite Em]; reflexivity|].
    split; [split10|]. split; [cc; f_equal; apply inc_eq; lia|].
    cc. eapply written_ext; [|exact Wm]. intros j Hj. cbv beta. destruct (Z.eqb_spec j 0), (Z.ltb_spec (gn h - 1 - (gn h - 1)) j); lia.
Qed.
End Dec.

Lemma recompose_of e k pr : decomposes e k pr -> decomposes_recompose e k pr.
Proof.
  intros H A F s g h p d Hg HL Hp Sp Ha Hn. destruct (H A F s g h p d Hg HL Hp Sp Ha Hn) as (s' & Hr & (_ & Hw & _)). exists s'. split; [exact Hr|].
  intros i Hi. cbv zeta.
  assert (E : map (fun j => ival (mm s') (d (Z.of_nat j)) i) (seq 0 (g_level g)) = DecomposeScalarTo (8 * e) g (repeat 0 (g_level g)) (ival (mm s) p i)).
  { rewrite DecomposeScalarTo_tab by (assumption || apply repeat_length). unfold tab. apply map_ext_in. intros j Hj. apply in_seq in Hj.
    unfold ival at 1. rewrite Hw by lia. rewrite Nat2Z.id. unfold DecomposeScalar.
    destruct (DecomposeScalarTo_nth (8 * e) g Hg (repeat 0 (g_level g)) (ival (mm s) p i)) as (_ & H2 & _); [rewrite repeat_length; lia|]. apply H2. lia. }
  rewrite E. split; [apply Decompose_balanced; [exact Hg|apply repeat_length]|].
  apply Recompose_Decompose_dist; [exact Hg|apply repeat_length|]. destruct (islice_get (mm s) e p i Sp Hi) as (_ & Hx). exact Hx.
Qed.
