(** One-instruction steps of the machine, for programs on floats. *)
From Coq Require Import String Lia.
From Verif Require Import Base ModelNum ModelAsm PfAsm.
Import ListNotations.
Open Scope Z_scope.

Section Step.
Context {T : Type}.
Variable F : fops T.
Variable E : env T.
Notation ex := (ex F E).
Lemma ex_cons o a is s s1 : exec1 F E s o a = Some s1 -> ex (Ins o a :: is) s = ex is s1.
Proof. intros H. cbn [ModelAsm.ex]. rewrite H. reflexivity. Qed.

(** Lookups. *)
Lemma rg_setvr (s : state T) n v r : rg (setvr s n v) r = rg s r. Proof. reflexivity. Qed.
Lemma rg_setmm (s : state T) m r : rg (setmm s m) r = rg s r. Proof. reflexivity. Qed.
Lemma rg_setfl (s : state T) x r : rg (setfl s x) r = rg s r. Proof. reflexivity. Qed.
Lemma rg_setr (s : state T) q v r : rg (setr s q v) r = if Nat.eqb (rid r) (rid q) then v else rg s r. Proof. reflexivity. Qed.
Lemma mm_setvr (s : state T) n v : mm (setvr s n v) = mm s. Proof. reflexivity. Qed.
Lemma mm_setmm (s : state T) m : mm (setmm s m) = m. Proof. reflexivity. Qed.
Lemma mm_setfl (s : state T) x : mm (setfl s x) = mm s. Proof. reflexivity. Qed.
Lemma mm_setr (s : state T) q v : mm (setr s q v) = mm s. Proof. reflexivity. Qed.
Lemma vr_setmm (s : state T) m n : vr (setmm s m) n = vr s n. Proof. reflexivity. Qed.
Lemma vr_setfl (s : state T) x n : vr (setfl s x) n = vr s n. Proof. reflexivity. Qed.
Lemma vr_setr (s : state T) q v n : vr (setr s q v) n = vr s n. Proof. reflexivity. Qed.
Lemma vr_setvr (s : state T) k v n : vr (setvr s k v) n = if Nat.eqb n k then v else vr s n. Proof. reflexivity. Qed.

(** Loads and stores. *)
Lemma ex_ldY d b i c n is s k p z v : rg s b = WP k p -> rg s i = WI z -> vld (mm s) 32 (k, p + swrap 64 z * c + d) = Some v ->
  ex (Ins VMOVUPD [MI d b i c; Y n] :: is) s = ex is (setvr s n v).
Proof. intros H1 H2 H3. apply ex_cons. cbn [exec1 addr vwidth]. rewrite H1, H2, H3. reflexivity. Qed.
Lemma ex_ldX d b i c n is s k p z x0 x1 : rg s b = WP k p -> rg s i = WI z -> vld (mm s) 16 (k, p + swrap 64 z * c + d) = Some (YF [x0; x1]) ->
  ex (Ins VMOVUPD [MI d b i c; X n] :: is) s = ex is (setvr s n (YF [x0; x1; fofbits F 0; fofbits F 0])).
Proof. intros H1 H2 H3. apply ex_cons. cbn [exec1 addr vwidth]. rewrite H1, H2, H3. reflexivity. Qed.
Lemma ex_stY d b i c n is s k p z y m' : rg s b = WP k p -> rg s i = WI z -> vr s n = y -> vst F (mm s) 32 (k, p + swrap 64 z * c + d) y = Some m' ->
  ex (Ins VMOVUPD [Y n; MI d b i c] :: is) s = ex is (setmm s m').
Proof. intros H1 H2 H3 H4. apply ex_cons. cbn [exec1 addr vwidth vget]. rewrite H1, H2, H3, H4. reflexivity. Qed.
Lemma ex_stX d b i c n is s k p z x0 x1 x2 x3 m' : rg s b = WP k p -> rg s i = WI z -> vr s n = YF [x0; x1; x2; x3] ->
  vst F (mm s) 16 (k, p + swrap 64 z * c + d) (YF [x0; x1]) = Some m' ->
  ex (Ins VMOVUPD [X n; MI d b i c] :: is) s = ex is (setmm s m').
Proof. intros H1 H2 H3 H4. apply ex_cons. cbn [exec1 addr vwidth vget]. rewrite H1, H2, H3. cbn [firstn]. rewrite H4. reflexivity. Qed.
Lemma ex_bc d b i c n is s k p z x : rg s b = WP k p -> rg s i = WI z -> ldw (mm s) 8 (k, p + swrap 64 z * c + d) = Some (WF x) ->
  ex (Ins VBROADCASTSD [MI d b i c; Y n] :: is) s = ex is (setvr s n (YF [x; x; x; x])).
Proof. intros H1 H2 H3. apply ex_cons. cbn [exec1 bsrc src addr]. rewrite H1, H2, H3. reflexivity. Qed.
Lemma ex_bcFP d n is s x : frame E d = Some (8, WF x) -> ex (Ins VBROADCASTSD [FP d; Y n] :: is) s = ex is (setvr s n (YF [x; x; x; x])).
Proof. intros H1. apply ex_cons. cbn [exec1 bsrc src]. rewrite H1. reflexivity. Qed.

(** Arithmetic on lanes. *)
Lemma asF_z : asF F (YI (repeat 0 8)) = [fofbits F 0; fofbits F 0; fofbits F 0; fofbits F 0]. Proof. reflexivity. Qed.
Lemma asF_YF (l : list T) : asF F (YF l) = l. Proof. reflexivity. Qed.
Lemma ex_f2Y o f a b d is s x y : fop2 F o = Some f -> vr s a = x -> vr s b = y -> ex (Ins o [Y a; Y b; Y d] :: is) s = ex is (setvr s d (YF (map2 f (asF F x) (asF F y)))).
Proof. intros H1 H2 H3. apply ex_cons. destruct o; try discriminate H1; cbn [exec1]; rewrite H1; cbn [vget]; rewrite H2, H3; reflexivity. Qed.
Lemma ex_f2X o f a b d is s x0 x1 x2 x3 y0 y1 y2 y3 : fop2 F o = Some f -> vr s a = YF [x0; x1; x2; x3] -> vr s b = YF [y0; y1; y2; y3] ->
  ex (Ins o [X a; X b; X d] :: is) s = ex is (setvr s d (YF [f x0 y0; f x1 y1; fofbits F 0; fofbits F 0])).
Proof. intros H1 H2 H3. apply ex_cons. destruct o; try discriminate H1; cbn [exec1]; rewrite H1; cbn [vget]; rewrite H2, H3; reflexivity. Qed.
Lemma ex_f3Y o f a b d is s x y z : fop3 F o = Some f -> vr s a = YF x -> vr s b = YF y -> vr s d = z -> ex (Ins o [Y a; Y b; Y d] :: is) s = ex is (setvr s d (YF (f x y (asF F z)))).
Proof. intros H1 H2 H3 H4. apply ex_cons. destruct o; try discriminate H1; cbn [exec1]; rewrite H1; cbn [vget]; rewrite H2, H3, H4; reflexivity. Qed.
Lemma ex_fmaX a b d is s x0 x1 x2 x3 y0 y1 y2 y3 z0 z1 z2 z3 : vr s a = YF [x0; x1; x2; x3] -> vr s b = YF [y0; y1; y2; y3] -> vr s d = YF [z0; z1; z2; z3] ->
  ex (Ins VFMADD231PD [X a; X b; X d] :: is) s = ex is (setvr s d (YF [ffma F y0 x0 z0; ffma F y1 x1 z1; fofbits F 0; fofbits F 0])).
Proof. intros H2 H3 H4. apply ex_cons. cbn [exec1 fop3 vget]. rewrite H2, H3, H4. reflexivity. Qed.
Lemma ex_fnmaX a b d is s x0 x1 x2 x3 y0 y1 y2 y3 z0 z1 z2 z3 : vr s a = YF [x0; x1; x2; x3] -> vr s b = YF [y0; y1; y2; y3] -> vr s d = YF [z0; z1; z2; z3] ->
  ex (Ins VFNMADD231PD [X a; X b; X d] :: is) s = ex is (setvr s d (YF [ffnma F y0 x0 z0; ffnma F y1 x1 z1; fofbits F 0; fofbits F 0])).
Proof. intros H2 H3 H4. apply ex_cons. cbn [exec1 fop3 vget]. rewrite H2, H3, H4. reflexivity. Qed.
Lemma ex_shY c a b d is s x0 x1 x2 x3 y0 y1 y2 y3 : vr s a = YF [x0; x1; x2; x3] -> vr s b = YF [y0; y1; y2; y3] ->
  ex (Ins VSHUFPD [I c; Y a; Y b; Y d] :: is) s =
  ex is (setvr s d (YF [if bit c 0 then y1 else y0; if bit c 1 then x1 else x0; if bit c 2 then y3 else y2; if bit c 3 then x3 else x2])).
Proof. intros H1 H2. apply ex_cons. cbn [exec1 vget]. rewrite H1, H2. reflexivity. Qed.
Lemma ex_shX c a b d is s x0 x1 x2 x3 y0 y1 y2 y3 : vr s a = YF [x0; x1; x2; x3] -> vr s b = YF [y0; y1; y2; y3] ->
  ex (Ins VSHUFPD [I c; X a; X b; X d] :: is) s = ex is (setvr s d (YF [if bit c 0 then y1 else y0; if bit c 1 then x1 else x0; fofbits F 0; fofbits F 0])).
Proof. intros H1 H2. apply ex_cons. cbn [exec1 vget]. rewrite H1, H2. reflexivity. Qed.

(** Integer registers. *)
Lemma ex_addI c r is s z : rg s r = WI z -> 0 <= c <= 8 -> 0 <= z < 2 ^ 60 -> ex (Ins ADDQ [I c; R r] :: is) s = ex is (setfl (setr s r (WI (z + c))) None).
Proof.
  intros H1 Hc Hz. apply ex_cons. cbn [exec1 arith src dst]. unfold arith. cbn [src dst]. rewrite H1. cbn [Z.eqb Pos.eqb].
  change (8 * 8) with 64. rewrite (wrap64_id c), wrap64_id by lia. reflexivity.
Qed.
Lemma b30 : bit 3 0 = true. Proof. reflexivity. Qed.
Lemma b31 : bit 3 1 = true. Proof. reflexivity. Qed.
Lemma b00 i : bit 0 i = false. Proof. unfold bit. apply Z.bits_0. Qed.
Lemma b50 : bit 5 0 = true. Proof. reflexivity. Qed.
Lemma b51 : bit 5 1 = false. Proof. reflexivity. Qed.
Lemma b52 : bit 5 2 = true. Proof. reflexivity. Qed.
Lemma b53 : bit 5 3 = false. Proof. reflexivity. Qed.
Lemma bF0 : bit 15 0 = true. Proof. reflexivity. Qed.
Lemma bF1 : bit 15 1 = true. Proof. reflexivity. Qed.
Lemma bF2 : bit 15 2 = true. Proof. reflexivity. Qed.
Lemma bF3 : bit 15 3 = true. Proof. reflexivity. Qed.
End Step.
Ltac bits := rewrite ?b30, ?b31, ?b00, ?b50, ?b51, ?b52, ?b53, ?bF0, ?bF1, ?bF2, ?bF3; cbv iota.
(** Solve a lookup in the current state. *)
Ltac lk := cbn [rg vr mm setr setvr setfl setmm rid Nat.eqb].
