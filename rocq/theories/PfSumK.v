(** Lemmas: kernels on binary64 whose inverse transform gives the exact coefficients up to the rounding error and 1/2. *)
From Coq Require Import Floats.SpecFloat.
From Verif Require Import Base NegaRing ModelNum ModelVec ModelPoly ModelAsm ModelF64 ModelFFT ModelF64Arith ModelSplitFFT ModelFused ModelFusedMul SpecNum SpecVec SpecPoly SpecFFT SpecFFTReal SpecRound SpecFused
  PfNum PfVec PfPoly PfSplit PfFFT PfFFT2 PfFFT3 PfFFT4 PfFFT6 PfFFTReal PfNetGen PfNetGen2 PfNetB PfRound PfNorm PfErr PfErr2 PfRoundQ PfErr3 PfErr4 PfErrF PfF64Fused PfAvxQ PfSplitFFT PfSplitF64 PfErrSum PfAvxKern PfValid PfAvxInv PfNear PfKeep.
From Coq Require Import Reals Lra Lia.
Open Scope R_scope.

Lemma fin_choice (P : nat -> Z -> Prop) n : (forall i, (i < n)%nat -> exists c, P i c) -> exists f, forall i, (i < n)%nat -> P i (f i).
Proof.
  induction n as [|n IH]; intros H; [exists (fun _ => 0%Z); intros; lia|]. destruct (IH (fun i Hi => H i ltac:(lia))) as [f Hf]. destruct (H n ltac:(lia)) as [c Hc].
  exists (fun i => if Nat.eqb i n then c else f i). intros i Hi. destruct (Nat.eqb_spec i n) as [-> |]; [exact Hc|apply Hf; lia].
Qed.

Section NearK.
Variable cexp : Z -> Z -> spec_float * spec_float.
Notation A := (f64Arith cexp).
Notation Vs := (@List.Forall f64 (fun x : f64 => vb x = true)).
Variables (N lm : nat).
Notation rep64 := (rep A finF val u64 eta64 del64 N lm).
Notation Q := (1 + kw u64 eta64 del64 lm).
Notation M := (2 ^ lm)%nat.
(** Accumulation of the inverse transforms. *)
Definition accK (k : option bool) (sg : bool) (w : Z) : Z -> Z -> Z :=
  match k with None => fun _ x => x | Some false => fun o x => twrap sg w (o + x) | Some true => fun o x => twrap sg w (o - x) end.
Record kernNear (K : kern (car A)) : Prop := mkKernNear {
  kn_ok : kernOK A finF val u64 eta64 (pw 970) del64 N lm (fun _ _ => True) K;
  kn_zero : Vs (kzero K);
  kn_fwd : forall sg w o p, Vs o -> Vs (kfwd K sg w o p);
  kn_mul : forall o f g, Vs o -> Vs f -> Vs g -> Vs (kmul K o f g);
  kn_acc : forall o f g, Vs o -> Vs f -> Vs g -> Vs (kacc K o f g);
  kn_inv : forall k sg w n Y f P out, (1 <= w <= 64)%Z -> 1 <= Y -> rep64 n Y f P -> Vs f -> length out = N -> Q ^ (n + lm) * (sqrt 2 ^ lm * Y) <= pw 970 / 32 ->
    exists c, kinv K k sg w out f = tab N (fun i => accK k sg w (nthZ out i) (twrap sg w (c i))) /\
      forall i, (i < N)%nat -> Rabs (IZR (c i) - IZR (cf P (Z.of_nat i))) <= (Q ^ (n + lm + 1) - 1) * (sqrt 2 ^ lm * Y / INR M) + / 2
}.

Hypothesis Hexp : cexp_near A finF val 17 d64.
Hypothesis Hval : forall k n, vb (fst (cexp k n)) = true /\ vb (snd (cexp k n)) = true.
Hypothesis Hlm : (3 <= lm)%nat.
Hypothesis Hlm14 : (lm <= 14)%nat.
Hypothesis HN : N = (2 ^ S lm)%nat.
Variable e : evaluator A.
Hypothesis Hev : NewEvaluator A N = Ok e.

Lemma zero_valid : Vs (zeroFFT A e).
Proof. apply Forall_forall. intros x Hx. apply repeat_spec in Hx. rewrite Hx. reflexivity. Qed.
Lemma cplx_in (v : list (car A)) (R : car A -> Prop) k : length v = N -> List.Forall R v -> (k < M)%nat -> R (fst (cplx A v k)) /\ R (snd (cplx A v k)).
Proof.
  intros Lv Hv Hk. unfold SpecFFT.cplx. pose proof (L_lt M k (M4 N lm Hlm HN) Hk) as HL. unfold L in HL. cbn [fst snd].
  rewrite Forall_forall in Hv. assert (NM2 : N = (2 * M)%nat) by (rewrite HN; reflexivity). split; apply Hv, nth_In; rewrite Lv, NM2; lia.
Qed.
(** From the values of the inverse transform to the coefficients. *)
Lemma inv_near (B : arith) (conv : car A -> Z) (sg : bool) (w : Z) (P : npoly N) (E : R) (v : list (car A)) : length v = N ->
  (forall x, nice x -> finF x -> exists n, Rabs (IZR n - val x) <= / 2 /\ twrap sg w (conv x) = twrap sg w n) -> List.Forall nice v ->
  (forall k, (k < M)%nat -> let c := cplx A v k in (finF (fst c) /\ finF (snd c)) /\ Rabs (val (fst c) - IZR (cf P (Z.of_nat k))) <= E /\ Rabs (val (snd c) - IZR (cf P (Z.of_nat (k + M)))) <= E) ->
  exists c, (forall k, (k < M)%nat -> twrap sg w (conv (fst (cplx A v k))) = twrap sg w (c k) /\ twrap sg w (conv (snd (cplx A v k))) = twrap sg w (c (k + M)%nat)) /\
    forall i, (i < N)%nat -> Rabs (IZR (c i) - IZR (cf P (Z.of_nat i))) <= E + / 2.
Proof.
  intros Lv Hc Hn HH. assert (NM2 : N = (2 * M)%nat) by (rewrite HN; reflexivity).
  destruct (fin_choice (fun i c => twrap sg w (conv (if Nat.ltb i M then fst (cplx A v i) else snd (cplx A v (i - M)))) = twrap sg w c /\ Rabs (IZR c - IZR (cf P (Z.of_nat i))) <= E + / 2) N) as [c Hcc].
  { intros i Hi. destruct (Nat.ltb_spec i M) as [C|C].
    - destruct (HH i C) as ([F1 F2] & E1 & E2). destruct (cplx_in v nice i Lv Hn C) as [n1 n2]. destruct (Hc _ n1 F1) as (n & D1 & D2). exists n. split; [exact D2|].
      pose proof (Rabs_le_sum _ _ _ _ _ D1 E1). lra.
    - assert (C' : (i - M < M)%nat) by lia. destruct (HH (i - M)%nat C') as ([F1 F2] & E1 & E2). destruct (cplx_in v nice (i - M) Lv Hn C') as [n1 n2].
      destruct (Hc _ n2 F2) as (n & D1 & D2). exists n. split; [exact D2|]. replace (i - M + M)%nat with i in E2 by lia. pose proof (Rabs_le_sum _ _ _ _ _ D1 E2). lra. }
  exists c. split.
  - intros k Hk. destruct (Hcc k ltac:(lia)) as [D1 _]. destruct (Hcc (k + M)%nat ltac:(lia)) as [D2 _]. destruct (Nat.ltb_spec k M); [|lia]. destruct (Nat.ltb_spec (k + M) M); [lia|].
    replace (k + M - M)%nat with k in D2 by lia. split; assumption.
  - intros i Hi. apply Hcc, Hi.
Qed.
Lemma go_kernNear : kernNear (goKern A e).
Proof.
  constructor; cbn [kzero kfwd kmul kacc kinv goKern].
  - exact (go64 cexp Hexp N lm Hlm Hlm14 HN e Hev).
  - exact zero_valid.
  - intros. now apply (goFwd_valid cexp Hval N e Hev).
  - intros. now apply goMul_valid.
  - intros. now apply goAcc_valid.
  - intros k sg w n Y f P out Hw Y1 HR Hf Ho HO.
    destruct (bounds64 lm Hlm14) as (B1 & B2 & B3 & B4 & B5 & B6). destruct (tables64 cexp N lm Hlm HN e Hev) as (HF & HI & Hr). destruct (goods64 cexp Hexp N lm Hlm Hlm14 HN) as [GF GI].
    destruct (real_tables N lm Hlm HN) as (er & Er & RF & RI).
    destruct (rep_inv A finF val u64 eta64 (pw 970) (f64_std cexp) B1 B2 B3 del64 B5 N lm Hlm HN GI e HI er Er RI n Y f P Y1 HR HO ltac:(lia)) as [L H].
    assert (Lf : length f = N) by apply HR. set (v := invFFTInPlace A f (e_twInv A e)) in *.
    destruct (inv_near A (fun x => around A (floatModQ A w x)) sg w P ((Q ^ (n + lm + 1) - 1) * (sqrt 2 ^ lm * Y / INR M)) v L) as (c & C1 & C2).
    + intros x Hx Fx. apply go_near; assumption.
    + destruct (goInv_pre cexp Hval N e Hev f Hf) as (u & Hu & Eu). unfold v. rewrite Eu. apply Forall_forall. intros x Hx. apply in_map_iff in Hx as (y & <- & Hy).
      rewrite Forall_forall in Hu. assert (NM2 : N = (2 * M)%nat) by (rewrite HN; reflexivity).
      change (@length spec_float f) with (@length (car A) f). rewrite Lf. replace (N / 2)%nat with M by (rewrite NM2, Nat.mul_comm, Nat.div_mul; lia).
      rewrite Nat2Z.inj_pow. apply nice_div; [exact (Hu y Hy)|lia].
    + intros k0 Hk0. destruct (H k0 Hk0) as (F1 & E1 & E2 & _). exact (Logic.conj F1 (Logic.conj E1 E2)).
    + exists c. split; [|exact C2].
      assert (G : unfoldPoly A (accK k sg w) sg w out (invFFTv A e w f) = tab N (fun i => accK k sg w (nthZ out i) (twrap sg w (c i)))).
      { unfold invFFTv, floatModQInPlace. fold v. apply (gunfold_spec A N lm Hlm HN); [rewrite map_length; exact L|exact Ho|]. intros k0 Hk0. rewrite (cplx_map A N lm Hlm HN) by assumption. cbn [fst snd]. apply C1, Hk0. }
      destruct k as [[|]|]; exact G.
Qed.
Lemma avx_kernNear : kernNear (avxKern cexp e).
Proof.
  constructor; cbn [kzero kfwd kmul kacc kinv avxKern].
  - exact (avx64 cexp Hexp N lm Hlm Hlm14 HN e Hev).
  - exact zero_valid.
  - intros. now apply (avxFwd_valid cexp Hval N e Hev).
  - intros. now apply avxMul_valid.
  - intros. now apply avxAcc_valid.
  - intros k sg w n Y f P out Hw Y1 HR Hf Ho HO.
    destruct (bounds64 lm Hlm14) as (B1 & B2 & B3 & B4 & B5 & B6). destruct (tables64 cexp N lm Hlm HN e Hev) as (HF & HI & Hr). destruct (goods64 cexp Hexp N lm Hlm Hlm14 HN) as [GF GI].
    destruct (real_tables N lm Hlm HN) as (er & Er & RF & RI). pose proof (f64_std cexp) as HS. pose proof (f64_fused cexp) as HM.
    assert (LI : forall s, locOK A finF val u64 eta64 (pw 970) del64 false (stI A (invA F64) (invB F64) s)).
    { intros s. unfold stI. destruct (Nat.eqb _ _); [apply (invB_OK A F64)|apply (invA_OK A F64)]; assumption. }
    assert (Lf : length f = N) by apply HR.
    assert (HI2 : forall v, length v = N -> exists v', invFFTB A (invA F64) (invB F64) (fun x => fmul F64 x (avxScale N)) v (e_twInv A e) = map (fun x => fmul F64 x (avxScale N)) v' /\
      length v' = N /\ forall k, (k < M)%nat -> cplx A v' k = netI A (stI A (invA F64) (invB F64)) lm lm (cplx A v) k) by (intros v Lv; exact (binvFFT_computes A N lm Hlm HN (invA F64) (invB F64) (e_twInv A e) HI (fun x => fmul F64 x (avxScale N)) v Lv)).
    edestruct (rep_invB A finF val u64 eta64 (pw 970)) with (iv := fun v => invFFTB A (invA F64) (invB F64) (fun x => fmul F64 x (avxScale N)) v (e_twInv A e)) (f := f) (P := P) as [L H]; try eassumption; [exact (post_OK cexp N lm Hlm Hlm14 HN)|].
    set (v := invFFTB A (invA F64) (invB F64) (fun x => fmul F64 x (avxScale N)) f (e_twInv A e)) in *.
    destruct (inv_near A (fun x => avxConv sg w (avxModQ w x)) sg w P ((Q ^ (n + lm + 1) - 1) * (sqrt 2 ^ lm * Y / INR M)) v L) as (c & C1 & C2).
    + intros x Hx Fx. apply avx_near; assumption.
    + assert (Hv : Vs v).
      { apply (avxInv_valid cexp Hval N e Hev (avxScale N) f); [|exact Hf]. replace N with (Z.to_nat (2 ^ Z.of_nat (S lm))); [apply scale_valid; lia|].
        rewrite HN. rewrite <- (Nat2Z.id (2 ^ S lm)), Nat2Z.inj_pow. reflexivity. }
      apply Forall_forall. intros x Hx. rewrite Forall_forall in Hv. apply nice_vb, Hv, Hx.
    + intros k0 Hk0. destruct (H k0 Hk0) as (F1 & E1 & E2 & _). exact (Logic.conj F1 (Logic.conj E1 E2)).
    + exists c. split; [|exact C2]. unfold avxInv, avxInvv, invFFTFused. change (@length spec_float f) with (@length (car A) f). rewrite Lf. fold v. rewrite (unfold_eq cexp).
      assert (G : unfoldPoly (withRound cexp (avxConv sg w)) (accK k sg w) sg w out (map (avxModQ w) v) = tab N (fun i => accK k sg w (nthZ out i) (twrap sg w (c i)))).
      { apply (gunfold_spec (withRound cexp (avxConv sg w)) N lm Hlm HN); [rewrite map_length; exact L|exact Ho|]. intros k0 Hk0.
        change (cplx (withRound cexp (avxConv sg w)) (map (avxModQ w) v) k0) with (cplx A (map (avxModQ w) v) k0). rewrite (cplx_map A N lm Hlm HN) by assumption. cbn [fst snd around withRound]. apply C1, Hk0. }
      destruct k as [[|]|]; exact G.
Qed.
End NearK.
