(** Lemmas: the transforms and products of valid binary64 vectors are valid. *)
From Coq Require Import Floats.SpecFloat Lia.
From Verif Require Import Base ModelNum ModelVec ModelAsm ModelF64 ModelFFT ModelF64Arith ModelFused ModelFusedMul ModelSplitFFT SpecFFT PfVec PfFFT PfFFT2 PfNetGen PfNetGen2 PfValid PfAvxInv.
Import ListNotations.
Open Scope Z_scope.

Section Keep2.
Variable A : arith.
Notation T := (car A).
Variable P : T -> Prop.
Hypothesis P0 : P (a0 A).
Notation bfT := (T -> T -> T -> T -> T -> T -> T * T * T * T).

(** The portable networks are the generic ones. *)
Lemma fwdMid_B fuel : forall N m t wi tw v, fwdMid A fuel N m t wi tw v = fwdMidB A (fwdButterfly A) fuel N m t wi tw v.
Proof. induction fuel as [|f IH]; intros N m t wi tw v; [reflexivity|]. cbn [fwdMid fwdMidB]. destruct (Nat.leb m (N / 16)); [apply IH|reflexivity]. Qed.
Lemma invMid_B fuel : forall m t wi tw v, invMid A fuel m t wi tw v = invMidB A (invButterfly A) fuel m t wi tw v.
Proof. induction fuel as [|f IH]; intros m t wi tw v; [reflexivity|]. cbn [invMid invMidB]. destruct (Nat.leb 2 m); [apply IH|reflexivity]. Qed.
Lemma fwd_B v tw : fwdFFTInPlace A v tw = fwdFFTB A (fwdButterfly A) (fwdButterfly A) v tw.
Proof. unfold fwdFFTInPlace, fwdFFTB. now rewrite fwdMid_B. Qed.
Lemma inv_B v tw : invFFTInPlace A v tw = map (fun x => adivn A x (Z.of_nat (length v / 2))) (invFFTB A (invButterfly A) (invButterfly A) (fun x => x) v tw).
Proof. unfold invFFTInPlace, invFFTB. rewrite invMid_B. match goal with |- context [invMidB A ?b ?f ?m ?t ?wi ?w ?u] => destruct (invMidB A b f m t wi w u) end. now rewrite map_id. Qed.

Lemma fwdMidB_keep bA tw fuel : forall N m t wi v, keeps A P bA -> Forall (pairP A P) tw -> Forall P v -> Forall P (fst (fwdMidB A bA fuel N m t wi tw v)).
Proof. induction fuel as [|f IH]; intros N m t wi v K W H; [exact H|]. cbn [fwdMidB]. destruct (Nat.leb m (N / 16)); [|exact H]. apply IH; auto using level_keep. Qed.
Lemma fwdFFTB_keep bA bB v tw : keeps A P bA -> keeps A P bB -> Forall (pairP A P) tw -> Forall P v -> Forall P (fwdFFTB A bA bB v tw).
Proof.
  intros KA KB W H. unfold fwdFFTB. set (W1 := fun i => nth i tw (a0 A, a0 A)). assert (HW : forall i, pairP A P (W1 i)) by (intros i; apply tw_keep; assumption).
  match goal with |- context [fwdMidB A bA ?f ?n ?m ?t ?wi tw ?u] => assert (Q : Forall P (fst (fwdMidB A bA f n m t wi tw u))); [|destruct (fwdMidB A bA f n m t wi tw u) as [u' wi']] end.
  { apply fwdMidB_keep; [exact KA|exact W|]. apply node_keep; auto using tw_keep. }
  cbn [fst] in Q. apply forN_keep; [intros; apply half1_keep; auto using tw_keep|]. apply forN_keep; [intros; apply half2_keep; auto using tw_keep|]. exact Q.
Qed.
Lemma cmplxLoop_keep f o u v : (forall a b c, pairP A P a -> pairP A P b -> pairP A P c -> pairP A P (f a b c)) -> Forall P o -> Forall P u -> Forall P v -> Forall P (cmplxLoop A f o u v).
Proof.
  intros Hf Ho Hu Hv. unfold cmplxLoop. apply forN_keep; [|exact Ho]. intros b o1 H1. apply forN_keep; [|exact H1]. intros c o2 H2. cbv zeta.
  match goal with |- context [f ?a ?b ?c] => assert (K : pairP A P (f a b c)); [apply Hf; split; (apply (nth_keep A P P0); assumption)|destruct (f a b c) as [x y]] end.
  destruct K as [K1 K2]. auto using upd_keep.
Qed.
Lemma fold_keep sg w o p : (forall z, P (aofZ A z)) -> Forall P o -> Forall P (foldPolyTo A sg w o p).
Proof. intros Hz Ho. unfold foldPolyTo. apply forN_keep; [|exact Ho]. intros b o1 H1. apply forN_keep; [|exact H1]. intros c o2 H2. unfold foldConv. auto using upd_keep. Qed.
(** Tables. *)
Lemma upd_keep' {X} (R : X -> Prop) v i x : Forall R v -> R x -> Forall R (upd v i x).
Proof. revert i. induction v as [|a v IH]; intros i H Hx; [destruct i; constructor|]. inversion H; subst. destruct i; cbn [upd]; constructor; auto. Qed.
Lemma nth_keep' {X} (R : X -> Prop) v i d : R d -> Forall R v -> R (nth i v d).
Proof. intros Hd H. destruct (Nat.lt_ge_cases i (length v)) as [C|C]; [rewrite Forall_forall in H; apply H, nth_In, C|rewrite nth_overflow by exact C; exact Hd]. Qed.
Lemma BitReverse_keep {X} (R : X -> Prop) d (v v' : list X) : R d -> Forall R v -> BitReverseInPlace d v = Ok v' -> Forall R v'.
Proof.
  intros Hd Hv. unfold BitReverseInPlace.
  match goal with |- context [forN 1 ?n ?b ?s] => assert (H : match forN 1 n b s with Ok (u, _) => Forall R u | _ => True end) end.
  { apply (forN_ind (fun _ st => match st with Ok (u, _) => Forall R u | _ => True end)); [exact Hv|]. intros i [[u j]| |] Hi H; try exact Logic.I.
    destruct (br_inner _ _ _); try exact Logic.I. destruct (Nat.ltb _ _); [|exact H]. unfold swap. repeat apply upd_keep'; try assumption; apply nth_keep'; assumption. }
  destruct (forN _ _ _ _) as [[u j]| |]; try discriminate. intros E. injection E as <-. exact H.
Qed.
Hypothesis Pmul : forall a b, pairP A P a -> pairP A P b -> pairP A P (cmulG A a b).
Hypothesis Pexp : forall k n, pairP A P (acexp A k n).
Lemma tab_keep {X} (R : X -> Prop) n (f : nat -> X) : (forall i, R (f i)) -> Forall R (tab n f).
Proof. intros H. apply Forall_forall. intros x Hx. apply in_map_iff in Hx as (i & <- & _). apply H. Qed.
Lemma twApp_keep m t tw0 tw : pairP A P t -> Forall (pairP A P) tw0 -> Forall (pairP A P) tw ->
  Forall (pairP A P) (forN 0 m (fun i tw => tw ++ [cmulG A (nth i tw0 (a0 A, a0 A)) t]) tw).
Proof.
  intros Ht H0 H. apply (forN_ind (fun _ u => Forall (pairP A P) u)); [exact H|]. intros i u _ Hu. apply Forall_app. split; [exact Hu|]. constructor; [|constructor].
  apply Pmul; [|exact Ht]. apply nth_keep'; [split; exact P0|exact H0].
Qed.
Lemma twLoop_keep fuel : forall N m t tw0 tw, Forall (pairP A P) tw0 -> Forall (pairP A P) tw -> Forall (pairP A P) (twLoop A fuel N m t tw0 tw).
Proof. induction fuel as [|f IH]; intros N m t tw0 tw H0 H; [exact H|]. cbn [twLoop]. destruct (Nat.leb _ _); [|exact H]. apply IH; [exact H0|]. apply twApp_keep; auto. Qed.
Lemma twInvLoop_keep fuel : forall N m t tw0 tw, Forall (pairP A P) tw0 -> Forall (pairP A P) tw -> Forall (pairP A P) (twInvLoop A fuel N m t tw0 tw).
Proof. induction fuel as [|f IH]; intros N m t tw0 tw H0 H; [exact H|]. cbn [twInvLoop]. destruct (Nat.leb _ _); [|exact H]. apply IH; [exact H0|]. apply twApp_keep; auto. Qed.
Lemma eval_keep N e : NewEvaluator A N = Ok e -> Forall (pairP A P) (e_tw A e) /\ Forall (pairP A P) (e_twInv A e).
Proof.
  unfold NewEvaluator. destruct (negb _); [discriminate|]. destruct (Nat.ltb N 16); [discriminate|]. unfold genTwiddleFactors. cbv zeta.
  repeat match goal with |- context [BitReverseInPlace (a0 A, a0 A) ?t] => let E := fresh "E" in let t1 := fresh "t" in destruct (BitReverseInPlace (a0 A, a0 A) t) as [t1| |] eqn:E end; try discriminate.
  match goal with |- context [BitReverseInPlace 0 ?t] => destruct (BitReverseInPlace 0 t); try discriminate end.
 intros H. injection H as <-. cbn [e_tw e_twInv]. rename E into E1, E0 into E2.
  assert (Pd : pairP A P (a0 A, a0 A)) by (split; exact P0).
  apply (BitReverse_keep (pairP A P)) in E1; [|exact Pd|apply tab_keep; intros; apply Pexp]. apply (BitReverse_keep (pairP A P)) in E2; [|exact Pd|apply tab_keep; intros; apply Pexp].
  split; [apply twLoop_keep|apply twInvLoop_keep]; auto.
Qed.
End Keep2.

(** On binary64. *)
Section F64Keep2.
Variable cexp : Z -> Z -> f64 * f64.
Notation A := (f64Arith cexp).
Notation V := (fun x : f64 => vb x = true).
Notation Vs := (@List.Forall f64 V).
Ltac vsolve := repeat (first [assumption | reflexivity | apply fma_valid | apply add_valid | apply sub_valid | apply mul_valid | rewrite opp_valid]).
Hypothesis Hexp : forall k n, vb (fst (cexp k n)) = true /\ vb (snd (cexp k n)) = true.
Lemma fwdG_keeps : keeps A V (fwdButterfly A).
Proof. intros a b c d e f Ha Hb Hc Hd He Hf. cbn. repeat split; vsolve. Qed.
Lemma invG_keeps : keeps A V (invButterfly A).
Proof. intros a b c d e f Ha Hb Hc Hd He Hf. cbn. repeat split; vsolve. Qed.
Lemma fwdA_keeps : keeps A V (fwdA F64).
Proof. intros a b c d e f Ha Hb Hc Hd He Hf. cbn. repeat split; vsolve. Qed.
Lemma fwdB_keeps : keeps A V (fwdB F64).
Proof. intros a b c d e f Ha Hb Hc Hd He Hf. cbn. repeat split; vsolve. Qed.
Lemma tables_valid N e : NewEvaluator A N = Ok e -> List.Forall (pairP A V) (e_tw A e) /\ List.Forall (pairP A V) (e_twInv A e).
Proof. intros H. apply (eval_keep A V) with (N := N); [reflexivity| |exact Hexp|exact H]. intros [a a'] [b b'] [H1 H2] [H3 H4]. split; cbn in *; vsolve. Qed.
Variables (N : nat) (e : evaluator A).
Hypothesis He : NewEvaluator A N = Ok e.
Lemma goFwd_valid sg w o p : Vs o -> Vs (FwdFFTTo A e sg w o p).
Proof.
  intros Ho. unfold FwdFFTTo. rewrite fwd_B. apply (fwdFFTB_keep A V); [reflexivity|exact fwdG_keeps|exact fwdG_keeps|apply (tables_valid N e He)|].
  apply (fold_keep A V); [|exact Ho]. intros z. apply BN_valid.
Qed.
Lemma avxFwd_valid sg w o p : Vs o -> Vs (avxFwd cexp e sg w o p).
Proof.
  intros Ho. unfold avxFwd, fwdFFTFused. apply (fwdFFTB_keep A V); [reflexivity|exact fwdA_keeps|exact fwdB_keeps|apply (tables_valid N e He)|].
  apply (fold_keep A V); [|exact Ho]. intros z. apply BN_valid.
Qed.
Lemma goMul_valid o f g : Vs o -> Vs f -> Vs g -> Vs (mulCmplxTo A o f g).
Proof. intros Ho Hf Hg. apply (cmplxLoop_keep A V); try assumption; [reflexivity|]. intros [a a'] [b b'] [c c'] [H1 H2] [H3 H4] [H5 H6]. split; cbn in *; vsolve. Qed.
Lemma goAcc_valid o f g : Vs o -> Vs f -> Vs g -> Vs (mulAddCmplxTo A o f g).
Proof. intros Ho Hf Hg. apply (cmplxLoop_keep A V); try assumption; [reflexivity|]. intros [a a'] [b b'] [c c'] [H1 H2] [H3 H4] [H5 H6]. split; cbn in *; vsolve. Qed.
Lemma avxMul_valid o f g : Vs o -> Vs f -> Vs g -> Vs (mulCmplxFused A F64 o f g).
Proof. intros Ho Hf Hg. apply (cmplxLoop_keep A V); try assumption; [reflexivity|]. intros [a a'] [b b'] [c c'] [H1 H2] [H3 H4] [H5 H6]. split; cbn in *; vsolve. Qed.
Lemma avxAcc_valid o f g : Vs o -> Vs f -> Vs g -> Vs (mulAddCmplxFused A F64 o f g).
Proof. intros Ho Hf Hg. apply (cmplxLoop_keep A V); try assumption; [reflexivity|]. intros [a a'] [b b'] [c c'] [H1 H2] [H3 H4] [H5 H6]. split; cbn in *; vsolve. Qed.
Lemma goInv_pre f : Vs f -> exists u, Vs u /\ invFFTInPlace A f (e_twInv A e) = map (fun x => adivn A x (Z.of_nat (length f / 2))) u.
Proof.
  intros Hf. eexists. split; [|apply inv_B]. apply (invFFTB_keep A V); [reflexivity|exact invG_keeps|exact invG_keeps|intros x Hx; exact Hx|apply (tables_valid N e He)|exact Hf].
Qed.
Lemma avxInv_valid sc f : vb sc = true -> Vs f -> Vs (invFFTFused A F64 sc f (e_twInv A e)).
Proof. intros Hs Hf. apply invF_valid; [exact Hs|apply (tables_valid N e He)|exact Hf]. Qed.
End F64Keep2.
