(** The decomposition kernels: control flow and lanes. *)
From Coq Require Import String Lia.
From Verif Require Import Base ModelNum ModelGadget SpecGadget PfGadget ModelAsm ModelAsmInt SpecAsm SpecAsmDec PfAsm PfAsmVec PfAsmVec2 PfAsmDec.
Import ListNotations.
Open Scope Z_scope.

Section Dec.
Context {A : Type}.
Variable F : fops A.
Variable s0 : state A.
Notation m0 := (mm s0).
Variable g : gadget.
Variables h p : gslice.
Variable d : Z -> gslice.
Variable e k : Z.
Hypothesis He : e = 4 \/ e = 8.
Hypothesis Hek : 32 = e * k.
Hypothesis Hg : gadget_ok (8 * e) g.
Hypothesis HL : gn h = Z.of_nat (g_level g).
Hypothesis Hp : polys m0 e h d.
Hypothesis Sp : islice m0 e p.
Hypothesis Ha : apart h p d.
Hypothesis Hnk : gn p mod k = 0.
Notation w := (8 * e).
Notation L := (gn h).
Notation n := (gn p).
Notation x i := (ival m0 p i).
Notation dig j i := (nthZ (DecomposeScalar w g (x i)) (Z.to_nat j)).
Notation f := (fun j i => dig j i).
Notation E := (mkEnv (frameD h p e (g_base g) (g_logBase g) (LogLastBaseQ g)) intData).
Definition pk (u : nat -> Z) : yval A := YI ((if e =? 4 then fun l => l else splitl) (map u (seq 0 (Z.to_nat k)))).

Definition KD (s : state A) := rg s AX = WP (gb h) (8 * go h) /\ rg s CX = WP (gb p) (e * go p) /\ rg s DX = WI n /\ rg s BX = WI L /\
  vr s 0%nat = pk (fun _ => Z.shiftr (g_base g) 1) /\ vr s 1%nat = pk (fun _ => g_logBase g) /\ vr s 2%nat = pk (fun _ => LogLastBaseQ g) /\
  vr s 3%nat = pk (fun _ => 1) /\ vr s 4%nat = pk (fun _ => wrap w (g_base g - 1)) /\ vr s 5%nat = pk (fun _ => g_logBase g - 1).
Definition J1 (i : Z) (s : state A) := KD s /\ rg s SI = WI i /\ written L d (fun _ => i) f m0 (mm s).
Definition J2 (i t : Z) (s : state A) := KD s /\ rg s SI = WI i /\ rg s DI = WI (L - 1 - t) /\ rg s R8 = WI (3 * (L - 1 - t)) /\
  vr s 6%nat = pk (fun q => uiter g (Z.to_nat t) (u0 w g (x (i + Z.of_nat q)))) /\
  written L d (fun j => if L - 1 - t <? j then i + k else i) f m0 (mm s).

Section Shape.
Variables pre b1 b2 b3 : list instr.
Notation pr := [(""%string, pre); ("N_loop_body"%string, b1); ("level_loop_body"%string, b2);
  ("level_loop_end"%string, Ins CMPQ [R DI; I 1] :: JGE "level_loop_body" :: b3);
  ("N_loop_end"%string, [Ins CMPQ [R SI; R DX]; JL "N_loop_body"; RET])].
Hypothesis Hpre : exists s1, ex F E pre s0 = Goto "N_loop_end" s1 /\ J1 0 s1.
Hypothesis Hb1 : forall s i, J1 i s -> 0 <= i -> i + k <= n -> exists s', ex F E b1 s = Goto "level_loop_end" s' /\ J2 i 0 s'.
Hypothesis Hb2 : forall s i t, J2 i t s -> 0 <= i -> i + k <= n -> 0 <= t -> t + 1 <= L - 1 -> exists s', ex F E b2 s = Next s' /\ J2 i (t + 1) s'.
Hypothesis Hb3 : forall s i, J2 i (L - 1) s -> 0 <= i -> i + k <= n -> exists s', ex F E b3 s = Next s' /\ J1 (i + k) s'.
Lemma KD_fl s c : KD s -> KD (setfl s c). Proof. exact (fun H => H). Qed.

Lemma dshape : terminates F E pr s0 (written L d (fun _ => n) f m0).
Proof.
  pose proof Sp as (_ & Spg & Spn & Spb & _). pose proof Hp as (_ & Phg & Phb & _).
  assert (HL1 : 1 <= L < 2 ^ 59). { destruct Hg as (_ & _ & H & _). lia. }
  assert (Hk : 0 < k) by lia.
  destruct Hpre as (s1 & E1 & Jb).
  destruct (loop F E pr (lookup "N_loop_end" pr) J1 k n) with (t := Z.to_nat (n / k)) (i := 0) (s := s1) as (s2 & G2 & Je).
  { intros i s Hi Hin Ji. destruct (Hb1 (setfl s (Some (i, n))) i Ji Hi Hin) as (sa & Ea & Ja).
    destruct (loop F E pr (lookup "level_loop_end" pr) (J2 i) 1 (L - 1)) with (t := Z.to_nat (L - 1)) (i := 0) (s := sa) as (sb & Gb & Jb').
    { intros t s' Ht Htl Jt. destruct (Hb2 (setfl s' (Some (L - 1 - t, 1))) i t Jt Hi Hin Ht Htl) as (sc & Ec & Jc).
      exists sc. split; [|exact Jc]. eapply goes_trans; [|eapply goes_next; exact Ec].
      eapply (goes_goto F E pr "level_loop_end" _ _ s' "level_loop_body" (setfl s' (Some (L - 1 - t, 1)))).
      destruct Jt as (_ & _ & Dt & _). cc. rewrite Dt. cc. rewrite (wrap64_id 1), !swrap64_id by lia. unfold branch; cbn [ModelAsm.fl setfl].
      rewrite Z.geb_leb. destruct (Z.leb_spec 1 (L - 1 - t)); [reflexivity|lia]. }
    { lia. } { lia. } { lia. } { exact Ja. }
    destruct (Hb3 (setfl sb (Some (0, 1))) i Jb' Hi Hin) as (sd & Ed & Jd). exists sd. split; [|exact Jd].
    eapply goes_trans; [|eapply goes_trans; [eapply (goes_goto F E pr "N_loop_body"); exact Ea|eapply goes_trans; [exact Gb|eapply (goes_next F E pr "level_loop_end")]]].
    - eapply (goes_goto F E pr "N_loop_end" _ _ s "N_loop_body" (setfl s (Some (i, n)))).
      destruct Ji as ((_ & _ & Dx & _) & Si & _). cc. rewrite Si, Dx. cc. rewrite !swrap64_id by lia. unfold branch; cbn [ModelAsm.fl setfl].
      destruct (Z.ltb_spec i n); [reflexivity|lia].
    - destruct Jb' as (_ & _ & Dt & _). cc. rewrite Dt. cc. replace (L - 1 - (L - 1)) with 0 by lia. rewrite (wrap64_id 1), !swrap64_id by lia.
      unfold branch; cbn [ModelAsm.fl setfl]. exact Ed. }
  { lia. } { lia. } { pose proof (Z.div_mod n k ltac:(lia)). rewrite Z2Nat.id by (apply Z.div_pos; lia). lia. } { exact Jb. }
  apply (ends_terminates F E pr s0 (setfl s2 (Some (n, n)))).
  - eapply goes_ends; [eapply (goes_goto F E pr ""); exact E1|]. eapply goes_ends; [exact G2|].
    eapply (ends_done F E pr "N_loop_end"). destruct Je as ((_ & _ & Dx & _) & Si & _). cc. rewrite Si, Dx. cc. rewrite !swrap64_id by lia.
    unfold branch; cbn [ModelAsm.fl setfl]. rewrite Z.ltb_irrefl. reflexivity.
  - destruct Je as (_ & _ & W). exact W.
Qed.
End Shape.
End Dec.
