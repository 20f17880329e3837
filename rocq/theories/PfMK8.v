(** Evaluation keys made by GenEvalKey of every active party meet [mk_keys]. *)
From Verif Require Import Base NegaRing SpecNum ModelNum PfNum ModelVec SpecVec PfVec ModelPoly SpecPoly PfPoly PfPerm PfSplit ModelGadget SpecGadget PfGadget ModelParams PfParams ModelEncoder PfEncoder ModelLWE SpecLWE PfLWE PfLWE2 PfKS PfKS2 ModelGLWE SpecGLWE PfGLWE PfGLWE2 PfGLWE3 PfGLWE4 ModelBoot SpecBoot PfBoot PfBoot2 PfBoot3 PfBoot4 PfBoot5 ModelPub SpecPub PfPub PfPub2 ModelBinary SpecBinary PfBinary ModelMK ModelMKBin SpecMK PfMK PfMK2 PfMK3 PfMK4 PfMK5 PfMK6.

Section W.
Variable w : Z.
Hypothesis Hw : 0 < w.
Notation Q := (2 ^ w).
Variable N : nat.
Hypothesis HN : (0 < N)%nat.
Variables (logN : Z) (Hl : 0 < splitBitsShort logN).
Variables (n : nat) (pBR pKS pr : gadget).
Hypothesis HokB : gadget_ok w pBR.
Hypothesis HokK : gadget_ok w pKS.
Hypothesis HokR : gadget_ok w pr.
Variable crs : list (list Z).
Hypothesis Hcrs : forall i, (i < g_level pr)%nat -> wpoly w N (nth i crs []).
Notation a := (fun j => pol N (nth j crs [])).

Definition ekOK (E : Z) (s : list Z) (ek : evalKey) : Prop :=
  (exists e, brk_enc w N 1 pBR [s] (firstn n s) (ek_brk ek) e /\ forall j c b, (j < n)%nat -> (c <= 1)%nat -> (b < g_level pBR)%nat -> pbound E (e j c b)) /\
  (exists e, ksk_enc w pKS (firstn n s) (skipn n s) (ek_ksk ek) e /\ forall i j, (i < N - n)%nat -> (j < g_level pKS)%nat -> Z.abs (e i j) <= E) /\
  (exists ep, crs_enc w N pr a s (ek_crs ek) ep /\ forall j, (j < g_level pr)%nat -> pbound E (ep j)) /\
  (exists r e e', uni_enc w N pr a s r (ek_u0 ek) (ek_u1 ek) (pol N s) e e' /\ pbound 1 r /\ forall j, (j < g_level pr)%nat -> pbound E (e j) /\ pbound E (e' j)).

Lemma genEvalKey_spec U G E s aux gbuf sub st ek gbuf' sub' st' : (forall i, Z.abs (G i) <= E) -> length s = N -> (n <= N)%nat -> length aux = N -> binary aux -> gshape N 1 gbuf -> gshape N 1 sub ->
  MKGenEvalKey w logN N n U G pBR pKS pr crs s aux gbuf sub st = (ek, (gbuf', sub', st')) ->
  ekOK E s ek /\ gshape N 1 gbuf' /\ gshape N 1 sub'.
Proof.
  intros HG Ls Hn La Hba Hg Hs EE. pose proof (HG O) as HG0. unfold MKGenEvalKey in EE. cbv zeta in EE.
  assert (skey N 1 [s]) as Hsk by (split; [reflexivity|intros [|i] Hi; [exact Ls|lia]]).
  destruct (GenBlindRotateKey w logN N 1 U G [fwdFFT w s] [s] (firstn n s) pBR gbuf st) as (brk, (gb1, st1)) eqn:E1.
  destruct (GenDefaultKeySwitchKey w U G (firstn n s) (skipn n s) pKS st1) as (ksk, st2) eqn:E2.
  destruct (GenCRSPublicKey w logN N G (fwdFFT w s) pr crs sub st2) as (pk, (sub1, st3)) eqn:E3.
  destruct (GenRelinKey w logN N U G (fwdFFT w s) s pr crs aux sub1 st3) as ((u0, u1), (sub2, st4)) eqn:E4.
  injection EE as <- <- <- <-. cbn [ek_brk ek_ksk ek_crs ek_u0 ek_u1].
  apply (GenBlindRotateKey_spec w Hw N HN 1 [s] pBR HokB logN Hl U G Hsk) in E1; [|exact Hg]. destruct E1 as (A1 & A2 & _).
  apply (GenDefaultKeySwitchKey_spec w Hw pKS HokK) in E2. destruct E2 as (B1 & _).
  apply (GenCRSPublicKey_spec w Hw N HN logN Hl U G s Ls pr crs Hcrs) in E3; [|exact Hs]. destruct E3 as (C1 & _ & C2 & _).
  unfold GenRelinKey in E4. apply (FFTUniEncrypt_spec w Hw N HN logN Hl U G s Ls pr HokR crs Hcrs) in E4; [|assumption|assumption|assumption|apply (zero_lshape N 1)|apply (zero_lshape N 1)].
  destruct E4 as (D1 & D2 & _).
  assert (forall g, pbound E (noisep N G g)) as Hnb. { intros g. apply noisep_bound; [exact HN| |lia]. intros; apply HG. }
  split; [|split; assumption].
  split; [eexists; split; [exact A1|]; intros; apply Hnb|].
  split; [eexists; split; [exact B1|]; intros; apply HG|].
  split; [eexists; split; [exact C1|]; intros; apply Hnb|].
  do 3 eexists; split; [exact D1|split].
  - apply pbound_coeffs; [exact HN|]. intros i Hi. rewrite (cf_pol_at N HN) by exact Hi. destruct (binary_at aux i Hba ltac:(lia)) as [-> | ->]; lia.
  - intros; split; apply Hnb.
Qed.

Lemma mk_keygen P bm keys U G E bs bc pa auxs gbufs subs sts eks rests :
  (exists n0, 0 <= n0 /\ Z.of_nat N = 2 ^ n0) -> length bm = P -> pkeys N P keys -> (0 < n <= N)%nat -> gadget_ok w pa -> (0 < bs)%nat -> (0 < bc)%nat -> n = (bc * bs)%nat ->
  (forall i, nth i bm false = true -> binary (nth i keys []) /\ block_binary bs (firstn n (nth i keys []))) ->
  (forall i j, Z.abs (G i j) <= E) ->
  (forall i, nth i bm false = true -> length (auxs i) = N /\ binary (auxs i) /\ gshape N 1 (gbufs i) /\ gshape N 1 (subs i) /\
    MKGenEvalKey w logN N n (U i) (G i) pBR pKS pr crs (nth i keys []) (auxs i) (gbufs i) (subs i) (sts i) = (nth i eks noKey, rests i)) ->
  mk_keys w N P n pa pr pBR pKS bm keys (map ek_brk eks) (map ek_ksk eks) (map ek_crs eks) (map ek_u0 eks) (map ek_u1 eks) bs bc E E E.
Proof.
  intros HNn Lbm Hk Hn Hpa Hbs Hbc En Hbin HG Hgen. pose proof (HG O O) as HG0.
  assert (forall i, nth i bm false = true -> (i < P)%nat) as Hact. { intros i Hi. destruct (Nat.lt_ge_cases i P); [assumption|]. rewrite nth_overflow in Hi by lia. discriminate. }
  assert (forall i, nth i bm false = true -> exists g' s' t', MKGenEvalKey w logN N n (U i) (G i) pBR pKS pr crs (nth i keys []) (auxs i) (gbufs i) (subs i) (sts i) = (nth i eks noKey, (g', s', t'))) as Hgen'.
  { intros i Hi. destruct (Hgen i Hi) as (_ & _ & _ & _ & Eg). destruct (rests i) as ((g' & s') & t'). now exists g', s', t'. }
  assert (forall i, nth i (map ek_brk eks) [] = ek_brk (nth i eks noKey)) as M1 by (intros i; exact (map_nth ek_brk eks noKey i)).
  assert (forall i, nth i (map ek_ksk eks) [] = ek_ksk (nth i eks noKey)) as M2 by (intros i; exact (map_nth ek_ksk eks noKey i)).
  assert (forall i, nth i (map ek_crs eks) [] = ek_crs (nth i eks noKey)) as M3 by (intros i; exact (map_nth ek_crs eks noKey i)).
  assert (forall i, nth i (map ek_u0 eks) [] = ek_u0 (nth i eks noKey)) as M4 by (intros i; exact (map_nth ek_u0 eks noKey i)).
  assert (forall i, nth i (map ek_u1 eks) [] = ek_u1 (nth i eks noKey)) as M5 by (intros i; exact (map_nth ek_u1 eks noKey i)).
  assert (forall i, nth i bm false = true -> ekOK E (nth i keys []) (nth i eks noKey)) as Sp.
  { intros i Hi. destruct (Hgen i Hi) as (L1 & L2 & L3 & L4 & _). destruct (Hgen' i Hi) as (g' & s' & t' & Eg).
    exact (proj1 (genEvalKey_spec (U i) (G i) E (nth i keys []) (auxs i) (gbufs i) (subs i) (sts i) (nth i eks noKey) g' s' t' (HG i) (proj2 Hk i (Hact i Hi)) (proj2 Hn) L1 L2 L3 L4 Eg)). }
  constructor; try assumption; try (now split); try lia; try exact (conj Hpa (conj HokR (conj HokB HokK))).
  - intros i Hi. rewrite M1. exact (proj1 (Sp i Hi)).
  - destruct (fin_choice (fun _ _ => 0) P (fun i e => nth i bm false = true -> ksk_enc w pKS (firstn n (nth i keys [])) (skipn n (nth i keys [])) (nth i (map ek_ksk eks) []) e /\
      forall a j, (a < N - n)%nat -> (j < g_level pKS)%nat -> Z.abs (e a j) <= E)) as (e & He).
    { intros i Hi. destruct (nth i bm false) eqn:Eb; [|exists (fun _ _ => 0); discriminate]. destruct (Sp i Eb) as (_ & (e & Se) & _). exists e. rewrite M2. intros _. exact Se. }
    exists e. intros i Hi. exact (He i (Hact i Hi) Hi).
  - destruct (fin_choice (fun _ => @pzero N) P (fun i ep => nth i bm false = true -> crs_enc w N pr a (nth i keys []) (nth i (map ek_crs eks) []) ep /\
      forall j, (j < g_level pr)%nat -> pbound E (ep j))) as (ep & He).
    { intros i Hi. destruct (nth i bm false) eqn:Eb; [|exists (fun _ => pzero); discriminate]. destruct (Sp i Eb) as (_ & _ & (ep & Se) & _). exists ep. rewrite M3. intros _. exact Se. }
    exists a, ep. split; [intros i Hi; exact (He i (Hact i Hi) Hi)|]. intros i Hi. rewrite M4, M5. exact (proj2 (proj2 (proj2 (Sp i Hi)))).
Qed.
End W.
