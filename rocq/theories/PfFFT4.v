(** Lemmas: the evaluator's tables, and the exported transforms refine the integer polynomials of ModelPoly. *)
From Coq Require Import Ring_theory Ring.
From Verif Require Import Base NegaRing ModelNum ModelVec ModelPoly ModelFFT SpecNum SpecVec SpecPoly SpecFFT PfNum PfVec PfPoly PfFFT PfFFT2 PfFFT3 PfSampler.

Definition evOK (A : arith) (N lm : nat) (z : Z -> car A * car A) (e : evaluator A) : Prop :=
  (3 <= lm)%nat /\ N = (2 ^ S lm)%nat /\ TWF A lm z lm (e_tw A e) /\ TWI A lm z 0 (e_twInv A e) /\ e_rank A e = N /\
  (forall i, (i < 2 * N)%nat -> nth i (e_twMono A e) (a0 A, a0 A) = z (- Z.of_nat i)) /\
  (forall k, (k < 2 ^ lm)%nat -> eqm (2 * Z.of_nat N) (nthZ (e_twMonoIdx A e) k) (4 * Z.of_nat (bitrev lm k) - 1)).

Lemma pow2_of (N : nat) n : 0 <= n -> Z.of_nat N = 2 ^ n -> N = (2 ^ Z.to_nat n)%nat.
Proof. intros Hn E. apply Nat2Z.inj. rewrite E, Nat2Z.inj_pow, Z2Nat.id by exact Hn. reflexivity. Qed.

Lemma NewEvaluator_total A N n z : exact A N z -> N = (2 ^ n)%nat -> (4 <= n)%nat -> exists e, NewEvaluator A N = Ok e /\ evOK A N (n - 1) z e.
Proof.
  intros Hex En Hn. set (lm := (n - 1)%nat). assert (HN : N = (2 ^ S lm)%nat) by (rewrite En; f_equal; unfold lm; lia).
  assert (Hlm : (3 <= lm)%nat) by (unfold lm; lia). clearbody lm.
  unfold NewEvaluator.
  assert (IsPowerOfTwo (Z.of_nat N) = true) as ->.
  { apply IsPowerOfTwo_spec. exists (Z.of_nat (S lm)). split; [lia|]. rewrite HN, Nat2Z.inj_pow. reflexivity. }
  cbn [negb]. destruct (Nat.ltb_spec N 16) as [Hlt|_].
  { exfalso. rewrite HN in Hlt. assert (2 ^ 4 <= 2 ^ S lm)%nat by (apply Nat.pow_le_mono_r; lia). cbn [Nat.pow Nat.mul Nat.add] in *. lia. }
  rewrite (NhalfM N lm HN). destruct (genTwiddle_spec A N lm z Hex Hlm HN) as (tw & twInv & -> & HF & HI).
  set (idx := forN 1 (2 ^ lm - 1) (fun i o => upd o i (4 * Z.of_nat i - 1)) (upd (repeat 0 (2 ^ lm)) 0 (2 * Z.of_nat N - 1))).
  pose proof (Mpos lm) as HMp. 
  assert (Hlen : length idx = (2 ^ lm)%nat).
  { unfold idx. rewrite (forN_upd_length 1 (2 ^ lm - 1) (fun i => i) (fun i _ => 4 * Z.of_nat i - 1)), upd_length, repeat_length. reflexivity. }
  assert (Hidx : forall r, (r < 2 ^ lm)%nat -> eqm (2 * Z.of_nat N) (nth r idx 0) (4 * Z.of_nat r - 1)).
  { intros r Hr. unfold idx. rewrite (forN_upd_range 0 1 (2 ^ lm - 1) (fun i _ => 4 * Z.of_nat i - 1)) by (rewrite upd_length, repeat_length; lia).
    destruct (Nat.leb_spec 1 r); cbn [andb].
    - destruct (Nat.ltb_spec r (1 + (2 ^ lm - 1))); [reflexivity|lia].
    - assert (r = 0)%nat as -> by lia. rewrite nth_upd_same by (rewrite repeat_length; lia). exists 1. lia. }
  destruct (BitReverseInPlace_spec 0 lm idx Hlen) as (idx' & -> & Hl' & Hi').
  eexists; split; [reflexivity|]. unfold evOK; cbn [e_tw e_twInv e_rank e_twMono e_twMonoIdx].
  split; [exact Hlm|]. split; [exact HN|]. split; [exact HF|]. split; [exact HI|]. split; [reflexivity|]. split.
  - intros i Hi. replace (N + (N + 0))%nat with (2 * N)%nat by lia. rewrite nth_tab by exact Hi.
    rewrite (ex_exp A N z Hex _ _ 1); [f_equal; lia|lia|lia].
  - intros k Hk. unfold nthZ. rewrite Hi' by (rewrite Hlen; exact Hk). apply Hidx. apply bitrev_lt.
Qed.

Lemma NewEvaluator_inv A N z e : exact A N z -> NewEvaluator A N = Ok e -> exists lm, evOK A N lm z e.
Proof.
  intros Hex He. assert (HP : exists n, N = (2 ^ n)%nat /\ (4 <= n)%nat).
  { unfold NewEvaluator in He. destruct (IsPowerOfTwo (Z.of_nat N)) eqn:E; [|discriminate]. cbn [negb] in He.
    apply IsPowerOfTwo_spec in E. destruct E as (n & Hn & E). pose proof (pow2_of N n Hn E) as EN.
    destruct (Nat.ltb_spec N 16) as [|Hge]; [discriminate|]. exists (Z.to_nat n). split; [exact EN|].
    destruct (Nat.lt_ge_cases (Z.to_nat n) 4) as [Hlt|]; [|assumption].
    assert (2 ^ Z.to_nat n < 2 ^ 4)%nat by (apply Nat.pow_lt_mono_r; lia). rewrite <- EN in *. cbn [Nat.pow Nat.mul Nat.add] in *. lia. }
  destruct HP as (n & En & Hn). destruct (NewEvaluator_total A N n z Hex En Hn) as (e' & E' & Hok).
  rewrite E' in He. injection He as <-. exists (n - 1)%nat. exact Hok.
Qed.
Lemma NewEvaluator_panics A N : ~ (power_of_two (Z.of_nat N) /\ (16 <= N)%nat) -> NewEvaluator A N = Panic.
Proof.
  intros H. unfold NewEvaluator. destruct (IsPowerOfTwo (Z.of_nat N)) eqn:E; [|reflexivity]. apply IsPowerOfTwo_spec in E. cbn [negb].
  destruct (Nat.ltb_spec N 16); [reflexivity|]. exfalso. apply H. auto.
Qed.

Lemma forN_shift {X} lo n (f : nat -> X -> X) s : forN lo n f s = forN 0 n (fun c => f (lo + c)%nat) s.
Proof. induction n as [|n IH]; [reflexivity|]. rewrite !forN_S_r, IH. reflexivity. Qed.

Section Final.
Variable A : arith.
Notation F := (car A).
Notation C := (F * F)%type.
Variables (N : nat) (z : Z -> C) (e : evaluator A).
Hypothesis Hex : exact A N z.
Hypothesis He : NewEvaluator A N = Ok e.

Ltac go := destruct (NewEvaluator_inv A N z e Hex He) as (lm & Hlm & HN & HF & HI & Hr & HMo & HIdx).

Lemma nth_conv sg w l i : (i < length l)%nat -> foldConv A sg w (nthZ l i) = aofZ A (nthZ (if sg then l else fwdFFT w l) i).
Proof.
  intros Hi. unfold foldConv. destruct sg; [reflexivity|]. unfold fwdFFT, nthZ.
  rewrite (nth_indep (map (swrap w) l) 0 (swrap w 0)) by (rewrite map_length; exact Hi). rewrite map_nth. reflexivity.
Qed.

Lemma FwdFFTTo_spec sg w out p : length out = N -> length p = N ->
  transform A N z (FwdFFTTo A e sg w out p) (pol N (if sg then p else fwdFFT w p)).
Proof.
  intros Ho Hp. go. unfold FwdFFTTo. destruct (foldPolyTo_spec A N lm z Hex Hlm HN sg w out p Ho) as [H1 H2].
  apply (transform_fwd A N lm z Hex Hlm HN); [exact HF|exact H1|]. intros k Hk. rewrite H2 by exact Hk.
  pose proof (NM N lm HN). rewrite !nth_conv by lia. rewrite !(cf_pol_at N (N0 A N lm z Hex Hlm HN)) by lia. reflexivity.
Qed.
Lemma FwdFFTAddTo_spec sg w buf out p po : length buf = N -> length p = N -> transform A N z out po ->
  transform A N z (FwdFFTAddTo A e sg w buf out p) (padd po (pol N (if sg then p else fwdFFT w p))).
Proof.
  intros Hb Hp Ho. pose proof (FwdFFTTo_spec sg w buf p Hb Hp) as H. go. unfold FwdFFTAddTo.
  apply (transform_peq A N z _ (padd (pol N (if sg then p else fwdFFT w p)) po)); [intro k; cbn [cf padd]; apply eqm_eq; lia|].
  apply (add_transform A N lm z Hex Hlm HN); [apply Ho|exact H|exact Ho].
Qed.
Lemma FwdFFTSubTo_spec sg w buf out p po : length buf = N -> length p = N -> transform A N z out po ->
  transform A N z (FwdFFTSubTo A e sg w buf out p) (psub po (pol N (if sg then p else fwdFFT w p))).
Proof.
  intros Hb Hp Ho. pose proof (FwdFFTTo_spec sg w buf p Hb Hp) as H. go. unfold FwdFFTSubTo.
  apply (sub_transform A N lm z Hex Hlm HN); [apply Ho|exact Ho|exact H].
Qed.

Lemma net_left v : length v = N -> invFFTInPlace A (fwdFFTInPlace A v (e_tw A e)) (e_twInv A e) = v.
Proof. intros Hv. go. apply (net_inverse A N lm z Hex Hlm HN); assumption. Qed.
Lemma transform_eq v v' p : transform A N z v p -> transform A N z v' p -> v = v'.
Proof. go. apply (transform_unique A N lm z Hex Hlm HN). Qed.
Lemma net_folded v p : length v = N -> folded A N v p -> 
  forall n k r, N = (2 ^ n)%nat -> is_bitrev (n - 1) k r -> (k < N / 2)%nat ->
  cplx A (fwdFFTInPlace A v (e_tw A e)) k = evalF A N z p (1 - 4 * Z.of_nat r).
Proof.
  intros Hv (_ & Hp & Hfold) n k r En Hr0 Hk. go. rewrite (NhalfM N lm HN) in Hk, Hfold.
  destruct (fwdFFT_computes A N lm z Hlm HN (e_tw A e) HF v Hv) as [H1 H2]. rewrite H2 by exact Hk.
  rewrite (fwdN_final A N lm z Hex Hlm HN) by exact Hk.
  assert (n = S lm) as -> by (rewrite HN in En; symmetry; apply (Nat.pow_inj_r 2); [lia|exact En]).
  replace (S lm - 1)%nat with lm in Hr0 by lia. rewrite (is_bitrev_unique lm k (bitrev lm k) r) by (try apply bitrev_spec; exact Hr0).
  unfold evalF. pose proof (NM N lm HN). replace N with (2 ^ lm + 2 ^ lm)%nat at 1 by lia.
  pose proof (ex_ring A N z Hex) as rth. rewrite (csum_app A rth), <- (csum_add A rth). apply csum_ext. intros q Hq. rewrite Hfold by exact Hq.
  replace (Z.of_nat (2 ^ lm + q) * (1 - 4 * Z.of_nat r)) with (Z.of_nat (2 ^ lm) * (1 - 4 * Z.of_nat r) + Z.of_nat q * (1 - 4 * Z.of_nat r)) by lia.
  rewrite (ex_zadd A N z Hex), (zI4 A N lm z Hex Hlm HN), (Nat.add_comm (2 ^ lm) q).
  Add Ring Fr4 : (ex_ring A N z Hex).
  unfold cI, cofF, cmul, cadd; cbn [fst snd]. f_equal; ring.
Qed.

(* ------------------------------------------------------------------ *)
(** ** Inverse transforms *)
Section Round.
Hypothesis Hround : forall x, around A (aofZ A x) = x.
Lemma InvFFT_gen acc sg w out v p : 0 <= w -> length out = N -> transform A N z v p ->
  unfoldPoly A acc sg w out (invFFTv A e w v) = tab N (fun i => acc (nthZ out i) (twrap sg w (cf p (Z.of_nat i)))).
Proof. intros Hw Ho Hv. go. unfold invFFTv. apply (unfold_transform A N lm z Hex Hlm HN Hround acc sg w (e_tw A e)); assumption. Qed.
Lemma InvFFTTo_spec sg w out v p : 0 <= w -> length out = N -> transform A N z v p ->
  InvFFTTo A e sg w out v = tab N (fun i => twrap sg w (cf p (Z.of_nat i))).
Proof. intros Hw Ho H. exact (InvFFT_gen (fun _ x => x) sg w out v p Hw Ho H). Qed.
Lemma InvFFTAddTo_spec sg w out v p : 0 <= w -> length out = N -> transform A N z v p ->
  InvFFTAddTo A e sg w out v = tab N (fun i => twrap sg w (nthZ out i + cf p (Z.of_nat i))).
Proof.
  intros Hw Ho H. unfold InvFFTAddTo, unfoldPolyAddTo. rewrite (InvFFT_gen _ sg w out v p Hw Ho H). apply tab_ext. intros i _.
  apply twrap_cong. now rewrite twrap_eqm.
Qed.
Lemma InvFFTSubTo_spec sg w out v p : 0 <= w -> length out = N -> transform A N z v p ->
  InvFFTSubTo A e sg w out v = tab N (fun i => twrap sg w (nthZ out i - cf p (Z.of_nat i))).
Proof.
  intros Hw Ho H. unfold InvFFTSubTo, unfoldPolySubTo. rewrite (InvFFT_gen _ sg w out v p Hw Ho H). apply tab_ext. intros i _.
  apply twrap_cong. now rewrite twrap_eqm.
Qed.
(** Product of two word polynomials through the transforms. *)
Lemma conv_eqm (sg : bool) w l : 0 <= w -> (0 < N)%nat -> length l = N -> peq (2 ^ w) (pol N (if sg then l else fwdFFT w l)) (pol N l).
Proof.
  intros Hw HN Hl. destruct sg; [reflexivity|]. apply pol_peq; [exact HN|]. intros i Hi. rewrite cf_pol_at by assumption.
  unfold fwdFFT, nthZ. rewrite (nth_indep (map (swrap w) l) 0 (swrap w 0)) by (rewrite map_length; lia). rewrite map_nth. apply swrap_eqm.
Qed.
Lemma mul_through sg w out o0 o1 o p q : 0 <= w -> length out = N -> length o0 = N -> length o1 = N -> length o = N -> length p = N -> length q = N ->
  let r := InvFFTTo A e sg w out (mulCmplxTo A o (FwdFFTTo A e sg w o0 p) (FwdFFTTo A e sg w o1 q)) in
  length r = N /\ peq (2 ^ w) (pol N r) (pmul (pol N p) (pol N q)).
Proof.
  intros Hw Ho H0 H1 Hoo Hp Hq r. pose proof (FwdFFTTo_spec sg w o0 p H0 Hp) as T0. pose proof (FwdFFTTo_spec sg w o1 q H1 Hq) as T1.
  assert (HNp : (0 < N)%nat) by (go; apply (N0 A N lm z Hex Hlm HN)).
  assert (T2 : transform A N z (mulCmplxTo A o (FwdFFTTo A e sg w o0 p) (FwdFFTTo A e sg w o1 q))
     (pmul (pol N (if sg then p else fwdFFT w p)) (pol N (if sg then q else fwdFFT w q)))).
  { go. apply (mul_transform A N lm z Hex Hlm HN); assumption. }
  assert (Er : r = _) by (unfold r; apply (InvFFTTo_spec sg w out _ _ Hw Ho T2)). rewrite Er. split; [apply tab_length|].
  rewrite <- (conv_eqm sg w p Hw HNp Hp), <- (conv_eqm sg w q Hw HNp Hq).
  apply pol_peq; [exact HNp|]. intros i Hi. rewrite nthZ_tab by exact Hi. apply twrap_eqm.
Qed.
End Round.

(* ------------------------------------------------------------------ *)
(** ** Monomials *)
Lemma mono_gen g d out p : length out = N ->
  (forall o, g (z (d * (2 * o + 1))) = evalZ A N z p (2 * o + 1)) ->
  transform A N z (monoFFT A g e out d) p.
Proof.
  intros Ho Hg. go. unfold monoFFT. rewrite Hr. pose proof (NM N lm HN) as ENM. pose proof (N0 A N lm z Hex Hlm HN) as HN0.
  assert (Epow : Z.of_nat N = 2 ^ Z.of_nat (S lm)) by (rewrite HN, Nat2Z.inj_pow; reflexivity).
  assert (HL : length out = (2 * 2 ^ lm)%nat) by lia.
  set (mask := 2 * Z.of_nat N - 1).
  assert (Hm : forall x, Z.land x mask = x mod (2 * Z.of_nat N)).
  { intros x. apply (land_mask N HN0 x (Z.of_nat (S lm))); [lia|exact Epow]. }
  destruct (lanes_spec A (2 ^ lm) (M4 N lm Hlm HN) ((N + 7) / 8)
    (fun k _ => g (nth (Z.to_nat (Z.land (nthZ (e_twMonoIdx A e) k * Z.land d mask) mask)) (e_twMono A e) (a0 A, a0 A)))
    (fun b c o => let ii := nthZ (e_twMonoIdx A e) (4 * b + c) in
      let '(x, y) := g (nth (Z.to_nat (Z.land (ii * Z.land d mask) mask)) (e_twMono A e) (a0 A, a0 A)) in
      upd (upd o (8 * b + c) x) (8 * b + c + 4) y) out) as [H1 H2].
  - rewrite Nat.mul_comm. apply (N8 A N lm z Hex Hlm HN).
  - reflexivity.
  - exact HL.
  - apply (at_transform A N lm z Hex Hlm HN); [etransitivity; [exact H1|lia]|]. intros k Hk. etransitivity; [exact (H2 k Hk)|].
    cbv beta. rewrite (odd_pt A N lm z Hex Hlm HN), <- Hg. f_equal. rewrite !Hm.
    set (x := nthZ (e_twMonoIdx A e) k * (d mod (2 * Z.of_nat N))).
    pose proof (Z.mod_pos_bound x (2 * Z.of_nat N) ltac:(lia)) as Hx.
    rewrite HMo by lia. rewrite Z2Nat.id by lia. apply (z_eqm A N lm z Hex Hlm HN). rewrite eqm_mod. unfold x.
    rewrite eqm_mod, (HIdx k Hk). apply eqm_eq. lia.
Qed.
Lemma MonomialFwdFFTTo_spec out d : length out = N -> transform A N z (MonomialFwdFFTTo A e out d) (pmono d).
Proof. intros Ho. apply mono_gen; [exact Ho|]. intros o. go. symmetry. apply (evalZ_mono A N lm z Hex Hlm HN). Qed.
Lemma MonomialSubOneFwdFFTTo_spec out d : length out = N -> transform A N z (MonomialSubOneFwdFFTTo A e out d) (psub (pmono d) pone).
Proof.
  intros Ho. apply mono_gen; [exact Ho|]. intros o. go. rewrite (evalZ_sub A N lm z Hex Hlm HN), (evalZ_mono A N lm z Hex Hlm HN), (evalZ_one A N lm z Hex Hlm HN).
  unfold csub, c1; cbn [fst snd]. f_equal. ring.
Qed.

(* ------------------------------------------------------------------ *)
(** ** Permutations *)
Lemma lor_low a b n : 0 <= n -> 0 <= b < 2 ^ n -> Z.lor (Z.shiftl a n) b = a * 2 ^ n + b.
Proof. intros. rewrite Z.lor_comm, lor_shift by assumption. lia. Qed.
Lemma idx_down k : Z.lor (Z.shiftl (Z.shiftr (Z.of_nat (L k)) 3) 2) (Z.land (Z.of_nat (L k)) 3) = Z.of_nat k.
Proof.
  destruct (L_repr k) as (b & c & Hc & -> & ->). change 3 with (Z.ones 2) at 2. rewrite Z.land_ones by lia.
  rewrite Z.shiftr_div_pow2 by lia. change (2 ^ 3) with 8. change (2 ^ 2) with 4.
  replace (Z.of_nat (8 * b + c) / 8) with (Z.of_nat b) by (apply (Z.div_unique _ _ _ (Z.of_nat c)); lia).
  replace (Z.of_nat (8 * b + c) mod 4) with (Z.of_nat c) by (apply (Z.mod_unique _ _ (2 * Z.of_nat b)); lia).
  rewrite lor_low by (change (2 ^ 2) with 4; lia). change (2 ^ 2) with 4. lia.
Qed.
Lemma idx_up k : Z.lor (Z.shiftl (Z.shiftr (Z.of_nat k) 2) 3) (Z.land (Z.of_nat k) 3) = Z.of_nat (L k).
Proof.
  destruct (L_repr k) as (b & c & Hc & -> & ->). change (Z.land (Z.of_nat (4 * b + c)) 3) with (Z.land (Z.of_nat (4 * b + c)) (Z.ones 2)).
  rewrite Z.land_ones by lia. rewrite Z.shiftr_div_pow2 by lia. change (2 ^ 2) with 4.
  replace (Z.of_nat (4 * b + c) / 4) with (Z.of_nat b) by (apply (Z.div_unique _ _ _ (Z.of_nat c)); lia).
  replace (Z.of_nat (4 * b + c) mod 4) with (Z.of_nat c) by (apply (Z.mod_unique _ _ (Z.of_nat b)); lia).
  rewrite lor_low by (change (2 ^ 3) with 8; lia). change (2 ^ 3) with 8. lia.
Qed.

Lemma permute_gen (acc : F -> F -> F) (op : npoly N -> npoly N -> npoly N) out fp (po p : npoly N) d :
  Z.of_nat N < 2 ^ 63 -> Z.odd d = true -> length out = N ->
  (forall k, (k < N / 2)%nat -> forall q : npoly N, forall r, is_bitrev (Nat.log2 N - 1) k r ->
     let '(x, y) := evalZ A N z q (1 - 4 * Z.of_nat r) in
     (acc (fst (cplx A out k)) x, acc (snd (cplx A out k)) y) = evalZ A N z (op po q) (1 - 4 * Z.of_nat r)) ->
  transform A N z fp p ->
  exists r, permuteFFT A acc N out fp d = Some r /\ transform A N z r (op po (psubst d p)).
Proof.
  intros HN63 Hd Ho Hacc Hfp. go. pose proof (NM N lm HN) as ENM. pose proof (N0 A N lm z Hex Hlm HN) as HN0.
  assert (Hlog : (Nat.log2 N - 1 = lm)%nat). { rewrite HN, Nat.log2_pow2 by lia. lia. }
  rewrite Hlog, (NhalfM N lm HN) in Hacc.
  assert (Epow : Z.of_nat N = 2 ^ Z.of_nat (S lm)) by (rewrite HN, Nat2Z.inj_pow; reflexivity).
  assert (EpM : Z.of_nat (2 ^ lm) = 2 ^ Z.of_nat lm) by (rewrite Nat2Z.inj_pow; reflexivity).
  assert (Hlm64 : (lm <= 64)%nat).
  { rewrite Epow in HN63. apply Z.pow_lt_mono_r_iff in HN63; lia. }
  assert (HL : length out = (2 * 2 ^ lm)%nat) by lia. pose proof (Mpos lm) as HMp.
  apply (transform_at A N lm z Hex Hlm HN) in Hfp. destruct Hfp as [Lfp Efp].
  assert (Hodd : Z.land d 1 = 1).
  { change 1 with (Z.ones 1) at 1. rewrite Z.land_ones by lia. change (2 ^ 1) with 2. rewrite Zmod_odd, Hd. reflexivity. }
  unfold permuteFFT. rewrite Hodd. change (1 =? 0) with false. cbv iota.
  assert (Esh : 64 - (Len64 (Z.of_nat N) - 1 - 1) = 64 - Z.of_nat lm).
  { unfold Len64. destruct (Z.eqb_spec (Z.of_nat N) 0); [lia|]. rewrite Epow, Z.log2_pow2 by lia. lia. }
  rewrite Esh. rewrite (land_mask N HN0 d (Z.of_nat (S lm)) ltac:(lia) Epow).
  set (d' := d mod (2 * Z.of_nat N)).
  assert (Hd' : 0 <= d' < 2 * Z.of_nat N) by (apply Z.mod_pos_bound; lia).
  assert (Edd : eqm (2 * Z.of_nat N) d' d) by apply eqm_mod.
  assert (Emask : Z.shiftr (Z.of_nat N) 1 - 1 = Z.of_nat (2 ^ lm) - 1).
  { rewrite Z.shiftr_div_pow2 by lia. change (2 ^ 1) with 2. f_equal. symmetry. apply (Z.div_unique _ _ _ 0); lia. }
  rewrite Emask.
  set (src := fun (i : nat) (cjOf : Z -> Z) =>
    Z.to_nat (Z.lor (Z.shiftl (Z.shiftr (Z.shiftr (Reverse64 (Z.land (cjOf (Z.shiftr (Reverse64 (Z.lor (Z.shiftl (Z.shiftr (Z.of_nat i) 3) 2) (Z.land (Z.of_nat i) 3))) (64 - Z.of_nat lm))) (Z.of_nat (2 ^ lm) - 1))) (64 - Z.of_nat lm)) 2) 3)
      (Z.land (Z.shiftr (Reverse64 (Z.land (cjOf (Z.shiftr (Reverse64 (Z.lor (Z.shiftl (Z.shiftr (Z.of_nat i) 3) 2) (Z.land (Z.of_nat i) 3))) (64 - Z.of_nat lm))) (Z.of_nat (2 ^ lm) - 1))) (64 - Z.of_nat lm)) 3))).
  assert (Hsrc : forall k cjOf, (k < 2 ^ lm)%nat ->
     src (L k) cjOf = L (bitrev lm (Z.to_nat (cjOf (Z.of_nat (bitrev lm k)) mod Z.of_nat (2 ^ lm))))).
  { intros k cjOf Hk. unfold src. rewrite idx_down, Reverse64_bitrev by assumption.
    assert (EX : Z.land (cjOf (Z.of_nat (bitrev lm k))) (Z.of_nat (2 ^ lm) - 1) = Z.of_nat (Z.to_nat (cjOf (Z.of_nat (bitrev lm k)) mod Z.of_nat (2 ^ lm)))).
    { rewrite Z2Nat.id by (apply Z.mod_pos_bound; lia). rewrite EpM. rewrite <- Z.land_ones by lia. f_equal. rewrite Z.ones_equiv. lia. }
    rewrite EX. pose proof (Z.mod_pos_bound (cjOf (Z.of_nat (bitrev lm k))) (Z.of_nat (2 ^ lm)) ltac:(lia)).
    rewrite Reverse64_bitrev by lia. rewrite idx_up. apply Nat2Z.id. }
  (* one run *)
  assert (Hrun : forall cjOf sgn, (forall q, sgn q = q) \/ (forall q, sgn q = aopp A q) ->
     (forall k, (k < 2 ^ lm)%nat -> let j := Z.to_nat (cjOf (Z.of_nat (bitrev lm k)) mod Z.of_nat (2 ^ lm)) in
        (fst (evalZ A N z p (1 - 4 * Z.of_nat j)), sgn (snd (evalZ A N z p (1 - 4 * Z.of_nat j)))) = evalZ A N z (psubst d p) (1 - 4 * Z.of_nat (bitrev lm k))) ->
     transform A N z (forN 0 ((N + 7) / 8) (fun b o => forN (8 * b) 4 (fun i o =>
          let j := src i cjOf in
          let o := upd o i (acc (nth i o (a0 A)) (nth j fp (a0 A))) in
          upd o (i + 4) (acc (nth (i + 4) o (a0 A)) (sgn (nth (j + 4) fp (a0 A))))) o) out) (op po (psubst d p))).
  { intros cjOf sgn Hsgn Hval.
    assert (EQ : forN 0 ((N + 7) / 8) (fun b o => forN (8 * b) 4 (fun i o =>
          let j := src i cjOf in
          let o := upd o i (acc (nth i o (a0 A)) (nth j fp (a0 A))) in
          upd o (i + 4) (acc (nth (i + 4) o (a0 A)) (sgn (nth (j + 4) fp (a0 A))))) o) out =
       forN 0 ((N + 7) / 8) (fun b o => forN 0 4 (fun c o =>
          let i := (8 * b + c)%nat in let j := src i cjOf in
          let o := upd o i (acc (nth i o (a0 A)) (nth j fp (a0 A))) in
          upd o (i + 4) (acc (nth (i + 4) o (a0 A)) (sgn (nth (j + 4) fp (a0 A))))) o) out).
    { apply forN_ext. intros b s _. apply forN_shift. }
    rewrite EQ.
    destruct (lanes_spec A (2 ^ lm) (M4 N lm Hlm HN) ((N + 7) / 8)
      (fun k a => let j := src (L k) cjOf in (acc (fst a) (nth j fp (a0 A)), acc (snd a) (sgn (nth (j + 4) fp (a0 A)))))
      (fun b c o => let i := (8 * b + c)%nat in let j := src i cjOf in
          let o := upd o i (acc (nth i o (a0 A)) (nth j fp (a0 A))) in
          upd o (i + 4) (acc (nth (i + 4) o (a0 A)) (sgn (nth (j + 4) fp (a0 A))))) out) as [H1 H2].
    - rewrite Nat.mul_comm. apply (N8 A N lm z Hex Hlm HN).
    - intros b c o _ Hc. cbv zeta. rewrite L_block by exact Hc. cbn [fst snd]. rewrite (nth_upd_other o (8 * b + c)) by lia. reflexivity.
    - exact HL.
    - apply (at_transform A N lm z Hex Hlm HN); [etransitivity; [exact H1|lia]|]. intros k Hk. etransitivity; [exact (H2 k Hk)|]. cbv beta zeta.
      rewrite Hsrc by exact Hk. set (j := Z.to_nat (cjOf (Z.of_nat (bitrev lm k)) mod Z.of_nat (2 ^ lm))) in *.
      specialize (Hval k Hk). cbv zeta in Hval. fold j in Hval.
      assert (Hj : (j < 2 ^ lm)%nat). { unfold j. pose proof (Z.mod_pos_bound (cjOf (Z.of_nat (bitrev lm k))) (Z.of_nat (2 ^ lm)) ltac:(lia)). lia. }
      pose proof (Efp (bitrev lm j) (bitrev_lt _ _)) as EF. rewrite bitrev_involutive in EF by exact Hj.
      specialize (Hacc k Hk (psubst d p) (bitrev lm k) (bitrev_spec lm k)).
      rewrite <- Hval in Hacc. rewrite <- Hacc, <- EF. reflexivity. }
  assert (Hdodd : exists h, d' = 2 * h + 1).
  { exists (d' / 2). pose proof (Z.div_mod d' 2 ltac:(lia)) as E2. assert (d' mod 2 = 1); [|lia].
    destruct Edd as [q Eq]. rewrite Zmod_odd. assert (Z.odd d' = true) as ->; [|reflexivity].
    replace d' with (d + 2 * (q * Z.of_nat N)) by lia. rewrite Z.odd_add_mul_2. exact Hd. }
  assert (Hd2 : d mod 2 = 1) by (rewrite Zmod_odd, Hd; reflexivity).
  assert (Erem : Z.rem d' 4 = d' mod 4) by (apply Z.rem_mod_nonneg; lia). rewrite Erem.
  pose proof (Z.div_mod d' 4 ltac:(lia)) as E4. pose proof (Z.mod_pos_bound d' 4 ltac:(lia)) as B4.
  assert (Hsub : forall k, evalZ A N z (psubst d p) (1 - 4 * Z.of_nat (bitrev lm k)) = evalZ A N z p (d' * (1 - 4 * Z.of_nat (bitrev lm k)))).
  { intros k. rewrite (odd_pt A N lm z Hex Hlm HN), (evalZ_subst A N lm z Hex Hlm HN) by exact Hd2. apply (evalZ_eqm A N lm z Hex Hlm HN). now rewrite Edd. }
  destruct (Z.eqb_spec (d' mod 4) 1) as [E1|E1].
  - assert (Ek : Z.shiftr (d' - 1) 2 = d' / 4).
    { rewrite Z.shiftr_div_pow2 by lia. change (2 ^ 2) with 4. symmetry. apply (Z.div_unique _ _ _ 0); lia. }
    rewrite Ek. eexists; split; [reflexivity|]. apply (Hrun (fun ci => d' * ci - d' / 4) (fun x => x)); [left; reflexivity|].
    intros k Hk j. rewrite Hsub. rewrite <- surjective_pairing. apply (evalZ_eqm A N lm z Hex Hlm HN).
    unfold j. rewrite Z2Nat.id by (apply Z.mod_pos_bound; lia).
    pose proof (Z.div_mod (d' * Z.of_nat (bitrev lm k) - d' / 4) (Z.of_nat (2 ^ lm)) ltac:(lia)) as EM.
    exists ((d' * Z.of_nat (bitrev lm k) - d' / 4) / Z.of_nat (2 ^ lm)).
    rewrite ENM. set (X := (d' * Z.of_nat (bitrev lm k) - d' / 4) / Z.of_nat (2 ^ lm)) in *. set (Y := (d' * Z.of_nat (bitrev lm k) - d' / 4) mod Z.of_nat (2 ^ lm)) in *.
    replace (X * (2 * Z.of_nat (2 * 2 ^ lm))) with (4 * (Z.of_nat (2 ^ lm) * X)) by lia. 
    replace (Z.of_nat (2 ^ lm) * X) with (d' * Z.of_nat (bitrev lm k) - d' / 4 - Y) by lia. lia.
  - assert (E3 : d' mod 4 = 3) by (destruct Hdodd as [h Hh]; lia).
    assert (Ek : Z.shiftr (d' - 3) 2 = d' / 4).
    { rewrite Z.shiftr_div_pow2 by lia. change (2 ^ 2) with 4. symmetry. apply (Z.div_unique _ _ _ 0); lia. }
    rewrite Ek. eexists; split; [reflexivity|]. apply (Hrun (fun ci => - d' * ci + d' / 4 + 1) (aopp A)); [right; reflexivity|].
    intros k Hk j. rewrite Hsub.
    assert (EC : forall x, (fst x, aopp A (snd x)) = conj A x) by reflexivity. rewrite EC, <- (evalZ_conj A N lm z Hex Hlm HN).
    apply (evalZ_eqm A N lm z Hex Hlm HN).
    unfold j. rewrite Z2Nat.id by (apply Z.mod_pos_bound; lia).
    pose proof (Z.div_mod (- d' * Z.of_nat (bitrev lm k) + d' / 4 + 1) (Z.of_nat (2 ^ lm)) ltac:(lia)) as EM.
    exists (- ((- d' * Z.of_nat (bitrev lm k) + d' / 4 + 1) / Z.of_nat (2 ^ lm))).
    rewrite ENM. set (X := (- d' * Z.of_nat (bitrev lm k) + d' / 4 + 1) / Z.of_nat (2 ^ lm)) in *. set (Y := (- d' * Z.of_nat (bitrev lm k) + d' / 4 + 1) mod Z.of_nat (2 ^ lm)) in *.
    replace (- X * (2 * Z.of_nat (2 * 2 ^ lm))) with (- (4 * (Z.of_nat (2 ^ lm) * X))) by lia.
    replace (Z.of_nat (2 ^ lm) * X) with (- d' * Z.of_nat (bitrev lm k) + d' / 4 + 1 - Y) by lia. lia.
Qed.

Lemma PermuteFFTPolyTo_spec out fp p d : Z.of_nat N < 2 ^ 63 -> Z.odd d = true -> length out = N -> transform A N z fp p ->
  exists r, PermuteFFTPolyTo A N out fp d = Some r /\ transform A N z r (psubst d p).
Proof.
  intros H1 H2 H3 H4. apply (permute_gen (fun _ x => x) (fun _ q => q) out fp pzero p d H1 H2 H3); [|exact H4].
  intros. destruct (evalZ A N z q (1 - 4 * Z.of_nat r)); reflexivity.
Qed.
Lemma PermuteAddFFTPolyTo_spec out fp po p d : Z.of_nat N < 2 ^ 63 -> Z.odd d = true -> transform A N z out po -> transform A N z fp p ->
  exists r, PermuteAddFFTPolyTo A N out fp d = Some r /\ transform A N z r (padd po (psubst d p)).
Proof.
  intros H1 H2 H3 H4. apply (permute_gen (fun o x => aadd A o x) (fun po q => padd po q) out fp po p d H1 H2 (proj1 H3)); [|exact H4].
  intros k Hk q r Hr0. go. destruct H3 as [_ H3]. rewrite (H3 (S lm) k r HN) by (rewrite ?HN, ?Nat.log2_pow2 in Hr0 by lia; try exact Hr0; exact Hk).
  rewrite (evalZ_add A N z Hex). destruct (evalZ A N z q (1 - 4 * Z.of_nat r)); reflexivity.
Qed.
Lemma PermuteSubFFTPolyTo_spec out fp po p d : Z.of_nat N < 2 ^ 63 -> Z.odd d = true -> transform A N z out po -> transform A N z fp p ->
  exists r, PermuteSubFFTPolyTo A N out fp d = Some r /\ transform A N z r (psub po (psubst d p)).
Proof.
  intros H1 H2 H3 H4. apply (permute_gen (fun o x => asub A o x) (fun po q => psub po q) out fp po p d H1 H2 (proj1 H3)); [|exact H4].
  intros k Hk q r Hr0. go. destruct H3 as [_ H3]. rewrite (H3 (S lm) k r HN) by (rewrite ?HN, ?Nat.log2_pow2 in Hr0 by lia; try exact Hr0; exact Hk).
  rewrite (evalZ_sub A N lm z Hex Hlm HN). destruct (evalZ A N z q (1 - 4 * Z.of_nat r)); reflexivity.
Qed.
End Final.
Lemma permute_even A N acc out fp d : Z.odd d = false -> permuteFFT A acc N out fp d = None.
Proof.
  intros H. unfold permuteFFT. change 1 with (Z.ones 1). rewrite Z.land_ones by lia. change (2 ^ 1) with 2. rewrite Zmod_odd, H. reflexivity.
Qed.
