From Verif Require Import Base NegaRing SpecNum ModelNum PfNum ModelVec SpecVec PfVec ModelPoly SpecPoly PfPoly PfPerm PfSplit ModelGadget SpecGadget PfGadget ModelLWE SpecLWE PfLWE PfKS PfKS2 ModelGLWE SpecGLWE PfGLWE PfGLWE2 PfGLWE3 PfGLWE4 PfBoot2 ModelBFV SpecBFV PfBFV.

Lemma nth_map_lt {A B} (f : A -> B) L i d d' : (i < length L)%nat -> nth i (map f L) d = f (nth i L d').
Proof. intros H. rewrite (nth_indep _ d (f d')) by now rewrite map_length. apply map_nth. Qed.

(** ** Pairs *)
Lemma pairs_S n : pairs (S n) = map (fun j => (0%nat, j)) (seq 0 (S n)) ++ map (fun ij => (S (fst ij), S (snd ij))) (pairs n).
Proof.
  unfold pairs. change (seq 0 (S n)) with (0%nat :: seq 1 n) at 1. cbn [flat_map]. f_equal.
  rewrite <- seq_shift. generalize (seq 0 n) as l. induction l as [|i l IH]; [reflexivity|]. cbn [map flat_map]. rewrite map_app, IH. f_equal.
  rewrite map_map. cbn [fst snd]. rewrite Nat.sub_succ, <- seq_shift, map_map. reflexivity.
Qed.
Lemma pairs_length n : (2 * length (pairs n) = n * (n + 1))%nat.
Proof. induction n as [|n IH]; [reflexivity|]. rewrite pairs_S, app_length, !map_length, seq_length. lia. Qed.
Lemma tensorRank_pairs k : S (tensorRank k) = length (pairs (S k)).
Proof.
  unfold tensorRank. pose proof (pairs_length (S k)) as H. replace (k * (k + 3))%nat with ((length (pairs (S k)) - 1) * 2)%nat by lia.
  rewrite Nat.div_mul by lia. assert (length (pairs (S k)) <> 0%nat) by lia. lia.
Qed.
Lemma relinRank_pairs k : (k * (k + 1) / 2)%nat = length (pairs k).
Proof. pose proof (pairs_length k) as H. rewrite <- H, Nat.mul_comm. now rewrite Nat.div_mul by lia. Qed.
Lemma nth_pairs_0 k j : (j <= k)%nat -> nth j (pairs (S k)) (0, 0)%nat = (0, j)%nat.
Proof.
  intros Hj. rewrite pairs_S. rewrite app_nth1 by (rewrite map_length, seq_length; lia).
  change (0, 0)%nat with ((fun j => (0, j)%nat) 0%nat). rewrite map_nth. now rewrite seq_nth by lia.
Qed.
Lemma nth_pairs_S k ii : (ii < length (pairs k))%nat -> nth (S k + ii) (pairs (S k)) (0, 0)%nat = (S (fst (nth ii (pairs k) (0, 0)%nat)), S (snd (nth ii (pairs k) (0, 0)%nat))).
Proof.
  intros Hi. rewrite pairs_S. rewrite app_nth2 by (rewrite map_length, seq_length; lia). rewrite map_length, seq_length. replace (S k + ii - S k)%nat with ii by lia.
  rewrite (nth_indep _ (0, 0)%nat (S (fst (0, 0)%nat), S (snd (0, 0)%nat))) by now rewrite map_length.
  apply (map_nth (fun ij => (S (fst ij), S (snd ij)))).
Qed.
Lemma pairs_lt n : Forall (fun ij => (fst ij < n)%nat /\ (snd ij < n)%nat) (pairs n).
Proof.
  induction n as [|n IH]; [constructor|]. rewrite pairs_S. apply Forall_app. split.
  - apply Forall_forall. intros x Hx. apply in_map_iff in Hx. destruct Hx as (j & <- & Hj). apply in_seq in Hj. cbn [fst snd]. lia.
  - apply Forall_forall. intros x Hx. apply in_map_iff in Hx. destruct Hx as (y & <- & Hy). rewrite Forall_forall in IH. specialize (IH y Hy). cbn [fst snd]. lia.
Qed.

Lemma forN_fold {A} (f : nat -> A -> A) m : forall lo s, forN lo m f s = fold_left (fun s i => f i s) (seq lo m) s.
Proof. induction m as [|m IH]; intros lo s; cbn; [reflexivity|]. now rewrite IH. Qed.
Lemma fold_flat_map {A B C} (g : A -> list B) (f : C -> B -> C) L : forall s, fold_left f (flat_map g L) s = fold_left (fun s a => fold_left f (g a) s) L s.
Proof. induction L as [|a L IH]; intros s; cbn; [reflexivity|]. now rewrite fold_left_app, IH. Qed.
Lemma fold_map {A B C} (g : A -> B) (f : C -> B -> C) L : forall s, fold_left f (map g L) s = fold_left (fun s a => f s (g a)) L s.
Proof. induction L as [|a L IH]; intros s; cbn; [reflexivity|]. now rewrite IH. Qed.
Lemma fold_ext {A C} (f g : C -> A -> C) L : (forall s a, In a L -> f s a = g s a) -> forall s, fold_left f L s = fold_left g L s.
Proof. induction L as [|a L IH]; intros H s; cbn; [reflexivity|]. rewrite H by (left; reflexivity). apply IH. intros s' a' Ha. apply H. now right. Qed.
Lemma fold_write {A B} (f : nat * list B -> A -> nat * list B) (E : A -> B) : (forall idx t a, f (idx, t) a = (S idx, upd t idx (E a))) -> forall L pre post,
  (length L <= length post)%nat -> fold_left f L (length pre, pre ++ post) = ((length pre + length L)%nat, pre ++ map E L ++ skipn (length L) post).
Proof.
  intros Hf. induction L as [|a L IH]; intros pre post H; cbn [fold_left length map]; [now rewrite Nat.add_0_r|].
  destruct post as [|b post]; [cbn in H; lia|]. rewrite Hf.
  assert (upd (pre ++ b :: post) (length pre) (E a) = (pre ++ [E a]) ++ post) as ->.
  { clear. induction pre as [|c pre IH]; cbn; [reflexivity|]. now rewrite IH. }
  replace (S (length pre)) with (length (pre ++ [E a])) by (rewrite app_length; cbn; lia).
  rewrite IH by (cbn in H; lia). f_equal; [rewrite app_length; cbn; lia|]. cbn [skipn]. now rewrite <- app_assoc.
Qed.
Lemma pair_loop {B} (E : nat -> nat -> B) n t : length t = length (pairs n) ->
  forN 0 n (fun i s => forN i (n - i) (fun j s => let '(idx, t) := s in (S idx, upd t idx (E i j))) s) (0%nat, t) = (length (pairs n), map (fun ij => E (fst ij) (snd ij)) (pairs n)).
Proof.
  intros L. rewrite forN_fold.
  rewrite (fold_ext _ (fun s i => fold_left (fun s ij => let '(idx, t) := s in (S idx, upd t idx (E (fst ij) (snd ij)))) (map (fun j => (i, j)) (seq i (n - i))) s)).
  2:{ intros s i _. rewrite fold_map, forN_fold. cbn [fst snd]. reflexivity. }
  rewrite <- (fold_flat_map (fun i => map (fun j => (i, j)) (seq i (n - i)))). fold (pairs n).
  rewrite (fold_write _ (fun ij => E (fst ij) (snd ij)) (fun _ _ _ => eq_refl) (pairs n) [] t) by lia. cbn [app length Nat.add].
  rewrite skipn_all2 by lia. now rewrite app_nil_r.
Qed.

(** ** Key generation *)
Section KeyGen.
Variables (w : Z) (N k : nat) (n : Z).
Hypothesis Hw : 0 < w.
Hypothesis Hn : 0 <= n <= 62.
Hypothesis HNn : Z.of_nat N = 2 ^ n.
Notation Q := (2 ^ w).
Variable sk : list (list Z).
Variable logN : Z.
Hypothesis HlN : 0 < splitBitsShort logN.
Variables (U G : nat -> Z).
Variable p : gadget.
Hypothesis Hok : gadget_ok w p.
Notation l := (g_level p).
Notation fsk := (map (fwdFFT w) sk).
Let HN : (0 < N)%nat. Proof. exact (NP N n Hn HNn). Qed.

Lemma ksk_full skIn buf st ksk buf' st' : skey N k sk -> gshape N k buf -> (forall i, (i < length skIn)%nat -> length (nth i skIn []) = N) ->
  GenGLWEKeySwitchKey w logN N k U G fsk skIn p buf st = (ksk, (buf', st')) ->
  gksk_enc w N k p sk skIn ksk (fun i j => noisep N G (snd st + (i * l + j) * N)%nat) /\ gshape N k buf'.
Proof.
  intros Hsk Hbuf Hin E. unfold GenGLWEKeySwitchKey in E. set (m := length skIn) in *.
  set (enc := fun (i : nat) c (t : list (list Z) * rst) => EncryptFFTGLevPolyTo w logN N k U G fsk p (fst t) c (nth i skIn []) (snd t)).
  rewrite (forN_ext 0 m _ (fun i s => let '(o, t) := s in let '(c, t') := enc i (nth i o []) t in (upd o i c, t'))) in E.
  2:{ intros i [o [bu s]] Hi. unfold enc. cbn [fst snd]. match goal with |- (let '(_, _) := ?x in _) = _ => destruct x as [b [s1 s2]] end. reflexivity. }
  match type of E with forN _ _ _ (?o, _) = _ => set (out := o) in *; assert (forall i, (i < m)%nat -> lshape N k p (nth i out [])) as Hout end.
  { intros i Hi. unfold out. rewrite nth_repeat_lt by exact Hi. split; [apply repeat_length|]. intros j Hj. rewrite nth_repeat_lt by exact Hj.
    split; [apply repeat_length|]. intros i' Hi'. rewrite nth_repeat_lt by lia. apply repeat_length. }
  assert (length out = m) as Lout by apply repeat_length.
  pose proof (updLoop [] enc
    (fun m t => gshape N k (fst t) /\ snd t = ((fst st + m * (l * (k * N)))%nat, (snd st + m * (l * N))%nat))
    (fun i c => glev_enc w N k p sk c (pol N (nth i skIn [])) (fun j => noisep N G (snd st + (i * l + j) * N)%nat))
    (lshape N k p) 0 m out (buf, st)) as X. cbv beta in X.
  match type of X with context [forN 0 m ?f ?a] => change (forN 0 m f a = (ksk, (buf', st'))) in E end. rewrite E in X. destruct X as (A & B & C & D).
  - lia.
  - intros i Hi. apply Hout. lia.
  - cbn [fst snd]. split; [exact Hbuf|]. destruct st; cbn [fst snd]; f_equal; lia.
  - intros q c [bu t] Hm Hc (Hbu & Ht). cbn [fst snd] in Hbu, Ht. subst t. cbn [Nat.add]. unfold enc. cbn [fst snd].
    destruct (EncryptFFTGLevPolyTo w logN N k U G fsk p bu c (nth q skIn []) ((fst st + q * (l * (k * N)))%nat, (snd st + q * (l * N))%nat)) as [c' [bu' t']] eqn:Ec.
    apply (EncryptFFTGLevPolyTo_spec w Hw N HN k sk logN HlN U G p Hok) in Ec; [|assumption..|apply Hin; lia]. destruct Ec as (X & Y & ->). cbn [fst snd] in *.
    split; [|split; [exact Y|f_equal; lia]].
    eapply glev_enc_ext; [|exact X]. intros j Hj. cbv beta. replace (snd st + q * (l * N) + j * N)%nat with (snd st + (q * l + j) * N)%nat by lia. reflexivity.
  - split; [|exact (proj1 D)]. split; [lia|]. intros i Hi. apply B. lia.
Qed.

Lemma noise_bound_all E g : 0 <= E -> (forall i, Z.abs (G i) <= E) -> pbound E (noisep N G g).
Proof. intros HE HG. apply pbound_coeffs; [exact HN|]. intros i Hi. unfold noisep. rewrite (cf_pol_at N HN) by exact Hi. rewrite nthZ_tab by exact Hi. apply HG. Qed.

Lemma permuteKey_spec skOut d : Z.odd d = true -> length sk = k -> (forall i, (i < k)%nat -> wpoly w N (nth i sk [])) -> length skOut = k -> (forall i, (i < k)%nat -> length (nth i skOut []) = N) ->
  exists o, permuteKey w N k sk skOut d = Some o /\ length o = k /\ (forall i, (i < k)%nat -> length (nth i o []) = N) /\
    forall i, (i < k)%nat -> peq Q (pol N (nth i o [])) (psubst d (pol N (nth i sk []))).
Proof.
  intros Hd Lk Wk Lo Ho. unfold permuteKey.
  pose (J := fun q (s : option (list (list Z))) => (q <= k)%nat -> exists o, s = Some o /\ length o = k /\ (forall i, (i < k)%nat -> length (nth i o []) = N) /\
    forall i, (i < q)%nat -> peq Q (pol N (nth i o [])) (psubst d (pol N (nth i sk [])))).
  match goal with |- exists o, ?g = _ /\ _ => enough (J k g) as X by (apply X; lia) end.
  apply (forN_ind J); unfold J.
  - intros _. exists skOut. split; [reflexivity|]. split; [exact Lo|]. split; [exact Ho|]. intros; lia.
  - intros q s Hq IH _. destruct (IH ltac:(lia)) as (o & -> & L & H & P). rewrite Nat.add_0_l.
    destruct (PermutePolyTo_spec N n Hn HNn w (nth q o []) (nth q sk []) d ltac:(lia) Hd (H q Hq) (Wk q Hq)) as (r & -> & (Lr & _) & Pr). cbn [option_map].
    exists (upd o q r). split; [reflexivity|]. split; [now rewrite upd_length|]. split.
    + intros i Hi. destruct (Nat.eq_dec i q) as [->|Hne]; [now rewrite nth_upd_same by lia|rewrite nth_upd_other by lia; now apply H].
    + intros i Hi. destruct (Nat.eq_dec i q) as [->|Hne]; [now rewrite nth_upd_same by lia|rewrite nth_upd_other by lia; apply P; lia].
Qed.

Lemma galoisLoop_spec E : 0 <= E -> (forall i, Z.abs (G i) <= E) -> length sk = k -> (forall i, (i < k)%nat -> wpoly w N (nth i sk [])) ->
  forall idx gal skOut buf st, Forall (fun d => Z.odd d = true) idx -> length skOut = k -> (forall i, (i < k)%nat -> length (nth i skOut []) = N) -> gshape N k buf ->
  exists gal' buf' st', galoisLoop w N k logN U G sk fsk p idx gal skOut buf st = Some (gal', (buf', st')) /\
    (forall d, In d idx -> exists ksk, gal' d = Some ksk /\ galois_key w N k p sk d ksk E) /\ (forall d, ~ In d idx -> gal' d = gal d).
Proof.
  intros HE HG Lk Wk. assert (skey N k sk) as Hsk by (split; [exact Lk|intros i Hi; now apply Wk]).
  induction idx as [|d idx IH]; intros gal skOut buf st Hodd Lo Ho Hb; cbn [galoisLoop].
  - eexists _, _, _. split; [reflexivity|]. split; [intros d []|reflexivity].
  - pose proof (Forall_inv Hodd) as Hd. pose proof (Forall_inv_tail Hodd) as Hodd'. destruct (permuteKey_spec skOut d Hd Lk Wk Lo Ho) as (o & -> & L & H & P).
    destruct (GenGLWEKeySwitchKey w logN N k U G fsk o p buf st) as [ksk [buf1 st1]] eqn:Ek.
    destruct (ksk_full o buf st ksk buf1 st1 Hsk Hb ltac:(intros i Hi; apply H; lia) Ek) as (Hk & Hb1).
    destruct (IH (fun x => if x =? d then Some ksk else gal x) o buf1 st1 Hodd' L H Hb1) as (gal' & buf' & st' & E1 & A & B).
    exists gal', buf', st'. split; [exact E1|]. split.
    + intros d' [<-|Hin]; [|now apply A]. destruct (in_dec Z.eq_dec d idx) as [Hin|Hni]; [now apply A|]. exists ksk. split; [rewrite B by exact Hni; now rewrite Z.eqb_refl|].
      exists o. eexists. split; [exact L|]. split; [exact P|]. split; [exact Hk|]. intros i j _ _. now apply noise_bound_all.
    + intros d' Hni. rewrite B by (intros Hin; apply Hni; now right). destruct (Z.eqb_spec d' d) as [->|_]; [exfalso; apply Hni; now left|reflexivity].
Qed.

Lemma packAuts_in (lg : nat) i : (i < lg)%nat -> In (2 ^ (Z.of_nat i + 1) + 1) (packAuts lg).
Proof.
  intros Hi. unfold packAuts, tab. apply in_map_iff. exists (lg - 1 - i)%nat. split; [|apply in_seq; lia]. f_equal. f_equal. lia.
Qed.
Lemma packAuts_odd (lg : nat) : Forall (fun d => Z.odd d = true) (packAuts lg).
Proof.
  unfold packAuts. apply Forall_tab. intros i Hi. rewrite Z.odd_add, Z.odd_pow by lia. reflexivity.
Qed.

(** ** Relinearisation key *)
Lemma relinKeyPolys_eq : relinKeyPolys w N k fsk = map (fun ij => invFFT w (fmul N (nth (fst ij) fsk []) (nth (snd ij) fsk []))) (pairs k).
Proof.
  unfold relinKeyPolys. rewrite relinRank_pairs. cbv zeta.
  rewrite (pair_loop (fun i j => fmul N (nth i fsk []) (nth j fsk []))) by apply repeat_length.
  set (m := length (pairs k)). set (f := map _ (pairs k)).
  destruct (rows_loop [] (fun i _ => invFFT w (nth i f [])) 0 m (repeat (repeat 0 N) m)) as (L & V); [rewrite repeat_length; lia|].
  apply (nth_ext _ _ [] []); [rewrite L, repeat_length, map_length; reflexivity|]. intros i Hi. rewrite L, repeat_length in Hi. rewrite V.
  replace ((0 <=? i)%nat && (i <? 0 + m)%nat) with true by (symmetry; apply andb_true_iff; split; [apply Nat.leb_le|apply Nat.ltb_lt]; lia).
  unfold f. rewrite !(nth_map_lt _ (pairs k) i _ (0, 0)%nat) by exact Hi. reflexivity.
Qed.

Lemma GenRelinKey_spec E buf st rlk buf' st' : 0 <= E -> (forall i, Z.abs (G i) <= E) -> skey N k sk -> gshape N k buf ->
  GenRelinKey w N k logN U G fsk p buf st = (rlk, (buf', st')) -> relin_key w N k p sk rlk E.
Proof.
  intros HE HG Hsk Hb Ek. unfold GenRelinKey in Ek. rewrite relinKeyPolys_eq in Ek.
  set (polys := map _ (pairs k)) in Ek. assert (length polys = length (pairs k)) as Lp by apply map_length.
  assert (forall i, (i < length polys)%nat -> nth i polys [] = invFFT w (fmul N (nth (fst (nth i (pairs k) (0, 0)%nat)) fsk []) (nth (snd (nth i (pairs k) (0, 0)%nat)) fsk []))) as Vp.
  { intros i Hi. unfold polys. now rewrite (nth_map_lt _ (pairs k) i _ (0, 0)%nat) by lia. }
  destruct (ksk_full polys buf st rlk buf' st' Hsk Hb) as ((L & Hk) & _); [|exact Ek|].
  - intros i Hi. rewrite Vp by exact Hi. unfold invFFT, fmul. now rewrite map_length, nmul_length.
  - split; [lia|]. intros ii Hii. pose proof (Hk ii ltac:(lia)) as X. rewrite Vp in X by lia.
    destruct (nth ii (pairs k) (0, 0)%nat) as [i j] eqn:Eij. cbn [fst snd] in X.
    assert ((i < k)%nat /\ (j < k)%nat) as (Hi & Hj).
    { pose proof (proj1 (Forall_forall _ _) (pairs_lt k) (nth ii (pairs k) (0, 0)%nat) (nth_In _ _ Hii)) as Y. rewrite Eij in Y. exact Y. }
    eexists. split; [|intros q Hq; now apply noise_bound_all].
    eapply glev_enc_peq; [|exact X]. rewrite (pol_invFFT N HN w) by (unfold fmul; apply nmul_length).
    unfold fmul. rewrite (peq_0_any Q _ _ (pol_nmul N HN _ _)). rewrite !nth_map_fwd. destruct Hsk as (_ & Ls). rewrite !(pol_fwdFFT N HN w) by (apply Ls; assumption). reflexivity.
Qed.
End KeyGen.
