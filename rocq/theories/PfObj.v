(** Lemmas: Copy, CopyFrom and Clear of nested ciphertexts and keys. *)
From Verif Require Import Base ModelGadget ModelObj SpecObj.
From Coq Require Import Lia.
Open Scope nat_scope.

Section PfObj.
Context {W : Type}.
Implicit Types (h : heap W) (t : ty) (o : obj) (v : val W) (F : list nat).

Lemma holds_words h o v F : holds h [] o v F -> exists l, h_get h (o_ptr o) = Some (Words l) /\ v = VWords l /\ F = [o_ptr o].
Proof. intros H. inversion H; subst. eauto. Qed.
Lemma holds_node h m t o v F : holds h (m :: t) o v F -> exists l vs Fs, h_get h (o_ptr o) = Some (Objs l) /\ holdsAll h t l vs Fs /\ v = VNode (gadOf m (o_gad o)) vs /\ F = o_ptr o :: Fs.
Proof. intros H. inversion H; subst. eexists _, _, _. eauto. Qed.
Lemma all_nil h t vs F : holdsAll h t [] vs F -> vs = [] /\ F = [].
Proof. intros H. inversion H; subst. auto. Qed.
Lemma all_cons h t o l vs F : holdsAll h t (o :: l) vs F -> exists v vs' F1 F2, holds h t o v F1 /\ holdsAll h t l vs' F2 /\ vs = v :: vs' /\ F = F1 ++ F2.
Proof. intros H. inversion H; subst. eexists _, _, _, _. eauto. Qed.

Lemma frame_all h h' t : (forall o v F, holds h t o v F -> (forall a, In a F -> h_get h' a = h_get h a) -> holds h' t o v F) ->
  forall l vs F, holdsAll h t l vs F -> (forall a, In a F -> h_get h' a = h_get h a) -> holdsAll h' t l vs F.
Proof.
  intros IH. induction l as [|o l IHl]; intros vs F H E.
  - apply all_nil in H. destruct H as [-> ->]. constructor.
  - apply all_cons in H. destruct H as (v & vs' & F1 & F2 & A & B & -> & ->). constructor.
    + apply IH; [exact A|]. intros a Ha. apply E, in_or_app. now left.
    + apply IHl; [exact B|]. intros a Ha. apply E, in_or_app. now right.
Qed.
Lemma frame h h' t : forall o v F, holds h t o v F -> (forall a, In a F -> h_get h' a = h_get h a) -> holds h' t o v F.
Proof.
  induction t as [|m t IH]; intros o v F H E.
  - apply holds_words in H. destruct H as (l & A & -> & ->). constructor. rewrite E by now left. exact A.
  - apply holds_node in H. destruct H as (l & vs & Fs & A & B & -> & ->). econstructor.
    + rewrite E by now left. exact A.
    + apply (frame_all h h' t IH); [exact B|]. intros a Ha. apply E. now right.
Qed.
Lemma frameA h h' t l vs F : holdsAll h t l vs F -> (forall a, In a F -> h_get h' a = h_get h a) -> holdsAll h' t l vs F.
Proof. apply frame_all. apply frame. Qed.

Lemma bound_all h t : (forall o v F, holds h t o v F -> forall a, In a F -> h_get h a <> None) ->
  forall l vs F, holdsAll h t l vs F -> forall a, In a F -> h_get h a <> None.
Proof.
  intros IH. induction l as [|o l IHl]; intros vs F H a Ha.
  - apply all_nil in H. destruct H as [-> ->]. destruct Ha.
  - apply all_cons in H. destruct H as (v & vs' & F1 & F2 & A & B & -> & ->). apply in_app_or in Ha. destruct Ha as [Ha|Ha]; [now apply (IH o v F1)|now apply (IHl vs' F2)].
Qed.
Lemma bound h t : forall o v F, holds h t o v F -> forall a, In a F -> h_get h a <> None.
Proof.
  induction t as [|m t IH]; intros o v F H a Ha.
  - apply holds_words in H. destruct H as (l & A & -> & ->). destruct Ha as [<- |[]]. rewrite A. discriminate.
  - apply holds_node in H. destruct H as (l & vs & Fs & A & B & -> & ->). destruct Ha as [<- |Ha]; [rewrite A; discriminate|]. now apply (bound_all h t IH l vs Fs).
Qed.
Lemma below h t o v F : heap_ok h -> holds h t o v F -> forall a, In a F -> a < h_next h.
Proof. intros Ho H a Ha. destruct (le_lt_dec (h_next h) a) as [L|L]; [|exact L]. exfalso. now apply (bound h t o v F H a Ha), Ho. Qed.
Lemma belowA h t l vs F : heap_ok h -> holdsAll h t l vs F -> forall a, In a F -> a < h_next h.
Proof. intros Ho H a Ha. destruct (le_lt_dec (h_next h) a) as [L|L]; [|exact L]. exfalso. apply (bound_all h t (bound h t) l vs F H a Ha), Ho, L. Qed.

Lemma hset_same h a c : h_get (hset h a c) a = Some c.
Proof. cbn. now rewrite Nat.eqb_refl. Qed.
Lemma hset_other h a c b : b <> a -> h_get (hset h a c) b = h_get h b.
Proof. intros H. cbn. apply Nat.eqb_neq in H. now rewrite H. Qed.
Lemma alloc_ok h c a h' : heap_ok h -> alloc h c = (a, h') -> a = h_next h /\ h_next h' = S (h_next h) /\ h_get h' a = Some c /\ heap_ok h' /\ forall b, b < h_next h -> h_get h' b = h_get h b.
Proof.
  unfold alloc. intros Ho E. injection E as <- <-. split; [reflexivity|]. split; [reflexivity|]. split; [cbn; now rewrite Nat.eqb_refl|]. split.
  - intros b Hb. cbn in *. assert (b =? h_next h = false) as -> by (apply Nat.eqb_neq; lia). apply Ho. lia.
  - intros b Hb. cbn. assert (b =? h_next h = false) as -> by (apply Nat.eqb_neq; lia). reflexivity.
Qed.

(** ** Copy *)
Definition copied h t o v h' o' F' := heap_ok h' /\ holds h' t o' v F' /\ o_gad o' = o_gad o /\ NoDup F' /\
  (forall a, In a F' -> h_next h <= a < h_next h') /\ h_next h <= h_next h' /\ (forall a, a < h_next h -> h_get h' a = h_get h a).
Lemma nodup_app (F G : list nat) : NoDup F -> NoDup G -> (forall a, In a F -> In a G -> False) -> NoDup (F ++ G).
Proof.
  induction F as [|a F IH]; intros H1 H2 H3; [exact H2|]. inversion H1; subst. cbn. constructor.
  - intros Ha. apply in_app_or in Ha. destruct Ha as [Ha|Ha]; [now apply H4|]. apply (H3 a); [now left|exact Ha].
  - apply IH; [assumption..|]. intros b Hb. apply H3. now right.
Qed.
Lemma copyList_ok t : (forall o h v F, heap_ok h -> holds h t o v F -> exists o' h' F', Copy t o h = Some (o', h') /\ copied h t o v h' o' F') ->
  forall l h vs F, heap_ok h -> holdsAll h t l vs F -> exists l' h' F', copyList (Copy t) l h = Some (l', h') /\ heap_ok h' /\ holdsAll h' t l' vs F' /\ NoDup F' /\
    (forall a, In a F' -> h_next h <= a < h_next h') /\ h_next h <= h_next h' /\ (forall a, a < h_next h -> h_get h' a = h_get h a).
Proof.
  intros IH. induction l as [|o l IHl]; intros h vs F Ho H.
  - apply all_nil in H. destruct H as [-> ->]. exists [], h, []. cbn. repeat split; try solve [assumption|constructor|lia|intros ? []]. all: intros a []; lia.
  - apply all_cons in H. destruct H as (v & vs' & F1 & F2 & A & B & -> & ->). destruct (IH o h v F1 Ho A) as (o' & h1 & G1 & E1 & Ho1 & A1 & _ & N1 & R1 & L1 & K1).
    assert (B1 : holdsAll h1 t l vs' F2). { apply (frameA h); [exact B|]. intros a Ha. apply K1. now apply (belowA h t l vs' F2). }
    destruct (IHl h1 vs' F2 Ho1 B1) as (l' & h2 & G2 & E2 & Ho2 & A2 & N2 & R2 & L2 & K2).
    exists (o' :: l'), h2, (G1 ++ G2). cbn. rewrite E1, E2. split; [reflexivity|]. split; [exact Ho2|]. split.
    { constructor; [|exact A2]. apply (frame h1); [exact A1|]. intros a Ha. apply K2. apply R1 in Ha. lia. }
    split; [apply nodup_app; [assumption..|]; intros a Ha Hb; apply R1 in Ha; apply R2 in Hb; lia|].
    split; [intros a Ha; apply in_app_or in Ha; destruct Ha as [Ha|Ha]; [apply R1 in Ha|apply R2 in Ha]; lia|]. split; [lia|].
    intros a Ha. rewrite K2 by lia. now apply K1.
Qed.
Lemma Copy_ok t : forall o h v F, heap_ok h -> holds h t o v F -> exists o' h' F', Copy t o h = Some (o', h') /\ copied h t o v h' o' F'.
Proof.
  induction t as [|m t IH]; intros o h v F Ho H.
  - apply holds_words in H. destruct H as (l & A & -> & ->). cbn [Copy]. rewrite A. destruct (alloc h (Words l)) as [a h'] eqn:E. destruct (alloc_ok h _ a h' Ho E) as (-> & E2 & E3 & E4 & E5).
    eexists _, h', [h_next h]. split; [reflexivity|]. split; [exact E4|]. split; [exact (H_words h' (mkObj (o_gad o) (h_next h)) l E3)|]. split; [reflexivity|]. split; [repeat constructor; intros []|].
    split; [intros a [<- |[]]; lia|]. split; [lia|exact E5].
  - apply holds_node in H. destruct H as (l & vs & Fs & A & B & -> & ->). cbn [Copy]. rewrite A. destruct (copyList_ok t IH l h vs Fs Ho B) as (l' & h1 & G & E1 & Ho1 & A1 & N1 & R1 & L1 & K1). rewrite E1.
    destruct (alloc h1 (Objs l')) as [a h'] eqn:E. destruct (alloc_ok h1 _ a h' Ho1 E) as (-> & E2 & E3 & E4 & E5).
    eexists _, h', (h_next h1 :: G). split; [reflexivity|]. split; [exact E4|]. split.
    { apply (H_node h' m t (mkObj (o_gad o) (h_next h1)) l' vs G E3). apply (frameA h1); [exact A1|]. intros a Ha. apply E5. now apply R1. }
    split; [reflexivity|]. split; [constructor; [intros Ha; apply R1 in Ha; lia|exact N1]|]. split; [intros a [<- |Ha]; [lia|apply R1 in Ha; lia]|]. split; [lia|].
    intros a Ha. rewrite E5 by lia. now apply K1.
Qed.

(** ** CopyFrom *)
Definition shapes (l l' : list (val W)) : Prop := Forall2 sameShape l l'.
Lemma sameShape_node g g' l l' : sameShape (VNode g l) (VNode g' l') -> shapes l l'.
Proof. cbn. revert l'. induction l as [|v l IH]; intros [|u l'] H; try (exfalso; exact H); [constructor|]. destruct H as [A B]. constructor; [exact A|now apply IH]. Qed.
Lemma goCopy_same (d l : list W) : length d = length l -> goCopy d l = l.
Proof. intros H. unfold goCopy. rewrite H, firstn_all, <- H, skipn_all. apply app_nil_r. Qed.
Definition from_ok t := forall o s h v u F G, holds h t o v F -> holds h t s u G -> NoDup F -> disjointN F G -> sameShape v u ->
  exists o' h', CopyFrom t o s h = Some (o', h') /\ holds h' t o' u F /\ same_but F h h' /\ h_next h' = h_next h /\ o_ptr o' = o_ptr o.
Lemma upd_mid {A} (l1 l2 : list A) x y : upd (l1 ++ x :: l2) (length l1) y = l1 ++ y :: l2.
Proof. induction l1 as [|z l1 IH]; cbn; [reflexivity|]. now rewrite IH. Qed.
Lemma nth_error_mid {A} (l1 l2 : list A) x : nth_error (l1 ++ x :: l2) (length l1) = Some x.
Proof. induction l1 as [|z l1 IH]; cbn; [reflexivity|exact IH]. Qed.
Lemma nodup_split (F G : list nat) : NoDup (F ++ G) -> NoDup F /\ NoDup G /\ disjointN F G.
Proof.
  induction F as [|a F IH]; intros H; [split; [constructor|split; [exact H|intros a []]]|]. cbn in H. inversion H as [|x y H2 H3]; subst. destruct (IH H3) as (A & B & C).
  split; [constructor; [intros Ha; apply H2, in_or_app; now left|exact A]|]. split; [exact B|]. intros b [<- |Hb] Hg; [apply H2, in_or_app; now right|now apply (C b)].
Qed.
Lemma loop_ok t : from_ok t -> forall lt2 lt1 ls1 ls2 a b h vs us F G, h_get h a = Some (Objs (lt1 ++ lt2)) -> h_get h b = Some (Objs (ls1 ++ ls2)) -> length ls1 = length lt1 ->
  holdsAll h t lt2 vs F -> holdsAll h t ls2 us G -> NoDup (a :: F) -> ~ In b (a :: F) -> disjointN (a :: F) G -> shapes vs us ->
  exists h' lt2', fromLoop (CopyFrom t) (length lt2) (length lt1) a b h = Some h' /\ h_get h' a = Some (Objs (lt1 ++ lt2')) /\ holdsAll h' t lt2' us F /\ same_but (a :: F) h h' /\ h_next h' = h_next h.
Proof.
  intros IH. induction lt2 as [|o lt2 IHl]; intros lt1 ls1 ls2 a b h vs us F G Ha Hb Hl H1 H2 Nd Nb Dj Sh.
  - apply all_nil in H1. destruct H1 as [-> ->]. inversion Sh; subst. exists h, []. split; [reflexivity|]. split; [exact Ha|]. split; [constructor|]. split; [intros c _; reflexivity|reflexivity].
  - apply all_cons in H1. destruct H1 as (v & vs' & F1 & F2 & A & B & -> & ->). inversion Sh as [|x u vv us' S1 S2]; subst.
    destruct ls2 as [|s ls2]; [apply all_nil in H2; destruct H2; discriminate|]. apply all_cons in H2. destruct H2 as (u' & us2 & G1 & G2 & C & D & E & ->). injection E as <- <-.
    inversion Nd as [|x y Na NF]; subst. destruct (nodup_split F1 F2 NF) as (N1 & N2 & D12).
    destruct (IH o s h v u F1 G1 A C N1) as (o' & h1 & E1 & A1 & K1 & X1 & P1); [|exact S1|].
    { intros c Hc Hg. apply (Dj c); [right; apply in_or_app; now left|apply in_or_app; now left]. }
    assert (Ha1 : h_get h1 a = Some (Objs (lt1 ++ o :: lt2))). { rewrite K1; [exact Ha|]. intros Hc. apply Na, in_or_app. now left. }
    set (h2 := hset h1 a (Objs ((lt1 ++ [o']) ++ lt2))).
    assert (K2 : forall c, c <> a -> ~ In c F1 -> h_get h2 c = h_get h c). { intros c Hc Hf. unfold h2. rewrite hset_other by exact Hc. now apply K1. }
    destruct (IHl (lt1 ++ [o']) (ls1 ++ [s]) ls2 a b h2 vs' us' F2 G2) as (h' & lt2' & E3 & Ha3 & A3 & K3 & X3).
    + apply hset_same.
    + rewrite <- app_assoc. cbn [app]. rewrite K2; [exact Hb| |]; intros Hc; apply Nb; [left; now symmetry|right; apply in_or_app; now left].
    + rewrite !app_length, Hl. reflexivity.
    + apply (frameA h); [exact B|]. intros c Hc. apply K2; [intros ->; apply Na, in_or_app; now right|]. intros Hf. now apply (D12 c).
    + apply (frameA h); [exact D|]. intros c Hc. apply K2; [intros ->; apply (Dj a); [now left|apply in_or_app; now right]|]. intros Hf. apply (Dj c); [right; apply in_or_app; now left|apply in_or_app; now right].
    + constructor; [intros Hc; apply Na, in_or_app; now right|exact N2].
    + intros [Hc|Hc]; apply Nb; [now left|right; apply in_or_app; now right].
    + intros c [Hc|Hc] Hg; apply (Dj c); [now left|apply in_or_app; now right|right; apply in_or_app; now right|apply in_or_app; now right].
    + exact S2.
    + exists h', (o' :: lt2'). split; [|split; [|split; [|split]]].
      * cbn [length fromLoop]. rewrite Ha, Hb, nth_error_mid. rewrite <- Hl, nth_error_mid, E1, Ha1, Hl, upd_mid.
        replace (lt1 ++ o' :: lt2) with ((lt1 ++ [o']) ++ lt2) by now rewrite <- app_assoc. fold h2. rewrite app_length in E3. cbn [length] in E3. rewrite Nat.add_1_r in E3. exact E3.
      * rewrite Ha3, <- app_assoc. reflexivity.
      * constructor; [|exact A3]. apply (frame h1); [exact A1|]. intros c Hc. rewrite K3.
        -- unfold h2. apply hset_other. intros ->. apply Na, in_or_app. now left.
        -- intros [<- |Hf]; [apply Na, in_or_app; now left|now apply (D12 c)].
      * intros c Hc. rewrite K3; [|intros [<- |Hf]; apply Hc; [now left|right; apply in_or_app; now right]]. apply K2; [intros ->; apply Hc; now left|intros Hf; apply Hc; right; apply in_or_app; now left].
      * rewrite X3. exact X1.
Qed.
Lemma CopyFrom_ok t : copies_all t -> from_ok t.
Proof.
  unfold copies_all. induction t as [|m t IH]; intros Hc o s h v u F G H1 H2 Nd Dj Sh.
  - apply holds_words in H1. destruct H1 as (l & A & -> & ->). apply holds_words in H2. destruct H2 as (l' & A' & -> & ->). cbn [CopyFrom]. rewrite A, A'. cbn in Sh. rewrite goCopy_same by exact Sh.
    eexists _, _. split; [reflexivity|]. split; [constructor; apply hset_same|]. split; [intros a Ha; apply hset_other; intros ->; apply Ha; now left|]. split; reflexivity.
  - inversion Hc as [|x y Hm Ht]; subst. apply holds_node in H1. destruct H1 as (l & vs & Fs & A & B & -> & ->). apply holds_node in H2. destruct H2 as (l' & us & Gs & A' & B' & -> & ->).
    destruct (loop_ok t (IH Ht) l [] [] l' (o_ptr o) (o_ptr s) h vs us Fs Gs A A' eq_refl B B' Nd) as (h' & l2 & E & Ha & H & K & X).
    { intros Hb. apply (Dj (o_ptr s)); [exact Hb|now left]. } { intros a Ha Hg. apply (Dj a); [exact Ha|now right]. } { now apply (sameShape_node (gadOf m (o_gad o)) (gadOf m (o_gad s))). }
    cbn [CopyFrom]. rewrite A. cbn [length] in E. rewrite E. eexists _, h'. split; [reflexivity|]. split; [|split; [exact K|split; [exact X|reflexivity]]].
    replace (gadOf m (o_gad s)) with (gadOf m (o_gad (mkObj match m with Copied => o_gad s | _ => o_gad o end (o_ptr o)))) by (destruct m; [reflexivity..|contradiction]).
    apply (H_node h' m t (mkObj _ (o_ptr o)) l2 us Fs); [exact Ha|exact H].
Qed.

(** ** Clear *)
Variable w0 : W.
Definition clear_ok t := forall o h v F, holds h t o v F -> NoDup F -> exists h', Clear w0 t o h = Some h' /\ holds h' t o (zeroed w0 v) F /\ same_but F h h' /\ h_next h' = h_next h.
Lemma clearList_ok t : clear_ok t -> forall l h vs F, holdsAll h t l vs F -> NoDup F -> exists h', clearList (Clear w0 t) l h = Some h' /\ holdsAll h' t l (map (zeroed w0) vs) F /\ same_but F h h' /\ h_next h' = h_next h.
Proof.
  intros IH. induction l as [|o l IHl]; intros h vs F H Nd.
  - apply all_nil in H. destruct H as [-> ->]. exists h. split; [reflexivity|]. split; [constructor|]. split; [intros a _; reflexivity|reflexivity].
  - apply all_cons in H. destruct H as (v & vs' & F1 & F2 & A & B & -> & ->). destruct (nodup_split F1 F2 Nd) as (N1 & N2 & D12). destruct (IH o h v F1 A N1) as (h1 & E1 & A1 & K1 & X1).
    destruct (IHl h1 vs' F2) as (h2 & E2 & A2 & K2 & X2); [|exact N2|].
    { apply (frameA h); [exact B|]. intros a Ha. apply K1. intros Hb. now apply (D12 a). }
    exists h2. cbn [clearList map]. rewrite E1. split; [exact E2|]. split.
    { constructor; [|exact A2]. apply (frame h1); [exact A1|]. intros a Ha. apply K2. intros Hb. now apply (D12 a). }
    split; [|lia]. intros a Ha. rewrite K2; [apply K1|]; intros Hb; apply Ha, in_or_app; [now left|now right].
Qed.
Lemma Clear_ok t : clear_ok t.
Proof.
  induction t as [|m t IH]; intros o h v F H Nd.
  - apply holds_words in H. destruct H as (l & A & -> & ->). cbn [Clear]. rewrite A. eexists. split; [reflexivity|]. split; [constructor; apply hset_same|]. split; [intros a Ha; apply hset_other; intros ->; apply Ha; now left|reflexivity].
  - apply holds_node in H. destruct H as (l & vs & Fs & A & B & -> & ->). cbn [Clear]. rewrite A. inversion Nd as [|x y Na N2]; subst. destruct (clearList_ok t IH l h vs Fs B N2) as (h' & E & A1 & K & X).
    exists h'. split; [exact E|]. split; [|split; [intros a Ha; apply K; intros Hb; apply Ha; now right|exact X]]. apply (H_node h' m t o l (map (zeroed w0) vs) Fs); [|exact A1]. rewrite K by exact Na. exact A.
Qed.
End PfObj.

Lemma Copy_main : forall (W : Type) (t : ty) (o : obj) (h : heap W) (v : val W) (F : list nat), heap_ok h -> holds h t o v F ->
  exists o' h' F', Copy t o h = Some (o', h') /\ heap_ok h' /\ holds h' t o' v F' /\ holds h' t o v F /\ NoDup F' /\ (forall a, In a F' -> h_next h <= a) /\ (forall a, a < h_next h -> h_get h' a = h_get h a) /\
    (forall h2, same_but F' h' h2 -> holds h2 t o v F) /\ (forall h2, same_but F h' h2 -> holds h2 t o' v F').
Proof.
  intros W t o h v F Ho H. destruct (Copy_ok t o h v F Ho H) as (o' & h' & F' & E & Ho' & A & _ & Nd & R & L & K).
  pose proof (below h t o v F Ho H) as Bl.
  assert (H' : holds h' t o v F) by (apply (frame h); [exact H|]; intros a Ha; apply K; now apply Bl).
  exists o', h', F'. split; [exact E|]. split; [exact Ho'|]. split; [exact A|]. split; [exact H'|]. split; [exact Nd|]. split; [intros a Ha; now apply R|]. split; [exact K|]. split.
  - intros h2 S. apply (frame h'); [exact H'|]. intros a Ha. apply S. intros Hb. apply R in Hb. apply Bl in Ha. lia.
  - intros h2 S. apply (frame h'); [exact A|]. intros a Ha. apply S. intros Hb. apply R in Ha. apply Bl in Hb. lia.
Qed.
Lemma CopyFrom_main : forall (W : Type) (t : ty), copies_all t -> forall (o s : obj) (h : heap W) (v u : val W) (F G : list nat), holds h t o v F -> holds h t s u G -> NoDup F -> disjointN F G -> sameShape v u ->
  exists o' h', CopyFrom t o s h = Some (o', h') /\ holds h' t o' u F /\ holds h' t s u G /\ same_but F h h'.
Proof.
  intros W t Hc o s h v u F G H1 H2 Nd Dj Sh. destruct (CopyFrom_ok t Hc o s h v u F G H1 H2 Nd Dj Sh) as (o' & h' & E & A & K & _ & _). exists o', h'. split; [exact E|]. split; [exact A|]. split; [|exact K].
  apply (frame h); [exact H2|]. intros a Ha. apply K. intros Hb. now apply (Dj a).
Qed.
Lemma Clear_main : forall (W : Type) (w0 : W) (t : ty) (o : obj) (h : heap W) (v : val W) (F : list nat), holds h t o v F -> NoDup F ->
  exists h', Clear w0 t o h = Some h' /\ holds h' t o (zeroed w0 v) F /\ same_but F h h'.
Proof. intros W w0 t o h v F H Nd. destruct (Clear_ok w0 t o h v F H Nd) as (h' & E & A & K & _). eauto. Qed.
Lemma Kept_main : forall (W : Type) (t : ty), copies_all t -> forall (o s : obj) (h : heap W) v us g (F G : list nat), holds h (Kept :: t) o v F -> holds h (Kept :: t) s (VNode g us) G -> NoDup F -> disjointN F G -> sameShape v (VNode g us) ->
  exists o' h', CopyFrom (Kept :: t) o s h = Some (o', h') /\ holds h' (Kept :: t) o' (VNode (Some (o_gad o)) us) F /\ o_gad o' = o_gad o.
Proof.
  intros W t Hc o s h v us g F G H1 H2 Nd Dj Sh. apply holds_node in H1. destruct H1 as (l & vs & Fs & A & B & -> & ->). apply holds_node in H2. destruct H2 as (l' & us' & Gs & A' & B' & E & ->). injection E as -> <-.
  destruct (loop_ok t (CopyFrom_ok t Hc) l [] [] l' (o_ptr o) (o_ptr s) h vs us Fs Gs A A' eq_refl B B' Nd) as (h' & l2 & E & Ha & H & K & X).
  { intros Hb. apply (Dj (o_ptr s)); [exact Hb|now left]. } { intros a Ha Hg. apply (Dj a); [exact Ha|now right]. } { exact (sameShape_node _ _ _ _ Sh). }
  cbn [CopyFrom]. rewrite A. cbn [length] in E. rewrite E. eexists _, h'. split; [reflexivity|]. split; [|reflexivity]. exact (H_node h' Kept t (mkObj (o_gad o) (o_ptr o)) l2 us Fs Ha H).
Qed.
Lemma holds_det {W} (h : heap W) t : forall o v F v' F', holds h t o v F -> holds h t o v' F' -> v = v' /\ F = F'.
Proof.
  induction t as [|m t IH]; intros o v F v' F' H H'.
  - apply holds_words in H, H'. destruct H as (l & A & -> & ->), H' as (l' & A' & -> & ->). rewrite A in A'. injection A' as <-. auto.
  - apply holds_node in H, H'. destruct H as (l & vs & Fs & A & B & -> & ->), H' as (l' & vs' & Fs' & A' & B' & -> & ->). rewrite A in A'. injection A' as <-.
    assert (vs = vs' /\ Fs = Fs') as [-> ->]; [|auto]. clear A. revert vs Fs vs' Fs' B B'. induction l as [|x l IHl]; intros vs Fs vs' Fs' B B'.
    + apply all_nil in B, B'. destruct B as [-> ->], B' as [-> ->]. auto.
    + apply all_cons in B, B'. destruct B as (a & b & c & d & B1 & B2 & -> & ->), B' as (a' & b' & c' & d' & B1' & B2' & -> & ->).
      destruct (IH _ _ _ _ _ B1 B1') as [-> ->]. destruct (IHl _ _ _ _ B2 B2') as [-> ->]. auto.
Qed.
Lemma types_main : Forall copies_all [tWords; tGLWE; tPublic; tLev; tGSW; tGLev; tGGSW; tBlindRotate] /\ ~ copies_all tUni.
Proof. split; [repeat constructor; discriminate|]. intros H. inversion H as [|x y E _]; subst. now apply E. Qed.
Lemma uni_keeps : forall (W : Type) (o s : obj) (h : heap W) v us g (F G : list nat), holds h tUni o v F -> holds h tUni s (VNode g us) G -> NoDup F -> disjointN F G -> sameShape v (VNode g us) ->
  exists o' h', CopyFrom tUni o s h = Some (o', h') /\ holds h' tUni o' (VNode (Some (o_gad o)) us) F /\ o_gad o' = o_gad o.
Proof. intros W. apply (Kept_main W [Copied; NoG]). repeat constructor; discriminate. Qed.
Lemma uni_fixed : copies_all tUni_fixed.
Proof. repeat constructor; discriminate. Qed.
