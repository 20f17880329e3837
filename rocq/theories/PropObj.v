(** C70: Copy, CopyFrom and Clear of ciphertexts and keys. *)
From Verif Require Import Base ModelNum ModelGadget ModelObj SpecObj PfObj.
From Coq Require Import Lia.
Open Scope Z_scope.

(** ** C70 *)
(** Copy returns the same value in new arrays: nothing that was there changes, and no write through the copy is seen in the original or the other way round. *)
Theorem C70_Copy : forall (W : Type) (t : ty) (o : obj) (h : heap W) (v : val W) (F : list nat), heap_ok h -> holds h t o v F ->
  exists o' h' F', Copy t o h = Some (o', h') /\ heap_ok h' /\ holds h' t o' v F' /\ holds h' t o v F /\ NoDup F' /\ (forall a, In a F' -> (h_next h <= a)%nat) /\ (forall a, (a < h_next h)%nat -> h_get h' a = h_get h a) /\
    (forall h2, same_but F' h' h2 -> holds h2 t o v F) /\ (forall h2, same_but F h' h2 -> holds h2 t o' v F').
Proof. exact Copy_main. Qed.
Print Assumptions C70_Copy.
(** CopyFrom between separate objects of one shape: afterwards the receiver has the value of the argument, in its own arrays. *)
Theorem C70_CopyFrom : forall (W : Type) (t : ty), copies_all t -> forall (o s : obj) (h : heap W) (v u : val W) (F G : list nat), holds h t o v F -> holds h t s u G -> NoDup F -> disjointN F G -> sameShape v u ->
  exists o' h', CopyFrom t o s h = Some (o', h') /\ holds h' t o' u F /\ holds h' t s u G /\ same_but F h h'.
Proof. exact CopyFrom_main. Qed.
Print Assumptions C70_CopyFrom.
(** All types but the two of mktfhe. *)
Theorem C70_types : Forall copies_all [tWords; tGLWE; tPublic; tLev; tGSW; tGLev; tGGSW; tBlindRotate] /\ ~ copies_all tUni.
Proof. exact types_main. Qed.
Print Assumptions C70_types.
(** Clear: all words zero, same shape and GadgetParams, nothing else touched. *)
Theorem C70_Clear : forall (W : Type) (w0 : W) (t : ty) (o : obj) (h : heap W) (v : val W) (F : list nat), holds h t o v F -> NoDup F ->
  exists h', Clear w0 t o h = Some h' /\ holds h' t o (zeroed w0 v) F /\ same_but F h h'.
Proof. exact Clear_main. Qed.
Print Assumptions C70_Clear.
(** Finding: CopyFrom of UniEncryption and FFTUniEncryption (mktfhe/glwe.go:136-140, mktfhe/fft_glwe.go:109-113) copies the parts, but the receiver keeps its own GadgetParams. *)
Theorem C70_UniEncryption_keeps : forall (W : Type) (o s : obj) (h : heap W) v us g (F G : list nat), holds h tUni o v F -> holds h tUni s (VNode g us) G -> NoDup F -> disjointN F G -> sameShape v (VNode g us) ->
  exists o' h', CopyFrom tUni o s h = Some (o', h') /\ holds h' tUni o' (VNode (Some (o_gad o)) us) F /\ o_gad o' = o_gad o.
Proof. exact uni_keeps. Qed.
Print Assumptions C70_UniEncryption_keeps.

(** Two uni-encryptions of two GLev, one GLWE each, of two polynomials of one coefficient; bases 2^4 and 2^8. *)
Fixpoint build (shape : list nat) (g : gadget) (x : Z) (h : heap Z) : obj * heap Z :=
  match shape with
  | [] => let '(a, h) := alloc h (Words [x]) in (mkObj g a, h)
  | n :: shape => let '(l, h) := forN 0 n (fun i s => let '(l, h) := s in let '(o, h) := build shape g (x + Z.of_nat i) h in (l ++ [o], h)) ([], h) in
    let '(a, h) := alloc h (Objs l) in (mkObj g a, h)
  end.
Definition gA : gadget := mkGadget 16 4 1 32.
Definition gB : gadget := mkGadget 256 8 1 32.
Definition h0 : heap Z := mkHeap 0 (fun _ => None).
Definition hA := build [2; 1; 2]%nat gA 5 h0.
Definition hB := build [2; 1; 2]%nat gB 70 (snd hA).
Definition vOf (g : gadget) (x : Z) : val Z := VNode (Some g) [VNode (Some g) [VNode None [VWords [x]; VWords [(x + 1)%Z]]]; VNode (Some g) [VNode None [VWords [(x + 1)%Z]; VWords [(x + 2)%Z]]]].
Definition FA := [8; 3; 2; 0; 1; 7; 6; 4; 5]%nat.
Definition FB := [17; 12; 11; 9; 10; 16; 15; 13; 14]%nat.
Ltac hold := repeat (first [apply H_nil | apply H_words; reflexivity | eapply H_node; [reflexivity|] | eapply H_cons]).
Lemma ex_holds : heap_ok (snd hB) /\ holds (snd hB) tUni (fst hA) (vOf gA 5) FA /\ holds (snd hB) tUni (fst hB) (vOf gB 70) FB /\ NoDup FA /\ disjointN FA FB /\ sameShape (vOf gA 5) (vOf gB 70).
Proof.
  assert (V : forall h t o v F v' F', @holds Z h t o v' F' -> v' = v -> F' = F -> holds h t o v F) by (intros; subst; assumption).
  split; [intros a Ha; change (18 <= a)%nat in Ha; do 18 (destruct a as [|a]; [lia|]); reflexivity|].
  split; [eapply V; [hold|reflexivity|reflexivity]|]. split; [eapply V; [hold|reflexivity|reflexivity]|].
  split; [unfold FA; repeat (constructor; [cbn; lia|]); constructor|]. split; [intros a Ha Hb; cbn in Ha, Hb; lia|]. cbn. tauto.
Qed.
Example C70_ex_holds : heap_ok (snd hB) /\ holds (snd hB) tUni (fst hA) (vOf gA 5) FA /\ holds (snd hB) tUni (fst hB) (vOf gB 70) FB /\ NoDup FA /\ disjointN FA FB /\ sameShape (vOf gA 5) (vOf gB 70).
Proof. exact ex_holds. Qed.
Lemma uni_refuted : exists o s (h : heap Z) v u F G, heap_ok h /\ holds h tUni o v F /\ holds h tUni s u G /\ NoDup F /\ disjointN F G /\ sameShape v u /\
  exists o' h', CopyFrom tUni o s h = Some (o', h') /\ forall F', ~ holds h' tUni o' u F'.
Proof.
  exists (fst hA), (fst hB), (snd hB), (vOf gA 5), (vOf gB 70), FA, FB. destruct ex_holds as (A & B & C & D & E & S). repeat (split; [assumption|]).
  destruct (uni_keeps Z _ _ _ _ _ _ _ _ B C D E S) as (o' & h' & X & Y & _). exists o', h'. split; [exact X|]. intros F' H. destruct (holds_det _ _ _ _ _ _ _ Y H) as [K _]. discriminate K.
Qed.
Theorem C70_UniEncryption_refuted : exists o s (h : heap Z) v u F G, heap_ok h /\ holds h tUni o v F /\ holds h tUni s u G /\ NoDup F /\ disjointN F G /\ sameShape v u /\
  exists o' h', CopyFrom tUni o s h = Some (o', h') /\ forall F', ~ holds h' tUni o' u F'.
Proof. exact uni_refuted. Qed.
Print Assumptions C70_UniEncryption_refuted.
(** With the assignment the other types have it would be right. *)
Theorem C70_UniEncryption_fixed : copies_all tUni_fixed.
Proof. exact uni_fixed. Qed.
Print Assumptions C70_UniEncryption_fixed.
(** A coefficient encrypting 5 with base 2^8 decrypts to 5 with the right GadgetParams and to 0 with the ones that are kept (mktfhe/glwe_enc.go:86). *)
Example C70_ex_decrypt : DivRoundBits 32 (5 * 2 ^ 24 + 77) (LogFirstBaseQ gB) = 5 /\ DivRoundBits 32 (5 * 2 ^ 24 + 77) (LogFirstBaseQ gA) = 0.
Proof. vm_compute. auto. Qed.
(** Shapes that differ: more parts in the receiver panic (index out of range); fewer leave GadgetParams of the argument with the receiver's number of parts. *)
Example C70_ex_longer : CopyFrom tLev (fst (build [2]%nat gA 5 h0)) (fst (build [1]%nat gB 5 (snd (build [2]%nat gA 5 h0)))) (snd (build [1]%nat gB 5 (snd (build [2]%nat gA 5 h0)))) = None.
Proof. vm_compute. reflexivity. Qed.
Example C70_ex_shorter : let g3 := mkGadget 16 4 3 32 in let a := build [1]%nat gA 5 h0 in let b := build [3]%nat g3 7 (snd a) in
  match CopyFrom tLev (fst a) (fst b) (snd b) with Some (o, h) => g_level (o_gad o) = 3%nat /\ match h_get h (o_ptr o) with Some (Objs l) => length l = 1%nat | _ => False end | None => False end.
Proof. vm_compute. auto. Qed.
(** Copy of such an object, then Clear of the original: the copy keeps its words. *)
Example C70_ex_copy : match Copy tUni (fst hA) (snd hA) with Some (c, h) => match Clear 0 tUni (fst hA) h with Some h => h_get h 0 = Some (Words [0]) /\ h_get h 9 = Some (Words [5]) | None => False end | None => False end.
Proof. vm_compute. auto. Qed.
