(** Concrete multi-key data for the examples of PropMK.v: 64-bit torus, rank 8, three parties of which 0 and 2 take part,
    LWE dimension 4 in two blocks; the evaluation keys are made by the model of GenEvalKey. *)
From Verif Require Import Base NegaRing SpecNum ModelNum PfNum ModelVec SpecVec PfVec ModelPoly SpecPoly PfPoly ModelGadget SpecGadget ModelEncoder ModelLWE SpecLWE PfLWE ModelGLWE SpecGLWE PfGLWE ModelBoot SpecBoot PfBoot4 ModelMK ModelMKBin SpecMK PfMK7 PfMK8 PropLWE PropBoot.

Definition xpa : gadget := {| g_base := 2 ^ 8; g_logBase := 8; g_level := 4; g_sizeT := 64 |}.
Definition xpr : gadget := {| g_base := 2 ^ 16; g_logBase := 16; g_level := 3; g_sizeT := 64 |}.
Definition xpB : gadget := {| g_base := 2 ^ 16; g_logBase := 16; g_level := 3; g_sizeT := 64 |}.
Definition xpK : gadget := {| g_base := 2 ^ 10; g_logBase := 10; g_level := 4; g_sizeT := 64 |}.
Lemma xgad_ok : gadget_ok 64 xpa /\ gadget_ok 64 xpr /\ gadget_ok 64 xpB /\ gadget_ok 64 xpK.
Proof. repeat split; vm_compute; congruence || lia. Qed.
Definition xbm : list bool := [true; false; true].
Definition xkeys : list (list Z) := [[1; 0; 0; 0; 1; 1; 0; 1]; repeat 1 8; [0; 0; 0; 1; 0; 1; 1; 0]].
Definition xU (i j : nat) : Z := 11400714819323198485 * Z.of_nat (j * j + 7 * i + 3).
Definition xG (i j : nat) : Z := (Z.of_nat (i + j) * 5) mod 7 - 3.
Definition xcrs : list (list Z) := genCRS 64 8 (fun j => 6364136223846793005 * Z.of_nat (j * j + 5)) 3.
Definition xaux (i : nat) : list Z := tab 8 (fun j => Z.of_nat ((i + j * j) mod 2)).
Definition xgen (i : nat) := MKGenEvalKey 64 3 8 4 (xU i) (xG i) xpB xpK xpr xcrs (nth i xkeys []) (xaux i) (repeat (repeat 7 8) 2) (repeat (repeat 8 8) 2) (0, 0)%nat.
Definition xek0 : evalKey := Eval vm_compute in fst (xgen 0).
Definition xek2 : evalKey := Eval vm_compute in fst (xgen 2).
Definition xeks : list evalKey := [xek0; noKey; xek2].

Lemma xgen0 : MKGenEvalKey 64 3 8 4 (xU 0) (xG 0) xpB xpK xpr xcrs (nth 0 xkeys []) (xaux 0) (repeat (repeat 7 8) 2) (repeat (repeat 8 8) 2) (0, 0)%nat = (nth 0 xeks noKey, snd (xgen 0)).
Proof. vm_compute. reflexivity. Qed.
Lemma xgen2 : MKGenEvalKey 64 3 8 4 (xU 2) (xG 2) xpB xpK xpr xcrs (nth 2 xkeys []) (xaux 2) (repeat (repeat 7 8) 2) (repeat (repeat 8 8) 2) (0, 0)%nat = (nth 2 xeks noKey, snd (xgen 2)).
Proof. vm_compute. reflexivity. Qed.
Lemma xG_bound i j : Z.abs (xG i j) <= 3.
Proof. unfold xG. pose proof (Z.mod_pos_bound (Z.of_nat (i + j) * 5) 7 ltac:(lia)). lia. Qed.
Lemma binary_dec s : forallb (fun x => (x =? 0) || (x =? 1)) s = true -> binary s.
Proof. intros H. apply Forall_forall. intros x Hx. rewrite forallb_forall in H. specialize (H x Hx). lia. Qed.
Lemma blocks4 a b c d : binary [a; b; c; d] -> a = 0 \/ b = 0 -> c = 0 \/ d = 0 -> block_binary 2 [a; b; c; d].
Proof.
  intros Hb H1 H2. split; [exact Hb|]. intros i j Hi Hj Hd. change (length [a; b; c; d]) with 4%nat in Hj. unfold nthZ.
  assert (j = 1 \/ j = 2 \/ j = 3)%nat as [-> | [-> | ->]] by lia; assert (i = 0 \/ i = 1 \/ i = 2)%nat as [-> | [-> | ->]] by lia; cbn [nth]; first [lia|discriminate Hd|assumption].
Qed.
Lemma xkeys_ok : mk_keys 64 8 3 4 xpa xpr xpB xpK xbm xkeys (map ek_brk xeks) (map ek_ksk xeks) (map ek_crs xeks) (map ek_u0 xeks) (map ek_u1 xeks) 2 2 3 3 3.
Proof.
  destruct xgad_ok as (Ga & Gr & GB & GK).
  apply (mk_keygen 64 ltac:(lia) 8 ltac:(lia) 3 ltac:(reflexivity) 4 xpB xpK xpr GB GK Gr xcrs) with
    (U := xU) (G := xG) (auxs := xaux) (gbufs := fun _ => repeat (repeat 7 8) 2) (subs := fun _ => repeat (repeat 8 8) 2) (sts := fun _ => (0, 0)%nat) (rests := fun i => snd (xgen i)); try lia; try assumption.
  - intros i Hi. change (g_level xpr) with 3%nat in Hi. unfold xcrs, genCRS. rewrite nth_tab by exact Hi. split; [apply tab_length|]. apply Forall_tab. intros t _. apply wrap_word. lia.
  - exists 3. split; [lia|reflexivity].
  - reflexivity.
  - split; [reflexivity|]. intros [|[|[|i]]] Hi; [reflexivity..|lia].
  - intros [|[|[|i]]] Hi; try discriminate Hi.
    + split; [apply binary_dec; reflexivity|]. apply blocks4; [apply binary_dec; reflexivity|right; reflexivity|left; reflexivity].
    + split; [apply binary_dec; reflexivity|]. apply blocks4; [apply binary_dec; reflexivity|right; reflexivity|left; reflexivity].
    + destruct i; discriminate Hi.
  - apply xG_bound.
  - intros i Hi. assert (i = 0 \/ i = 2)%nat as [-> | ->]. { destruct i as [|[|[|i]]]; [now left|discriminate Hi|now right|destruct i; discriminate Hi]. }
    + split; [reflexivity|]. split; [apply binary_dec; reflexivity|]. split; [split; [reflexivity|intros [|[|i]] H; [reflexivity..|lia]]|]. split; [split; [reflexivity|intros [|[|i]] H; [reflexivity..|lia]]|]. exact xgen0.
    + split; [reflexivity|]. split; [apply binary_dec; reflexivity|]. split; [split; [reflexivity|intros [|[|i]] H; [reflexivity..|lia]]|]. split; [split; [reflexivity|intros [|[|i]] H; [reflexivity..|lia]]|]. exact xgen2.
Qed.
