(** Specification: what a nested ciphertext or key is as a value, and which memory it occupies. *)
From Verif Require Import Base ModelGadget ModelObj.

(** A value: words, or GadgetParams (when the type has them) and the values inside. *)
Inductive val (W : Type) := VWords (l : list W) | VNode (g : option gadget) (l : list (val W)).
Arguments VWords {W}. Arguments VNode {W}.
Definition gadOf (m : gmode) (g : gadget) : option gadget := match m with NoG => None | _ => Some g end.

Section SpecObj.
Context {W : Type}.
(** [holds t h o v F]: in heap h the object o of type t has the value v and occupies exactly the arrays F. *)
Inductive holds (h : heap W) : ty -> obj -> val W -> list nat -> Prop :=
| H_words : forall o l, h_get h (o_ptr o) = Some (Words l) -> holds h [] o (VWords l) [o_ptr o]
| H_node : forall m t o l vs Fs, h_get h (o_ptr o) = Some (Objs l) -> holdsAll h t l vs Fs ->
    holds h (m :: t) o (VNode (gadOf m (o_gad o)) vs) (o_ptr o :: Fs)
with holdsAll (h : heap W) : ty -> list obj -> list (val W) -> list nat -> Prop :=
| H_nil : forall t, holdsAll h t [] [] []
| H_cons : forall t o l v vs F Fs, holds h t o v F -> holdsAll h t l vs Fs -> holdsAll h t (o :: l) (v :: vs) (F ++ Fs).

(** Every array of the heap is below the next free address. *)
Definition heap_ok (h : heap W) : Prop := forall a, (h_next h <= a)%nat -> h_get h a = None.
(** Only arrays in F differ. *)
Definition same_but (F : list nat) (h h' : heap W) : Prop := forall a, ~ In a F -> h_get h' a = h_get h a.
Definition disjointN (F G : list nat) : Prop := forall a, In a F -> In a G -> False.

(** Same numbers of words and of parts everywhere. *)
Fixpoint sameShape (v u : val W) : Prop :=
  match v, u with
  | VWords l, VWords l' => length l = length l'
  | VNode _ l, VNode _ l' => (fix go l l' := match l, l' with [], [] => True | v :: l, u :: l' => sameShape v u /\ go l l' | _, _ => False end) l l'
  | _, _ => False
  end.
(** The value with all words zero. *)
Fixpoint zeroed (w0 : W) (v : val W) : val W :=
  match v with VWords l => VWords (repeat w0 (length l)) | VNode g l => VNode g (map (zeroed w0) l) end.
End SpecObj.
(** CopyFrom copies every GadgetParams of the type. *)
Definition copies_all (t : ty) : Prop := Forall (fun m => m <> Kept) t.
