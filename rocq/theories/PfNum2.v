From Verif Require Import Base ModelNum.

Lemma MinMax_spec x y : MinT x y = Z.min x y /\ MaxT x y = Z.max x y.
Proof. unfold MinT, MaxT. destruct (Z.ltb_spec x y), (Z.ltb_spec y x); lia. Qed.
