(** Property C24: the secret key's views of one array, over histories of client commands. *)
From Verif Require Import Base ModelNum ModelPoly ModelSampler SpecSampler ModelGLWE ModelCodec SpecCodec ModelKey SpecKey PfKey PfKey2 PfKey3 PropSampler.

(** In every state a history reaches, every variable holds a key whose large LWE key lists the GLWE coefficients in order and whose small key is a prefix of it. *)
Theorem C24_views : forall sz ks fuel p st i k, (forall q, byte (ks q)) -> krun sz ks fuel p kinit = Ret st -> nth_error (ks_keys st) i = Some k ->
  exists n N, views n N (abs (ks_mem st) k).
Proof. intros sz ks fuel p st i k Hk. exact (reach_views sz ks fuel Hk p st i k). Qed.
Print Assumptions C24_views.
(** AsLWEKeyTo of the GLWE view writes what the large view already holds. *)
Theorem C24_AsLWEKey : forall n N v out, views n N v -> length out = length (sk_large v) -> (0 < N)%nat -> AsLWEKeyTo N out (sk_glwe v) = sk_large v.
Proof. exact views_AsLWEKey. Qed.
Print Assumptions C24_AsLWEKey.
(** A write through a view changes the same position in the others and nothing else. *)
Theorem C24_write_large : forall sz ks fuel p st st' i j x, (forall q, byte (ks q)) -> krun sz ks fuel p kinit = Ret st -> kstep sz ks fuel (KWriteLarge i j x) st = Ret st' -> seen st st' i x (fun _ => j).
Proof. intros sz ks fuel p st st' i j x Hk H. exact (write_large sz ks fuel Hk st st' i j x (reach_sinv sz ks fuel Hk p st H)). Qed.
Print Assumptions C24_write_large.
Theorem C24_write_glwe : forall sz ks fuel p st st' i r j x, (forall q, byte (ks q)) -> krun sz ks fuel p kinit = Ret st -> kstep sz ks fuel (KWriteGLWE i r j x) st = Ret st' -> seen st st' i x (fun N => r * N + j)%nat.
Proof. intros sz ks fuel p st st' i r j x Hk H. exact (write_glwe sz ks fuel Hk st st' i r j x (reach_sinv sz ks fuel Hk p st H)). Qed.
Print Assumptions C24_write_glwe.
Theorem C24_write_lwe : forall sz ks fuel p st st' i j x, (forall q, byte (ks q)) -> krun sz ks fuel p kinit = Ret st -> kstep sz ks fuel (KWriteLWE i j x) st = Ret st' -> seen st st' i x (fun _ => j).
Proof. intros sz ks fuel p st st' i j x Hk H. exact (write_lwe sz ks fuel Hk st st' i j x (reach_sinv sz ks fuel Hk p st H)). Qed.
Print Assumptions C24_write_lwe.
(** A copy holds the same key as the original. *)
Theorem C24_copy : forall sz ks fuel p st st' i, (forall q, byte (ks q)) -> krun sz ks fuel p kinit = Ret st -> kstep sz ks fuel (KCopy i) st = Ret st' ->
  exists k k', nth_error (ks_keys st) i = Some k /\ ks_keys st' = ks_keys st ++ [k'] /\ abs (ks_mem st') k' = abs (ks_mem st) k /\ abs (ks_mem st') k = abs (ks_mem st) k.
Proof.
  intros sz ks fuel p st st' i Hk H E. destruct (copy_step sz ks fuel i st st' (reach_sinv sz ks fuel Hk p st H) E) as (k & k' & A & B & C & D & _).
  exact (ex_intro _ k (ex_intro _ k' (conj A (conj B (conj C D))))).
Qed.
Print Assumptions C24_copy.
(** The copy is independent: with P the copy alone, or everything but the copy, commands on the other side, in any number, change nothing in P. *)
Theorem C24_independent : forall sz ks fuel P p0 i st st1 p st2, (forall q, byte (ks q)) -> krun sz ks fuel p0 kinit = Ret st -> kstep sz ks fuel (KCopy i) st = Ret st1 ->
  (forall a, (a < length (ks_keys st))%nat -> P a = negb (P (length (ks_keys st)))) -> Forall (okcmd P) p -> krun sz ks fuel p st1 = Ret st2 ->
  forall j k, nth_error (ks_keys st1) j = Some k -> P j = true -> nth_error (ks_keys st2) j = Some k /\ abs (ks_mem st2) k = abs (ks_mem st1) k.
Proof. intros sz ks fuel P p0 i st st1 p st2 Hk. exact (copy_independent sz ks fuel Hk P p0 i st st1 p st2). Qed.
Print Assumptions C24_independent.
(** Deserialising an encoded key into any variable gives that key, views and all. *)
Theorem C24_unmarshal : forall sz ks fuel p st v i k, (forall q, byte (ks q)) -> (sz = 4 \/ sz = 8)%nat -> wf sz TSecretKey v -> krun sz ks fuel p kinit = Ret st -> nth_error (ks_keys st) i = Some k ->
  exists st' k', kstep sz ks fuel (KRead i (enc sz TSecretKey v)) st = Ret st' /\ nth_error (ks_keys st') i = Some k' /\ abs (ks_mem st') k' = v.
Proof. intros sz ks fuel p st v i k Hk Hz Hv H. exact (read_enc sz ks fuel Hk v i st k ltac:(destruct Hz; subst; auto with arith) Hv (reach_sinv sz ks fuel Hk p st H)). Qed.
Print Assumptions C24_unmarshal.
(** Generated keys have binary coefficients, at most one 1 per block of the small key, and a transformed key that matches. *)
Theorem C24_generate : forall sz ks fuel p n k N bs st st', (forall q, byte (ks q)) -> Forall genok p -> krun sz ks fuel p kinit = Ret st -> 0 < bs < 2 ^ 63 -> kstep sz ks fuel (KGen n k N bs) st = Ret st' ->
  exists sk n' k' N', ks_keys st' = ks_keys st ++ [sk] /\ n = Z.of_nat n' /\ k = Z.of_nat k' /\ (k' <> 0%nat -> N = Z.of_nat N') /\
    views n' N' (abs (ks_mem st') sk) /\ length (sk_glwe (abs (ks_mem st') sk)) = k' /\ fftok (8 * Z.of_nat sz) (abs (ks_mem st') sk) /\
    Forall (fun x => x = 0 \/ x = 1) (sk_large (abs (ks_mem st') sk)) /\ block_binary (Z.to_nat bs) (sk_lwe (abs (ks_mem st') sk)).
Proof. intros sz ks fuel p n k N bs st st' Hk. exact (gen_step sz ks fuel Hk p n k N bs st st'). Qed.
Print Assumptions C24_generate.
(** The transformed key matches in every state reached without writing through a view, and again after it is recomputed. *)
Theorem C24_fft : forall sz ks fuel st i k, (forall q, byte (ks q)) -> freach sz ks fuel st -> nth_error (ks_keys st) i = Some k -> fftok (8 * Z.of_nat sz) (abs (ks_mem st) k).
Proof. intros sz ks fuel st i k Hk H E. exact (proj2 (freach_ok sz ks fuel Hk st H) k (nth_error_In _ _ E)). Qed.
Print Assumptions C24_fft.
Theorem C24_fft_recompute : forall sz ks fuel p st st' i, (forall q, byte (ks q)) -> krun sz ks fuel p kinit = Ret st -> kstep sz ks fuel (KFFT i) st = Ret st' ->
  exists k, nth_error (ks_keys st') i = Some k /\ fftok (8 * Z.of_nat sz) (abs (ks_mem st') k).
Proof. intros sz ks fuel p st st' i Hk H. exact (fft_fix sz ks fuel i st st' (reach_sinv sz ks fuel Hk p st H)). Qed.
Print Assumptions C24_fft_recompute.

(** A history: generate, copy, write through each view, copy back, clear, alias. *)
Definition kshow (p : list kcmd) : option (list (list Z * list Z * list Z)) :=
  match krun 8 exks 1000 p kinit with Ret st => Some (map (fun k => let a := abs (ks_mem st) k in (firstn 4 (sk_large a), firstn 4 (nth 1 (sk_glwe a) []), firstn 4 (sk_lwe a))) (ks_keys st)) | _ => None end.
Example ex_C24_new : kshow [KNew 9 2 16; KWriteGLWE 0 1 2 7; KWriteLarge 0 3 5; KWriteLWE 0 1 4] = Some [([0; 4; 0; 5], [0; 0; 7; 0], [0; 4; 0; 5])].
Proof. vm_compute. reflexivity. Qed.
Example ex_C24_copy : kshow [KNew 9 2 16; KWriteLWE 0 0 1; KCopy 0; KWriteLarge 0 0 2; KWriteGLWE 1 1 0 3] = Some [([2; 0; 0; 0], [0; 0; 0; 0], [2; 0; 0; 0]); ([1; 0; 0; 0], [3; 0; 0; 0], [1; 0; 0; 0])].
Proof. vm_compute. reflexivity. Qed.
Example ex_C24_alias : kshow [KNew 9 2 16; KNew 9 2 16; KAssign 1 0; KWriteLWE 1 3 6] = Some [([0; 0; 0; 6], [0; 0; 0; 0], [0; 0; 0; 6]); ([0; 0; 0; 6], [0; 0; 0; 0], [0; 0; 0; 6])].
Proof. vm_compute. reflexivity. Qed.
Example ex_C24_copyFrom_clear : kshow [KNew 9 2 16; KWriteLWE 0 1 4; KNew 9 2 16; KCopyFrom 1 0; KClear 0] = Some [([0; 0; 0; 0], [0; 0; 0; 0], [0; 0; 0; 0]); ([0; 4; 0; 0], [0; 0; 0; 0], [0; 4; 0; 0])].
Proof. vm_compute. reflexivity. Qed.
Example ex_C24_gen : kshow [KGen 9 2 16 3] = Some [([1; 0; 0; 0], [1; 0; 0; 0], [1; 0; 0; 0])].
Proof. vm_compute. reflexivity. Qed.
(** Writing past the small key panics. *)
Example ex_C24_bounds : kshow [KNew 9 2 16; KWriteLWE 0 9 4] = None /\ kshow [KNew 40 2 16] = None.
Proof. vm_compute. split; reflexivity. Qed.
Example ex_C24_sides : okcmd (Nat.eqb 1) (KWriteLarge 0 0 2) /\ okcmd (fun a => negb (Nat.eqb a 1)) (KWriteGLWE 1 1 0 3).
Proof. split; reflexivity. Qed.
