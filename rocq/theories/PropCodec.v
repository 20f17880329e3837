(** C37, C38, C39, C40, C42: serialisation. *)
From Verif Require Import Base ModelNum SpecNum ModelGadget SpecGadget ModelParams SpecParams ModelCodec SpecCodec PfCodec PfCodecT PfCodecP PropParams.

Definition word_size (sz : nat) : Prop := sz = 4%nat \/ sz = 8%nat.

(** ** C37 Serialisation round-trips: 31 types, any receiver. *)
Theorem C37_roundtrip : forall sz t v old, word_size sz -> wf sz t v ->
  exists b, MarshalBinary (cWrite sz t v) = Some (b, false) /\ UnmarshalBinary (cRead sz t) old b = Some (Some v).
Proof. intros sz t v old Hs. exact (roundtrip sz ltac:(destruct Hs; subst; auto with arith) t v old). Qed.
Print Assumptions C37_roundtrip.
(** The bytes are those of the format. *)
Theorem C37_format : forall sz t v, word_size sz -> wf sz t v -> MarshalBinary (cWrite sz t v) = Some (enc sz t v, false).
Proof. intros sz t v Hs. exact (Marshal_ok sz ltac:(destruct Hs; subst; auto with arith) t v). Qed.
Print Assumptions C37_format.
(** Equal encodings of one type are equal values. *)
Theorem C37_injective : forall sz t v v', word_size sz -> wf sz t v -> wf sz t v' -> enc sz t v = enc sz t v' -> v = v'.
Proof. intros sz t v v' Hs. exact (enc_inj sz ltac:(destruct Hs; subst; auto with arith) t v v'). Qed.
Print Assumptions C37_injective.

Definition exG2 : gadget := mkGadget 64 6 2 32.
Definition exGLev : glev := (exG2, [[repeat 7 16; repeat (2 ^ 32 - 1) 16]; [repeat 0 16; map Z.of_nat (seq 0 16)]]).
Definition exLWE : list Z := [1; 2; 2 ^ 32 - 3].
Definition exGGSW : ggsw := (exG2, [exGLev; exGLev]).
Definition exEvk : evalKey := ((exG2, [exGGSW; exGGSW; exGGSW]), (exG2, [])).
Ltac wsolve := repeat match goal with
  | |- okrank _ => exists 4; split; [split; discriminate|reflexivity]
  | |- okint _ => vm_compute; reflexivity
  | |- uword _ _ => split; [discriminate|reflexivity]
  | |- wfrows _ _ _ _ => split; [reflexivity|]
  | |- wfwords _ _ _ => split; [reflexivity|]
  | |- wfglev _ _ _ _ _ => split; [reflexivity|]; split; [reflexivity|]
  | |- wfggsw _ _ _ _ _ => split; [reflexivity|]; split; [reflexivity|]
  | |- Forall _ _ => repeat constructor
  | |- _ /\ _ => split
  | |- _ = _ => reflexivity
  | |- _ <= _ => vm_compute; discriminate
  | |- _ < _ => vm_compute; reflexivity
  | |- (_ <= _)%nat => repeat constructor
  end.
Lemma exG2_ok : gadget_ok 32 exG2. Proof. repeat split; vm_compute; congruence || lia. Qed.
Example C37_ex_GLev : wf 4 TGLev exGLev.
Proof. split; [exact exG2_ok|]. exists 1%nat, 16%nat. wsolve. Qed.
Example C37_ex_Evk : wf 4 TEvaluationKey exEvk.
Proof. split; [|right; split; [exact exG2_ok|reflexivity]]. split; [exact exG2_ok|]. exists 3%nat, 1%nat, 16%nat. wsolve. Qed.
Example C37_run : let b := enc 4 TGLev exGLev in MarshalBinary (cWrite 4 TGLev exGLev) = Some (b, false) /\ length b = 288%nat /\
  UnmarshalBinary (cRead 4 TGLev) (exG2, []) b = Some (Some exGLev) /\ UnmarshalBinary (cRead 4 TGLev) (exG2, []) (firstn 287 b) = Some None.
Proof. split; [vm_compute; reflexivity|]. split; [vm_compute; reflexivity|]. split; vm_compute; reflexivity. Qed.

(** ** C38 ByteSize and WriteTo counts. *)
Theorem C38_ByteSize : forall sz t v b e, word_size sz -> wf sz t v -> MarshalBinary (cWrite sz t v) = Some (b, e) ->
  e = false /\ cSize sz t v = Z.of_nat (length b).
Proof. intros sz t v b e Hs. exact (ByteSize_ok sz ltac:(destruct Hs; subst; auto with arith) t v b e). Qed.
Print Assumptions C38_ByteSize.
(** Every writer, honest or not: the count is the number of bytes accepted, success means everything was. *)
Theorem C38_WriteTo : forall sz t v O, word_size sz -> wf sz t v -> write_count_exact t = true -> write_ok O (cWrite sz t v) (enc sz t v).
Proof. intros sz t v O Hs. exact (cWrite_ok sz ltac:(destruct Hs; subst; auto with arith) t v O). Qed.
Print Assumptions C38_WriteTo.
(** The types with a wrong count on errors: all the rest holds, and the count on success. *)
Theorem C38_WriteTo_nil : forall sz t v O, word_size sz -> wf sz t v -> write_ok_nil O (cWrite sz t v) (enc sz t v).
Proof. intros sz t v O Hs. exact (cWrite_ok_nil sz ltac:(destruct Hs; subst; auto with arith) t v O). Qed.
Print Assumptions C38_WriteTo_nil.
(** A writer that fails during its second call after 3 bytes. *)
Definition failSecond : writer := fun i l => if Nat.eqb i 1 then (3%nat, true) else (l, false).
Example C38_ex : honest failSecond /\
  match cWrite 4 TGLev exGLev failSecond 0 (O, []) with WRet n err s => n = 11 /\ err = true /\ length (snd s) = 11%nat | WPanic => False end.
Proof. split; [intros [|[|i]] l; cbn; lia|]. vm_compute. repeat split. Qed.
(** A writer that lies (takes 3 bytes, reports no error) is caught by the size check. *)
Definition liar : writer := fun i l => if Nat.eqb i 1 then (3%nat, false) else (l, false).
Example C38_liar : match cWrite 4 TGLev exGLev liar 0 (O, []) with WRet n err s => err = true /\ n = Z.of_nat (length (snd s)) | WPanic => False end.
Proof. vm_compute. split; reflexivity. Qed.
(** FFT types: after 8 + 3 accepted bytes the header's error path reports 3. *)
Theorem C38_FFT_header_refuted : forall t, write_count_exact t = false -> t <> TMkEvaluationKey ->
  exists v, wf 4 t v /\ match cWrite 4 t v failSecond 0 (O, []) with WRet n err s => err = true /\ n = 3 /\ length (snd s) = 11%nat | WPanic => False end.
Proof.
  intros t Ht Hne. destruct t; try discriminate; try congruence.
  - exists [repeat 5 16; repeat 6 16]. split; [exists 2%nat, 16%nat; wsolve|vm_compute; repeat split; reflexivity].
  - exists [repeat 5 16; repeat 6 16]. split; [exists 1%nat, 16%nat; wsolve|vm_compute; repeat split; reflexivity].
  - exists exGLev. split; [split; [exact exG2_ok|]; exists 1%nat, 16%nat; wsolve|vm_compute; repeat split; reflexivity].
  - exists [repeat 5 16; repeat 6 16]. split; [exists 1%nat, 16%nat; wsolve|vm_compute; repeat split; reflexivity].
Qed.
Print Assumptions C38_FFT_header_refuted.
(** ByteSize and WriteTo of a key-switching key without entries panic, although NewLWEKeySwitchKeyCustom(0, 0, p) makes one
    (EvaluationKey avoids it with its presence byte). *)
Theorem C38_empty_KSK_refuted : exists g k, NewLWEKeySwitchKeyCustom 0 0 g = Some k /\ forall O s, cWrite 4 TLWEKeySwitchKey k O 0 s = WPanic \/ exists n s', cWrite 4 TLWEKeySwitchKey k O 0 s = WRet n true s'.
Proof. exact emptyKSK. Qed.
Print Assumptions C38_empty_KSK_refuted.
Theorem C38_empty_KSK_panics_refuted : exists g k, NewLWEKeySwitchKeyCustom 0 0 g = Some k /\ MarshalBinary (cWrite 4 TLWEKeySwitchKey k) = None.
Proof. exists exG2, (exG2, []). split; vm_compute; reflexivity. Qed.
Print Assumptions C38_empty_KSK_panics_refuted.

(** ** C39 Truncated input, counts of ReadFrom. *)
Theorem C39_truncated : forall sz t v old p q, word_size sz -> wf sz t v -> enc sz t v = p ++ q -> q <> [] -> exists n r, cRead sz t old 0 p = RRet n None r.
Proof. intros sz t v old p q Hs. exact (truncated sz ltac:(destruct Hs; subst; auto with arith) t v old p q). Qed.
Print Assumptions C39_truncated.
(** Any bytes, any receiver. *)
Theorem C39_count : forall sz t old p n a r, read_count_exact t = true -> cRead sz t old 0 p = RRet n a r -> exists c, p = c ++ r /\ n = Z.of_nat (length c).
Proof. exact read_count. Qed.
Print Assumptions C39_count.
Theorem C39_count_success : forall sz t old p n a r, read_count_success t = true -> cRead sz t old 0 p = RRet n (Some a) r -> exists c, p = c ++ r /\ n = Z.of_nat (length c).
Proof. exact read_countS. Qed.
Print Assumptions C39_count_success.
(** More input does not change a success. *)
Theorem C39_extension : forall sz t old p q n a r, cRead sz t old 0 p = RRet n (Some a) r -> cRead sz t old 0 (p ++ q) = RRet n (Some a) (r ++ q).
Proof. exact read_more. Qed.
Print Assumptions C39_extension.
Example C39_ex : let b := enc 4 TEvaluationKey exEvk in MarshalBinary (cWrite 4 TEvaluationKey exEvk) = Some (b, false) /\
  cRead 4 TEvaluationKey exEvk 0 (firstn 50 b) = RRet 50 None [] /\ cRead 4 TEvaluationKey exEvk 0 (b ++ [9]) = RRet (Z.of_nat (length b)) (Some exEvk) [9].
Proof. split; [vm_compute; reflexivity|]. split; vm_compute; reflexivity. Qed.
(** LWESecretKey.ReadFrom (lwe_marshal.go:201-214) returns 8 whatever it read after the header. *)
Theorem C39_LWESecretKey_refuted : exists v b, wf 4 TLWESecretKey v /\ MarshalBinary (cWrite 4 TLWESecretKey v) = Some (b, false) /\ length b = 20%nat /\
  cRead 4 TLWESecretKey [] 0 b = RRet 8 (Some v) [].
Proof.
  exists exLWE, (enc 4 TLWESecretKey exLWE). split; [|split; [vm_compute; reflexivity|]; split; [reflexivity|vm_compute; reflexivity]].
  split; wsolve.
Qed.
Print Assumptions C39_LWESecretKey_refuted.
(** The FFT headers' error paths report only the last read. *)
Theorem C39_FFT_header_refuted : forall t, read_count_exact t = false -> t <> TLWESecretKey -> exists p old, length p = 12%nat /\ cRead 4 t old 0 p = RRet 4 None [].
Proof. intros t Ht Hne. destruct t; try discriminate; try congruence; exists (repeat 1 12), []; split; vm_compute; reflexivity. Qed.
Print Assumptions C39_FFT_header_refuted.

(** ** C40 Encodings are self-delimiting. *)
Theorem C40_object : forall sz t v old rest, word_size sz -> wf sz t v -> exists n, cRead sz t old 0 (enc sz t v ++ rest) = RRet n (Some v) rest.
Proof. intros sz t v old rest Hs Hw. exact (cRead_top sz ltac:(destruct Hs; subst; auto with arith) t old v Hw rest). Qed.
Print Assumptions C40_object.
(** Any sequence of objects of any of the types, read into any receivers of the same types. *)
Theorem C40_stream : forall sz (l old : list obj) rest, word_size sz -> Forall (fun o : obj => wf sz (projT1 o) (projT2 o)) l ->
  map (@projT1 _ _) old = map (@projT1 _ _) l ->
  exists b, MarshalBinary (writeAll sz l) = Some (b, false) /\ readAll sz old (b ++ rest) = Some (l, rest).
Proof. intros sz l old rest Hs. exact (streams sz ltac:(destruct Hs; subst; auto with arith) l old rest). Qed.
Print Assumptions C40_stream.
Definition exStream : list obj := [existT _ TLWECiphertext exLWE; existT _ TGLev exGLev; existT _ TLWEPlaintext 77; existT _ TEvaluationKey exEvk].
Definition exOld : list obj := [existT _ TLWECiphertext []; existT _ TGLev (exG2, []); existT _ TLWEPlaintext 0; existT _ TEvaluationKey ((exG2, []), (exG2, [])) ].
Example C40_ex : Forall (fun o : obj => wf 4 (projT1 o) (projT2 o)) exStream /\ map (@projT1 _ _) exOld = map (@projT1 _ _) exStream /\
  MarshalBinary (writeAll 4 exStream) = Some (stream 4 exStream, false) /\ readAll 4 exOld (stream 4 exStream ++ [1; 2]) = Some (exStream, [1; 2]).
Proof.
  split.
  - apply Forall_cons; [split; wsolve|].
    apply Forall_cons; [exact C37_ex_GLev|]. apply Forall_cons; [split; [discriminate|reflexivity]|]. apply Forall_cons; [exact C37_ex_Evk|apply Forall_nil].
  - split; [reflexivity|]. split; vm_compute; reflexivity.
Qed.

(** ** C42 Parameter serialisation. *)
Theorem C42_params : forall sz p old, word_size sz -> wfParams sz p ->
  exists b, MarshalBinary (Parameters_WriteTo p) = Some (b, false) /\ length b = 97%nat /\ UnmarshalBinary (Parameters_ReadFrom sz) old b = Some (Some p).
Proof. intros sz p old Hs. exact (params_roundtrip sz ltac:(destruct Hs; subst; auto with arith) p old). Qed.
Print Assumptions C42_params.
Theorem C42_mkparams : forall sz p old, word_size sz -> wfMkParams sz p ->
  exists b, MarshalBinary (MkParameters_WriteTo p) = Some (b, false) /\ UnmarshalBinary (MkParameters_ReadFrom sz) old b = Some (Some p).
Proof. intros sz p old Hs. exact (roundtrip sz ltac:(destruct Hs; subst; auto with arith) TMkParameters p old). Qed.
Print Assumptions C42_mkparams.
Theorem C42_gadget : forall sz g old, word_size sz -> gadget_ok (8 * Z.of_nat sz) g ->
  exists b, MarshalBinary (GadgetParameters_WriteTo g) = Some (b, false) /\ UnmarshalBinary (GadgetParameters_ReadFrom sz) old b = Some (Some g).
Proof. intros sz g old Hs. exact (roundtrip sz ltac:(destruct Hs; subst; auto with arith) TGadgetParameters g old). Qed.
Print Assumptions C42_gadget.
(** Any byte string: what is accepted went through the parameter checks (C41), from fields that are Go values. *)
Theorem C42_accepted : forall sz old b n p r, word_size sz -> Forall (fun x => 0 <= x < 256) b -> Parameters_ReadFrom sz old 0 b = RRet n (Some p) r ->
  exists l, Compile (8 * Z.of_nat sz) l = Ok p /\ lit_go (8 * Z.of_nat sz) l /\ (lit_small l -> params_ok (8 * Z.of_nat sz) p).
Proof. intros sz old b n p r Hs. exact (params_accepted sz old b n p r ltac:(destruct Hs; subst; auto with arith)). Qed.
Print Assumptions C42_accepted.
Definition exP : params := match Compile 32 ParamsBinary with Ok p => p | _ => mkParams 0 0 0 0 0 0 0 0 0 0 0 0 0 0 exG2 exG2 0 end.
Example C42_ex : wfParams 4 exP /\ Compile 32 ParamsBinary = Ok exP /\
  UnmarshalBinary (Parameters_ReadFrom 4) exP (encParams exP) = Some (Some exP).
Proof. split; [exists ParamsBinary; split; [exact (proj1 C41_ex)|vm_compute; reflexivity]|]. split; vm_compute; reflexivity. Qed.
(** Malformed bytes: base 2^32 + 64 is accepted as base 64 on a 32-bit torus. *)
Theorem C42_truncated_base_refuted : exists b g, b = header [2 ^ 32 + 64; 3] /\ GadgetParameters_ReadFrom 4 exG2 0 b = RRet 16 (Some g) [] /\ g_base g = 64 /\
  MarshalBinary (GadgetParameters_WriteTo g) <> Some (b, false).
Proof. exists (header [2 ^ 32 + 64; 3]), (mkGadget 64 6 3 32). split; [reflexivity|]. split; [vm_compute; reflexivity|]. split; [reflexivity|]. vm_compute. discriminate. Qed.
Print Assumptions C42_truncated_base_refuted.
(** Malformed bytes make ReadFrom panic instead of returning an error: a zero header, an odd base, a negative dimension. *)
Theorem C42_malformed_panics_refuted :
  Parameters_ReadFrom 4 (mkParams 0 0 0 0 0 0 0 0 0 0 0 0 0 0 exG2 exG2 0) 0 (repeat 0 97) = RPanic /\
  GadgetParameters_ReadFrom 4 exG2 0 (header [3; 2]) = RPanic /\ LWECiphertext_ReadFrom 4 [] 0 (header [-2]) = RPanic /\
  GLWECiphertext_ReadFrom 4 [] 0 (header [1; 24]) = RPanic.
Proof. repeat split; vm_compute; reflexivity. Qed.
Print Assumptions C42_malformed_panics_refuted.
