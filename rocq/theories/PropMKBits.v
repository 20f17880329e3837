(** C51: bits of integers under the joint key of several parties. *)
From Verif Require Import Base NegaRing SpecNum ModelNum ModelLWE SpecLWE ModelEncoder ModelBinary SpecBinary ModelMK ModelMKBin ModelMKBits SpecMK PfMKBits.

(** Ciphertext i holds bit i of the message (two's complement), under the joint key of every party set that contains the encryptor. *)
Theorem C51_bits_encrypt : forall w U G n P bm keys idx sub msg bits st B, 3 <= w -> (0 < n)%nat -> length bm = P -> pkeys n P keys -> nth idx bm false = true ->
  length sub = S n -> (forall i, (i < bits)%nat -> Z.abs (G (snd st + i)%nat) <= B) ->
  exists cts, MKEncryptLWEBits w U G P n (nth idx keys []) sub idx msg bits st = Some cts /\ length cts = bits /\
    forall i, (i < bits)%nat -> bool_enc w (ljkey n bm keys) B (nth i cts []) (Z.testbit msg (Z.of_nat i)).
Proof. exact mk_bits_encrypt. Qed.
Print Assumptions C51_bits_encrypt.
(** Decryption reads ciphertext i as the bit of weight 2^i, whoever made the ciphertexts. *)
Theorem C51_bits_decrypt : forall w n P bm keys cts B (b : nat -> bool), 3 <= w -> length bm = P -> pkeys n P keys -> B < 2 ^ (w - 3) ->
  (forall i, (i < length cts)%nat -> bool_enc w (ljkey n bm keys) B (nth i cts []) (b i)) ->
  MKDecryptLWEBits w n bm keys cts = swrap 64 (zsum (length cts) (fun i => (if b i then 1 else 0) * 2 ^ Z.of_nat i)).
Proof. exact mk_bits_decrypt. Qed.
Print Assumptions C51_bits_decrypt.
Theorem C51_bits_roundtrip : forall w U G n P bm keys idx sub msg bits st, 3 <= w -> (0 < n)%nat -> length bm = P -> pkeys n P keys -> nth idx bm false = true ->
  length sub = S n -> (forall i, (i < bits)%nat -> Z.abs (G (snd st + i)%nat) < 2 ^ (w - 3)) ->
  exists cts, MKEncryptLWEBits w U G P n (nth idx keys []) sub idx msg bits st = Some cts /\
    MKDecryptLWEBits w n bm keys cts = swrap 64 (msg mod 2 ^ Z.of_nat bits).
Proof. exact mk_bits_roundtrip. Qed.
Print Assumptions C51_bits_roundtrip.
(** Party 2 of three encrypts 6 on four bits; party 1 takes no part. *)
Example C51_bits_ex : pkeys 2 3 [[1; 1]; [1; 0]; [0; 1]] /\
  match MKEncryptLWEBits 32 (fun i => 1000003 * Z.of_nat i) (fun i => Z.of_nat i - 2) 3 2 [0; 1] [5; 6; 7] 2 6 4 (1, 1)%nat with
  | Some cts => MKDecryptLWEBits 32 2 [true; false; true] [[1; 1]; [1; 0]; [0; 1]] cts = 6 /\ map (fun c => nth 1 c 7) cts = [0; 0; 0; 0]
  | None => False
  end.
Proof. split; [split; [reflexivity|intros [|[|[|i]]] Hi; [reflexivity..|lia]]|]. vm_compute. split; reflexivity. Qed.
