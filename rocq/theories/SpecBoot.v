(** Specification of bootstrapping: tables, rotations and noise bounds. *)
From Verif Require Import Base NegaRing SpecNum SpecPoly ModelGadget SpecGadget SpecLWE SpecGLWE.

(** The polynomial of rank E*N whose coefficient at j*E + i is coefficient j of F i. *)
Definition weave_cf (N E : nat) (F : nat -> npoly N) (x : Z) : Z :=
  match E with O => 0 | _ => cf (F (Z.to_nat (x mod Z.of_nat E))) (x / Z.of_nat E) end.
Lemma weave_anti N E F x : weave_cf N E F (x + Z.of_nat (E * N)) = - weave_cf N E F x.
Proof.
  unfold weave_cf. destruct E as [|e]; [reflexivity|]. set (EZ := Z.of_nat (S e)). assert (0 < EZ) by (unfold EZ; lia).
  replace (x + Z.of_nat (S e * N)) with (x + Z.of_nat N * EZ) by (unfold EZ; lia).
  rewrite Z_mod_plus_full, Z.div_add by lia. apply cf_anti.
Qed.
Definition weave {N} (E : nat) (F : nat -> npoly N) : npoly (E * N) := mkNP (weave_cf N E F) (weave_anti N E F).
(** Its component 0: every E-th coefficient. *)
Lemma comp_anti N E i (p : npoly (E * N)) x : cf p ((x + Z.of_nat N) * Z.of_nat E + i) = - cf p (x * Z.of_nat E + i).
Proof. rewrite <- cf_anti. f_equal. lia. Qed.
Definition comp {N E : nat} (p : npoly (E * N)) (i : Z) : npoly N := mkNP (fun x => cf p (x * Z.of_nat E + i)) (comp_anti N E i p).

(** The table a LookUpTable stands for: position x (antiperiodic in LUTSize). *)
Definition tableOf (N E : nat) (lut : list (list Z)) : npoly (E * N) := weave E (fun i => pol N (nth i lut [])).
Definition lut_ok (w : Z) (N E : nat) (lut : list (list Z)) : Prop := length lut = E /\ forall i, (i < E)%nat -> wpoly w N (nth i lut []).

(** At most one 1 in each block of bs key bits. *)
Definition block_binary (bs : nat) (s : list Z) : Prop :=
  binary s /\ forall i j, (i < j)%nat -> (j < length s)%nat -> (i / bs = j / bs)%nat -> nthZ s i = 0 \/ nthZ s j = 0.

(** The switched phase ms(b) + sum_i ms(a_i) s_i. *)
Definition rotSum (ms : Z -> Z) (s ct : list Z) : Z := ms (nthZ ct 0) + zsum (length s) (fun i => ms (nthZ ct (S i)) * nthZ s i).

(** Key i encrypts bit i of s, with errors e i. *)
Definition brk_enc (w : Z) (N k : nat) (p : gadget) (sk : list (list Z)) (s : list Z) (brk : list (list (list (list (list Z))))) (e : nat -> nat -> nat -> npoly N) : Prop :=
  length brk = length s /\ forall i, (i < length s)%nat -> ggsw_enc w N k p sk (nth i brk []) (pconst (nthZ s i)) (e i).

(** Rounding error of a gadget decomposition. *)
Definition gadEps (w : Z) (p : gadget) : Z := 2 ^ (w - Z.of_nat (g_level p) * g_logBase p) / 2.
(** Noise after blind rotation: n key bits in nb blocks, key errors at most Ek. *)
Definition brNoise (w : Z) (N k : nat) (p : gadget) (nb n : nat) (Ek : Z) : Z :=
  Z.of_nat nb * (2 * (gadEps w p * (1 + Z.of_nat k * Z.of_nat N))) + Z.of_nat n * (2 * rowNoise N p (Z.of_nat k + 1) Ek).

(** What the initial rotation of blindRotateExtendedTo computes instead of Y^b * T: off by 2r or 2r - 2E
    positions, r = b mod E. *)
Definition misrot_cf (N E : nat) (T : npoly (E * N)) (b x : Z) : Z :=
  let r := b mod Z.of_nat E in
  if x mod Z.of_nat E <? Z.of_nat E - r then cf T (x - b + 2 * r) else cf T (x - b + 2 * r - 2 * Z.of_nat E).
Lemma misrot_anti N E T b x : misrot_cf N E T b (x + Z.of_nat (E * N)) = - misrot_cf N E T b x.
Proof.
  unfold misrot_cf. cbv zeta. replace (x + Z.of_nat (E * N)) with (x + Z.of_nat N * Z.of_nat E) by lia.
  rewrite Z_mod_plus_full. destruct (_ <? _); rewrite <- cf_anti; f_equal; lia.
Qed.
Definition misrot {N E : nat} (T : npoly (E * N)) (b : Z) : npoly (E * N) := mkNP (misrot_cf N E T b) (misrot_anti N E T b).

(** [ms] maps every word x to an integer within mu/(2Q) of x*2L/Q, modulo 2L. *)
Definition ms_err (w L mu : Z) (ms : Z -> Z) : Prop :=
  forall x, uword w x -> exists R, ms x = R mod (2 * L) /\ 2 * Z.abs (R * 2 ^ w - x * (2 * L)) <= mu.

(** The table holds y at every position of the box around message m: half-width L/(2mm), or one less
    when 2mm does not divide L. *)
Definition in_box (L mm m j : Z) : Prop :=
  2 * Z.abs (mm * j - m * L) <= L - 2 * mm \/ (2 * mm | L) /\ - L <= 2 * (mm * j - m * L) < L.
Definition lut_holds (N E : nat) (Q mm : Z) (lut : list (list Z)) (f : Z -> Z) : Prop :=
  forall j m, 0 <= m < mm -> in_box (Z.of_nat (E * N)) mm m j -> eqm Q (cf (tableOf N E lut) j) (f m).

(** Worst deviation of the position by the initial rotation of the extended algorithm. *)
Definition extSlack (E : nat) : Z := 2 * Z.of_nat E - 2.

(** Error of a key switch of D coordinates with gadget p and key errors at most Ek. *)
Definition ksNoise (w : Z) (p : gadget) (D : nat) (Ek : Z) : Z :=
  Z.of_nat D * (Z.of_nat (g_level p) * (2 ^ (g_logBase p - 1) * Ek) + 2 ^ (w - Z.of_nat (g_level p) * g_logBase p) / 2).

(** Bootstrapping keys: large is the flattened GLWE key sk, s its prefix, block binary in bc blocks of bs;
    brk and ksk encrypt them with errors at most Ek and Eks.  A larger table needs at least two blocks. *)
Record boot_keys (w : Z) (N k E : nat) (p pKS : gadget) (sk : list (list Z)) (s large : list Z)
    (brk : list (list (list (list (list Z))))) (ksk : list (list (list Z))) (bs bc : nat) (Ek Eks : Z) : Prop := {
  bk_rank : exists n0, 0 <= n0 /\ Z.of_nat N = 2 ^ n0;
  bk_ext : (0 < E)%nat /\ (E = 1%nat \/ (2 <= bc)%nat);
  bk_gadgets : gadget_ok w p /\ gadget_ok w pKS;
  bk_key : length sk = k /\ flat N sk large /\ binary large;
  bk_small : s = firstn (length s) large /\ (length s <= length large)%nat;
  bk_blocks : (0 < bs)%nat /\ (0 < bc)%nat /\ length s = (bc * bs)%nat /\ block_binary bs s;
  bk_bounds : 0 <= Ek /\ 0 <= Eks;
  bk_brk : exists e, brk_enc w N k p sk s brk e /\ forall j a b, (j < length s)%nat -> (a <= k)%nat -> (b < g_level p)%nat -> pbound Ek (e j a b);
  bk_ksk : exists e, ksk_enc w pKS s (skipn (length s) large) ksk e /\ forall i j, (i < length large - length s)%nat -> (j < g_level pKS)%nat -> Z.abs (e i j) <= Eks }.

(** Old buffer contents only need the right lengths. *)
Definition boot_bufs (N k E n : nat) (acc0 rotBuf : list (list Z)) (ksBuf extBuf : list Z) : Prop :=
  (length acc0 = E /\ forall i, (i < E)%nat -> length (nth i acc0 []) = N) /\ gshape N k rotBuf /\ length ksBuf = S n /\ length extBuf = S (k * N).

(** Input noise e of a message m stays inside the box of m: modulus switching moves the position by at
    most mu(1+hw)/(2Q), the initial rotation of large tables by slack. *)
Definition boot_margin (Q L mm scale m e mu hw slack : Z) : Prop :=
  let X := 2 * L * m * Z.abs (Q - 2 * mm * scale) + 4 * L * mm * e + mm * mu * (1 + hw) + 2 * mm * slack * Q in
  X <= (L - 2 * mm) * Q \/ (2 * mm | L) /\ X < L * Q.

(** Phase errors up to B decode correctly with this scale (C20). *)
Definition decodes (w scale B : Z) : Prop := w <= 52 /\ 2 * B < scale \/ w <= 64 /\ 2 * B + 2 ^ 13 + 2 < scale.

(** Setting of a blind rotation: a power-of-two rank, a binary ring key, an LWE key in bc blocks of bs, and a
    bootstrapping key with errors at most Ek. *)
Definition br_setting (w : Z) (N k : nat) (sk : list (list Z)) (p : gadget) (s : list Z) (brk : list (list (list (list (list Z))))) (Ek : Z) (bs bc : nat) : Prop :=
  0 < w /\ (0 < N)%nat /\ (exists n0, 0 <= n0 /\ Z.of_nat N = 2 ^ n0) /\ (forall i, (i < k)%nat -> pbound 1 (pol N (nth i sk []))) /\ gadget_ok w p /\
  (exists e, brk_enc w N k p sk s brk e /\ forall j a b, (j < length s)%nat -> (a <= k)%nat -> (b < g_level p)%nat -> pbound Ek (e j a b)) /\
  0 <= Ek /\ (0 < bs)%nat /\ (0 < bc)%nat /\ length s = (bc * bs)%nat /\ block_binary bs s.
