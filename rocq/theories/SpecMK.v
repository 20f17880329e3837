(** Specification of multi-key ciphertexts. *)
From Verif Require Import Base NegaRing SpecNum SpecPoly ModelGadget SpecGadget SpecLWE SpecGLWE SpecBoot.

(** The joint key of the parties in [bm]: the keys of all parties side by side, zero for the others.
    As a list of polynomials it is a GLWE key of rank P; concatenated it is an LWE key of dimension P*n. *)
Definition jkey (n : nat) (bm : list bool) (keys : list (list Z)) : list (list Z) :=
  tab (length bm) (fun i => if nth i bm false then nth i keys [] else repeat 0 n).
Definition ljkey (n : nat) (bm : list bool) (keys : list (list Z)) : list Z := concat (jkey n bm keys).

(** The P keys have n coefficients each. *)
Definition pkeys (n P : nat) (keys : list (list Z)) : Prop := length keys = P /\ forall i, (i < P)%nat -> length (nth i keys []) = n.

(** Party i's CRS public key: its masks are the common polynomials a_j, and b_j + a_j s = e_j. *)
Definition crs_enc (w : Z) (N : nat) (p : gadget) (a : nat -> npoly N) (s : list Z) (pk : list (list (list Z))) (e : nat -> npoly N) : Prop :=
  forall j, (j < g_level p)%nat -> gshape N 1 (nth j pk []) /\ peq (2 ^ w) (pol N (nth 1 (nth j pk []) [])) (a j) /\
    peq (2 ^ w) (gphase N 1 [s] (nth j pk [])) (e j).

(** A uni-encryption of m under s: d_j = g_j m + a_j r + e_j for a secret r, and a GLev encryption of r under s. *)
Definition uni_enc (w : Z) (N : nat) (p : gadget) (a : nat -> npoly N) (s : list Z) (r : npoly N) (u0 u1 : list (list (list Z))) (m : npoly N) (e e' : nat -> npoly N) : Prop :=
  length u0 = g_level p /\
  (forall j, (j < g_level p)%nat -> gshape N 1 (nth j u0 []) /\ peq (2 ^ w) (pol N (nth 1 (nth j u0 []) [])) (a j) /\
    peq (2 ^ w) (pol N (nth 0 (nth j u0 []) [])) (padd (padd (pscale (2 ^ (w - (Z.of_nat j + 1) * g_logBase p)) m) (pmul (a j) r)) (e j))) /\
  glev_enc w N 1 p [s] u1 r e'.

(** Component 0 and those of the active parties. *)
Definition used (bm : list bool) (i : nat) : Prop := match i with O => True | S j => nth j bm false = true end.
Definition dsumS {N} (p : gadget) (D e : nat -> npoly N) : npoly N := psum (g_level p) (fun j => pmul (D j) (e j)).
(** sum_i s_i x_i with s_0 = 1 over a key of P polynomials. *)
Definition ksum (N P : nat) (sk : list (list Z)) (x : nat -> npoly N) : npoly N :=
  padd (x O) (psum P (fun i => pmul (x (S i)) (pol N (nth i sk [])))).
Definition onActive {N} (bm : list bool) (x : nat -> npoly N) (i : nat) : npoly N := if nth i bm false then x i else pzero.

(** Hybrid product: digits D_i and rounding errors R_i of component i, digits Dv and error rv of the intermediate
    polynomial; key errors e (uni-encryption), e' (its second half), ep i (CRS public key of party i). *)
Definition hybridVal (N P : nat) (p : gadget) (bm : list bool) (sk : list (list Z)) (ph m r : npoly N) (e e' : nat -> npoly N) (ep D : nat -> nat -> npoly N) (R : nat -> npoly N) (Dv : nat -> npoly N) (rv : npoly N) : npoly N :=
  padd (pmul m (psub ph (ksum N P sk R)))
    (padd (ksum N P sk (fun i => dsumS p (D i) e))
      (padd (pmul r (psum P (onActive bm (fun i => dsumS p (D (S i)) (ep i)))))
        (psub (dsumS p Dv e') (pmul r rv)))).

(** Its distance from m * phase, for binary keys and r, |m| <= M coefficientwise and key errors at most Ek. *)
Definition hybridNoise (w : Z) (N P : nat) (p : gadget) (M Ek : Z) : Z :=
  let eps := gadEps w p in let n := Z.of_nat N in let kk := 1 + Z.of_nat P * n in
  n * (M * (eps * kk)) + rowNoise N p kk Ek + n * (Z.of_nat P * rowNoise N p 1 Ek) + rowNoise N p 1 Ek + n * eps.
(** External product with a GLev encryption of mu (gadget pa, errors Ea) and a relinearisation key (gadget p, errors Ek);
    products with mu grow by at most the factor A ([grows]). *)
Definition mkExtNoise (w : Z) (N P : nat) (pa p : gadget) (A Ea Ek : Z) : Z :=
  let kk := 1 + Z.of_nat P * Z.of_nat N in A * (gadEps w pa * kk) + rowNoise N pa kk Ea + hybridNoise w N P p 1 Ek.
Definition grows {N} (A : Z) (mu : npoly N) : Prop := forall x b, pbound b x -> pbound (A * b) (pmul mu x).

(** All components of parties outside bm are zero. *)
Definition gsupp (bm : list bool) (N P : nat) (ct : list (list Z)) : Prop := forall i, (i < P)%nat -> nth i bm false = false -> nth (S i) ct [] = repeat 0 N.
Definition lsupp (bm : list bool) (n P : nat) (ct : list Z) : Prop := forall i t, (i < P)%nat -> nth i bm false = false -> (t < n)%nat -> nthZ ct (S (i * n + t)) = 0.
(** Number of participating parties. *)
Definition nact (bm : list bool) : nat := length (filter (fun b => b) bm).

(** Evaluation keys of the active parties: keys i is party i's ring key (rank 1, so also its large LWE key), its first n
    bits the small one, block binary in bc blocks of bs.  brk, ksk encrypt them with errors at most Ebr and Eks; the CRS
    public keys share the masks a, and (u0, u1) is a uni-encryption of the ring key with errors at most Ek. *)
Record mk_keys (w : Z) (N P n : nat) (pa pr pBR pKS : gadget) (bm : list bool) (keys : list (list Z))
    (brks : list (list (list (list (list (list Z)))))) (ksks crspks u0s u1s : list (list (list (list Z)))) (bs bc : nat) (Ebr Ek Eks : Z) : Prop := {
  mk_rank : exists n0, 0 <= n0 /\ Z.of_nat N = 2 ^ n0;
  mk_shape : length bm = P /\ pkeys N P keys /\ (0 < n <= N)%nat;
  mk_gadgets : gadget_ok w pa /\ gadget_ok w pr /\ gadget_ok w pBR /\ gadget_ok w pKS;
  mk_blocks : (0 < bs)%nat /\ (0 < bc)%nat /\ n = (bc * bs)%nat;
  mk_bounds : 0 <= Ebr /\ 0 <= Ek /\ 0 <= Eks;
  mk_bin : forall i, nth i bm false = true -> binary (nth i keys []) /\ block_binary bs (firstn n (nth i keys []));
  mk_brk : forall i, nth i bm false = true -> exists e, brk_enc w N 1 pBR [nth i keys []] (firstn n (nth i keys [])) (nth i brks []) e /\
    forall j a b, (j < n)%nat -> (a <= 1)%nat -> (b < g_level pBR)%nat -> pbound Ebr (e j a b);
  mk_ksk : exists e, forall i, nth i bm false = true -> ksk_enc w pKS (firstn n (nth i keys [])) (skipn n (nth i keys [])) (nth i ksks []) (e i) /\
    forall a j, (a < N - n)%nat -> (j < g_level pKS)%nat -> Z.abs (e i a j) <= Eks;
  mk_relin : exists a ep, (forall i, nth i bm false = true -> crs_enc w N pr a (nth i keys []) (nth i crspks []) (ep i) /\
      forall j, (j < g_level pr)%nat -> pbound Ek (ep i j)) /\
    forall i, nth i bm false = true -> exists r e e', uni_enc w N pr a (nth i keys []) r (nth i u0s []) (nth i u1s []) (pol N (nth i keys [])) e e' /\ pbound 1 r /\
      forall j, (j < g_level pr)%nat -> pbound Ek (e j) /\ pbound Ek (e' j) }.

(** Noise of a multi-key blind rotation: one external product per active party, with an accumulator of noise brNoise. *)
Definition mkBrNoise (w : Z) (N P n : nat) (pa pr pBR : gadget) (bm : list bool) (bc : nat) (Ebr Ek : Z) : Z :=
  Z.of_nat (nact bm) * mkExtNoise w N P pa pr 1 (brNoise w N 1 pBR bc n Ebr) Ek.
(** The buffers of the active parties' accumulators. *)
Definition mk_bufs (N P n : nat) (pa : gadget) (bm : list bool) (rins : list (list Z)) (accbs : list (list (list Z))) (faccbs : list (list (list (list Z)))) (buf rbuf : list (list Z)) : Prop :=
  (forall i, nth i bm false = true -> length (nth i rins []) = S n /\ gshape N 1 (nth i accbs []) /\ length (nth i faccbs []) = g_level pa /\ (forall j, (j < g_level pa)%nat -> gshape N 1 (nth j (nth i faccbs []) []))) /\
  length buf = S P /\ gshape N P rbuf.
