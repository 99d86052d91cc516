(** Property theorems C81: the operations counted by scripts/computation_estimates.py
    and those of the library. *)

From Coq Require Import NArith ZArith List.
From Verif Require Import CircuitModel LpnModel LpnSpec.
From mathcomp Require Import all_ssreflect all_algebra zify.
From Verif Require Import MathModel SharingModel MachineModel CoreModel PreprocModel GarbleModel BinModel RandTransProofs MatProofs GFField P_Math P_Bin.
From Verif Require Import EstModel EstFullModel CostModel Cost.
Set Implicit Arguments.
Unset Strict Implicit.
Unset Printing Implicit Defensive.
Import GRing.Theory.
Delimit Scope Z_scope with ZZ.

(** The parameters given to the script are those of the run. *)
Definition same_params (mp : mparams) (n t l : nat) : Prop :=
  [/\ e_n (base mp) = n, e_t (base mp) = t & e_l (base mp) = l].

(** Componentwise comparison. *)
Definition ole (a b : ops) : Prop := (Z.le (adds a) (adds b)) /\ (Z.le (mults a) (mults b)).

Lemma party_ctx_inv (F : fieldType) (emb : nat -> F) id n t l c : party_ctx emb id n t l = Some c ->
  [/\ pss_new emb (t + l).-1 n (default_pos emb n l) = Some (c_pss c),
      pss_new emb n.-1 n (default_pos emb n l) = Some (c_pssn c), c_id c = id,
      [/\ c_n c = n, c_t c = t & c_l c = l] & (0 < t + l <= n)%N].
Proof.
rewrite /party_ctx; case E: (t + l)%N => [|tl] //; case: n => // n1.
case E1: (pss_new _ _ _ _) => [P|] //; case E2: (pss_new _ _ _ _) => [Pn|] // [<-] /=; split=> //.
by move: E1; rewrite /pss_new; case: leqP.
Qed.

Lemma size_default_pos (F : fieldType) (emb : nat -> F) n l : size (default_pos emb n l) = l.
Proof. by rewrite size_map size_iota. Qed.

Ltac ops_by := rewrite /p_share /p_rand_share /p_recon /p_robustrecon /oplus /oscale /dcost;
  cbn [adds mults fst snd]; apply: ops_eq.

(** ** Sharing and reconstruction *)

(** The script counts exactly the operations of the library for sharing values,
    sharing random values, sharing with the highest degree, reconstructing, and
    reconstructing with a check (which the library has but the protocols of this
    repository do not use). *)
Theorem C81_sharing : forall (F : fieldType) (emb : nat -> F) id n t l c mp,
  party_ctx emb id n t l = Some c -> same_params mp n t l ->
  [/\ forall secrets r, pss_sharew (c_pss c) secrets r = (pss_share (c_pss c) secrets r, p_share mp 1 None),
      forall r, pss_randw (c_pss c) r = (pss_rand (c_pss c) r, p_rand_share mp 1 None),
      forall secrets r, pss_sharew (c_pssn c) secrets r = (pss_share (c_pssn c) secrets r, p_share mp 1 (Some (Z.pred #n))),
      forall shares, size shares = n ->
        pss_semihon_reconw (c_pssn c) shares = (pss_semihon_recon (c_pssn c) shares, p_recon mp 1) &
      forall shares, size shares = n -> pss_reconw (c_pss c) shares = (pss_recon (c_pss c) shares, p_robustrecon mp 1)].
Proof.
move=> F emb id n t l c mp /party_ctx_inv [H1 H2 _ _ /andP [Ht Hn]] [En Et El].
have Sp := size_default_pos emb n l.
have L1 : (size (default_pos emb n l) <= (t + l).-1.+1)%N by rewrite Sp; lia.
have L2 : (size (default_pos emb n l) <= n.-1.+1)%N by rewrite Sp; lia.
split=> [s r|r|s r|sh Hs|sh Hs].
- rewrite (pss_sharewE _ _ H1 L1) Sp; congr (_, _); rewrite /p_share /the_degree En Et El; ops_by; nia.
- rewrite (pss_randwE _ H1); congr (_, _); rewrite /p_rand_share /the_degree En Et El; ops_by; nia.
- rewrite (pss_sharewE _ _ H2 L2) Sp; congr (_, _); rewrite /p_share /the_degree En Et El.
  case: Z.eqb_spec => E; ops_by; nia.
- rewrite (pss_semihon_reconwE H2 Hs) Sp; congr (_, _); rewrite /p_recon En El; ops_by; nia.
- rewrite (pss_reconwE H1 Hs) Sp; congr (_, _); rewrite /p_robustrecon En Et El; ops_by; nia.
Qed.
Print Assumptions C81_sharing.

(** Five parties, one corruption and blocks of two over GF(16). *)
Definition mp5 : mparams := MParams (Params 4 5 1 2 2 3 6 2) 1 1.

Lemma ctx5 id : exists c, party_ctx (gf_of w4) id 5 1 2 = Some c /\ same_params mp5 5 1 2.
Proof.
have H1 : (0 < 1 + 2 <= 5)%N by []. have H2 : (N.of_nat 5 + N.of_nat 2 <= 2 ^ w4)%num by [].
by have [P [Pn [_ H]]] := party_ctxE H1 H2; exists (Ctx id 5 1 2 P Pn).
Qed.

Example C81_sharing_case : exists c, party_ctx (gf_of w4) 3 5 1 2 = Some c /\
  [/\ (pss_sharew (c_pss c) [:: 1%R; gf_of w4 7] (fun i => gf_of w4 i)).2 = Ops 8 12,
      (pss_randw (c_pss c) (fun i => gf_of w4 i)).2 = Ops 4 6,
      (pss_sharew (c_pssn c) [::] (fun i => gf_of w4 i)).2 = Ops 8 10,
      (pss_semihon_reconw (c_pssn c) (nseq 5 (gf_of w4 3))).2 = Ops 8 10 &
      (pss_reconw (c_pss c) (nseq 5 (gf_of w4 3))).2 = Ops 8 12].
Proof.
have [c [Hc Hp]] := ctx5 3; have [H1 H2 H3 H4 H5] := C81_sharing Hc Hp; exists c; split=> //.
by rewrite H1 H2 H3 H4 ?size_nseq // H5 ?size_nseq.
Qed.

(** ** Random sharings *)

Lemma batches_ceil num b : (0 < b)%N -> num_batches num b = Some (ceil num b).
Proof.
case: b => // b _; rewrite /num_batches /ceil; congr Some; have E := divn_eq num b.+1; have Hm := ltn_pmod num (ltn0Sn b).
move: (num %/ b.+1)%N (num %% b.+1)%N E Hm => q r -> Hr; rewrite -addnBA // subn1 /= -addnA divnMDl //.
case: r Hr => [|r] Hr; first by rewrite add0n divn_small // addn0.
by rewrite /= (_ : (r.+1 + b = 1 * b.+1 + r)%N); [rewrite divnMDl // divn_small; lia|lia].
Qed.

Lemma super_inv_shape (F : fieldType) (emb : nat -> F) m k M : super_inv_matrix emb m k = Some M ->
  [/\ size (rows M) = k, all (fun r => size r == m) (rows M) & (0 < k)%N].
Proof.
case: k => // k; rewrite super_inv_matrixE => - [<-] /=; rewrite size_map size_iota; split=> //.
change (all (fun r => size r == m) [seq [seq (x ^+ j.+1)%R | x <- nodes emb m] | j <- iota 0 k.+1]).
by apply/allP => r /mapP [j _ ->]; rewrite !size_map size_iota.
Qed.

(** The script counts exactly the operations of a party that takes part in the
    generation of [num] random sharings, sharings of zero and sharings of random
    bits ([Mb] is the binary matrix of the file): the sharings it deals and the
    product with what it receives ([sent] has one row for each party). *)
Theorem C81_dealing : forall (F : fieldType) (emb : nat -> F) id n t l c mp M Mb num coin sent,
  party_ctx emb id n t l = Some c -> same_params mp n t l -> super_inv_matrix emb n (n - t) = Some M ->
  (0 < size (rows Mb))%N -> e_binsup_dim (base mp) = size (rows Mb) -> all (fun r => size r == n) (rows Mb) ->
  size sent = n ->
  [/\ rand_work c M num coin sent =
        (([seq pss_rand (c_pss c) (coin j) | j <- iota 0 (ceil num (n - t))], flatten (mmul M (ceil num (n - t)) sent)),
         rand_comp mp num),
      zero_work c M num coin sent =
        (([seq pss_share (c_pssn c) (nseq l 0%R) (coin j) | j <- iota 0 (ceil num (n - t))],
          flatten (mmul M (ceil num (n - t)) sent)), zero_comp mp num) &
      forall bit, randbit_work c Mb num bit coin sent =
        (([seq pss_share (c_pss c) [seq (if bit j q then 1%R else 0%R) | q <- iota 0 l] (coin j)
             | j <- iota 0 (ceil num (size (rows Mb)))], flatten (mmul Mb (ceil num (size (rows Mb))) sent)),
         bitrand_comp mp num)].
Proof.
move=> F emb id n t l c mp M Mb num coin sent Hc Hp HM H0 Hd HMb Hs.
have [S1 S2 S3 _ _] := C81_sharing Hc Hp; have [H1 H2 _ [En Et El] /andP [Ht Hn]] := party_ctx_inv Hc.
have [R1 R2 R3] := super_inv_shape HM; case: (Hp) => Pn Pt Pl.
have Eb : num_batches num (size (rows M)) = Some (ceil num (n - t)) by rewrite R1 batches_ceil.
have Ls : ps_l (c_pss c) = l by case: (recon_sizes H1) => _ _ _ [_ _ -> _]; apply: size_default_pos.
split.
- rewrite /rand_work (deal_workE Eb R2 Hs (fun j => S2 (coin j))); congr (_, _).
  by rewrite /rand_comp R1 Pn Pt; move: (ceil _ _) => b; rewrite /p_rand_share Pn; ops_by; nia.
- rewrite /zero_work (deal_workE Eb R2 Hs (fun j => S3 (nseq (c_l c) 0%R) (coin j))) El; congr (_, _).
  rewrite /zero_comp R1 Pn Pt; move: (ceil _ _) => b; rewrite /p_share Pn Z.sub_1_r.
  by move: (the_degree _ _) => d; ops_by; nia.
- move=> bit; rewrite /randbit_work Ls.
  rewrite (deal_workE (batches_ceil num H0) HMb Hs (fun j => S1 [seq (if bit j q then 1%R else 0%R) | q <- iota 0 l] (coin j))).
  congr (_, _); rewrite /bitrand_comp Hd Pn; move: (ceil _ _) => b; rewrite /p_share Pn.
  by move: (the_degree _ _) => d; ops_by; nia.
Qed.
Print Assumptions C81_dealing.

(** Six random sharings take two batches: two products of 2 by 3 for the dealing,
    4 by 5 by 2 for the combination. *)
Example C81_dealing_case : exists c M, party_ctx (gf_of w4) 3 5 1 2 = Some c /\
  super_inv_matrix (gf_of w4) 5 (5 - 1) = Some M /\
  (rand_work c M 6 (fun j i => gf_of w4 (i + j)) (nseq 5 [:: 1%R; gf_of w4 7])).2 = Ops (2 * 4 + 8 * 4) (2 * 6 + 8 * 5).
Proof.
have [c [Hc Hp]] := ctx5 3.
have [M EM] : exists M, super_inv_matrix (gf_of w4) 5 (5 - 1) = Some M by eexists; apply: (super_inv_matrixE (gf_of w4) 3 5).
exists c, M; split; [exact: Hc|split; [exact: EM|]].
pose Mb := Mat 5 (nseq 2 (nseq 5 (1 : gf w4)%R)); have A : all (fun r => size r == 5) (rows Mb) by [].
have [] := @C81_dealing _ _ 3 5 1 2 c mp5 M Mb 6 (fun j i => gf_of w4 (i + j)) (nseq 5 [:: 1%R; gf_of w4 7]) Hc Hp EM
  (ltn0Sn 1) (erefl _) A (erefl _).
by move=> -> _ _.
Qed.

(** ** Multiplication *)

(** A party computes three additions and one multiplication for each product, and
    the leader of the call in addition one reconstruction and one sharing. *)
Theorem C81_multiplication : forall (F : fieldType) (emb : nat -> F) id n t l c mp,
  party_ctx emb id n t l = Some c -> same_params mp n t l ->
  (forall k (vx vy random zero ans : seq F), [/\ size vx = k, size vy = k, size random = k & size zero = k] -> size ans = k ->
     mult_work vx vy random zero ans =
       ((zipw +%R (zipw +%R (zipw *%R vx vy) random) zero, zipw (fun a b => (a - b)%R) ans random), #k *o Ops 3 1)) /\
  (forall k coin shares_n, size shares_n = n ->
     reduce_work c k coin shares_n =
       ([seq obind (fun secrets => pss_share (c_pss c) secrets (coin j)) (pss_semihon_recon (c_pssn c) (col j shares_n)) | j <- iota 0 k],
        p_recon mp #k +o p_share mp #k None)).
Proof.
move=> F emb id n t l c mp Hc [Pn Pt Pl]; have [H1 H2 _ [En Et El] /andP [Ht Hn]] := party_ctx_inv Hc.
split=> [k vx vy random zero ans Hk Ha|k coin sh Hs]; first by apply: mult_workE.
have Sp := size_default_pos emb n l; rewrite -En in H1 H2 Hs Hn Sp.
have L1 : (size (default_pos emb (c_n c) l) <= (t + l).-1.+1)%N by rewrite Sp; lia.
have L2 : (c_n c).-1.+1 = c_n c by lia.
rewrite (reduce_workE k coin H1 H2 L1 Hs L2); congr (_, _); rewrite Sp /p_recon /p_share /the_degree Pn Pt Pl -En.
have L3 : (t + l).-1.+1 = (t + l)%N by lia.
have A1 : #((c_n c).-1) = Z.sub #(c_n c) 1 by lia. have A2 : #((t + l).-1) = Z.sub (Z.add #t #l) 1 by lia.
have A3 : #(c_n c + l - (t + l)) = Z.sub #(c_n c) #t by lia.
by rewrite L3; ops_by; rewrite ?A1 ?A2 ?A3 ?Nat2Z.inj_add; ring.
Qed.
Print Assumptions C81_multiplication.

Example C81_multiplication_case : exists c, party_ctx (gf_of w4) 3 5 1 2 = Some c /\
  (reduce_work c 2 (fun j i => gf_of w4 (i + j)) (nseq 5 [:: 1%R; gf_of w4 7])).2 = Ops 32 44 /\
  (mult_work [:: 1%R; gf_of w4 7] [:: 1%R; gf_of w4 2] [:: 1%R; gf_of w4 3] [:: 1%R; gf_of w4 4] [:: 1%R; gf_of w4 5]).2 = Ops 6 2.
Proof.
have [c [Hc Hp]] := ctx5 3; exists c; split; [exact: Hc|]; have [H1 H2] := C81_multiplication Hc Hp.
by rewrite H2 ?size_nseq // (H1 2).
Qed.

(** What all [n] parties compute in a call of [mult] with [k] products. *)
Definition mult_total (mp : mparams) (k : nat) : ops :=
  #(e_n (base mp)) *o (#k *o Ops 3 1) +o (p_recon mp #k +o p_share mp #k None).

(** Over calls of any lengths the parties together compute at most [n] times the
    script's estimate for one party, which it computes for the number of all
    products at once, and exactly that if [n] divides this number. *)
Theorem C81_multiplication_total : forall mp (ks : seq nat) c, let q := base mp in
  (0 < e_n q)%N -> (e_t q + e_l q <= e_n q)%N -> (0 < e_t q + e_l q)%N ->
  let est := (p_mult mp (sumn ks) c).1 in let total := osum [seq mult_total mp k | k <- ks] in
  ole total (#(e_n q) *o est) /\ ((e_n q %| sumn ks)%N -> total = #(e_n q) *o est).
Proof.
move=> mp ks c q H0 Hn Ht est total.
have ET : total = mult_total mp (sumn ks).
  rewrite /total; elim: ks {est total} => [|k ks IH]; first by rewrite /= /mult_total /p_recon /p_share; ops_by; lia.
  by rewrite [osum _]/= -/(osum _) IH (_ : sumn (k :: ks) = (k + sumn ks)%N) // /mult_total /p_recon /p_share; ops_by; rewrite Nat2Z.inj_add; ring.
have EE : est = #(sumn ks) *o Ops 3 1 +o p_degreduce mp (sumn ks).
  have -> : est = zero_ops +o zero_ops +o #(sumn ks) *o Ops 3 1 +o p_degreduce mp (sumn ks) by [].
  by rewrite /zero_ops; ops_by; lia.
rewrite ET EE /mult_total /p_degreduce -/q; move: (sumn ks) => m.
have [s [Es Hs Hd]] : exists s, [/\ ((m + e_n q - 1) %/ e_n q)%N = s, (m <= s * e_n q)%N & (e_n q %| m)%N -> m = (s * e_n q)%N].
  exists ((m + e_n q - 1) %/ e_n q)%N; split=> //.
    have := ltn_ceil (m + e_n q - 1) H0; rewrite mulSn; lia.
  case/dvdnP => a ->; rewrite -addnBA // divnMDl // divn_small ?addn0 //; lia.
have [D [ED [D1 D2]]] : exists D, (forall x, p_recon mp x +o p_share mp x None = x *o D) /\ Z.le 0 (adds D) /\ Z.le 0 (mults D).
  exists (p_recon mp 1 +o p_share mp 1 None); split.
    by move=> x; rewrite /p_recon /p_share /the_degree -/q; ops_by; ring.
  have Z1 : (0 <= #(e_n q) - 1)%ZZ by lia. have Z2 : (0 <= #(e_t q) + #(e_l q) - 1)%ZZ by lia.
  have Z3 : (#(e_t q) + #(e_l q) <= #(e_n q))%ZZ by lia. have Z4 : (0 <= #(e_t q))%ZZ by lia. have Z5 : (0 <= #(e_l q))%ZZ by lia.
  by split; rewrite /p_recon /p_share /the_degree -/q /oplus /oscale; cbn [adds mults fst snd]; clear -Z1 Z2 Z3 Z4 Z5; nia.
rewrite Es !ED; split; last by move=> /Hd ->; ops_by; rewrite Nat2Z.inj_mul; ring.
have Hs' : (#m <= #(e_n q) * #s)%ZZ by rewrite -Nat2Z.inj_mul; clear -Hs; lia.
split; rewrite /oplus /oscale; cbn [adds mults fst snd]; rewrite Z.mul_add_distr_l; apply: Zplus_le_compat_l;
  by rewrite Z.mul_assoc; apply: Z.mul_le_mono_nonneg_r.
Qed.
Print Assumptions C81_multiplication_total.

Example C81_multiplication_total_case : let start0 := start in
  osum [seq mult_total mp5 k | k <- [:: 4; 3; 3]] = 5 *o (p_mult mp5 10 start0).1 /\
  mult_total mp5 7 <> 5 *o (p_mult mp5 7 start0).1 /\ (p_mult mp5 10 start0).1 = Ops 62 54.
Proof. by []. Qed.

(** ** Transformation of sharings *)

(** The leader of a transformation reconstructs the old positions and shares the
    new ones: for full blocks what the script counts for a reconstruction and a
    sharing, otherwise less. *)
Theorem C81_transform : forall (F : fieldType) (emb : nat -> F) id n t l c mp,
  party_ctx emb id n t l = Some c -> same_params mp n t l ->
  (forall k (vx random random_n ans : seq F), [/\ size vx = k, size random = k, size random_n = k & size ans = k] ->
     trans_work vx random random_n ans = ((zipw +%R random_n vx, zipw (fun a b => (a - b)%R) ans random), #k *o Ops 2 0)) /\
  (forall tr k coin shares_n, (size (st_old tr) <= l)%N -> (size (st_new tr) <= l)%N ->
     all (fun i => (i < size (st_old tr))%N) (st_f tr) -> size shares_n = n ->
     exists o, trans_leader_work emb c tr k coin shares_n =
       ([seq obind (fun tf => share_using_coeffs tf (compute_share_coeffs emb (t + l).-1 n (st_new tr)) (size (st_new tr)) (coin j))
           (comb_apply (st_f tr) (col j (mmul (compute_recon_coeffs emb n.-1 n (st_old tr)) k shares_n))) | j <- iota 0 k], o) /\
       ole o (p_recon mp #k +o p_share mp #k None) /\
       (size (st_old tr) = l -> size (st_new tr) = l -> o = p_recon mp #k +o p_share mp #k None)).
Proof.
move=> F emb id n t l c mp Hc [Pn Pt Pl]; have [_ _ _ [En Et El] /andP [Ht Hn]] := party_ctx_inv Hc.
split=> [k vx random random_n ans Hk|tr k coin sh Ho Hw Hf Hs]; first by apply: trans_workE.
have B : (0 < c_t c + c_l c <= c_n c)%N by rewrite En Et El Ht.
have Hw' : (size (st_new tr) <= c_t c + c_l c)%N by rewrite Et El; lia.
have Hs' : size sh = c_n c by rewrite En.
have := trans_leader_workE emb k coin B Hw' Hs' Hf; rewrite En Et El => ->.
eexists; split; [reflexivity|]; rewrite /p_recon /p_share /the_degree Pn Pt Pl /dcost.
have A1 : #(n.-1) = Z.sub #n 1 by lia. have A2 : #((t + l).-1) = Z.sub (Z.add #t #l) 1 by lia.
have A3 : #(n + size (st_new tr) - (t + l)) = Z.sub (Z.add #n #(size (st_new tr))) (Z.add #t #l) by lia.
split.
  have X : (0 <= #k)%ZZ by lia. have Y : (#(size (st_old tr)) <= #l)%ZZ by lia. have Y' : (#(size (st_new tr)) <= #l)%ZZ by lia.
  have Z1 : (0 <= #n - 1)%ZZ by lia. have Z2 : (0 <= #t + #l - 1)%ZZ by lia. have Z3 : (#t + #l <= #n)%ZZ by lia.
  split; rewrite /oplus /oscale; cbn [adds mults fst snd]; rewrite -Z.mul_add_distr_l; apply: Z.mul_le_mono_nonneg_l => //; rewrite ?A1 ?A2 ?A3;
    rewrite ?Nat2Z.inj_add; clear -Y Y' Z1 Z2 Z3; nia.
by move=> E1 E2; ops_by; rewrite ?A1 ?A2 A3 E1 E2 ?Nat2Z.inj_add; ring.
Qed.
Print Assumptions C81_transform.

Example C81_transform_case : exists c, party_ctx (gf_of w4) 3 5 1 2 = Some c /\
  (trans_leader_work (gf_of w4) c (ST (default_pos (gf_of w4) 5 2) (default_pos (gf_of w4) 5 2) [:: 1; 1])
     2 (fun j i => gf_of w4 (i + j)) (nseq 5 [:: 1%R; gf_of w4 7])).2 = Ops 32 44.
Proof.
have [c [Hc Hp]] := ctx5 3; exists c; split=> //.
have [_ H] := C81_transform Hc Hp.
have [o [-> [_ ->]]] := H (ST (default_pos (gf_of w4) 5 2) (default_pos (gf_of w4) 5 2) [:: 1; 1]) 2
  (fun j i => gf_of w4 (i + j)) (nseq 5 [:: 1%R; gf_of w4 7]) (leqnn 2) (leqnn 2) (erefl _) (erefl _); by [].
Qed.

(** ** Random sharings for the transformations *)

(** What a party computes to generate [num] columns of random transformed sharings:
    the products with its matrices of points, the sharings of zero added to them,
    and the reconstruction.  The script counts less than that, by the part of the
    products that depends on the random points only. *)
Theorem C81_randtrans : forall (F : fieldType) (emb : nat -> F) id n t l c mp tf rt randoms zeros num shares shares_n m q,
  party_ctx emb id n t l = Some c -> same_params mp n t l -> (0 < l)%N -> rt_new emb c tf = Some rt ->
  randtrans_shares c rt randoms zeros = Some (num, shares, shares_n) -> size m = n ->
  exists points points_n zs zs_n o o',
    [/\ randtrans_work rt num points points_n zs zs_n = ((shares, shares_n), o),
        randtrans_recon_work c num m =
          (let recon := top_rows (ps_l (c_pssn c)) (ps_recon (c_pssn c)) in
           (mmul recon num [seq take num r | r <- m], mmul recon num [seq drop num r | r <- m]), o') &
        o +o o' = (p_randshare mp (num * l) q).1 +o
          #(num) *o Ops #((n - l) * (n - 1) + t * (t + l - 1) + 2 * n) #((n - l) * n + t * (t + l))].
Proof.
move=> F emb id n t l c mp tf rt randoms zeros num shares shares_n m q Hc [Pn Pt Pl] Hl Hrt Hsh Hm.
have [H1 H2 _ [En Et El] /andP [Ht Hn]] := party_ctx_inv Hc.
have [points [points_n [zs [zs_n E1]]]] := randtrans_workE Hrt Hsh.
rewrite En Et El in E1; rewrite -{2}En in H2; have L2 : n.-1.+1 = c_n c by rewrite En; lia.
have Hm' : size m = c_n c by rewrite En.
have E2 := randtrans_recon_workE num H2 L2 Hm'; rewrite size_default_pos En in E2.
exists points, points_n, zs, zs_n; eexists; eexists; split; [exact: E1|exact: E2|].
have -> : (p_randshare mp (num * l) q).1 = zero_ops +o zero_ops
  +o (Z.mul #(ceil (num * l) (e_l (base mp))) #(e_l (base mp))) *o Ops (Z.sub #(e_n (base mp)) 1) #(e_n (base mp))
  +o (Z.mul #(ceil (num * l) (e_l (base mp)))
       (Z.sub (Z.sub (Z.add #(e_n (base mp)) #(e_l (base mp))) (Z.sub (Z.add #(e_t (base mp)) #(e_l (base mp))) 1)) 1))
     *o Ops (Z.sub (Z.add #(e_t (base mp)) #(e_l (base mp))) 1) (Z.add (Z.sub (Z.add #(e_t (base mp)) #(e_l (base mp))) 1) 1)
  +o p_recon mp (Z.mul 2 #(ceil (num * l) (e_l (base mp)))) by [].
have Ec : ceil (num * l) l = num by rewrite /ceil modnMl mulnK.
rewrite /p_recon /zero_ops Pn Pt Pl Ec; ops_by.
- have A1 : #(n.-1) = Z.sub #n 1 by lia. have A2 : #((t + l).-1) = Z.sub (Z.add #t #l) 1 by lia.
  have A3 : #((n - l) * (n - 1) + t * (t + l - 1) + 2 * n) =
    Z.add (Z.add (Z.mul (Z.sub #n #l) (Z.sub #n 1)) (Z.mul #t (Z.sub (Z.add #t #l) 1))) (Z.mul 2 #n).
    have -> : #((n - l) * (n - 1) + t * (t + l - 1) + 2 * n) =
      Z.add (Z.add (Z.mul #(n - l) #(n - 1)) (Z.mul #t #(t + l - 1))) (Z.mul 2 #n) by clear; lia.
    by congr (Z.add (Z.add (Z.mul _ _) (Z.mul _ _)) _); clear -Ht Hn Hl; lia.
  by rewrite A1 ?A2 A3 !Nat2Z.inj_mul; ring.
- have A3 : #((n - l) * n + t * (t + l)) = Z.add (Z.mul (Z.sub #n #l) #n) (Z.mul #t (Z.add #t #l)).
    have -> : #((n - l) * n + t * (t + l)) = Z.add (Z.mul #(n - l) #n) (Z.mul #t #(t + l)) by clear; lia.
    by congr (Z.add (Z.mul _ _) (Z.mul _ _)); clear -Ht Hn Hl; lia.
  by rewrite A3 !Nat2Z.inj_mul !Nat2Z.inj_add; ring.
Qed.
Print Assumptions C81_randtrans.

(** As soon as there is a column, the script counts too few additions, and too few
    multiplications unless a block has as many values as there are parties. *)
Theorem C81_randtrans_underestimated : forall (F : fieldType) (emb : nat -> F) id n t l c mp tf rt randoms zeros num shares shares_n m q,
  party_ctx emb id n t l = Some c -> same_params mp n t l -> (0 < l)%N -> rt_new emb c tf = Some rt ->
  randtrans_shares c rt randoms zeros = Some (num, shares, shares_n) -> size m = n -> (0 < num)%N ->
  exists points points_n zs zs_n o o',
    [/\ randtrans_work rt num points points_n zs zs_n = ((shares, shares_n), o), (randtrans_recon_work c num m).2 = o' &
        Z.lt (adds (p_randshare mp (num * l) q).1) (adds (o +o o')) /\
        ((l < n)%N -> Z.lt (mults (p_randshare mp (num * l) q).1) (mults (o +o o')))].
Proof.
move=> F emb id n t l c mp tf rt randoms zeros num shares shares_n m q Hc Hp Hl Hrt Hsh Hm H0.
have [_ _ _ _ /andP [_ Hn]] := party_ctx_inv Hc.
have [points [points_n [zs [zs_n [o [o' [E1 E2 E3]]]]]]] := C81_randtrans q Hc Hp Hl Hrt Hsh Hm.
exists points, points_n, zs, zs_n, o, o'; split=> //; first by rewrite E2.
rewrite E3; move: (p_randshare _ _ _).1 => e; rewrite /oplus /oscale; cbn [adds mults]; split=> [|Hln].
  have : (0 < (n - l) * (n - 1) + t * (t + l - 1) + 2 * n)%N by rewrite addn_gt0 muln_gt0 /=; apply/orP; right; lia.
  by move: ((n - l) * (n - 1) + t * (t + l - 1) + 2 * n)%N => x; clear -H0; nia.
have : (0 < (n - l) * n + t * (t + l))%N by rewrite addn_gt0 muln_gt0; apply/orP; left; lia.
by move: ((n - l) * n + t * (t + l))%N => x; clear -H0; nia.
Qed.
Print Assumptions C81_randtrans_underestimated.

Lemma randtrans_shares_ok (F : fieldType) (c : ctx F) rt (randoms zeros : seq F) num : (0 < c_n c)%N -> (c_l c <= c_n c)%N ->
  size randoms = ((c_n c + c_t c) * num)%N -> size zeros = (2 * c_n c * num)%N ->
  exists sh shn, randtrans_shares c rt randoms zeros = Some (num, sh, shn).
Proof.
move=> H0 Hl Hr Hz; rewrite /randtrans_shares /to_mat Hr mulKn ?addn_gt0 ?H0 // !size_drop !size_take !size_drop Hr Hz.
have E1 : (num * c_l c <= (c_n c + c_t c) * num)%N by nia. have E2 : (num * c_l c + num * c_t c <= (c_n c + c_t c) * num)%N by nia.
have E3 : (c_n c * num <= 2 * c_n c * num)%N by nia.
rewrite E1 E2 E3 Hl.
have S1 : ((if num * c_l c < (c_n c + c_t c) * num then num * c_l c else (c_n c + c_t c) * num) == c_l c * num)%N.
  by apply/eqP; case: ltnP => ?; nia.
have S2 : ((if num * c_t c < (c_n c + c_t c) * num - num * c_l c then num * c_t c else (c_n c + c_t c) * num - num * c_l c) == c_t c * num)%N.
  by apply/eqP; case: ltnP => ?; nia.
have S3 : ((c_n c + c_t c) * num - num * c_l c - num * c_t c == (c_n c - c_l c) * num)%N by apply/eqP; nia.
have S4 : ((if c_n c * num < 2 * c_n c * num then c_n c * num else 2 * c_n c * num) == c_n c * num)%N by apply/eqP; case: ltnP => ?; nia.
have S5 : (2 * c_n c * num - c_n c * num == c_n c * num)%N by apply/eqP; nia.
by rewrite S1 S2 S3 S4 S5 /=; eexists; eexists.
Qed.

(** That the script counts at least what the library computes here is false: three
    parties, one corruption and blocks of one value over GF(16). *)
Theorem C81_randtrans_refuted :
  ~ (forall (F : fieldType) (emb : nat -> F) id n t l c mp tf rt randoms zeros num shares shares_n m q points points_n zs zs_n,
       party_ctx emb id n t l = Some c -> same_params mp n t l -> (0 < l)%N -> rt_new emb c tf = Some rt ->
       randtrans_shares c rt randoms zeros = Some (num, shares, shares_n) -> size m = n ->
       (randtrans_work rt num points points_n zs zs_n).1 = (shares, shares_n) ->
       ole ((randtrans_work rt num points points_n zs zs_n).2 +o (randtrans_recon_work c num m).2) (p_randshare mp (num * l) q).1).
Proof.
move=> H.
have H1 : (0 < 1 + 1 <= 3)%N by []. have H2 : (N.of_nat 3 + N.of_nat 1 <= 2 ^ w4)%num by [].
have [P [Pn [HS HC]]] := party_ctxE H1 H2; have [Ht _ _ _] := HS.
pose tf := [:: ([:: gf_of w4 4], [:: gf_of w4 5], [:: 0%N])].
have Htf : forall k, (k < size tf)%N -> tf_ok (gf_of w4) 3 1 (nth ([::], [::], [::]) tf k).
  by case=> [_|k /= Hk]; [split; [vm_compute|vm_compute| | |split]|move: Hk; rewrite ltnS ltn0].
have Hrt := @rt_newE _ (gf_of w4) 3 1 1 P Pn isT Ht isT tf isT Htf 0 isT.
set rt := rts _ _ _ _ _ _ in Hrt; clearbody rt.
pose randoms := nseq 4 (gf_of w4 9); pose zeros := nseq 6 (0 : gf w4)%R.
have [sh [shn Hsh]] : exists sh shn, randtrans_shares (Ctx 0 3 1 1 P Pn) rt randoms zeros = Some (1, sh, shn).
  by apply: randtrans_shares_ok; rewrite ?size_nseq.
pose mp := MParams (Params 4 3 1 1 2 3 6 2) 1 1; have Hp : same_params mp 3 1 1 by [].
have Hm : size (nseq 3 (nseq 2 (0 : gf w4)%R)) = 3 by rewrite size_nseq.
have [po [pon [zs [zsn [o [o' [E1 E2 [L1 _]]]]]]]] :=
  C81_randtrans_underestimated start (HC 0) Hp (ltnSn 0) Hrt Hsh Hm (ltnSn 0).
have E1' : (randtrans_work rt 1 po pon zs zsn).1 = (sh, shn) by rewrite E1.
have [] := H _ _ _ _ _ _ _ _ _ _ _ _ _ _ _ _ start _ _ _ _ (HC 0) Hp (ltnSn 0) Hrt Hsh Hm E1'.
by rewrite E1 E2 => A _; case: (Zlt_not_le _ _ L1 A).
Qed.
Print Assumptions C81_randtrans_refuted.

(** ** Selection of wires *)

(** For a block whose gates read [k] different wires a party computes one inner
    product of [k] terms for each column: what the script counts if [k = l], and less
    otherwise. *)
Theorem C81_select : forall (F : fieldType) (emb : nat -> F) (g : gctx F) mp reps selected ws,
  let k := size (sorted_wires ws) in size selected = k -> (k <= e_l (base mp))%N -> (0 < e_l (base mp))%N ->
  exists o, select_work emb g reps selected ws =
    ([seq dotv (own_coeffs emb (g_mpc g) (wires_pos emb (c_n (g_mpc g)) (c_l (g_mpc g)) (sorted_wires ws))) (col j selected)
        | j <- iota 0 reps], o) /\
    ole o (p_select mp #reps) /\ (k = e_l (base mp) -> o = p_select mp #reps).
Proof.
move=> F emb g mp reps selected ws k Hs Hk H0; rewrite (select_workE emb g reps Hs) -/k; eexists; split; [reflexivity|].
rewrite /p_select /dcost; split; last by move=> ->; ops_by; [congr Z.mul; lia|].
by split; rewrite /oscale; cbn [adds mults]; apply: Z.mul_le_mono_nonneg_l; lia.
Qed.
Print Assumptions C81_select.

Example C81_select_case : size (sorted_wires [:: 5; 3; 5]%num) = 2 /\ p_select mp5 7 = Ops 7 14.
Proof. by []. Qed.

(** ** Garbled tables *)

(** What a party computes on its own for the table of one block of two-input gates
    from the messages, and for one block of inversions. *)
Theorem C81_tables : forall (F : fieldType) (emb : nat -> F) mp enc (A : seq (seq (seq F))),
  let K := e_key_len (base mp) in let M := e_ctx_len (base mp) in
  (0 < K)%N -> rs_gen_mat emb K.+1 M = Some enc ->
  (forall r, (r < size A)%N -> size (nth [::] A r) = M /\ all (fun a => size a == K) (nth [::] A r)) ->
  (forall lft rgt plain errors, size A = 4 -> size plain = 4 -> all (fun x => size x == K.+1) plain -> size errors = (4 * M)%N ->
     (2 * K <= size lft)%N -> (2 * K <= size rgt)%N ->
     bnd (encode_work enc plain) (fun mssgs => table4_work A K M lft rgt mssgs errors) =
       (table4 A K M lft rgt [seq mdot enc x | x <- plain] errors,
        p_ecc mp 4 +o (Z.mul 4 #M) *o Ops (Z.add #K 1) #K +o Ops (Z.mul 4 #K) 0)) /\
  (forall inp plain errors, size A = 2 -> size plain = 2 -> all (fun x => size x == K.+1) plain -> size errors = (2 * M)%N ->
     (2 * K <= size inp)%N ->
     bnd (encode_work enc plain) (fun mssgs => table2_work A K M inp mssgs errors) =
       (table2 A K M inp [seq mdot enc x | x <- plain] errors, p_ecc mp 2 +o (Z.mul 2 #M) *o Ops (Z.add #K 1) #K)).
Proof.
move=> F emb mp enc A K M HK /rs_gen_shape [E1 E2] HA.
have HM : forall plain r, (r < size plain)%N -> size (nth [::] [seq mdot enc x | x <- plain] r) = M.
  by move=> pl r Hr; rewrite (nth_map [::]) // size_map.
split=> [lft rgt plain errors SA Sp Hp He Hl Hr|inp plain errors SA Sp Hp He Hi].
- have HA4 : forall r, (r < 4)%N -> size (nth [::] A r) = M /\ all (fun a => size a == K) (nth [::] A r) by move=> r Hr4; apply: HA; rewrite SA.
  have HM4 : forall r, (r < 4)%N -> size (nth [::] [seq mdot enc x | x <- plain] r) = M by move=> r Hr4; apply: HM; rewrite Sp.
  etransitivity; first (by do_step (encode_workE E1 E2 Hp); exact: (table4_workE HA4 HM4 He Hl Hr)).
  congr (_, _); rewrite Sp /p_ecc -/K -/M; ops_by; clear -HK; nia.
- have HA4 : forall r, (r < 2)%N -> size (nth [::] A r) = M /\ all (fun a => size a == K) (nth [::] A r) by move=> r Hr4; apply: HA; rewrite SA.
  have HM4 : forall r, (r < 2)%N -> size (nth [::] [seq mdot enc x | x <- plain] r) = M by move=> r Hr4; apply: HM; rewrite Sp.
  etransitivity; first (by do_step (encode_workE E1 E2 Hp); exact: (table2_workE HA4 HM4 He Hi)).
  congr (_, _); rewrite Sp /p_ecc -/K -/M; ops_by; clear -HK; nia.
Qed.
Print Assumptions C81_tables.

Example C81_tables_case : exists enc, rs_gen_mat (gf_of w4) 4 6 = Some enc /\
  let A := nseq 4 (nseq 6 (nseq 3 (gf_of w4 5))) in let v := nseq 8 (gf_of w4 6) in
  (bnd (encode_work enc (nseq 4 (nseq 4 (gf_of w4 3)))) (fun mssgs => table4_work A 3 6 v v mssgs (nseq 24 (gf_of w4 9)))).2 =
    Ops 180 168.
Proof.
have [enc HE] : exists enc, rs_gen_mat (gf_of w4) 4 6 = Some enc by eexists; apply: rs_gen_matE.
exists enc; split; [exact: HE|move=> A v].
have HA r : (r < size A)%N -> size (nth [::] A r) = 6 /\ all (fun a => size a == 3) (nth [::] A r).
  by rewrite size_nseq nth_nseq => ->; rewrite !size_nseq.
have [H _] := @C81_tables _ (gf_of w4) mp5 enc A isT HE HA.
by rewrite (H v v) ?size_nseq.
Qed.

(** The messages of a block: additions only, besides the calls of [mult]. *)
Theorem C81_messages : forall (F : fieldType) K (x : gate_inp F),
  (forall i, (i < 2)%N -> size (nth [::] (gi_keys x) i) = K) ->
  [/\ forall m0 m1 prod sel0 sel1 sel2, [/\ size sel0 = K.+1, size sel1 = K.+1 & size sel2 = K.+1] ->
        (and_work K x m0 m1 prod [:: sel0; sel1; sel2]).2 = Ops (Z.add 13 (Z.mul 9 #K)) 0,
      forall m0 m1 sel, size sel = K.+1 -> (xor_work K x m0 m1 sel).2 = Ops (Z.add 6 (Z.mul 3 #K)) 0 &
      forall m sel, size sel = K.+1 -> (inv_work K x m sel).2 = Ops (Z.add 6 (Z.mul 4 #K)) 0].
Proof.
move=> F K x HK; split=> [m0 m1 prod s0 s1 s2 Hs|m0 m1 s Hs|m s Hs].
- by rewrite (and_workE m0 m1 prod HK Hs); apply: ops_eq => //; clear; lia.
- by rewrite (xor_workE m0 m1 HK Hs); apply: ops_eq => //; clear; lia.
- by rewrite (inv_workE m HK Hs); apply: ops_eq => //; clear; lia.
Qed.
Print Assumptions C81_messages.

Example C81_messages_case : let x := GateInp [::] 1%R [:: [:: gf_of w4 2; gf_of w4 3]; [:: gf_of w4 4; gf_of w4 5]] [::] [::] [::] in
  (and_work 2 x 1%R 1%R (gf_of w4 6) (nseq 3 (nseq 3 (gf_of w4 7)))).2 = Ops 31 0 /\
  (xor_work 2 x 1%R 1%R (nseq 3 (gf_of w4 7))).2 = Ops 12 0 /\ (inv_work 2 x 1%R (nseq 3 (gf_of w4 7))).2 = Ops 14 0.
Proof.
move=> x; have HK i : (i < 2)%N -> size (nth [::] (gi_keys x) i) = 2 by case: i => [|[|i]].
have [H1 H2 H3] := C81_messages HK; by rewrite H2 ?size_nseq // H3 ?size_nseq //; split=> //; apply: H1; rewrite !size_nseq.
Qed.

(** For [A] blocks of AND and [X] blocks of XOR gates the script's figures for
    plaintexts and ciphertexts are the library's multiplications exactly; of its
    additions [5 K + 6] for each AND block are missing, and [K - 2] for each XOR block
    are too many.  (By C81_messages and C81_tables the two blocks take what [oA] and
    [oX] say.) *)
Theorem C81_blocks : forall mp inp A X q, let K := e_key_len (base mp) in let M := e_ctx_len (base mp) in (0 < e_l (base mp))%N ->
  let table := p_ecc mp 4 +o (Z.mul 4 #M) *o Ops (Z.add #K 1) #K +o Ops (Z.mul 4 #K) 0 in
  let oA := Ops (Z.add 13 (Z.mul 9 #K)) 0 +o table in let oX := Ops (Z.add 6 (Z.mul 3 #K)) 0 +o table in
  let r := semihon_comp mp inp (A * e_l (base mp)) (X * e_l (base mp)) in
  pr_plaintexts r +o pr_ciphertexts r +o
    Ops (Z.add (Z.mul #A (Z.add (Z.mul 5 #K) 6)) (Z.mul #X (Z.sub 2 #K))) 0 =
  (p_mult mp (A * (3 * (K + 1) + 1) + X * (K + 1)) q).1 +o #A *o oA +o #X *o oX.
Proof.
move=> mp inp A X q K M Hl table oA oX r.
have EA : ceil (A * e_l (base mp)) (e_l (base mp)) = A by rewrite /ceil modnMl mulnK.
have EX : ceil (X * e_l (base mp)) (e_l (base mp)) = X by rewrite /ceil modnMl mulnK.
have -> : pr_plaintexts r = (p_mult mp (A * (3 * (K + 1) + 1) + X * (K + 1)) q).1 +o #A *o Ops 7 0 +o #X *o Ops 4 0 +o
    #((A + X) * 4 * K) *o Ops 2 0.
  by rewrite /r /semihon_comp EA EX.
have -> : pr_ciphertexts r = p_ecc mp #(4 * (A + X)) +o #(4 * (A + X) * M) *o Ops (Z.add #K 1) #K.
  by rewrite /r /semihon_comp EA EX.
move: (p_mult _ _ _).1 => m; rewrite /oA /oX /table /p_ecc -/K -/M; clear.
by ops_by; rewrite ?Nat2Z.inj_mul !Nat2Z.inj_add ?Nat2Z.inj_mul; move: #A #X #K #M => a x k mm;
  rewrite (_ : #4 = 4%ZZ) // ?(_ : #1 = 1%ZZ) //; ring.
Qed.
Print Assumptions C81_blocks.

Example C81_blocks_case : let r := semihon_comp mp5 4 6 4 in
  (adds (pr_plaintexts r), mults (pr_plaintexts r), adds (pr_ciphertexts r), mults (pr_ciphertexts r)) = (450, 267, 840, 840)%ZZ.
Proof. by []. Qed.
