(** The counted functions of CostModel compute what the models compute, and how
    many operations they take. *)

From Coq Require Import NArith ZArith List.
From Verif Require Import CircuitModel LpnModel.
From mathcomp Require Import all_ssreflect all_algebra zify.
From Verif Require Import MathModel SharingModel MachineModel CoreModel PreprocModel GarbleModel RandTransProofs MatProofs.
From Verif Require Import EstModel EstFullModel CostModel.
Set Implicit Arguments.
Unset Strict Implicit.
Unset Printing Implicit Defensive.
Import GRing.Theory.

Notation "'#' x" := (Z.of_nat x) (at level 1, format "# x").

Definition osum (os : seq ops) : ops := foldr oplus zero_ops os.

Lemma ops0 a : (a +o zero_ops)%Z = a.
Proof. by case: a => x y; rewrite /oplus /= !Z.add_0_r. Qed.

Lemma ops_eq x y x' y' : x = x' -> y = y' -> Ops x y = Ops x' y'.
Proof. by move=> -> ->. Qed.

Lemma bndE A B (m : counted A) (f : A -> counted B) : bnd m f = ((f m.1).1, m.2 +o (f m.1).2).
Proof. by case: m => a o /=; case: (f a). Qed.

Lemma bnd_eq A B (m : counted A) a o (f : A -> counted B) r o' : m = (a, o) -> f a = (r, o') -> bnd m f = (r, o +o o').
Proof. by move=> -> /= ->. Qed.

Tactic Notation "do_step" constr(H) := eapply bnd_eq; [exact H|]; cbv beta.

Lemma mapwE A B (f : A -> counted B) s : mapw f s = ([seq (f a).1 | a <- s], osum [seq (f a).2 | a <- s]).
Proof. by elim: s => [|a s IH] //=; rewrite bndE bndE IH /= ops0. Qed.

Lemma osum_const (A : Type) (s : seq A) o : osum [seq o | _ <- s] = #(size s) *o o.
Proof.
elim: s => [|a s IH] //; rewrite [size _]/= Nat2Z.inj_succ [osum _]/= -/(osum _) IH /oscale /oplus.
by apply: ops_eq => /=; ring.
Qed.

Lemma mapw_const (A : eqType) B (f : A -> counted B) (g : A -> B) o s :
  {in s, forall a, f a = (g a, o)} -> mapw f s = (map g s, #(size s) *o o).
Proof.
move=> H; rewrite mapwE -osum_const; congr (_, osum _).
- by apply/eq_in_map => a Ha; rewrite H.
- by apply/eq_in_map => a Ha; rewrite H.
Qed.

(** The cost of an inner product of [k] terms. *)
Definition dcost (k : nat) : ops := Ops #(k.-1) #k.

Section Cost.
Variable F : fieldType.
Variable emb : nat -> F.
Local Open Scope ring_scope.

Lemma sumwE (s : seq F) : sumw s = (suml s, Ops #((size s).-1) 0).
Proof.
elim: s => [|x [|y s] IH] //; first by rewrite /= addr0.
have -> : sumw [:: x, y & s] = bnd (sumw (y :: s)) (fun z => addw x z) by [].
by rewrite bndE IH /oplus /=; congr (_, _); apply: ops_eq; lia.
Qed.

Lemma dotwE (r v : seq F) k : size r = k -> size v = k -> dotw r v = (dotv r v, dcost k).
Proof.
move=> Hr Hv; rewrite /dotw bndE (mapw_const (g := fun x => x.1 * x.2) (o := Ops 0 1)) //=.
rewrite sumwE /= size_map size_zip Hr Hv minnn /oplus /oscale /=; congr (_, _).
by apply: ops_eq; lia.
Qed.

Lemma zipwwE f g o (a b : seq F) k : (forall x y, f x y = (g x y, o)) -> size a = k -> size b = k ->
  zipww f a b = (zipw g a b, #k *o o).
Proof.
move=> H Ha Hb; rewrite /zipww (mapw_const (g := fun x => g x.1 x.2) (o := o)) //.
by rewrite size_zip Ha Hb minnn.
Qed.

Lemma size_zipw g (a b : seq F) k : size a = k -> size b = k -> size (zipw g a b) = k.
Proof. by move=> Ha Hb; rewrite /zipw size_map size_zip Ha Hb minnn. Qed.

Lemma mdotwE (m : mat F) v k : all (fun r => size r == k) (rows m) -> size v = k ->
  mdotw m v = (mdot m v, #(size (rows m)) *o dcost k).
Proof.
move=> /allP Hm Hv; apply: (mapw_const (g := fun r => dotv r v)) => r Hr.
by apply: dotwE => //; apply/eqP/Hm.
Qed.

Lemma mdot_chkwE (m : mat F) v k : all (fun r => size r == k) (rows m) -> size v = k -> ncols m = k ->
  mdot_chkw m v = (mdot_chk m v, #(size (rows m)) *o dcost k).
Proof. by move=> Hm Hv Hc; rewrite /mdot_chkw /mdot_chk Hv Hc eqxx bndE (mdotwE Hm Hv) /= ops0. Qed.

Lemma mmulwE (a : seq (seq F)) c x k : all (fun r => size r == k) a -> size x = k ->
  mmulw a c x = (mmul2 a c x, #(size a * c) *o dcost k).
Proof.
move=> /allP Ha Hx; rewrite /mmulw (mapw_const (g := fun r => [seq dotv r (col j x) | j <- iota 0 c]) (o := #c *o dcost k)).
  by congr (_, _); rewrite /oscale /=; apply: ops_eq; nia.
move=> r Hr; rewrite (mapw_const (g := fun j => dotv r (col j x)) (o := dcost k)) ?size_iota // => j _.
by apply: dotwE; [apply/eqP/Ha|rewrite size_map].
Qed.

(** ** The matrices of sharing.rs *)

Lemma lagrange_sizes (cpos npos : seq F) : all (fun r => size r == size cpos) (rows (lagrange_coeffs cpos npos)).
Proof. by apply/allP => r /mapP [v _ ->]; rewrite size_lagrange_row. Qed.

Lemma lagrange_rows (cpos npos : seq F) : size (rows (lagrange_coeffs cpos npos)) = size npos.
Proof. by rewrite size_map. Qed.

Lemma size_share_pos n : size (share_pos emb n) = n.
Proof. by rewrite size_map size_iota. Qed.

Lemma share_using_coeffswE (secrets : seq F) (coeffs : mat F) l r k : all (fun x => size x == k) (rows coeffs) ->
  ncols coeffs = k -> (l <= k)%N ->
  share_using_coeffsw secrets coeffs l r = (share_using_coeffs secrets coeffs l r, #(size (rows coeffs)) *o dcost k).
Proof.
move=> Hc Hk Hl; rewrite /share_using_coeffsw /share_using_coeffs bndE (mdot_chkwE (k := k)) //= ?ops0 //.
have E : size (take l (secrets ++ [seq r (ncols coeffs - l + i)%N | i <- iota 0 (l - size secrets)])) = l.
  by apply: size_takel; rewrite size_cat size_map size_iota; lia.
by rewrite size_cat E size_map size_iota Hk; lia.
Qed.

Lemma pss_sharewE d n (pos : seq F) P secrets r : pss_new emb d n pos = Some P -> (size pos <= d.+1)%N ->
  pss_sharew P secrets r = (pss_share P secrets r, #(n + size pos - d.+1) *o dcost d.+1).
Proof.
rewrite /pss_new; case: leqP => // Hn [<-] Hp; rewrite /pss_sharew /pss_share /=.
have Es : size (take d.+1 (pos ++ share_pos emb n)) = d.+1 by rewrite size_takel ?size_cat ?size_share_pos; lia.
rewrite (@share_using_coeffswE secrets _ _ r d.+1) //.
- by rewrite lagrange_rows size_drop size_cat size_share_pos addnC.
- by rewrite -{1}Es; apply: lagrange_sizes.
Qed.

Lemma pss_randwE d n (pos : seq F) P r : pss_new emb d n pos = Some P ->
  pss_randw P r = (pss_rand P r, #(n - d.+1) *o dcost d.+1).
Proof.
rewrite /pss_new; case: leqP => // Hn [<-]; rewrite /pss_randw /pss_rand /= bndE.
have Es : size (take d.+1 (share_pos emb n)) = d.+1 by rewrite size_takel ?size_share_pos.
rewrite (mdot_chkwE (k := d.+1)) //=; last by rewrite size_map size_iota.
- by rewrite ops0 !size_map size_drop size_share_pos.
- by rewrite -{1}Es; apply: (lagrange_sizes).
Qed.

Lemma recon_sizes d n (pos : seq F) P : pss_new emb d n pos = Some P ->
  [/\ all (fun r => size r == d.+1) (rows (ps_recon P)), ncols (ps_recon P) = d.+1,
      size (rows (ps_recon P)) = (size pos + n - d.+1)%N & [/\ ps_n P = n, ps_np P = d.+1, ps_l P = size pos & (d < n)%N]].
Proof.
rewrite /pss_new; case: leqP => // Hn [<-] /=.
have Es : size (drop (size pos + n - d.+1) (pos ++ share_pos emb n)) = d.+1 by rewrite size_drop size_cat size_share_pos; lia.
split=> //; first by rewrite -{1}Es; apply: lagrange_sizes.
by rewrite size_map size_takel // size_cat size_share_pos; lia.
Qed.

Lemma top_sizes (m : mat F) k l : all (fun r => size r == k) (rows m) -> all (fun r => size r == k) (rows (top_rows l m)).
Proof. by move=> /allP H; apply/allP => r /mem_take /H. Qed.

Lemma pss_semihon_reconwE d n (pos : seq F) P shares : pss_new emb d n pos = Some P -> size shares = n ->
  pss_semihon_reconw P shares = (pss_semihon_recon P shares, #(size pos) *o dcost d.+1).
Proof.
move=> HP Hs; case: (recon_sizes HP) => Hr Hc Hz [E1 E2 E3 Hd]; rewrite /pss_semihon_reconw /pss_semihon_recon E1 Hs eqxx E2 E3.
rewrite (mdot_chkwE (k := d.+1)) //.
- by rewrite /top_rows /= size_takel // Hz; lia.
- by apply: top_sizes.
- by rewrite size_drop Hs; lia.
Qed.

Lemma pss_reconwE d n (pos : seq F) P shares : pss_new emb d n pos = Some P -> size shares = n ->
  pss_reconw P shares = (pss_recon P shares, #(size pos + n - d.+1) *o dcost d.+1).
Proof.
move=> HP Hs; case: (recon_sizes HP) => Hr Hc Hz [E1 E2 E3 Hd]; rewrite /pss_reconw /pss_recon E1 Hs eqxx /= E2.
by rewrite bndE (mdot_chkwE (k := d.+1)) //= ?ops0 ?Hz // size_drop Hs; lia.
Qed.

(** ** Protocols *)

Lemma deal_workE (M : mat F) num dealtw (dealt : nat -> option (seq F)) o sent n b : num_batches num (size (rows M)) = Some b ->
  all (fun r => size r == n) (rows M) -> size sent = n -> (forall j, dealtw j = (dealt j, o)) ->
  deal_work M num dealtw sent =
    (([seq dealt j | j <- iota 0 b], flatten (mmul M b sent)), #b *o o +o #(size (rows M) * b) *o dcost n).
Proof.
move=> Eb HM Hs Hd; rewrite /deal_work Eb bndE (mapw_const (g := dealt) (o := o)) //=.
by rewrite bndE (mmulwE b HM Hs) /= ops0 size_iota.
Qed.

Lemma size_zip2 (T U : Type) (a : seq T) (b : seq U) k : size a = k -> size b = k -> size (zip a b) = k.
Proof. by move=> Ha Hb; rewrite size_zip Ha Hb minnn. Qed.

Lemma maddwE (a b : seq (seq F)) r k : size a = r -> size b = r -> all (fun x => size x == k) a -> all (fun x => size x == k) b ->
  maddw a b = (madd a b, #(r * k) *o Ops 1 0).
Proof.
move=> Ha Hb /allP Sa /allP Sb; rewrite /maddw (mapw_const (g := fun x => zipw +%R x.1 x.2) (o := #k *o Ops 1 0)).
  by rewrite (size_zip2 Ha Hb); congr (_, _); rewrite /oscale /=; apply: ops_eq; nia.
move=> [x y] /= Hxy; apply: zipwwE => //.
- by apply/eqP/Sa; move/(map_f fst): Hxy => /=; rewrite -/unzip1 unzip1_zip // Ha Hb.
- by apply/eqP/Sb; move/(map_f snd): Hxy => /=; rewrite -/unzip2 unzip2_zip // Ha Hb.
Qed.

Lemma addwE (a b : seq F) k : size a = k -> size b = k -> zipww (@addw F) a b = (zipw +%R a b, #k *o Ops 1 0).
Proof. by apply: zipwwE. Qed.
Lemma subwE (a b : seq F) k : size a = k -> size b = k ->
  zipww (@subw F) a b = (zipw (fun x y => x - y) a b, #k *o Ops 1 0).
Proof. by apply: zipwwE. Qed.
Lemma mulwE (a b : seq F) k : size a = k -> size b = k -> zipww (@mulw F) a b = (zipw *%R a b, #k *o Ops 0 1).
Proof. by apply: zipwwE. Qed.

Lemma mult_workE (vx vy random zero ans : seq F) k : [/\ size vx = k, size vy = k, size random = k & size zero = k] ->
  size ans = k ->
  mult_work vx vy random zero ans =
    ((zipw +%R (zipw +%R (zipw *%R vx vy) random) zero, zipw (fun a b => a - b) ans random), #k *o Ops 3 1).
Proof.
move=> [H1 H2 H3 H4] H5; have S1 := size_zipw *%R H1 H2; have S2 := size_zipw +%R S1 H3; rewrite /mult_work.
etransitivity; first (by do_step (mulwE H1 H2); do_step (addwE S1 H3); do_step (addwE S2 H4); do_step (subwE H5 H3); reflexivity).
by congr (_, _); rewrite /oscale /oplus /=; apply: ops_eq; lia.
Qed.

Lemma trans_workE (vx random random_n ans : seq F) k : [/\ size vx = k, size random = k, size random_n = k & size ans = k] ->
  trans_work vx random random_n ans = ((zipw +%R random_n vx, zipw (fun a b => a - b) ans random), #k *o Ops 2 0).
Proof.
move=> [H1 H2 H3 H4]; rewrite /trans_work.
etransitivity; first (by do_step (addwE H3 H1); do_step (subwE H4 H2); reflexivity).
by congr (_, _); rewrite /oscale /oplus /=; apply: ops_eq; lia.
Qed.

(** core.rs:60-68. *)
Lemma reduce_workE (c : ctx F) num coin (shares_n : seq (seq F)) d dn (pos : seq F) :
  pss_new emb d (c_n c) pos = Some (c_pss c) -> pss_new emb dn (c_n c) pos = Some (c_pssn c) ->
  (size pos <= d.+1)%N -> size shares_n = c_n c -> dn.+1 = c_n c ->
  reduce_work c num coin shares_n =
    ([seq obind (fun secrets => pss_share (c_pss c) secrets (coin j)) (pss_semihon_recon (c_pssn c) (col j shares_n)) | j <- iota 0 num],
     #num *o (#(size pos) *o dcost (c_n c) +o #(c_n c + size pos - d.+1) *o dcost d.+1)).
Proof.
move=> H1 H2 Hp Hs Hn; rewrite /reduce_work; set G := fun j => obind _ _.
rewrite (mapw_const (g := G) (o := #(size pos) *o dcost (c_n c) +o #(c_n c + size pos - d.+1) *o dcost d.+1)) ?size_iota // => j _.
have Sc : size (col j shares_n) = c_n c by rewrite size_map.
rewrite -Hn; apply: (bnd_eq (pss_semihon_reconwE H2 Sc)).
have : pss_semihon_recon (c_pssn c) (col j shares_n) <> None.
  case: (recon_sizes H2) => _ Hc _ [E1 E2 E3 _]; rewrite /pss_semihon_recon /mdot_chk E1 Sc eqxx /top_rows /= Hc E2 size_drop Sc.
  by rewrite -Hn subnn subn0 eqxx.
rewrite /G; case: (pss_semihon_recon _ _) => // s _ /=.
by rewrite Hn; apply: pss_sharewE.
Qed.

(** core.rs:144-181. *)
Lemma mmul_rows (m : mat F) c x : mmul m c x = mmul2 (rows m) c x.
Proof. by []. Qed.

Lemma trans_leader_workE (c : ctx F) (tr : sharing_transform F) num coin (shares_n : seq (seq F)) : (0 < c_t c + c_l c <= c_n c)%N ->
  (size (st_new tr) <= c_t c + c_l c)%N -> size shares_n = c_n c -> all (fun i => (i < size (st_old tr))%N) (st_f tr) ->
  trans_leader_work emb c tr num coin shares_n =
    ([seq obind (fun tf => share_using_coeffs tf (compute_share_coeffs emb (c_t c + c_l c).-1 (c_n c) (st_new tr)) (size (st_new tr)) (coin j))
        (comb_apply (st_f tr) (col j (mmul (compute_recon_coeffs emb (c_n c).-1 (c_n c) (st_old tr)) num shares_n))) | j <- iota 0 num],
     #num *o (#(size (st_old tr)) *o dcost (c_n c) +o
              #(c_n c + size (st_new tr) - (c_t c + c_l c)) *o dcost (c_t c + c_l c))).
Proof.
move=> /andP [Ht Hn] Hb Hs Hf; rewrite /trans_leader_work; set n := c_n c in Hn Hs *; set k := (c_t c + c_l c)%N in Ht Hn Hb *.
set R := compute_recon_coeffs _ _ _ _; set S := compute_share_coeffs _ _ _ _.
have En : n.-1.+1 = n by lia.
have Sd : size (drop (size (st_old tr) + n - n) (st_old tr ++ share_pos emb n)) = n.
  by rewrite addnK drop_size_cat // size_share_pos.
have HR : all (fun r => size r == n) (rows R).
  by rewrite /R /compute_recon_coeffs En -{1}Sd; apply: lagrange_sizes.
have SR : size (rows R) = size (st_old tr).
  by rewrite /R /compute_recon_coeffs lagrange_rows size_takel // size_cat leq_addr.
have Ek : k.-1.+1 = k by lia.
have St : size (take k (st_new tr ++ share_pos emb n)) = k by rewrite size_takel // size_cat size_share_pos; lia.
have HS : all (fun r => size r == k) (rows S).
  by rewrite /S /compute_share_coeffs Ek -{1}St; apply: lagrange_sizes.
have CS : ncols S = k by rewrite /S /compute_share_coeffs Ek /=.
have SS : size (rows S) = (n + size (st_new tr) - k)%N.
  by rewrite /S /compute_share_coeffs Ek lagrange_rows size_drop size_cat size_share_pos addnC.
etransitivity.
  do_step (mmulwE num HR Hs); rewrite -mmul_rows; set X := mmul R num shares_n.
  apply: (mapw_const (g := fun j => obind (fun tf => share_using_coeffs tf S (size (st_new tr)) (coin j)) (comb_apply (st_f tr) (col j X)))
           (o := #(n + size (st_new tr) - k) *o dcost k)) => j _.
  rewrite (comb_apply_ok 0) /=; first by rewrite -SS; apply: share_using_coeffswE.
  by rewrite /col size_map /X /mmul size_map SR.
congr (_, _); rewrite SR size_iota /oplus /oscale /=; move: (size (st_old tr)) (n + size (st_new tr) - k)%N => a b.
by apply: ops_eq; clear; nia.
Qed.

(** ** core.rs:294-366 [randtrans] *)

Lemma rt_new_shape c tf rt : rt_new emb c tf = Some rt ->
  [/\ size (rt_share rt) = c_n c, all (fun r => size r == (c_t c + c_l c)%N) (rt_share rt),
      size (rt_share_n rt) = c_n c & all (fun r => size r == c_n c) (rt_share_n rt)].
Proof.
rewrite /rt_new; case: (all_some _) => //= ms; case: ifP => // _ [<-] /=.
by split; rewrite ?size_map ?size_iota //; apply/allP => r /mapP [i _ ->]; rewrite size_map size_iota.
Qed.

Lemma to_mat_shape r c (v : seq F) m : to_mat r c v = Some m -> size m = r /\ all (fun x => size x == c) m.
Proof.
rewrite /to_mat; case: eqP => // E [<-]; have Hs : size v = sumn (nseq r c) by rewrite sumn_nseq E mulnC.
have Es : shape (reshape (nseq r c) v) = nseq r c by apply: reshapeKl; rewrite Hs.
split; first by rewrite -[LHS](size_map size) -/(shape _) Es size_nseq.
apply/allP => x /(map_f size); rewrite -/(shape _) Es => H.
by apply/eqP; move/nseqP: H => [].
Qed.

Lemma mmul2_shape (a : seq (seq F)) c x : size (mmul2 a c x) = size a /\ all (fun r => size r == c) (mmul2 a c x).
Proof.
split; first by rewrite size_map.
by apply/allP => r /mapP [y _ ->]; rewrite size_map size_iota.
Qed.

Lemma randtrans_workE (c : ctx F) tf rt randoms zeros num shares shares_n : rt_new emb c tf = Some rt ->
  randtrans_shares c rt randoms zeros = Some (num, shares, shares_n) ->
  exists points points_n zs zs_n,
    randtrans_work rt num points points_n zs zs_n =
      ((shares, shares_n), #(c_n c * num) *o (dcost (c_t c + c_l c) +o dcost (c_n c) +o Ops 2 0)).
Proof.
move=> /rt_new_shape [S1 A1 S2 A2]; rewrite /randtrans_shares; set num' := (_ %/ _)%N.
case E1: (if (num' * c_l c <= size randoms)%N then _ else None) => [secrets|] //=.
case E2: (if (num' * c_l c + num' * c_t c <= size randoms)%N then _ else None) => [rands|] //=.
case E3: (if (c_l c <= c_n c)%N then _ else None) => [rands_n|] //=.
case E4: (if (c_n c * num' <= size zeros)%N then _ else None) => [zn|] //=.
case E5: (to_mat _ _ _) => [z|] //= [<- <- <-].
move: E1 E2 E3 E4; case: leqP => // _ /to_mat_shape [Z1 _]; case: leqP => // _ /to_mat_shape [Z2 _].
case: leqP => // Hl /to_mat_shape [Z3 _]; case: leqP => // _ /to_mat_shape [Z4 B4].
case/to_mat_shape: E5 => Z5 B5.
exists (secrets ++ rands), (secrets ++ rands_n), z, zn.
have P1 : size (secrets ++ rands) = (c_t c + c_l c)%N by rewrite size_cat Z1 Z2 addnC.
have P2 : size (secrets ++ rands_n) = c_n c by rewrite size_cat Z1 Z3 subnKC.
have [Y1 Y2] := mmul2_shape (rt_share rt) num' (secrets ++ rands).
have [Y3 Y4] := mmul2_shape (rt_share_n rt) num' (secrets ++ rands_n).
rewrite S1 in Y1; rewrite S2 in Y3; rewrite /randtrans_work; etransitivity.
  by do_step (mmulwE num' A1 P1); do_step (maddwE Y1 Z5 Y2 B5); do_step (mmulwE num' A2 P2); do_step (maddwE Y3 Z4 Y4 B4); reflexivity.
congr (_, _); rewrite S1 S2 /oplus /oscale /=; move: (c_n c * num')%N => b; apply: ops_eq; clear; nia.
Qed.

Lemma randtrans_recon_workE (c : ctx F) dn (pos : seq F) num (m : seq (seq F)) : pss_new emb dn (c_n c) pos = Some (c_pssn c) -> dn.+1 = c_n c ->
  size m = c_n c ->
  randtrans_recon_work c num m =
    (let recon := top_rows (ps_l (c_pssn c)) (ps_recon (c_pssn c)) in
     (mmul recon num [seq take num r | r <- m], mmul recon num [seq drop num r | r <- m]),
     #(2 * (size pos * num)) *o dcost (c_n c)).
Proof.
move=> HP Hn Hm; case: (recon_sizes HP) => Hr Hc Hz [E1 E2 E3 Hd]; rewrite /randtrans_recon_work E3.
have A := top_sizes (size pos) Hr; rewrite Hn in A.
have S : size (rows (top_rows (size pos) (ps_recon (c_pssn c)))) = size pos by rewrite /top_rows /= size_takel // Hz; lia.
have [M1 M2] : size [seq take num r | r <- m] = c_n c /\ size [seq drop num r | r <- m] = c_n c by rewrite !size_map.
etransitivity; first (by do_step (mmulwE num A M1); do_step (mmulwE num A M2); reflexivity).
congr (_, _); rewrite S /oplus /oscale /=; move: (size pos * num)%N => b; apply: ops_eq; clear; nia.
Qed.

(** ** garble.rs *)

Lemma own_coeffs_size c (pos : seq F) : size (own_coeffs emb c pos) = size pos.
Proof. by rewrite /own_coeffs /= size_lagrange_row. Qed.

Lemma select_workE (g : gctx F) reps (selected : seq (seq F)) ws : size selected = size (sorted_wires ws) ->
  select_work emb g reps selected ws =
    ([seq dotv (own_coeffs emb (g_mpc g) (wires_pos emb (c_n (g_mpc g)) (c_l (g_mpc g)) (sorted_wires ws))) (col j selected) | j <- iota 0 reps],
     #reps *o dcost (size (sorted_wires ws))).
Proof.
move=> Hs; rewrite /select_work; set cc := own_coeffs _ _ _.
rewrite (mapw_const (g := fun j => dotv cc (col j selected)) (o := dcost (size (sorted_wires ws)))) ?size_iota // => j _.
by apply: dotwE; [rewrite own_coeffs_size !size_map|rewrite size_map].
Qed.

Lemma encode_workE (enc : mat F) plain M k : all (fun r => size r == k) (rows enc) -> size (rows enc) = M -> all (fun p => size p == k) plain ->
  encode_work enc plain = ([seq mdot enc p | p <- plain], #(size plain * M) *o dcost k).
Proof.
move=> He HM /allP Hp; rewrite /encode_work (mapw_const (g := mdot enc) (o := #M *o dcost k)).
  by congr (_, _); rewrite /oscale /=; apply: ops_eq; nia.
by move=> p Hpp; rewrite -HM; apply: mdotwE => //; apply/eqP/Hp.
Qed.

Lemma rs_gen_shape k m (M : mat F) : rs_gen_mat emb k m = Some M -> all (fun r => size r == k) (rows M) /\ size (rows M) = m.
Proof.
case: k => // k; rewrite rs_gen_matE => - [<-] /=; rewrite size_map /nodes size_map size_iota; split=> //.
by apply/allP => r /mapP [x _ ->]; rewrite /= !size_map size_iota.
Qed.

Lemma table4_workE (A : seq (seq (seq F))) K M lft rgt mssgs errors :
  (forall r, (r < 4)%N -> size (nth [::] A r) = M /\ all (fun a => size a == K) (nth [::] A r)) ->
  (forall r, (r < 4)%N -> size (nth [::] mssgs r) = M) -> size errors = (4 * M)%N ->
  (2 * K <= size lft)%N -> (2 * K <= size rgt)%N ->
  table4_work A K M lft rgt mssgs errors =
    (table4 A K M lft rgt mssgs errors, #4 *o (Ops #K 0 +o #M *o (dcost K +o Ops 2 0))).
Proof.
move=> HA Hm He Hl Hr; rewrite /table4_work /table4.
rewrite (mapw_const (g := fun r => let: (i, j) := ((r %/ 2)%N, (r %% 2)%N) in
       let keys := zipw +%R (row_label K lft i) (row_label K rgt j) in
       let masks := [seq dotv a keys | a <- nth [::] A r] in
       zipw +%R (zipw +%R masks (nth [::] mssgs r)) (take M (drop (r * M)%N errors))) (o := Ops #K 0 +o #M *o (dcost K +o Ops 2 0))) //.
move=> r; rewrite mem_iota add0n => /andP [_ H4]; cbv zeta iota.
have [SA /allP AA] := HA r H4.
have L1 : size (row_label K lft (r %/ 2)) = K.
  by rewrite /row_label size_takel // size_drop; have : (r %/ 2 < 2)%N by [rewrite ltn_divLR]; nia.
have L2 : size (row_label K rgt (r %% 2)) = K.
  by rewrite /row_label size_takel // size_drop; have : (r %% 2 < 2)%N by [rewrite ltn_mod]; nia.
have SK := size_zipw +%R L1 L2; set keys := zipw _ _ _ in SK *.
have EM : mapw (fun a => dotw a keys) (nth [::] A r) = ([seq dotv a keys | a <- nth [::] A r], #M *o dcost K).
  by rewrite -SA; apply: (mapw_const (g := fun a => dotv a keys)) => a Ha; apply: dotwE => //; apply/eqP/AA.
have SM : size [seq dotv a keys | a <- nth [::] A r] = M by rewrite size_map.
have SE : size (take M (drop (r * M) errors)) = M by rewrite size_takel // size_drop He; nia.
have SX := size_zipw +%R SM (Hm r H4).
etransitivity; first (by do_step (addwE L1 L2); do_step EM; do_step (addwE SM (Hm r H4)); exact: (addwE SX SE)).
by congr (_, _); rewrite /oplus /oscale /=; apply: ops_eq; clear; nia.
Qed.

Lemma table2_workE (A : seq (seq (seq F))) K M inp mssgs errors :
  (forall r, (r < 2)%N -> size (nth [::] A r) = M /\ all (fun a => size a == K) (nth [::] A r)) ->
  (forall r, (r < 2)%N -> size (nth [::] mssgs r) = M) -> size errors = (2 * M)%N -> (2 * K <= size inp)%N ->
  table2_work A K M inp mssgs errors =
    (table2 A K M inp mssgs errors, #2 *o (#M *o (dcost K +o Ops 2 0))).
Proof.
move=> HA Hm He Hl; rewrite /table2_work /table2.
rewrite (mapw_const (g := fun i => let masks := [seq dotv a (row_label K inp i) | a <- nth [::] A i] in
       zipw +%R (zipw +%R masks (nth [::] mssgs i)) (take M (drop (i * M)%N errors))) (o := #M *o (dcost K +o Ops 2 0))) //.
move=> r; rewrite mem_iota add0n => /andP [_ H4]; cbv zeta.
have [SA /allP AA] := HA r H4.
have L1 : size (row_label K inp r) = K by rewrite /row_label size_takel // size_drop; nia.
have EM : mapw (fun a => dotw a (row_label K inp r)) (nth [::] A r) = ([seq dotv a (row_label K inp r) | a <- nth [::] A r], #M *o dcost K).
  by rewrite -SA; apply: (mapw_const (g := fun a => dotv a (row_label K inp r))) => a Ha; apply: dotwE => //; apply/eqP/AA.
have SM : size [seq dotv a (row_label K inp r) | a <- nth [::] A r] = M by rewrite size_map.
have SE : size (take M (drop (r * M) errors)) = M by rewrite size_takel // size_drop He; nia.
have SX := size_zipw +%R SM (Hm r H4).
etransitivity; first (by do_step EM; do_step (addwE SM (Hm r H4)); exact: (addwE SX SE)).
by congr (_, _); rewrite /oplus /oscale /=; apply: ops_eq; clear; nia.
Qed.

Lemma ext_size (x : gate_inp F) K i : (forall i, (i < 2)%N -> size (nth [::] (gi_keys x) i) = K) -> (i < 2)%N ->
  size (ext_label (gi_keys x) (gi_mask x) i) = K.+1.
Proof. by move=> H Hi; rewrite /ext_label size_rcons H. Qed.

Lemma ext_label1wE (x : gate_inp F) : ext_label1w (gi_keys x) (gi_mask x) = (ext_label (gi_keys x) (gi_mask x) 1, Ops 1 0).
Proof. by []. Qed.

Lemma and_workE K (x : gate_inp F) m0 m1 prod sel0 sel1 sel2 : (forall i, (i < 2)%N -> size (nth [::] (gi_keys x) i) = K) ->
  [/\ size sel0 = K.+1, size sel1 = K.+1 & size sel2 = K.+1] -> let s := prod + gi_mask x in
  let key0 := ext_label (gi_keys x) (gi_mask x) 0 in let key1 := ext_label (gi_keys x) (gi_mask x) 1 in
  let d := zipw (fun a b => a - b) key1 key0 in
  and_work K x m0 m1 prod [:: sel0; sel1; sel2] =
    ((nseq (K + 1) s ++ nseq (K + 1) (s + m0) ++ nseq (K + 1) (s + m1), d ++ d ++ d,
      [seq zipw +%R r key0 | r <- rcons [:: sel0; sel1; sel2]
         (zipw (fun a b => a - b) (zipw +%R (zipw +%R (zipw +%R sel0 sel1) sel2) key1) key0)]),
     Ops (4 + 9 * (#K + 1)) 0).
Proof.
move=> HK [Z0 Z1 Z2] s key0 key1 d; rewrite /and_work.
have K0 : size key0 = K.+1 by apply: ext_size.
have K1 : size key1 = K.+1 by apply: ext_size.
have Sa := size_zipw +%R Z0 Z1; have Sb := size_zipw +%R Sa Z2; have Se := size_zipw +%R Sb K1.
have Sr := size_zipw (fun a b => a - b) Se K0.
have EP : mapw (fun r => zipww (@addw F) r key0) (rcons [:: sel0; sel1; sel2] (zipw (fun a b => a - b) (zipw +%R (zipw +%R (zipw +%R sel0 sel1) sel2) key1) key0)) =
  ([seq zipw +%R r key0 | r <- rcons [:: sel0; sel1; sel2]
         (zipw (fun a b => a - b) (zipw +%R (zipw +%R (zipw +%R sel0 sel1) sel2) key1) key0)], #4 *o (#(K.+1) *o Ops 1 0)).
  apply: (mapw_const (g := fun r => zipw +%R r key0)) => r; rewrite mem_rcons !inE => /or4P [] /eqP ->; by apply: addwE.
etransitivity.
  do_step (ext_label1wE x); do_step (erefl (addw prod (gi_mask x))); do_step (erefl (addw s m0)); do_step (erefl (addw s m1)).
  do_step (subwE K1 K0); do_step (addwE Z0 Z1); do_step (addwE Sa Z2); do_step (addwE Sb K1); do_step (subwE Se K0).
  by do_step EP; reflexivity.
by congr (_, _); rewrite /oplus /oscale /ret /zero_ops; cbn [adds mults fst snd]; apply: ops_eq; clear; lia.
Qed.

Lemma xor_workE K (x : gate_inp F) m0 m1 sel : (forall i, (i < 2)%N -> size (nth [::] (gi_keys x) i) = K) -> size sel = K.+1 ->
  let key0 := ext_label (gi_keys x) (gi_mask x) 0 in let key1 := ext_label (gi_keys x) (gi_mask x) 1 in
  let: (mssg1, mssg2) := (zipw +%R sel key0, zipw +%R sel key1) in
  xor_work K x m0 m1 sel =
    ((nseq (K + 1) (m0 + m1 + gi_mask x), zipw (fun a b => a - b) key1 key0, [:: mssg1; mssg2; mssg2; mssg1]),
     Ops (3 + 3 * (#K + 1)) 0).
Proof.
move=> HK Z0 key0 key1; rewrite /xor_work.
have K0 : size key0 = K.+1 by apply: ext_size.
have K1 : size key1 = K.+1 by apply: ext_size.
etransitivity.
  do_step (ext_label1wE x); do_step (erefl (addw m0 m1)); do_step (erefl (addw (m0 + m1) (gi_mask x))).
  by do_step (subwE K1 K0); do_step (addwE Z0 K1); do_step (addwE Z0 K0); reflexivity.
by congr (_, _); rewrite /oplus /oscale /ret /zero_ops; cbn [adds mults fst snd]; apply: ops_eq; clear; lia.
Qed.

Lemma inv_workE K (x : gate_inp F) m sel : (forall i, (i < 2)%N -> size (nth [::] (gi_keys x) i) = K) -> size sel = K.+1 ->
  let key0 := ext_label (gi_keys x) (gi_mask x) 0 in let key1 := ext_label (gi_keys x) (gi_mask x) 1 in
  let mssg1 := zipw +%R sel key0 in
  inv_work K x m sel =
    ((nseq (K + 1) (m + gi_mask x), zipw (fun a b => a - b) key1 key0, [:: mssg1; zipw +%R (zipw +%R key0 key1) mssg1]),
     Ops (2 + 4 * (#K + 1)) 0).
Proof.
move=> HK Z0 key0 key1 mssg1; rewrite /inv_work.
have K0 : size key0 = K.+1 by apply: ext_size.
have K1 : size key1 = K.+1 by apply: ext_size.
have M1 : size mssg1 = K.+1 := size_zipw +%R Z0 K0.
have KK := size_zipw +%R K0 K1.
etransitivity.
  do_step (ext_label1wE x); do_step (erefl (addw m (gi_mask x))).
  by do_step (subwE K1 K0); do_step (addwE Z0 K0); do_step (addwE K0 K1); do_step (addwE KK M1); reflexivity.
by congr (_, _); rewrite /oplus /oscale /ret /zero_ops; cbn [adds mults fst snd]; apply: ops_eq; clear; lia.
Qed.

End Cost.
