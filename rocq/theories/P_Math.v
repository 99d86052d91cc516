(** Property theorems C07-C10, and the identification of the library's field
    operations with the field used from here on (part of C01). *)

From Coq Require Import NArith.
From mathcomp Require Import all_ssreflect all_algebra zify.
From Verif Require Import GaloisModel GaloisSpec GFField MathModel MathProofs MatProofs.
Set Implicit Arguments.
Unset Strict Implicit.
Unset Printing Implicit Defensive.
Import GRing.Theory.
Local Open Scope ring_scope.

(** ** C01, continued: the table-based operations are those of a mathcomp field *)

Theorem C01_library_operations_are_field_operations : forall (w : width) (g : gstate),
  initialised w g ->
  (forall a b : gf w,
    gf_add (gval a) (gval b) = gval (a + b) /\
    gf_sub (gval a) (gval b) = gval (a - b) /\
    gf_mul g w (gval a) (gval b) = Done (gval (a * b)) /\
    (b != 0 -> gf_div g w (gval a) (gval b) = Done (gval (a / b)))) /\
  (forall i, (i < N.to_nat (2 ^ w)%num)%N -> gf_from g w (N.of_nat i) = Done (gval (gf_of w i))) /\
  #|{: gf w}| = N.to_nat (2 ^ w)%num.
Proof.
  move=> w g HI. split; first move=> a b.
  - split; first exact: bridge_add. split; first exact: bridge_sub.
    split; [exact: (bridge_mul HI)|exact: (bridge_div HI)].
  - split; first exact: bridge_from.
    apply/eqP. rewrite eqn_leq. apply/andP; split.
    + have := @leq_card _ _ (@gf_toord w) (pcan_inj (@gf_toordK w)). by rewrite card_ord.
    + pose f (i : 'I_(N.to_nat (2 ^ w)%num)) := gf_of w i.
      have I : injective f by move=> i j /gf_of_inj E; apply: val_inj; apply: E.
      have := @leq_card _ _ f I. by rewrite card_ord.
Qed.
Print Assumptions C01_library_operations_are_field_operations.

(** ** C07 *)

(** Matrix-vector product, as a sum over coordinates. *)
Definition mat_apply (F : fieldType) (m : mat F) (v : seq F) : seq F :=
  [seq \sum_(j < size v) r`_j * v`_j | r <- rows m].

Lemma dotv_sum (F : fieldType) (r v : seq F) : size r = size v -> dotv r v = \sum_(j < size v) r`_j * v`_j.
Proof.
  elim: v r => [|x v IH] [|y r] //= => [_|[Hs]]; first by rewrite big_ord0.
  rewrite big_ord_recl /= -IH //.
Qed.

Lemma mdot_apply (F : fieldType) (m : mat F) (v : seq F) : all (fun r => size r == size v) (rows m) ->
  mdot m v = mat_apply m v.
Proof. move/allP => H. apply/eq_in_map => r Hr. apply: dotv_sum. exact/eqP/(H r Hr). Qed.

Lemma lagrange_shape (F : fieldType) (cpos npos : seq F) :
  all (fun r => size r == size cpos) (rows (lagrange_coeffs cpos npos)).
Proof.
  rewrite /= all_map. apply/allP => v _ /=. rewrite /lagrange_row. case: ifP => Hv.
  - rewrite size_set_nth size_nseq. apply/eqP/maxn_idPr. by rewrite index_mem.
  - by rewrite size_map size_zip size_map minnn.
Qed.

Theorem C07_lagrange_interpolates : forall (F : fieldType) (cpos npos : seq F) (p : {poly F}),
  uniq cpos -> (size p <= size cpos)%N ->
  let m := lagrange_coeffs cpos npos in
  ncols m = size cpos /\ size (rows m) = size npos /\
  all (fun r => size r == size cpos) (rows m) /\
  mat_apply m [seq p.[x] | x <- cpos] = [seq p.[v] | v <- npos].
Proof.
  move=> F cpos npos p U Hp m. split=> //. split; first by rewrite size_map.
  split; first exact: lagrange_shape.
  rewrite -mdot_apply; last by rewrite size_map; apply: lagrange_shape.
  exact: lagrange_eval.
Qed.
Print Assumptions C07_lagrange_interpolates.

(** No division in [lagrange_coeffs] has a zero divisor. *)
Theorem C07_no_division_by_zero : forall (F : fieldType) (cpos : seq F) (v : F) i,
  uniq cpos -> v \notin cpos -> (i < size cpos)%N ->
  (v - cpos`_i) * (lagrange_denom cpos)`_i != 0.
Proof.
  move=> F cpos v i U Hv Hi. have /allP H := lagrange_no_div0 U Hv.
  apply: (H (cpos`_i, (lagrange_denom cpos)`_i)).
  have L : size cpos = size (lagrange_denom cpos) by rewrite size_map.
  rewrite -(nth_zip 0 0 i L). apply: mem_nth. by rewrite size_zip -L minnn.
Qed.
Print Assumptions C07_no_division_by_zero.

Definition w4 : width := @Width 4%num isT.
Notation e4 i := (gf_of w4 i).

(** Non-vacuity: degree-2 interpolation in GF(16) with one overlapping target. *)
Example C07_example :
  uniq [:: e4 1; e4 2; e4 7] /\ (size ('X^2 + 1 : {poly gf w4})%R <= 3)%N /\
  [seq gval x | x <- mdot (lagrange_coeffs [:: e4 1; e4 2; e4 7] [:: e4 9; e4 2]) [:: e4 0; e4 5; e4 7]]
    = [:: 12; 5]%num.
Proof.
  split; first by vm_compute. split; last by vm_compute.
  by rewrite size_addl ?size_polyXn ?size_poly1.
Qed.

(** ** C08 *)

(** [emb] is the map [GF::from] on the integers used as evaluation points. *)
Definition good_nodes (F : fieldType) (emb : nat -> F) (m : nat) : Prop :=
  uniq [seq emb i | i <- iota 0 m.+1] /\ emb 0%N = 0.

Lemma good_nodes_nodes (F : fieldType) (emb : nat -> F) m : good_nodes emb m ->
  uniq (nodes emb m) /\ 0 \notin nodes emb m.
Proof. by case; rewrite /= => /andP [H1 H2] E; rewrite E in H1. Qed.

(** The library's [GF::from] provides such points as long as they fit in the field. *)
Theorem C08_field_has_enough_points : forall (w : width) m,
  (m < N.to_nat (2 ^ w)%num)%N -> good_nodes (gf_of w) m.
Proof.
  move=> w m Hm. split; last first.
  - apply: gf_inj. rewrite gf_ofE //. exact: (leq_ltn_trans _ Hm).
  - rewrite map_inj_in_uniq ?iota_uniq // => i j. rewrite !mem_iota !add0n !ltnS => Hi Hj.
    apply: gf_of_inj; exact: (leq_ltn_trans _ Hm).
Qed.
Print Assumptions C08_field_has_enough_points.

(** Shape, and: for any [num_out] distinct columns, any fixed values of the
    other inputs and any output vector there is exactly one way of choosing
    the inputs in those columns. *)
Theorem C08_super_invertible : forall (F : fieldType) (emb : nat -> F) num_inp num_out,
  good_nodes emb num_inp -> (0 < num_out <= num_inp)%N ->
  exists S, super_inv_matrix emb num_inp num_out = Some S /\
    ncols S = num_inp /\ size (rows S) = num_out /\
    all (fun r => size r == num_inp) (rows S) /\
    forall (cs : seq nat) (other y : seq F),
      uniq cs -> size cs = num_out -> all (fun j => (j < num_inp)%N) cs ->
      size y = num_out ->
      exists! x : seq F, size x = num_inp /\
        (forall j, (j < num_inp)%N -> j \notin cs -> x`_j = other`_j) /\
        mat_apply S x = y.
Proof.
  move=> F emb m [//|k] /good_nodes_nodes [U N0] /= Hk.
  rewrite super_inv_matrixE. eexists; split; first reflexivity.
  set S := Mat _ _.
  have RS : rows S = [seq [seq x ^+ j.+1 | x <- nodes emb m] | j <- iota 0 k.+1] by [].
  have Sn : size (nodes emb m) = m by rewrite size_map size_iota.
  have AS : all (fun r : seq F => size r == m) (rows S).
  { rewrite RS all_map. apply/allP => j _ /=. by rewrite size_map Sn. }
  split=> //. split; first by rewrite RS size_map size_iota. split; first exact: AS.
  move=> cs other y Uc Sc Ac Sy.
  have Ac' : {in cs, forall j, (j < m)%N} by apply/allP.
  pose nd j := emb j.+1.
  have ndE j : (j < m)%N -> (nodes emb m)`_j = nd j.
  { move=> Hj. by rewrite (nth_map 0%N) ?size_iota // nth_iota. }
  have ndI : {in gtn m &, injective nd}.
  { move=> i j Hi Hj E. apply/eqP. rewrite -(nth_uniq 0 _ _ U) ?Sn //. by rewrite !ndE // E. }
  pose A := [seq nd j | j <- cs].
  have UA : uniq A by rewrite map_inj_in_uniq // => i j Hi Hj; apply: ndI; apply: Ac'.
  have SA : size A = k.+1 by rewrite size_map.
  have A0 : 0 \notin A.
  { apply: contra N0 => /mapP [j Hj ->]. rewrite -ndE ?Ac' //. apply: mem_nth. by rewrite Sn Ac'. }
  (* an output coordinate as a sum over columns *)
  have OUT (x : seq F) i : size x = m -> (i < k.+1)%N -> (mat_apply S x)`_i = \sum_(j <- iota 0 m) nd j ^+ i.+1 * x`_j.
  { move=> Sx Hi. rewrite /mat_apply RS (nth_map [::]) ?size_map ?size_iota //.
    rewrite (nth_map 0%N) ?size_iota // nth_iota // add0n Sx.
    have -> : iota 0 m = index_iota 0 m by rewrite /index_iota subn0. rewrite big_mkord.
    apply: eq_bigr => j _. by rewrite (nth_map 0) ?Sn // ndE. }
  have OUTs (x : seq F) : size (mat_apply S x) = k.+1 by rewrite size_map RS size_map size_iota.
  have SPLIT (f : nat -> F) : \sum_(j <- iota 0 m) f j =
      \sum_(j <- cs) f j + \sum_(j <- iota 0 m | j \notin cs) f j.
  { rewrite (bigID (mem cs)) /=. congr (_ + _). rewrite -big_filter. apply: perm_big.
    apply: uniq_perm => //; first exact: filter_uniq (iota_uniq _ _).
    move=> j. rewrite mem_filter mem_iota add0n leq0n /=.
    by case Hj : (j \in cs) => //; rewrite Ac'. }
  pose y' i := y`_i - \sum_(j <- iota 0 m | j \notin cs) nd j ^+ i.+1 * other`_j.
  pose x := [seq if j \in cs then vsolve A y' (nd j) else other`_j | j <- iota 0 m].
  have Sx : size x = m by rewrite size_map size_iota.
  have xE j : (j < m)%N -> x`_j = if j \in cs then vsolve A y' (nd j) else other`_j.
  { move=> Hj. by rewrite (nth_map 0%N) ?size_iota // nth_iota. }
  exists x. split.
  - split=> //. split; first by move=> j Hj Hn; rewrite xE // (negbTE Hn).
    apply: (@eq_from_nth _ 0); rewrite OUTs ?Sy // => i Hi.
    rewrite OUT // SPLIT.
    have -> : \sum_(j <- cs) nd j ^+ i.+1 * x`_j = \sum_(a <- A) a ^+ i.+1 * vsolve A y' a.
    { rewrite big_map !big_seq. apply: eq_bigr => j Hj. by rewrite xE ?Ac' // Hj. }
    rewrite vsolve_sol ?SA // /y'.
    have -> : \sum_(j <- iota 0 m | j \notin cs) nd j ^+ i.+1 * x`_j =
              \sum_(j <- iota 0 m | j \notin cs) nd j ^+ i.+1 * other`_j.
    { rewrite big_seq_cond [RHS]big_seq_cond. apply: eq_bigr => j /andP [].
      rewrite mem_iota add0n => /andP [_ Hj] Hn. by rewrite xE // (negbTE Hn). }
    by rewrite subrK.
  - move=> x' [Sx' [Ho Hy]].
    apply: (@eq_from_nth _ 0); rewrite Sx ?Sx' // => j Hj.
    case Hc : (j \in cs); last by rewrite xE // Hc Ho // Hc.
    have D : forall a, a \in A ->
       (fun a => vsolve A y' a - x'`_(index a [seq nd j | j <- iota 0 m])) a = 0.
    { apply: vandermonde_inj => // i. rewrite SA => Hi.
      have IX b : (b < m)%N -> index (nd b) [seq nd j | j <- iota 0 m] = b.
      { move=> Hb. have H := @index_uniq _ 0 b [seq nd j | j <- iota 0 m].
        rewrite size_map size_iota (nth_map 0%N) ?size_iota // nth_iota // in H.
        apply: H => //. rewrite map_inj_in_uniq ?iota_uniq // => u v.
        by rewrite !mem_iota !add0n => /andP [_ Hu] /andP [_ Hv]; apply: ndI. }
      have E := OUT x' i Sx' Hi. rewrite Hy SPLIT in E.
      have E2 : \sum_(j0 <- iota 0 m | j0 \notin cs) nd j0 ^+ i.+1 * x'`_j0 =
                \sum_(j0 <- iota 0 m | j0 \notin cs) nd j0 ^+ i.+1 * other`_j0.
      { rewrite big_seq_cond [RHS]big_seq_cond. apply: eq_bigr => b /andP [].
        rewrite mem_iota add0n => /andP [_ Hb] Hn. by rewrite Ho. }
      rewrite E2 in E.
      have E3 : y' i = \sum_(j <- cs) nd j ^+ i.+1 * x'`_j by rewrite /y' E addrK.
      under eq_bigr do rewrite mulrBr. rewrite sumrB vsolve_sol ?SA // E3 big_map.
      apply/eqP. rewrite subr_eq0. apply/eqP. rewrite !big_seq. apply: eq_bigr => b Hb.
      by rewrite IX // Ac'. }
    have := D (nd j) (map_f _ Hc). rewrite xE // Hc => /eqP. rewrite subr_eq0 => /eqP ->.
    congr (nth _ _ _).
    have H := @index_uniq _ 0 j [seq nd j | j <- iota 0 m].
    rewrite size_map size_iota (nth_map 0%N) ?size_iota // nth_iota // in H.
    apply: H => //. rewrite map_inj_in_uniq ?iota_uniq // => u v.
    by rewrite !mem_iota !add0n => /andP [_ Hu] /andP [_ Hv]; apply: ndI.
Qed.
Print Assumptions C08_super_invertible.

Example C08_example : good_nodes (gf_of w4) 5 /\
  super_inv_matrix (gf_of w4) 3 2 <> None /\ uniq [:: 2; 0]%N.
Proof. split; first exact: C08_field_has_enough_points. by rewrite super_inv_matrixE. Qed.

(** ** C09 *)

Theorem C09_reed_solomon_matrix : forall (F : fieldType) (emb : nat -> F) k m,
  (0 < k)%N ->
  exists G, rs_gen_mat emb k m = Some G /\ ncols G = k /\ size (rows G) = m /\
    forall x i, (x < m)%N -> (i < k)%N -> nth 0 (nth [::] (rows G) x) i = emb x.+1 ^+ i.+1.
Proof.
  move=> F emb [//|k] m _. rewrite rs_gen_matE. eexists; split; first reflexivity.
  rewrite [rows _]/=. split=> //. split; first by rewrite !size_map size_iota.
  move=> x i Hx Hi. rewrite (nth_map 0) ?size_map ?size_iota //.
  rewrite -[_ :: _]/([seq _ | j <- iota 0 k.+1]) (nth_map 0%N) ?size_iota // nth_iota //.
  by rewrite (nth_map 0%N) ?size_iota // nth_iota.
Qed.
Print Assumptions C09_reed_solomon_matrix.

(** Distinct messages of length [k] give codewords of length [m] differing in
    at least [m - k + 1] places. *)
Theorem C09_code_distance : forall (F : fieldType) (emb : nat -> F) k m G (u v : seq F),
  good_nodes emb m -> rs_gen_mat emb k m = Some G ->
  size u = k -> size v = k -> u <> v ->
  (m < count (fun x : F * F => x.1 != x.2) (zip (mat_apply G u) (mat_apply G v)) + k)%N.
Proof.
  move=> F emb [//|k] m G u v /good_nodes_nodes [U N0]. rewrite rs_gen_matE => -[<-] Su Sv Huv.
  have AE (z : seq F) : size z = k.+1 ->
    mat_apply (Mat k.+1 [seq [seq x ^+ j.+1 | j <- iota 0 k.+1] | x <- nodes emb m]) z =
    [seq x * (Poly z).[x] | x <- nodes emb m].
  { move=> Sz. rewrite -mdot_apply.
    - rewrite /mdot [rows _]/= -map_comp. apply: eq_map => x /=. exact: rs_row_eval.
    - rewrite [rows _]/= all_map. apply/allP => x _. by rewrite /= size_map size_iota Sz. }
  rewrite !AE //.
  have Pn : Poly u != Poly v.
  { apply: contra_notN Huv => /eqP E. apply: (@eq_from_nth _ 0) => [|i Hi]; first by rewrite Su Sv.
    have := congr1 (fun p : {poly F} => p`_i) E. by rewrite (coef_Poly u) (coef_Poly v). }
  have Sz (z : seq F) : size z = k.+1 -> (size (Poly z) <= k.+1)%N by move=> <-; apply: size_Poly.
  have B := codeword_agree_bound U N0 (Sz u Su) (Sz v Sv) Pn.
  have -> : zip [seq x * (Poly u).[x] | x <- nodes emb m] [seq x * (Poly v).[x] | x <- nodes emb m]
     = [seq (x * (Poly u).[x], x * (Poly v).[x]) | x <- nodes emb m] by rewrite zip_map.
  rewrite count_map.
  have C := count_predC (fun x : F => x * (Poly u).[x] == x * (Poly v).[x]) (nodes emb m).
  rewrite [size _]size_map size_iota in C.
  move: B C. rewrite (eq_count (a2 := preim (fun x : F => (x * (Poly u).[x], x * (Poly v).[x]))
                                     (fun x : F * F => x.1 != x.2)) (fun x => erefl)).
  set b := count _ _. set c := count _ _. lia.
Qed.
Print Assumptions C09_code_distance.

Example C09_example : good_nodes (gf_of w4) 5 /\
  (exists G, rs_gen_mat (gf_of w4) 2 5 = Some G) /\ [:: e4 1; e4 2] <> [:: e4 1; e4 3].
Proof.
  split; first exact: C08_field_has_enough_points. split; first by rewrite rs_gen_matE; eexists.
  move=> H. have := congr1 (fun s : seq (gf w4) => gval (last 0 s)) H. by vm_compute.
Qed.

(** ** C10 *)

Theorem C10_selection_from_instance : forall (T : eqType) (inp out : seq T),
  {subset out <= inp} ->
  exists c, from_instance inp out = Some c /\
    comb_apply c inp = Some out /\
    exists sel : T -> nat, {in inp, forall v, (sel v < size inp)%N /\ forall x0, nth x0 inp (sel v) = v} /\
      forall (U : Type) (u0 : U) (w : seq U), size w = size inp ->
        comb_apply c w = Some [seq nth u0 w (sel v) | v <- out].
Proof.
  move=> T inp out Sub. have A : all (mem inp) out by apply/allP.
  exists [seq sel_of inp v | v <- out]. split; first exact: from_instance_ok.
  have B (U : Type) (w : seq U) : size w = size inp ->
      all (fun i => (i < size w)%N) [seq sel_of inp v | v <- out].
  { move=> Sw. rewrite all_map. apply/allP => v Hv /=. rewrite Sw. by case: (sel_ofP (Sub v Hv)). }
  split.
  - case: inp Sub A B => [|x0 inp] Sub A B.
    + case: out Sub {A B} => // y o /(_ y (mem_head _ _)). by [].
    + rewrite (comb_apply_ok x0) ?B //. congr Some. rewrite -map_comp -[RHS]map_id.
      apply/eq_in_map => v Hv /=. by case: (sel_ofP (Sub v Hv)) => _ ->.
  - exists (sel_of inp). split; first by move=> v Hv; apply: sel_ofP.
    move=> U u0 w Sw. rewrite (comb_apply_ok u0) ?B //. by rewrite -map_comp.
Qed.
Print Assumptions C10_selection_from_instance.

(** A missing element panics. *)
Theorem C10_missing_element_panics : forall (T : eqType) (inp out : seq T) v,
  v \in out -> v \notin inp -> from_instance inp out = None.
Proof.
  move=> T inp out v Ho Hi. apply: from_instance_none. apply/allPn. by exists v.
Qed.
Print Assumptions C10_missing_element_panics.

Example C10_example : from_instance [:: 5; 7; 5]%N [:: 7; 5; 5]%N = Some [:: 1; 2; 2]%N /\
  {subset [:: 7; 5; 5]%N <= [:: 5; 7; 5]%N}.
Proof.
  split; first by []. move=> x. by rewrite !inE => /or3P [] /eqP ->.
Qed.
