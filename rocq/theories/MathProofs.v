(** Interpolation and related facts. *)

From mathcomp Require Import all_ssreflect all_algebra zify.
From Verif Require Import MathModel.
Set Implicit Arguments.
Unset Strict Implicit.
Unset Printing Implicit Defensive.
Import GRing.Theory.
Local Open Scope ring_scope.

Section Lagrange.
Variable F : fieldType.
Implicit Types (p q : {poly F}) (cpos npos : seq F).

Lemma prodlE (s : seq F) : prodl s = \prod_(x <- s) x.
Proof. by elim: s => [|x s IH]; rewrite ?big_nil // big_cons -IH. Qed.

Lemma sumlE (s : seq F) : suml s = \sum_(x <- s) x.
Proof. by elim: s => [|x s IH]; rewrite ?big_nil // big_cons -IH. Qed.

Lemma suml_map (T : Type) (f : T -> F) (s : seq T) : suml [seq f x | x <- s] = \sum_(x <- s) f x.
Proof. by rewrite sumlE big_map. Qed.

Definition evals p cpos : seq F := [seq p.[x] | x <- cpos].

Lemma size_evals p c : size (evals p c) = size c.
Proof. by rewrite size_map. Qed.

Lemma evalsD p q c : evals (p + q) c = [seq x.1 + x.2 | x <- zip (evals p c) (evals q c)].
Proof. by elim: c => //= x c ->; rewrite hornerD. Qed.

(** Two polynomials of small degree that agree on enough points are equal. *)
Lemma poly_agree p q cpos : uniq cpos -> (size p <= size cpos)%N -> (size q <= size cpos)%N ->
  evals p cpos = evals q cpos -> p = q.
Proof.
  move=> U Hp Hq E. apply/eqP. rewrite -subr_eq0. apply/negPn/negP => H.
  have R : all (root (p - q)) cpos.
  { apply/allP => x Hx. rewrite rootE hornerD hornerN subr_eq0. apply/eqP.
    have := congr1 (fun s => nth 0 s (index x cpos)) E.
    by rewrite !(nth_map 0) ?index_mem // nth_index. }
  have := max_poly_roots H R U. rewrite ltnNge.
  rewrite (leq_trans (size_add _ _)) // size_opp geq_max. by rewrite Hp Hq.
Qed.

Definition lden cpos (v : F) : F := \prod_(x <- cpos | x != v) (v - x).
Definition lbasis cpos (v : F) : {poly F} := \prod_(x <- cpos | x != v) ('X - x%:P).
Definition interp cpos (f : F -> F) : {poly F} :=
  \sum_(c <- cpos) (f c / lden cpos c) *: lbasis cpos c.

Lemma lden_neq0 cpos v : lden cpos v != 0.
Proof.
  rewrite /lden prodf_seq_neq0. apply/allP => x _ /=. apply/implyP => H.
  by rewrite subr_eq0 eq_sym.
Qed.

Lemma lbasis_eval cpos v y : (lbasis cpos v).[y] = \prod_(x <- cpos | x != v) (y - x).
Proof.
  rewrite /lbasis horner_prod. by apply: eq_bigr => x _; rewrite hornerXsubC.
Qed.

Lemma lbasis_self cpos v : (lbasis cpos v).[v] = lden cpos v.
Proof. exact: lbasis_eval. Qed.

Lemma lbasis_other cpos v y : y \in cpos -> y != v -> (lbasis cpos v).[y] = 0.
Proof.
  move=> Hy Hn. rewrite lbasis_eval. apply/eqP. rewrite prodf_seq_eq0. apply/hasP.
  exists y => //. by rewrite Hn subrr eqxx.
Qed.

Lemma lbasis_size cpos v : uniq cpos -> v \in cpos -> size (lbasis cpos v) = size cpos.
Proof.
  move=> U Hv. rewrite /lbasis -big_filter size_prod_XsubC -rem_filter //.
  rewrite size_rem // prednK //. by case: (cpos) Hv.
Qed.

Lemma interp_size cpos f : uniq cpos -> (size (interp cpos f) <= size cpos)%N.
Proof.
  move=> U. rewrite /interp big_seq.
  elim/big_rec: _ => [|c p Hc IH]; first by rewrite size_poly0.
  apply: (leq_trans (size_add _ _)). rewrite geq_max IH andbT.
  apply: (leq_trans (size_scale_leq _ _)). by rewrite lbasis_size.
Qed.

Lemma interp_eval cpos f x : uniq cpos -> x \in cpos -> (interp cpos f).[x] = f x.
Proof.
  move=> U Hx. rewrite /interp horner_sum (bigD1_seq x) //= hornerZ lbasis_self.
  rewrite mulfVK ?lden_neq0 // big1_seq ?addr0 // => c /andP [Hc1 Hc2].
  by rewrite hornerZ lbasis_other ?mulr0 // eq_sym.
Qed.

Lemma interp_self p cpos : uniq cpos -> (size p <= size cpos)%N -> interp cpos (horner p) = p.
Proof.
  move=> U Hp. apply: (poly_agree U _ Hp); first exact: interp_size.
  apply/eq_in_map => x Hx. exact: interp_eval.
Qed.

(** Values at distinct points, as values of a polynomial. *)
Lemma interp_exists cpos (vs : seq F) : uniq cpos -> size vs = size cpos ->
  exists2 p : {poly F}, (size p <= size cpos)%N & evals p cpos = vs.
Proof.
  move=> U Hs. exists (interp cpos (fun x => nth 0 vs (index x cpos))); first exact: interp_size.
  apply: (@eq_from_nth _ 0); rewrite size_evals // => i Hi.
  by rewrite (nth_map 0) // interp_eval ?mem_nth // index_uniq.
Qed.

Lemma lagrange_denomE cpos : lagrange_denom cpos = [seq lden cpos v | v <- cpos].
Proof.
  apply/eq_in_map => v _. rewrite prodlE big_map /lden [RHS]big_mkcond.
  apply: eq_bigr => x _. rewrite eq_sym. by case: eqP.
Qed.

Lemma num_factor cpos v c : v \notin cpos -> uniq cpos -> c \in cpos ->
  \prod_(x <- cpos) (v - x) = (v - c) * \prod_(x <- cpos | x != c) (v - x).
Proof. by move=> Hv U Hc; rewrite (bigD1_seq c). Qed.

Lemma neq_notin cpos (v c : F) : v \notin cpos -> c \in cpos -> v - c != 0.
Proof. move=> Hv Hc. rewrite subr_eq0. apply: contraNneq Hv => ->. exact: Hc. Qed.

Lemma dotv_map2 (T : Type) (f g : T -> F) (s : seq T) :
  dotv [seq f x | x <- s] [seq g x | x <- s] = \sum_(x <- s) f x * g x.
Proof.
  rewrite /dotv zip_map -map_comp suml_map. by apply: eq_bigr.
Qed.

Lemma dotv_unit (i n : nat) (v : seq F) : size v = n -> (i < n)%N ->
  dotv (set_nth 0 (nseq n 0) i 1) v = nth 0 v i.
Proof.
  elim: n i v => [|n IH] i [|x v] //= [Hs] Hi. case: i Hi => [|i] Hi.
  - rewrite /dotv /= mul1r. have -> : suml [seq y.1 * y.2 | y <- zip (nseq n 0) v] = 0.
    { move: Hs. elim: (n) v {IH Hi} => [|k IHk] [|z v] //= [Hz]. by rewrite mul0r add0r IHk. }
    by rewrite addr0.
  - rewrite /dotv /= mul0r add0r. exact: IH.
Qed.

(** The main fact about [lagrange_coeffs]. *)
Lemma lagrange_row_eval cpos p v : uniq cpos -> (size p <= size cpos)%N ->
  dotv (lagrange_row cpos (lagrange_denom cpos) v) (evals p cpos) = p.[v].
Proof.
  move=> U Hp. rewrite /lagrange_row. case: ifP => Hv.
  - rewrite dotv_unit ?size_evals ?index_mem //. by rewrite (nth_map 0) ?index_mem // nth_index.
  - move/negbT: Hv => Hv. rewrite lagrange_denomE.
    have -> : zip cpos [seq lden cpos v0 | v0 <- cpos] = [seq (c, lden cpos c) | c <- cpos].
    { by elim: (cpos) {2 4}cpos => [|c s IH] s' //=; rewrite IH. }
    rewrite -map_comp dotv_map2 -{2}(interp_self U Hp) /interp horner_sum.
    rewrite !big_seq. apply: eq_bigr => c Hc /=.
    rewrite hornerZ lbasis_eval prodlE big_map (num_factor Hv U Hc).
    set A := \prod_(x <- cpos | x != c) _.
    rewrite invfM [(v - c) * A]mulrC -!mulrA mulVKf ?(neq_notin Hv Hc) //.
    rewrite [A * _]mulrC -!mulrA. rewrite [RHS]mulrC -!mulrA. congr (_ * _). exact: mulrC.
Qed.

Lemma lagrange_eval cpos npos p : uniq cpos -> (size p <= size cpos)%N ->
  mdot (lagrange_coeffs cpos npos) (evals p cpos) = evals p npos.
Proof.
  move=> U Hp. rewrite /mdot /= -map_comp. apply: eq_map => v /=. exact: lagrange_row_eval.
Qed.

Lemma lagrange_no_div0 cpos v : uniq cpos -> v \notin cpos ->
  all (fun xd : F * F => (v - xd.1) * xd.2 != 0) (zip cpos (lagrange_denom cpos)).
Proof.
  move=> U Hv. rewrite lagrange_denomE. apply/allP => -[c d] H.
  have [Hc Hd] : c \in cpos /\ exists2 c', c' \in cpos & d = lden cpos c'.
  { have L : size cpos = size [seq lden cpos v0 | v0 <- cpos] by rewrite size_map.
    have M1 : c \in unzip1 (zip cpos [seq lden cpos v0 | v0 <- cpos]) by apply: (map_f fst H).
    have M2 : d \in unzip2 (zip cpos [seq lden cpos v0 | v0 <- cpos]) by apply: (map_f snd H).
    rewrite unzip1_zip ?L // in M1. rewrite unzip2_zip ?L // in M2.
    split=> //. by move/mapP: M2. }
  case: Hd => c' _ ->. by rewrite mulf_neq0 ?lden_neq0 //= (neq_notin Hv Hc).
Qed.

End Lagrange.
