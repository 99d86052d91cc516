(** Reed-Solomon and super-invertible matrices; selections. *)

From mathcomp Require Import all_ssreflect all_algebra zify.
From Verif Require Import MathModel MathProofs.
Set Implicit Arguments.
Unset Strict Implicit.
Unset Printing Implicit Defensive.
Import GRing.Theory.
Local Open Scope ring_scope.

Section RS.
Variable F : fieldType.
Variable emb : nat -> F.

Definition powcol (col : seq F) (i : nat) : seq F := [seq x ^+ i.+1 | x <- col].

Lemma rs_loopE col k i :
  rs_loop col k i [seq powcol col j | j <- iota 0 i.+1] = [seq powcol col j | j <- iota 0 (i.+1 + k)].
Proof.
  elim: k i => [|k IH] i; first by rewrite addn0.
  rewrite -[(i.+1 + k.+1)%N]addSnnS -IH [LHS]/=. congr rs_loop.
  have -> : nth [::] (powcol col 0 :: [seq powcol col j | j <- iota 1 i]) i = powcol col i.
  { have := @nth_map _ 0%N _ [::] (powcol col) i (iota 0 i.+1).
    rewrite size_iota nth_iota // add0n => -> //. }
  have -> : [seq x.1 * x.2 | x <- zip col (powcol col i)] = powcol col i.+1.
  { rewrite /powcol. elim: col {IH} => //= x c ->. by rewrite -exprS. }
  by rewrite -[in RHS](addn1 i.+1) iotaD map_cat cats1.
Qed.

Definition nodes (m : nat) : seq F := [seq emb i | i <- iota 1 m].

Lemma rs_colsE k m : rs_loop (nodes m) k 0 [:: nodes m] = [seq powcol (nodes m) j | j <- iota 0 k.+1].
Proof.
  rewrite -[k.+1]/(1 + k)%N -rs_loopE. congr rs_loop. rewrite /= /powcol.
  congr (_ :: _). by rewrite -[LHS]map_id; apply: eq_map => x; rewrite expr1.
Qed.

Lemma rs_gen_matE k m : rs_gen_mat emb k.+1 m =
  Some (Mat k.+1 [seq [seq x ^+ j.+1 | j <- iota 0 k.+1] | x <- nodes m]).
Proof.
  rewrite /rs_gen_mat -/(nodes m) rs_colsE size_map size_iota. congr Some. congr Mat.
  rewrite /nodes.
  have -> : [seq [seq x ^+ j.+1 | j <- iota 0 k.+1] | x <- [seq emb i | i <- iota 1 m]] =
            [seq [seq emb i.+1 ^+ j.+1 | j <- iota 0 k.+1] | i <- iota 0 m].
  { by rewrite -map_comp (iotaDl 1 0) -map_comp. }
  apply/eq_in_map => i. rewrite mem_iota add0n => /andP [_ Hi].
  rewrite -[LHS]map_comp. apply: eq_map => j /=.
  rewrite /powcol (nth_map 0) ?size_map ?size_iota //.
  by rewrite (nth_map 0%N) ?size_iota // nth_iota.
Qed.

Lemma super_inv_matrixE k m : super_inv_matrix emb m k.+1 =
  Some (Mat m [seq [seq x ^+ j.+1 | x <- nodes m] | j <- iota 0 k.+1]).
Proof.
  rewrite /super_inv_matrix rs_gen_matE /= /reversed_axes /= size_map size_map size_iota.
  congr Some. congr Mat.
  change (0%N :: iota 1 k) with (iota 0 k.+1).
  have -> : [seq nth 0 r 0 | r <- [seq x ^+ 1 :: [seq x ^+ j.+1 | j <- iota 1 k] | x <- nodes m]]
            :: [seq [seq nth 0 r j | r <- [seq x ^+ 1 :: [seq x ^+ j0.+1 | j0 <- iota 1 k] | x <- nodes m]]
               | j <- iota 1 k] =
            [seq [seq nth 0 r j | r <- [seq [seq x ^+ j0.+1 | j0 <- iota 0 k.+1] | x <- nodes m]]
               | j <- iota 0 k.+1] by [].
  apply/eq_in_map => j. rewrite mem_iota add0n => /andP [_ Hj].
  rewrite -map_comp. apply: eq_map => x /=.
  have -> : x ^+ 1 :: [seq x ^+ j0.+1 | j0 <- iota 1 k] = [seq x ^+ j0.+1 | j0 <- iota 0 k.+1] by [].
  by rewrite (nth_map 0%N) ?size_iota // nth_iota.
Qed.

(** ** Code distance *)

Lemma rs_row_eval k x (msg : seq F) : size msg = k.+1 ->
  dotv [seq x ^+ j.+1 | j <- iota 0 k.+1] msg = x * (Poly msg).[x].
Proof.
  move=> Hs. rewrite horner_Poly.
  have G : forall (s : seq F) e, dotv [seq x ^+ j.+1 | j <- iota e (size s)] s = x ^+ e.+1 * horner_rec s x.
  { elim=> [|a s IH] e /=; first by rewrite /dotv /= mulr0.
    have -> : dotv (x ^+ e.+1 :: [seq x ^+ j.+1 | j <- iota e.+1 (size s)]) (a :: s) =
              x ^+ e.+1 * a + dotv [seq x ^+ j.+1 | j <- iota e.+1 (size s)] s by [].
    rewrite IH mulrDr addrC. congr (_ + _). by rewrite exprSr -!mulrA [x * _]mulrC. }
  by rewrite -Hs G expr1.
Qed.

Lemma codeword_agree_bound (c : seq F) (p q : {poly F}) k : uniq c -> 0 \notin c ->
  (size p <= k)%N -> (size q <= k)%N -> p != q ->
  (count (fun x : F => (x * p.[x] == x * q.[x])%R) c < k)%N.
Proof.
  move=> U H0 Hp Hq Hpq. rewrite -size_filter.
  have Hn : p - q != 0 by rewrite subr_eq0.
  have R : all (root (p - q)) [seq x <- c | x * p.[x] == x * q.[x]].
  { apply/allP => x. rewrite mem_filter => /andP [/eqP E Hx].
    rewrite rootE hornerD hornerN subr_eq0. apply/eqP.
    have Hx0 : x != 0 by apply: contraNneq H0 => <-.
    exact: (mulfI Hx0). }
  apply: (leq_trans (max_poly_roots Hn R (filter_uniq _ U))).
  apply: (leq_trans (size_add _ _)). by rewrite size_opp geq_max Hp Hq.
Qed.

(** ** Super-invertibility *)

(** Transposed Vandermonde system on distinct nonzero nodes. *)
Definition vsolve (A : seq F) (y : nat -> F) (a : F) : F :=
  (a * lden A a)^-1 * \sum_(i < size A) (lbasis A a)`_i * y i.

Lemma vsolve_sol A y i : uniq A -> 0 \notin A -> (i < size A)%N ->
  \sum_(a <- A) a ^+ i.+1 * vsolve A y a = y i.
Proof.
  move=> U H0 Hi.
  have E : \sum_(a <- A) a ^+ i.+1 * vsolve A y a =
           \sum_(e < size A) (interp A (horner 'X^i))`_e * y e.
  { transitivity (\sum_(a <- A) \sum_(e < size A) ((a ^+ i / lden A a) *: lbasis A a)`_e * y e).
    - rewrite !big_seq. apply: eq_bigr => a Ha. rewrite /vsolve mulr_sumr mulr_sumr.
      apply: eq_bigr => e _. rewrite coefZ.
      have Ha0 : a != 0 by apply: contraNneq H0 => <-.
      rewrite invfM exprSr !mulrA. rewrite -[_ * a * a^-1]mulrA divff // mulr1. by [].
    - rewrite exchange_big /=. apply: eq_bigr => e _. rewrite -mulr_suml. congr (_ * _).
      rewrite /interp coef_sum. apply: eq_bigr => a _. by rewrite hornerXn. }
  rewrite E interp_self // ?size_polyXn // (bigD1 (Ordinal Hi)) //=.
  rewrite coefXn eqxx mul1r big1 ?addr0 // => e He. rewrite coefXn.
  have -> : (e == i :> nat) = false by apply: negbTE; apply: contra He => /eqP H; apply/eqP/val_inj.
  by rewrite mul0r.
Qed.

Lemma vandermonde_inj A (d : F -> F) : uniq A -> 0 \notin A ->
  (forall i, (i < size A)%N -> \sum_(a <- A) a ^+ i.+1 * d a = 0) ->
  forall a, a \in A -> d a = 0.
Proof.
  move=> U H0 H b Hb.
  have G : forall p : {poly F}, (size p <= size A)%N -> \sum_(a <- A) a * p.[a] * d a = 0.
  { move=> p Hp.
    transitivity (\sum_(i < size A) p`_i * \sum_(a <- A) a ^+ i.+1 * d a); last first.
    { apply: big1 => i _. by rewrite H // mulr0. }
    have Q : forall i : 'I_(size A), (p`_i * (\sum_(a <- A) a ^+ i.+1 * d a) =
               \sum_(a <- A) p`_i * (a ^+ i.+1 * d a))%R by move=> i; rewrite mulr_sumr.
    rewrite (eq_bigr _ (fun i _ => Q i)) exchange_big /=. apply: eq_bigr => a _.
    rewrite (horner_coef_wide _ Hp) mulr_sumr mulr_suml. apply: eq_bigr => i _.
    by rewrite exprS !mulrA [a * p`_i]mulrC. }
  have := G (lbasis A b). rewrite lbasis_size // leqnn => /(_ isT).
  rewrite (bigD1_seq b) //= big1_seq ?addr0.
  - rewrite lbasis_self => /eqP. rewrite !mulf_eq0 (negbTE (lden_neq0 _ _)) orbF.
    have -> : (b == 0) = false by apply/negbTE; apply: contraNneq H0 => <-.
    by move=> /eqP.
  - move=> a /andP [Hab Ha]. by rewrite lbasis_other // mulr0 mul0r.
Qed.

End RS.

(** ** Selections *)
Section Comb.
Variable T : eqType.

Lemma last_index_fromP i v (inp : seq T) :
  if last_index_from i v inp is Some j
  then exists2 k, j = (i + k)%N & (k < size inp)%N /\ forall x0, nth x0 inp k = v
  else v \notin inp.
Proof.
  elim: inp i => [|x inp IH] i //=. have := IH i.+1.
  case: (last_index_from i.+1 v inp) => [j [k -> [Hk Hn]]|Hnot].
  - exists k.+1; first by rewrite addSnnS. by split.
  - case: eqP => [->|Hx].
    + exists 0%N; first by rewrite addn0. by [].
    + rewrite in_cons negb_or Hnot andbT. by apply/eqP => E; apply: Hx.
Qed.

Lemma all_some_map (A B : Type) (f : A -> option B) (g : A -> B) (s : seq A) :
  (forall x, f x = Some (g x)) -> all_some [seq f x | x <- s] = Some [seq g x | x <- s].
Proof. move=> H. by elim: s => //= x s ->; rewrite H. Qed.

Lemma all_some_map_in (A : eqType) (B : Type) (f : A -> option B) (g : A -> B) (s : seq A) :
  (forall x, x \in s -> f x = Some (g x)) -> all_some [seq f x | x <- s] = Some [seq g x | x <- s].
Proof.
  elim: s => //= x s IH H. rewrite H ?mem_head // IH // => y Hy. apply: H. by rewrite in_cons Hy orbT.
Qed.

Lemma all_some_none (A : eqType) (B : Type) (f : A -> option B) (s : seq A) x :
  x \in s -> f x = None -> all_some [seq f x | x <- s] = None.
Proof.
  elim: s => //= y s IH. rewrite in_cons => /orP [/eqP <- ->//|Hx Hf]. by rewrite IH //; case: (f y).
Qed.

Definition sel_of (inp : seq T) (v : T) : nat := odflt 0%N (last_index_from 0 v inp).

Lemma from_instance_ok (inp out : seq T) : all (mem inp) out ->
  from_instance inp out = Some [seq sel_of inp v | v <- out].
Proof.
  move/allP => H. apply: all_some_map_in => v Hv. rewrite /sel_of.
  have := last_index_fromP 0 v inp. case: last_index_from => //. have Hin : v \in inp by apply: (H v Hv).
  by rewrite Hin.
Qed.

Lemma from_instance_none (inp out : seq T) : ~~ all (mem inp) out -> from_instance inp out = None.
Proof.
  case/allPn => v Hv Hn. apply: (all_some_none Hv).
  have := last_index_fromP 0 v inp. case: last_index_from => // j [k _ [Hk Hx]].
  exfalso. move/negP: Hn; apply. rewrite -(Hx v). exact: mem_nth.
Qed.

Lemma sel_ofP inp v : v \in inp -> (sel_of inp v < size inp)%N /\ forall x0, nth x0 inp (sel_of inp v) = v.
Proof.
  move=> Hv. rewrite /sel_of. have := last_index_fromP 0 v inp.
  case: last_index_from => [j [k -> [Hk Hx]]|]; last by rewrite Hv. by [].
Qed.

Lemma drop_nth (U : Type) (w : seq U) i x0 : (i < size w)%N ->
  (if drop i w is x :: _ then Some x else None) = Some (nth x0 w i).
Proof. move=> Hi. by rewrite (drop_nth x0 Hi). Qed.

Lemma comb_apply_ok (U : Type) (u0 : U) c (w : seq U) : all (fun i => (i < size w)%N) c ->
  comb_apply c w = Some [seq nth u0 w i | i <- c].
Proof. move/allP => H. apply: all_some_map_in => i Hi. apply: drop_nth. exact: H. Qed.

Lemma comb_apply_none (U : Type) c (w : seq U) : ~~ all (fun i => (i < size w)%N) c ->
  comb_apply c w = None.
Proof.
  case/allPn => i Hi Hn. apply: (all_some_none Hi). rewrite drop_oversize //. by rewrite leqNgt.
Qed.
End Comb.
