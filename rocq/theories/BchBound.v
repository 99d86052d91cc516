(** The distance of BCH codes: a word whose sums of powers vanish has many
    ones. *)

From mathcomp Require Import all_ssreflect all_algebra zify.
Set Implicit Arguments.
Unset Strict Implicit.
Unset Printing Implicit Defensive.
Import GRing.Theory.
Local Open Scope ring_scope.

Lemma bch_bound (L : fieldType) (X : nat -> L) n t (w : nat -> bool) :
  (forall i j, (i < n)%N -> (j < n)%N -> X i = X j -> i = j) -> (forall i, (i < n)%N -> X i != 0) ->
  (forall j, (0 < j <= t)%N -> \sum_(b < n) (if w b then X b ^+ j else 0) = 0) ->
  (exists2 b, (b < n)%N & w b) -> (t < seq.count w (iota 0 n))%N.
Proof.
  move=> HX X0 Hs [b0 Hb0 Wb0]. rewrite ltnNge. apply/negP => Hc.
  pose S := [seq i <- iota 0 n | w i]. have Hb0S : b0 \in S by rewrite mem_filter Wb0 mem_iota.
  have US : uniq S by rewrite filter_uniq // iota_uniq.
  have Ssize : size S = seq.count w (iota 0 n) by rewrite size_filter.
  have S0 : (0 < size S)%N by case: (S) Hb0S.
  pose rs := [seq X i | i <- rem b0 S]. pose h := \prod_(a <- rs) ('X - a%:P).
  have Sh : size h = size S by rewrite /h size_prod_XsubC /rs size_map size_rem // prednK.
  have Rh i : (i < n)%N -> w i -> root h (X i) = (i != b0).
  { move=> Hi Wi. rewrite root_prod_XsubC. apply/mapP/idP => [[i' Hi' E]|Ne].
    - have : i' \in S := mem_rem Hi'. rewrite mem_filter mem_iota => /andP [_ /= Hn']. move: Hi'. rewrite (HX _ _ Hi Hn' E).
      by rewrite (mem_rem_uniq _ US) inE => /andP [].
    - exists i => //. by rewrite (mem_rem_uniq _ US) inE Ne; apply: (etrans (mem_filter _ _ _)); rewrite Wi mem_iota. }
  have E1 : \sum_(b < n) (if w b then X b * h.[X b] else 0) = X b0 * h.[X b0].
  { rewrite (bigD1 (Ordinal Hb0)) //= Wb0 big1 ?addr0 // => b Nb. case: ifP => // Wb.
    have : root h (X b) by rewrite Rh. by rewrite rootE => /eqP ->; rewrite mulr0. }
  have E2 : \sum_(b < n) (if w b then X b * h.[X b] else 0) = 0.
  { rewrite (eq_bigr (fun b : 'I_n => \sum_(j < size h) h`_j * (if w b then X b ^+ j.+1 else 0))) => [|b _]; last first.
    - case: (w b); last by rewrite big1 // => j _; rewrite mulr0.
      rewrite horner_coef mulr_sumr. apply: eq_bigr => j _. by rewrite exprS mulrCA.
    - rewrite exchange_big big1 // => j _ /=. rewrite -mulr_sumr Hs ?mulr0 //=. apply: leq_trans (ltn_ord j) _. by rewrite Sh Ssize. }
  move: E2. rewrite E1 => /eqP. rewrite mulf_eq0 (negbTE (X0 _ Hb0)) /= -rootE Rh // eqxx. by [].
Qed.
