(** Counting random coins that explain a view. *)

From mathcomp Require Import all_ssreflect all_algebra zify.
From Verif Require Import MathModel MathProofs SharingModel SharingSpec SharingProofs.
Set Implicit Arguments.
Unset Strict Implicit.
Unset Printing Implicit Defensive.
Import GRing.Theory.
Local Open Scope ring_scope.

Lemma card_prefix (T : finType) (m a : nat) (v : seq T) : (a <= m)%N -> size v = a ->
  #|[set u : m.-tuple T | take a u == v]| = (#|T| ^ (m - a))%N.
Proof.
  move=> Ha Sv.
  have Hg (t : (m - a).-tuple T) : size (v ++ t) == m by rewrite size_cat Sv size_tuple; lia.
  pose g t : m.-tuple T := Tuple (Hg t).
  have Ig : injective g.
  { move=> t t' /(congr1 val) /= /eqP. rewrite eqseq_cat // => /andP [_ /eqP E]. exact: val_inj. }
  rewrite -card_tuple -cardsT -(card_imset _ Ig). congr (#|pred_of_set _|). apply/setP => u.
  rewrite inE. apply/eqP/imsetP => [E|[t _ ->]].
  - have Hd : size (drop a u) == (m - a)%N by rewrite size_drop size_tuple.
    exists (Tuple Hd); first by rewrite inE. apply: val_inj => /=. by rewrite -E cat_take_drop.
  - by rewrite /= take_size_cat.
Qed.

Section Count.
Variable F : finFieldType.
Variable emb : nat -> F.
Variables (n d : nat) (pos : seq F).
Hypothesis U : uniq (pos ++ share_pos emb n).
Hypothesis Hdn : (d.+1 <= n)%N.
Notation l := (size pos).
Hypothesis Hld : (l <= d.+1)%N.
Notation m := (d.+1 - l)%N.

Definition sh_of (s : seq F) (c : seq F) : seq F :=
  odflt [::] (share_using_coeffs s (compute_share_coeffs emb d n pos) l (nth 0 c)).

Lemma sh_ofP (s : seq F) (c : m.-tuple F) : size s = l ->
  exists p : {poly F}, [/\ (size p <= d.+1)%N,
    share_using_coeffs s (compute_share_coeffs emb d n pos) l (nth 0 c) = Some (sh_of s c),
    sh_of s c = [seq p.[emb i] | i <- iota 0 n], evals p pos = s
    & evals p (take m (share_pos emb n)) = c].
Proof.
  move=> Ss. have Sc : size c = m by rewrite size_tuple.
  have [p Hp [E1 E2]] := share_points U Hdn Hld Ss Sc.
  have E : share_using_coeffs s (compute_share_coeffs emb d n pos) l (nth 0 c) =
           Some (evals p (share_pos emb n)).
  { apply: share_of_poly => //.
    - by rewrite E1 Ss subnn /= cats0 -Ss take_size.
    - rewrite E2. symmetry. have M : forall (k : nat) (x : seq F), size x = k -> [seq x`_i | i <- iota 0 k] = x.
      { move=> k x <-. by rewrite map_nth_iota0 // take_size. }
      exact: M. }
  exists p. split=> //; rewrite /sh_of E //= evals_share_pos. by [].
Qed.

Lemma extend (A : seq nat) : uniq A -> all (fun i => (i < n)%N) A -> (size A <= m)%N ->
  exists B, [/\ uniq (A ++ B), all (fun i => (i < n)%N) (A ++ B) & size (A ++ B) = m].
Proof.
  move=> UA AA SA. exists (take (m - size A) [seq i <- iota 0 n | i \notin A]). split.
  - rewrite cat_uniq UA take_uniq ?filter_uniq ?iota_uniq // andbT.
    apply/hasPn => x /mem_take. by rewrite mem_filter => /andP [].
  - rewrite all_cat AA /=. apply/allP => x /mem_take. rewrite mem_filter mem_iota. lia.
  - rewrite size_cat size_takel; first lia. rewrite size_filter.
    have C := count_predC (fun i => i \in A) (iota 0 n). rewrite size_iota in C.
    have LE : (count (fun i => i \in A) (iota 0 n) <= size A)%N.
    { rewrite -size_filter. apply: uniq_leq_size; first by rewrite filter_uniq ?iota_uniq.
      by move=> x; rewrite mem_filter => /andP []. }
    move: C LE. rewrite /predC /=. set a := count _ _. set b := count _ _. move: Hdn. lia.
Qed.

Lemma view_count (s : seq F) (A : seq nat) (v : seq F) : size s = l ->
  uniq A -> all (fun i => (i < n)%N) A -> (size A <= m)%N -> size v = size A ->
  #|[set c : m.-tuple F | [seq (sh_of s c)`_i | i <- A] == v]| = (#|F| ^ (m - size A))%N.
Proof.
  move=> Ss UA AA SA Sv. have [B [UB AB SB]] := extend UA AA SA.
  have Hf (c : m.-tuple F) : size [seq (sh_of s c)`_i | i <- A ++ B] == m by rewrite size_map SB.
  pose f (c : m.-tuple F) : m.-tuple F := Tuple (Hf c).
  have If : injective f.
  { move=> c c' /(congr1 val) /= E.
    have [p [Hp _ Ep Es Ec]] := sh_ofP c Ss. have [q [Hq _ Eq Es' Ec']] := sh_ofP c' Ss.
    have Epq : p = q.
    { have HS : (d.+1 <= l + size (A ++ B))%N by rewrite SB; lia.
      have Eq0 : evals p pos = evals q pos by rewrite Es.
      apply: (poly_from_view U Hdn Hld UB AB HS Hp Hq Eq0).
      have V (P : {poly F}) (h : seq F) : h = [seq P.[emb i] | i <- iota 0 n] ->
           [seq h`_i | i <- A ++ B] = [seq P.[emb i] | i <- A ++ B].
      { move=> ->. apply/eq_in_map => i Hi. have Hin : (i < n)%N by move/allP: AB; apply.
        by rewrite (nth_map 0%N) ?size_iota // nth_iota. }
      by rewrite -(V p _ Ep) -(V q _ Eq). }
    apply: val_inj. by rewrite /= -Ec -Ec' Epq. }
  have Bf : bijective f by apply: injF_bij.
  rewrite -(card_prefix SA Sv) -[RHS](on_card_preimset (f := f)); last by apply: onW_bij.
  congr (#|pred_of_set _|). apply/setP => c. rewrite !inE.
  by rewrite [tval (f c)]/= map_cat take_size_cat ?size_map.
Qed.
End Count.
