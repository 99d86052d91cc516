(** Counting the masks that explain what the leader of a degree reduction sees. *)

From mathcomp Require Import all_ssreflect all_algebra zify.
From Verif Require Import MathModel MathProofs SharingModel SharingSpec SharingProofs PrivacyProofs.
From Verif Require Import MachineModel CoreModel CoreProofs.
Set Implicit Arguments.
Unset Strict Implicit.
Unset Printing Implicit Defensive.
Import GRing.Theory.
Local Open Scope ring_scope.

Section Count.
Variable F : finFieldType.
Variable emb : nat -> F.
Variables (n d : nat) (pos : seq F).
Hypothesis U : good_pos emb n pos.
Hypothesis Hdn : (d.+1 <= n)%N.
Notation l := (size pos).
Hypothesis Hld : (l <= d.+1)%N.

Lemma size_Poly_tuple m (c : m.-tuple F) : (size (Poly c) <= m)%N.
Proof. by apply: (leq_trans (size_Poly _)); rewrite size_tuple. Qed.

Lemma Poly_tuple_inj m (a b : m.-tuple F) : Poly a = Poly b -> a = b.
Proof.
  move=> E. apply: val_inj. apply: (@eq_from_nth _ 0); rewrite ?size_tuple // => i Hi.
  by rewrite -coef_Poly E coef_Poly.
Qed.

(** Polynomials with given values at the positions. *)
Lemma count_given (s : seq F) : size s = l ->
  #|[set c : d.+1.-tuple F | evals (Poly c) pos == s]| = (#|F| ^ (d.+1 - l))%N.
Proof.
  move=> Hs. pose cp := pos ++ take (d.+1 - l) (share_pos emb n).
  have Sc : size cp = d.+1.
  { rewrite size_cat size_takel ?size_share_pos; lia. }
  have Uc : uniq cp.
  { have := take_uniq (d.+1) U. by rewrite take_cat ltnNge Hld. }
  have Hf (c : d.+1.-tuple F) : size (evals (Poly c) cp) == d.+1 by rewrite size_evals Sc.
  pose f (c : d.+1.-tuple F) : d.+1.-tuple F := Tuple (Hf c).
  have If : injective f.
  { move=> a b /(congr1 (@tval _ F)) /= E. apply: Poly_tuple_inj. apply: (poly_agree Uc _ _ E); rewrite Sc; exact: size_Poly_tuple. }
  have Bf : bijective f by apply: injF_bij.
  rewrite -(card_prefix Hld Hs) -[RHS](on_card_preimset (f := f)); last by apply: onW_bij.
  congr (#|pred_of_set _|). apply/setP => c. rewrite !inE.
  by rewrite [tval (f c)]/= evals_cat take_size_cat ?size_evals.
Qed.

(** Masks (a degree-d polynomial and a degree-(n-1) polynomial vanishing at
    the positions) that turn [x] into [v]. *)
Definition explains (x v : seq F) (rz : d.+1.-tuple F * n.-tuple F) : bool :=
  all (root (Poly rz.2)) pos &&
  all (fun i => nth 0 x i + (Poly rz.1).[emb i] + (Poly rz.2).[emb i] == nth 0 v i) (iota 0 n).

Lemma count_explains (x v : seq F) : #|[set rz | explains x v rz]| = (#|F| ^ (d.+1 - l))%N.
Proof.
  have Us : uniq (share_pos emb n) by move: U; rewrite /good_pos cat_uniq => /and3P [].
  have Ss : size (share_pos emb n) = n by rewrite size_share_pos.
  have [|w Hw Ew] := @interp_exists _ (share_pos emb n) [seq nth 0 v i - nth 0 x i | i <- iota 0 n] Us.
  { by rewrite size_map size_iota Ss. }
  rewrite Ss in Hw.
  have Ewi i : (i < n)%N -> w.[emb i] = nth 0 v i - nth 0 x i.
  { move=> Hi. have := congr1 (fun s => nth 0 s i) Ew.
    by rewrite (nth_map 0) ?Ss // !(nth_map 0%N) ?size_iota // nth_iota. }
  pose s := evals w pos.
  rewrite -(@count_given s) ?size_evals //.
  pose g (c : d.+1.-tuple F) : d.+1.-tuple F * n.-tuple F :=
    (c, [tuple (w - Poly c)`_i | i < n]).
  have Hg c : Poly (g c).2 = w - Poly c.
  { apply/polyP => i. rewrite coef_Poly.
    case: (ltnP i n) => Hi; first by rewrite [LHS](nth_mktuple _ _ (Ordinal Hi)).
    rewrite [LHS]nth_default; last by rewrite size_tuple. symmetry. apply: nth_default.
    apply: (leq_trans _ Hi). apply: (leq_trans (size_add _ _)). rewrite size_opp geq_max Hw /=.
    apply: (leq_trans (size_Poly_tuple c)). exact: Hdn. }
  have Ig : injective g by move=> a b [].
  rewrite -(card_imset _ Ig). congr (#|pred_of_set _|). apply/setP => rz. rewrite inE.
  apply/andP/imsetP => [[/allP Hr /allP He]|[c]].
  - have Ez : Poly rz.2 = w - Poly rz.1.
    { apply: (poly_agree Us); rewrite ?Ss ?size_Poly_tuple //.
      - apply: (leq_trans (size_add _ _)). rewrite size_opp geq_max Hw /=.
        apply: (leq_trans (size_Poly_tuple rz.1)). exact: Hdn.
      - rewrite /evals -!map_comp. apply/eq_in_map => i Hi /=. have := eqP (He i Hi).
        move: Hi. rewrite mem_iota /= => Hi. rewrite hornerD hornerN Ewi // => <-.
        by rewrite -[RHS]addrA -opprD [nth 0 x i + _ + _]addrC addrK. }
    exists rz.1.
    + rewrite inE. apply/eqP. rewrite /s /evals. apply/eq_in_map => y Hy.
      have := Hr y Hy. rewrite Ez /root hornerD hornerN subr_eq0 => /eqP. by [].
    + rewrite [LHS]surjective_pairing /g. congr pair. apply: Poly_tuple_inj. exact: (etrans Ez (esym (Hg rz.1))).
  - rewrite inE => /eqP Ec ->. split.
    + apply/allP => y Hy. rewrite Hg /root hornerD hornerN subr_eq0 eq_sym.
      apply/eqP. move: Ec. rewrite /s /evals => /eq_in_map. by apply.
    + apply/allP => i. rewrite mem_iota /= => Hi.
      by rewrite Hg hornerD hornerN Ewi // -[_ - _ - _]addrA -opprD addrC subrK.
Qed.
End Count.
