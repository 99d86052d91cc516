(** Proofs about [PreProc::dummy]. *)

From Coq Require Import NArith.
From mathcomp Require Import all_ssreflect all_algebra zify.
From Verif Require Import MathModel MathProofs MatProofs SharingModel SharingSpec SharingProofs.
From Verif Require Import CoreModel CoreSpec CoreProofs PreprocModel PreprocSpec PreprocProofs.
Set Implicit Arguments.
Unset Strict Implicit.
Unset Printing Implicit Defensive.
Import GRing.Theory.
Local Open Scope ring_scope.

Section Fill.
Variables (G A : Type) (gen : G -> A * G).

Lemma size_fill_row c g : size (fill_row gen c g).1 = c.
Proof.
  elim: c g => //= c IH g. case: (gen g) => a g1. have := IH g1. case: (fill_row gen c g1) => s g2 /= ->. by [].
Qed.

Lemma fill_shape r c g : size (fill gen r c g).1 = r /\ forall x, List.In x (fill gen r c g).1 -> size x = c.
Proof.
  elim: r g => //= r IH g. have := size_fill_row c g. case: (fill_row gen c g) => a g1 /= Ha.
  have := IH g1. case: (fill gen r c g1) => s g2 /= [-> H]. split=> // x [<-//|]. exact: H.
Qed.
End Fill.

Section Pool.
Variable F : fieldType.
Variable emb : nat -> F.
Variables (n l : nat).
Notation pos := (default_pos emb n l).
Hypothesis Hg : good_pos emb n pos.

(** Interpolating columns through the first [k] points. *)
Lemma pool_held k ps (inp : seq (seq F)) : (k <= l + n)%N -> size inp = k ->
  exists p : nat -> {poly F}, [/\ forall j, (size (p j) <= k)%N,
    forall j q, (q < k)%N -> (p j).[nth 0 (pos ++ share_pos emb n) q] = nth 0 (nth [::] inp q) j &
    forall i, (i < n)%N ->
      pool (lagrange_coeffs (take k (pos ++ share_pos emb n)) [:: nth 0 (share_pos emb n) i]) ps inp =
      Some (held emb p ps i)].
Proof.
  move=> Hk Hi. set C := take k (pos ++ share_pos emb n).
  have UC : uniq C by apply: take_uniq.
  have SC : size C = k by rewrite size_takel // size_cat size_share_pos size_map size_iota.
  pose p j := interp C (fun x => nth 0 (nth [::] inp (index x C)) j).
  have Hp j : (size (p j) <= k)%N by rewrite -SC; apply: interp_size.
  have Ep j q : (q < k)%N -> (p j).[nth 0 C q] = nth 0 (nth [::] inp q) j.
  { move=> Hq. rewrite /p interp_eval ?mem_nth ?SC //. by rewrite index_uniq ?SC. }
  exists p. split=> //.
  - move=> j q Hq. by rewrite -Ep // nth_take.
  - move=> i Hn. rewrite /pool [ncols _]/= SC Hi eqxx. congr Some.
    rewrite /mmul /= cats0. apply: eq_map => j.
    have -> : col j inp = evals (p j) C.
    { apply: (@eq_from_nth _ 0); first by rewrite size_map size_evals Hi SC.
      move=> q. rewrite size_map Hi => Hq. rewrite /col (nth_map [::]) ?Hi // /evals (nth_map 0) ?SC //. by rewrite Ep. }
    have := @lagrange_eval _ C [:: nth 0 (share_pos emb n) i] (p j) UC. rewrite SC => /(_ (Hp j)).
    rewrite /mdot /= => -[->]. by rewrite /share_pos (nth_map 0%N) ?size_iota // nth_iota.
Qed.

Lemma cycled_held (p : nat -> {poly F}) ps off num i : (0 < ps)%N ->
  cycled (held emb p ps i) off num = held emb (fun j => p ((off + j) %% ps)%N) num i.
Proof.
  move=> Hps. rewrite /cycled [in LHS]/held size_map size_iota. apply: eq_map => j.
  by rewrite (nth_map 0%N) ?size_iota ?ltn_mod // nth_iota ?ltn_mod.
Qed.
End Pool.
