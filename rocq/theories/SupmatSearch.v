(** The search of gen_binary_supmat.py. *)

From Coq Require Import NArith Lia.
From mathcomp Require Import ssreflect ssrfun ssrbool eqtype ssrnat seq.
From Verif Require Import SupmatScriptModel.
Set Implicit Arguments.
Unset Strict Implicit.
Unset Printing Implicit Defensive.
Local Open Scope N_scope.

(** Inner code [t] of length [2^m], and an outer code of length [n] and
    distance [d], for [np] parties of whom one in [T] may be corrupt. *)
Definition feasible (np T m t n d : N) : Prop :=
  1 <= m <= 10 /\ 1 <= t /\ 1 + m * t < 2 ^ m - 1 /\ np <= n * 2 ^ m < np + 2 ^ m /\ n <= 2 ^ (2 ^ m - 1 - m * t) /\
  n * 2 ^ m <= T * (2 * t + 2) * d /\ d <= n.

Lemma ceil_div a b : 0 < b -> a <= (a + b - 1) / b * b < a + b.
Proof. move=> Hb. have := N.mul_div_le (a + b - 1) b ltac:(lia). have := N.mul_succ_div_gt (a + b - 1) b ltac:(lia). lia. Qed.

Section Search.
Variables (np T : N).
Hypotheses (Hnp : 0 < np) (HT : 0 < T).

Definition found (c : codes) : Prop := exists m t, c_nbin c = 2 ^ m /\ c_kbin c = 2 ^ m - 1 - m * t /\ c_dbin c = 2 * t + 2 /\
  feasible np T m t (c_nrs c) (c_drs c) /\ c_krs c + c_drs c = c_nrs c + 1 /\ T * c_dbin c * (c_drs c - 1) < c_nrs c * c_nbin c.
Definition fine (b : option codes * N) : Prop := if b.1 is Some c then found c /\ b.2 = c_krs c * c_kbin c else b.2 = 0.

Lemma check_rsP m t : 1 <= m <= 10 -> 1 <= t -> 1 + m * t < 2 ^ m - 1 ->
  if check_rs np T (2 ^ m) (2 ^ m - 1 - m * t) (2 * t + 2) is Some (n, k, d) then
    [/\ feasible np T m t n d, k + d = n + 1, T * (2 * t + 2) * (d - 1) < n * 2 ^ m &
        forall n' d', feasible np T m t n' d' -> n' = n /\ d <= d']
  else forall n d, ~ feasible np T m t n d.
Proof.
  move=> Hm Ht Hk. rewrite /check_rs. set P := 2 ^ m. have HP : 0 < P by have := N.pow_nonzero 2 m ltac:(lia); rewrite -/P; lia.
  have HD : 0 < T * (2 * t + 2) by nia.
  have C1 := ceil_div np HP. set n := (np + P - 1) / P in C1 *.
  have U n' d' : feasible np T m t n' d' -> n' = n by rewrite /feasible -/P; nia.
  case: (N.ltb_spec (2 ^ (P - 1 - m * t)) n) => H1.
  { move=> n' d' Hf. have En := U _ _ Hf. rewrite En /feasible -/P in Hf. lia. }
  have C2 := ceil_div (n * P) HD. set d := (n * P + T * (2 * t + 2) - 1) / (T * (2 * t + 2)) in C2 *.
  have V n' d' : feasible np T m t n' d' -> d <= d'.
  { move=> Hf. have En := U _ _ Hf. rewrite En /feasible -/P in Hf. nia. }
  case: (N.ltb_spec n d) => H2.
  { move=> n' d' Hf. have := V _ _ Hf. have En := U _ _ Hf. rewrite En /feasible in Hf. lia. }
  have Hn : 0 < n by nia. have Hd : 0 < d by nia.
  split; [|lia|nia|by move=> n' d' Hf; split; [exact: (U _ _ Hf)|exact: (V _ _ Hf)]].
  rewrite /feasible -/P. repeat split; try lia; nia.
Qed.

Lemma try_codeP m t b : 1 <= m <= 10 -> 1 <= t -> 1 + m * t < 2 ^ m - 1 -> fine b ->
  let b' := try_code np T (2 ^ m - 1) (2 ^ m - 1 - m * t) (2 * t + 1) b in
  [/\ fine b', b.2 <= b'.2 & forall n d, feasible np T m t n d -> (n - d + 1) * (2 ^ m - 1 - m * t) <= b'.2].
Proof.
  move=> Hm Ht Hk Hb. cbv zeta. rewrite /try_code. have HP : 0 < 2 ^ m by lia.
  have -> : 2 ^ m - 1 + 1 = 2 ^ m by lia. have -> : 2 * t + 1 + 1 = 2 * t + 2 by lia.
  have := check_rsP Hm Ht Hk. case: (check_rs _ _ _ _ _) => [[[n k] d] [F1 F2 F3 F4]|Hno]; last first.
  { split; [exact: Hb|lia|]. move=> n d Hf. by case: (Hno n d Hf). }
  have K n' d' : feasible np T m t n' d' -> (n' - d' + 1) * (2 ^ m - 1 - m * t) <= k * (2 ^ m - 1 - m * t).
  { move=> Hf. have [En Hd] := F4 _ _ Hf. apply: N.mul_le_mono_r. have : d' <= n' by move: Hf; rewrite /feasible; lia. lia. }
  case: N.ltb_spec => Hlt; last first.
  { split; [exact: Hb|lia|]. move=> n' d' Hf. have := K _ _ Hf. lia. }
  split; [|rewrite /=; lia|exact: K].
  split; last by []. exists m, t. do 3 (split; first by []). split; first exact: F1. split; [exact: F2|exact: F3].
Qed.

Lemma loop_tS m nb t b : loop_t np T m nb t.+1 b =
  if nb - m * N.of_nat t.+1 <=? 1 then loop_t np T m nb t b else if 2 * N.of_nat t.+1 + 1 <? nb / T then b else
  loop_t np T m nb t (try_code np T nb (nb - m * N.of_nat t.+1) (2 * N.of_nat t.+1 + 1) b).
Proof. by []. Qed.

Lemma loop_tP m t b : 1 <= m <= 10 -> m * N.of_nat t <= 2 ^ m - 1 -> fine b ->
  let b' := loop_t np T m (2 ^ m - 1) t b in
  [/\ fine b', b.2 <= b'.2 & forall t' n d, t' <= N.of_nat t -> feasible np T m t' n d -> (n - d + 1) * (2 ^ m - 1 - m * t') <= b'.2].
Proof.
  move=> Hm. elim: t b => [|t IH] b Ht Hb.
  { cbv zeta. split; [exact: Hb|exact: N.le_refl|]. move=> t' n d H0. rewrite /feasible. lia. }
  cbv zeta. rewrite loop_tS.
  have Ht' : m * N.of_nat t <= 2 ^ m - 1 by rewrite Nat2N.inj_succ in Ht; nia.
  case: N.leb_spec => Hk.
  { have [A1 A2 A3] := IH b Ht' Hb. split; [exact: A1|exact: A2|]. move=> t' n d H1 Hf.
    apply: A3; [|exact: Hf]. have : t' <> N.of_nat t.+1 by move=> E; move: Hf; rewrite E /feasible; lia. lia. }
  case: N.ltb_spec => Hd.
  { split; [exact: Hb|lia|]. move=> t' n d H1 [_ [_ [_ [[Hn _] [_ [Hc Hdn]]]]]].
    exfalso. have X := N.mul_div_le (2 ^ m - 1) T ltac:(lia).
    have Y : 2 * t' + 2 <= (2 ^ m - 1) / T by lia. have Z : T * (2 * t' + 2) <= 2 ^ m - 1 by nia.
    have Hn0 : 0 < n by nia. nia. }
  have [B1 B2 B3] := @try_codeP m (N.of_nat t.+1) b Hm ltac:(lia) ltac:(lia) Hb.
  have [A1 A2 A3] := IH _ Ht' B1. split; [exact: A1|lia|].
  move=> t' n d H1 Hf. case: (N.eq_dec t' (N.of_nat t.+1)) => [E|Hne].
  - subst t'. have := B3 n d Hf. lia.
  - apply: A3; [lia|exact: Hf].
Qed.

Lemma find_bch_rsP : fine (find_bch_rs np T, if find_bch_rs np T is Some c then c_krs c * c_kbin c else 0) /\
  forall m t n d, feasible np T m t n d -> (n - d + 1) * (2 ^ m - 1 - m * t) <= if find_bch_rs np T is Some c then c_krs c * c_kbin c else 0.
Proof.
  pose step best m := loop_t np T m (2 ^ m - 1) (N.to_nat ((2 ^ m - 1) / m)) best.
  have H s b : (forall m, List.In m s -> 1 <= m <= 10) -> fine b -> let b' := foldl step b s in
    [/\ fine b', b.2 <= b'.2 & forall m t n d, List.In m s -> feasible np T m t n d -> (n - d + 1) * (2 ^ m - 1 - m * t) <= b'.2].
  { elim: s b => [|m s IH] b Hs Hb.
    - split; [exact: Hb|exact: N.le_refl|by []].
    - have Hm : 1 <= m <= 10 by apply: Hs; left. have X := N.mul_div_le (2 ^ m - 1) m ltac:(lia).
      have [A1 A2 A3] := @loop_tP m (N.to_nat ((2 ^ m - 1) / m)) b Hm ltac:(rewrite N2Nat.id; lia) Hb.
      have [B1 B2 B3] := IH _ (fun m' H => Hs m' (or_intror H)) A1. cbv zeta. rewrite -/(step b m) in A1 A2 A3 B1 B2 B3.
      have -> : foldl step b (m :: s) = foldl step (step b m) s by [].
      split; [exact: B1|lia|]. move=> m' t n d [E|Hin] Hf; last exact: B3 Hin Hf. subst m'.
      have : t <= N.of_nat (N.to_nat ((2 ^ m - 1) / m)).
      { rewrite N2Nat.id. apply: N.div_le_lower_bound; [lia|]. move: Hf. rewrite /feasible. lia. }
      move=> Ht. have := A3 t n d Ht Hf. lia. }
  have [A1 A2 A3] := H [:: 1; 2; 3; 4; 5; 6; 7; 8; 9; 10] (None, 0) ltac:(rewrite /=; lia) erefl.
  rewrite /find_bch_rs -/step. move: A1 A2 A3. case: (foldl step _ _) => [[c|] b] /=.
  - rewrite /fine /= => -[F1 E] _ A3. split; first by split. move=> m t n d Hf. rewrite -E. apply: (A3 m t n d _ Hf).
    case: Hf. lia.
  - rewrite /fine /= => E _ A3. split=> // m t n d Hf. rewrite -E. apply: (A3 m t n d _ Hf). case: Hf. lia.
Qed.
End Search.
