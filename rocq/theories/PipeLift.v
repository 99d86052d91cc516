(** Changing what a dealing comes to by changing what is dealt, one to one. *)

From mathcomp Require Import all_ssreflect all_algebra zify.
From Verif Require Import MathModel MathProofs MatProofs SharingModel SharingSpec SharingProofs.
From Verif Require Import CoreModel CoreProofs RandTransProofs PreprocModel PreprocSpec PreprocProofs TwinCore HideSpec HideProofs Triangle DiceSpec.
Set Implicit Arguments.
Unset Strict Implicit.
Unset Printing Implicit Defensive.
Import GRing.Theory.
Local Open Scope ring_scope.

Lemma die_add (F : fieldType) B m (w v : {ffun slot B m -> F}) k a b c d : die (w + v) k a b c d = die w k a b c d + die v k a b c d.
Proof. by rewrite /die ffunE. Qed.
Lemma die_opp (F : fieldType) B m (w : {ffun slot B m -> F}) k a b c d : die (- w) k a b c d = - die w k a b c d.
Proof. by rewrite /die ffunE. Qed.

Lemma die_val (F : fieldType) B m (w : {ffun slot B m -> F}) (k : 'I_m.+1) (a b c d : 'I_B.+1) : die w k a b c d = w (k, a, b, c, d).
Proof. by rewrite /die !inord_val. Qed.

Lemma row_lt R b r j : (r < R)%N -> (j < b)%N -> (r * b + j < R * b)%N.
Proof. move=> Hr Hj. nia. Qed.

(** ** One dealing *)
Section Mix.
Variable F : fieldType.
Variables (n : nat) (M : mat F) (b : nat) (X : nat -> nat -> F).
Notation R := (size (rows M)).
Hypothesis XM : forall r r', (r < R)%N -> (r' < R)%N -> \sum_(s < n) entry M r s * X s r' = (r == r')%:R.

Lemma mix_one (V : nat -> F) idx : (idx < R * b)%N ->
  \sum_(s < n) entry M (idx %/ b) s * (\sum_(r < R) X s r * V (r * b + idx %% b)%N) = V idx.
Proof.
  move=> Hi. have b0 : (0 < b)%N by move: Hi; case: (b) => //; rewrite muln0.
  have Hr : (idx %/ b < R)%N by rewrite ltn_divLR.
  under eq_bigr => s _ do rewrite mulr_sumr.
  rewrite exchange_big /= (bigD1 (Ordinal Hr)) //= [X in _ + X]big1 ?addr0 => [|r Hne].
  - under eq_bigr => s _ do rewrite mulrA. by rewrite -mulr_suml XM // eqxx mul1r -divn_eq.
  - under eq_bigr => s _ do rewrite mulrA. rewrite -mulr_suml XM // (_ : (_ == _) = false) ?mul0r //.
    apply/negbTE. apply: contra Hne => /eqP E. apply/eqP/val_inj. by rewrite /= E.
Qed.

Lemma mix_add (p p' : nat -> nat -> {poly F}) (h : nat -> {poly F}) idx : (idx < R * b)%N ->
  (forall s j, (s < n)%N -> (j < b)%N -> p' s j = p s j + \sum_(r < R) X s r *: h (r * b + j)%N) ->
  mixed n M b p' idx = mixed n M b p idx + h idx.
Proof.
  move=> Hi H. have b0 : (0 < b)%N by move: Hi; case: (b) => //; rewrite muln0.
  have Hj : (idx %% b < b)%N by rewrite ltn_mod. have Hr : (idx %/ b < R)%N by rewrite ltn_divLR.
  rewrite {1}/mixed. under eq_bigr => s _ do rewrite H // scalerDr.
  rewrite big_split /=. congr (_ + _).
  under eq_bigr => s _ do rewrite scaler_sumr.
  rewrite exchange_big /= (bigD1 (Ordinal Hr)) //= [X in _ + X]big1 ?addr0 => [|r Hne].
  - under eq_bigr => s _ do rewrite scalerA. by rewrite -scaler_suml XM // eqxx scale1r -divn_eq.
  - under eq_bigr => s _ do rewrite scalerA. rewrite -scaler_suml XM // (_ : (_ == _) = false) ?scale0r //.
    apply/negbTE. apply: contra Hne => /eqP E. apply/eqP/val_inj. by rewrite /= E.
Qed.
End Mix.

(** ** Two dealings and the coins of leaders *)
Section Lift.
Variable F : fieldType.
Variables (B C n : nat) (M : mat F) (bR bZ : nat) (X : nat -> nat -> F).
Notation R := (size (rows M)).
Hypothesis XM : forall r r', (r < R)%N -> (r' < R)%N -> \sum_(s < n) entry M r s * X s r' = (r == r')%:R.
Hypotheses (nB : (n <= B)%N) (RB : (bR <= B)%N) (ZB : (bZ <= B)%N).
Notation fam := {ffun slot B 3 -> F}.
Notation res := {ffun slot C 3 -> F}.

(** Where there are results: number and coin of a sharing, or a coin of a leader. *)
Definition reach (s : slot C 3) : bool :=
  let: (k, a, b, c, d) := s in
  match nat_of_ord k with
  | 0%N => [&& (a < R * bR)%N, (b < n)%N, c == 0%N :> nat & d == 0%N :> nat]
  | 1%N => [&& (a < R * bZ)%N, (b < n)%N, c == 0%N :> nat & d == 0%N :> nat]
  | _ => [&& (a <= B)%N, (b <= B)%N, (c <= B)%N & (d <= B)%N]
  end.

Definition rho_at (w : fam) (s : slot C 3) : F :=
  let: (k, a, b, c, d) := s in
  match nat_of_ord k with
  | 0%N => \sum_(s < n) entry M (a %/ bR) s * die w 0 s (a %% bR) b 0
  | 1%N => \sum_(s < n) entry M (a %/ bZ) s * die w 1 s (a %% bZ) b 0
  | k' => die w k' a b c d
  end.
Definition rho (w : fam) : res := [ffun s => if reach s then rho_at w s else 0].

Definition lift (u : res) : fam := [ffun s : slot B 3 =>
  let: (k, a, b, c, d) := s in
  match nat_of_ord k with
  | 0%N => if [&& (b < bR)%N, (c < n)%N & d == 0%N :> nat] then \sum_(r < R) X a r * die u 0 (r * bR + b) c 0 0 else 0
  | 1%N => if [&& (b < bZ)%N, (c < n)%N & d == 0%N :> nat] then \sum_(r < R) X a r * die u 1 (r * bZ + b) c 0 0 else 0
  | k' => die u k' a b c d
  end].

Lemma rho_add w v : rho (w + v) = rho w + rho v.
Proof.
  apply/ffunP => -[[[[k a] b] c] d]. rewrite !ffunE. case: ifP => _; last by rewrite addr0.
  rewrite /rho_at. case: (nat_of_ord k) => [|[|k']]; last by rewrite die_add.
  - rewrite -big_split. apply: eq_bigr => s _. by rewrite die_add mulrDr.
  - rewrite -big_split. apply: eq_bigr => s _. by rewrite die_add mulrDr.
Qed.

Lemma rho_opp w : rho (- w) = - rho w.
Proof.
  apply/ffunP => -[[[[k a] b] c] d]. rewrite !ffunE. case: ifP => _; last by rewrite oppr0.
  rewrite /rho_at. case: (nat_of_ord k) => [|[|k']]; last by rewrite die_opp.
  - rewrite -sumrN. apply: eq_bigr => s _. by rewrite die_opp mulrN.
  - rewrite -sumrN. apply: eq_bigr => s _. by rewrite die_opp mulrN.
Qed.

Lemma lift_rand u s j c : (s < n)%N -> (j < bR)%N -> (c < n)%N -> die (lift u) 0 s j c 0 = \sum_(r < R) X s r * die u 0 (r * bR + j) c 0 0.
Proof.
  move=> Hs Hj Hc. have J1 := leq_trans (ltnW Hc) nB. have J2 := leq_trans (ltnW Hj) RB. have J3 := leq_trans (ltnW Hs) nB.
  rewrite {1}/die ffunE !inordK // ?ltnS ?J1 ?J2 ?J3 //. by rewrite Hj Hc.
Qed.
Lemma lift_zero u s j c : (s < n)%N -> (j < bZ)%N -> (c < n)%N -> die (lift u) 1 s j c 0 = \sum_(r < R) X s r * die u 1 (r * bZ + j) c 0 0.
Proof.
  move=> Hs Hj Hc. have J1 := leq_trans (ltnW Hc) nB. have J2 := leq_trans (ltnW Hj) ZB. have J3 := leq_trans (ltnW Hs) nB.
  rewrite {1}/die ffunE !inordK // ?ltnS ?J1 ?J2 ?J3 //. by rewrite Hj Hc.
Qed.
Lemma lift_co u k a b c d : (1 < k < 4)%N -> (a <= B)%N -> (b <= B)%N -> (c <= B)%N -> (d <= B)%N -> die (lift u) k a b c d = die u k a b c d.
Proof. move=> Hk Ha Hb Hc Hd. have /andP [_ Hk4] := Hk. rewrite {1}/die ffunE !inordK // ?ltnS ?Ha ?Hb ?Hc ?Hd //. by case: k Hk {Hk4} => [|[|k]]. Qed.

Lemma rho_lift (u : res) : (forall s, ~~ reach s -> u s = 0) -> rho (lift u) = u.
Proof.
  move=> Hu. apply/ffunP => s0. rewrite ffunE. case: ifPn => [|/Hu -> //].
  case: s0 => [[[[k a] b] c] d]. rewrite /reach /rho_at. case Ek: (nat_of_ord k) => [|[|k']].
  - move=> /and4P [Ha Hb /eqP Hc /eqP Hd].
    have b0 : (0 < bR)%N by move: Ha; case: (bR) => //; rewrite muln0.
    rewrite (eq_bigr (fun s : 'I_n => entry M (a %/ bR) s * (\sum_(r < R) X s r * die u 0 (r * bR + a %% bR) b 0 0))).
    + rewrite (mix_one XM (fun i => die u 0 i b 0 0) Ha). by rewrite -die_val Ek Hc Hd.
    + move=> s _. by rewrite lift_rand // ltn_mod.
  - move=> /and4P [Ha Hb /eqP Hc /eqP Hd].
    have b0 : (0 < bZ)%N by move: Ha; case: (bZ) => //; rewrite muln0.
    rewrite (eq_bigr (fun s : 'I_n => entry M (a %/ bZ) s * (\sum_(r < R) X s r * die u 1 (r * bZ + a %% bZ) b 0 0))).
    + rewrite (mix_one XM (fun i => die u 1 i b 0 0) Ha). by rewrite -die_val Ek Hc Hd.
    + move=> s _. by rewrite lift_zero // ltn_mod.
  - move=> /and4P [Ha Hb Hc Hd]. have Hk := ltn_ord k. rewrite Ek in Hk. rewrite lift_co //. by rewrite -Ek die_val.
Qed.

(** The change, and how to undo it. *)
Variables (lev : slot C 3 -> nat) (delta : res -> slot C 3 -> F).
Hypothesis tri : forall (u u' : res) s, (forall s', (lev s' < lev s)%N -> u s' = u' s') -> delta u s = delta u' s.
Hypothesis off : forall u s, ~~ reach s -> delta u s = 0.

Definition ch (u : res) : res := [ffun s => delta u s].
Definition change (w : fam) : fam := w + lift (ch (rho w)).
Definition unchange (v : fam) : fam := v - lift (ch (shear_inv lev delta (rho v))).

Lemma rho_ch u : rho (lift (ch u)) = ch u.
Proof. apply: rho_lift => s Hs. by rewrite ffunE off. Qed.

Lemma shearE u : shear delta u = u + ch u.
Proof. apply/ffunP => s. by rewrite !ffunE. Qed.

Lemma changeK : cancel change unchange.
Proof. move=> w. rewrite /unchange /change rho_add rho_ch -shearE shearK // addrK. by []. Qed.
Lemma unchangeK : cancel unchange change.
Proof.
  move=> v. rewrite /change /unchange rho_add rho_opp rho_ch. set u := shear_inv _ _ _.
  have E : u + ch u = rho v by rewrite -shearE shear_invK. by rewrite -[in rho v - _]E addrK subrK.
Qed.

Lemma change_die w k a b c d : die (change w) k a b c d = die w k a b c d + die (lift (ch (rho w))) k a b c d.
Proof. exact: die_add. Qed.
End Lift.
