(** Proofs about [hides]: right inverses that leave a coalition's columns out. *)

From mathcomp Require Import all_ssreflect all_algebra zify.
From Verif Require Import MathModel PreprocSpec HideSpec.
Set Implicit Arguments.
Unset Strict Implicit.
Unset Printing Implicit Defensive.
Import GRing.Theory.
Local Open Scope ring_scope.

(** Bits add up to their parity. *)
Lemma sum_bits (R : ringType) (T : finType) (b : T -> bool) : 1 + 1 = 0 :> R ->
  \sum_i (b i)%:R = (odd (\sum_i b i))%:R :> R.
Proof.
  move=> C2. rewrite -natr_sum. move: (\sum_i b i)%N => k.
  rewrite -{1}(odd_double_half k) natrD -mul2n natrM (_ : 2%:R = 0) ?mul0r ?addr0 //.
Qed.

Lemma bit_nat (R : ringType) (a b : bool) : (a && b)%:R = a%:R * b%:R :> R.
Proof. by case: a; rewrite /= ?mul1r ?mul0r. Qed.

Section Inverse.
Variable F : fieldType.

Lemma free_rows m n (E : 'M[F]_(m, n)) : (forall v : 'rV_m, v *m E = 0 -> v = 0) -> exists X, E *m X = 1%:M.
Proof. move=> H. apply/row_freeP. rewrite -kermx_eq0. apply/eqP/row_matrixP => i. rewrite row0. apply: H. by rewrite -row_mul mulmx_ker row0. Qed.

Lemma right_inverse n (M : mat F) A : hides n M A ->
  exists X : nat -> nat -> F, (forall s r, s \in A -> X s r = 0) /\
    forall r r', (r < size (rows M))%N -> (r' < size (rows M))%N -> \sum_(s < n) entry M r s * X s r' = (r == r')%:R.
Proof.
  move=> H. set m := size (rows M).
  pose E : 'M[F]_(m, n) := \matrix_(r, s) if (s : nat) \in A then 0 else entry M r s.
  have [|X HX] := @free_rows m n E.
  { move=> v Hv. pose c k := if insub k is Some i then v 0 (i : 'I_m) else 0.
    have Ec (i : 'I_m) : c i = v 0 i by rewrite /c valK.
    apply/rowP => i. rewrite mxE -Ec. apply: H => // s Hs HsA.
    have := congr1 (fun x : 'rV_n => x 0 (Ordinal Hs)) Hv. rewrite !mxE => E0. apply: etrans E0. apply: eq_bigr => r _.
    by rewrite mxE /= (negbTE HsA) Ec. }
  pose x s r := if (s \in A) then 0 else if (insub s, insub r) is (Some i, Some j) then X (i : 'I_n) (j : 'I_m) else 0.
  exists x. split=> [s r Hs|r r' Hr Hr']; first by rewrite /x Hs.
  have := congr1 (fun Y : 'M_m => Y (Ordinal Hr) (Ordinal Hr')) HX. rewrite !mxE => <-. apply: eq_bigr => s _.
  rewrite mxE /x. case: ifP => _; first by rewrite mulr0 mul0r. by rewrite valK (insubT (fun k => (k < m)%N) Hr') /=; congr (_ * X _ _); apply: val_inj.
Qed.
End Inverse.

Section Bits.
Variable F : fieldType.
Hypothesis C2 : 1 + 1 = 0 :> F.

Lemma F2_bit (x : 'F_2) : x = (x != 0)%:R.
Proof. by case: x => [[|[|k]] Hk] //; apply: val_inj. Qed.

Lemma F2_char : 1 + 1 = 0 :> 'F_2. Proof. by apply: val_inj. Qed.

Lemma odd0 (R : fieldType) (b : bool) : (b%:R == 0 :> R) = ~~ b.
Proof. by case: b; rewrite ?oner_eq0 ?eqxx. Qed.

Lemma right_inverse_bits n (M : mat F) A :
  (forall r s, entry M r s = 0 \/ entry M r s = 1) -> hides_bits n M A ->
  exists X : nat -> nat -> bool, (forall s r, s \in A -> X s r = false) /\
    forall r r', (r < size (rows M))%N -> (r' < size (rows M))%N -> \sum_(s < n) entry M r s * (X s r')%:R = (r == r')%:R :> F.
Proof.
  move=> HB H. set m := size (rows M). pose e r s := entry M r s == 1.
  have He r s : entry M r s = (e r s)%:R by rewrite /e; case: (HB r s) => ->; rewrite ?eqxx // eq_sym oner_eq0.
  pose E : 'M['F_2]_(m, n) := \matrix_(r, s) (((s : nat) \notin A) && e r s)%:R.
  have [|X HX] := @free_rows _ m n E.
  { move=> v Hv. pose c k := if insub k is Some i then v 0 (i : 'I_m) != 0 else false.
    have Ec (i : 'I_m) : v 0 i = (c i)%:R by rewrite /c valK -F2_bit.
    apply/rowP => i. rewrite mxE Ec H // => s Hs HsA.
    have := congr1 (fun x : 'rV_n => x 0 (Ordinal Hs)) Hv. rewrite !mxE.
    rewrite (eq_bigr (fun r : 'I_m => (c r && e r s)%:R)); last by move=> r _; rewrite mxE /= HsA Ec -bit_nat.
    rewrite sum_bits ?F2_char // => /eqP. rewrite odd0 => Ho.
    rewrite (eq_bigr (fun r : 'I_m => (c r && e r s)%:R)); last by move=> r _; rewrite He; case: (c r).
    by rewrite sum_bits // (negbTE Ho). }
  pose x s r := (s \notin A) && (if (insub s, insub r) is (Some i, Some j) then X (i : 'I_n) (j : 'I_m) != 0 else false).
  exists x. split=> [s r Hs|r r' Hr Hr']; first by rewrite /x Hs.
  have := congr1 (fun Y : 'M_m => Y (Ordinal Hr) (Ordinal Hr')) HX. rewrite !mxE.
  have Ex (s : 'I_n) : x s r' = ((s : nat) \notin A) && (X s (Ordinal Hr') != 0).
  { rewrite /x valK (insubT (fun k => (k < m)%N) Hr') /=. congr (_ && (X _ _ != 0)). }
  pose y (s : 'I_n) := e r s && x s r'.
  rewrite (eq_bigr (fun s => (y s)%:R)); last first.
  { move=> s _. rewrite mxE [X s _]F2_bit -bit_nat /y Ex. congr (_%:R). by case: (e r s); case: (_ \notin A). }
  have -> : \sum_(s < n) entry M r s * (x s r')%:R = \sum_s (y s)%:R by apply: eq_bigr => s _; rewrite He -bit_nat.
  rewrite !sum_bits ?F2_char // -[Ordinal Hr == _]/(r == r').
  case: (odd _); case: (r == r') => // /eqP; by rewrite ?oner_eq0 // eq_sym oner_eq0.
Qed.
End Bits.
