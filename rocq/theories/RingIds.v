(** Identities in commutative rings, by [ring], for use with mathcomp fields. *)

From Coq Require Import Ring.
Set Implicit Arguments.
Section G.
Variables (R : Type) (rO rI : R) (radd rmul rsub : R -> R -> R) (ropp : R -> R).
Variable th : ring_theory rO rI radd rmul rsub ropp eq.
Add Ring G_ring : th.
Infix "+" := radd. Infix "*" := rmul. Notation "- x" := (ropp x).

(** The rows of the AND table ([0 + a] is what [0%:R + a] is). *)
Lemma and_row0 a b c k0 k1 : (a * b + c) * (k1 + - k0) + k0 = k0 + ((rO + a) * (rO + b) + c) * (k1 + - k0).
Proof. ring. Qed.
Lemma and_row1 a b c k0 k1 : (a * b + c + a) * (k1 + - k0) + k0 = k0 + ((rO + a) * (rI + b) + c) * (k1 + - k0).
Proof. ring. Qed.
Lemma and_row2 a b c k0 k1 : (a * b + c + b) * (k1 + - k0) + k0 = k0 + ((rI + a) * (rO + b) + c) * (k1 + - k0).
Proof. ring. Qed.
Lemma and_row3 a b c k0 k1 : rI + rI = rO ->
  (a * b + c) * (k1 + - k0) + (a * b + c + a) * (k1 + - k0) + (a * b + c + b) * (k1 + - k0) + k1 + - k0 + k0 =
  k0 + ((rI + a) * (rI + b) + c) * (k1 + - k0).
Proof.
  intros H. transitivity (k0 + ((rI + a) * (rI + b) + c) * (k1 + - k0) + (rI + rI) * ((a * b + c) * (k1 + - k0))); [ring|].
  rewrite H. ring.
Qed.
Lemma xor_row0 a b c k0 k1 : (a + b + c) * (k1 + - k0) + k0 = k0 + ((rO + a) + (rO + b) + c) * (k1 + - k0).
Proof. ring. Qed.
Lemma xor_row1 a b c k0 k1 : (a + b + c) * (k1 + - k0) + k1 = k0 + ((rO + a) + (rI + b) + c) * (k1 + - k0).
Proof. ring. Qed.
Lemma xor_row2 a b c k0 k1 : (a + b + c) * (k1 + - k0) + k1 = k0 + ((rI + a) + (rO + b) + c) * (k1 + - k0).
Proof. ring. Qed.
Lemma xor_row3 a b c k0 k1 : rI + rI = rO -> (a + b + c) * (k1 + - k0) + k0 = k0 + ((rI + a) + (rI + b) + c) * (k1 + - k0).
Proof.
  intros H. transitivity (k0 + ((rI + a) + (rI + b) + c + - (rI + rI)) * (k1 + - k0)); [ring|]. rewrite H. ring.
Qed.
Lemma inv_row0 a c k0 k1 : (a + c) * (k1 + - k0) + k0 = k0 + ((rO + a) + c) * (k1 + - k0).
Proof. ring. Qed.
Lemma inv_row1 a c k0 k1 : rI + rI = rO -> k0 + k1 + ((a + c) * (k1 + - k0) + k0) = k0 + ((rI + a) + c) * (k1 + - k0).
Proof.
  intros H. transitivity (k0 + ((rI + a) + c) * (k1 + - k0) + (rI + rI) * k0); [ring|]. rewrite H. ring.
Qed.
End G.
