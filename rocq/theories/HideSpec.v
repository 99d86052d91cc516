(** When the combination of the parties' sharings hides something from a
    coalition. *)

From mathcomp Require Import all_ssreflect all_algebra.
From Verif Require Import MathModel PreprocSpec.
Set Implicit Arguments.
Unset Strict Implicit.
Unset Printing Implicit Defensive.
Import GRing.Theory.
Local Open Scope ring_scope.

Section Spec.
Variable F : fieldType.

(** Without the columns of the parties in [A] the rows are still independent:
    every combination of the results depends on what some other party deals. *)
Definition hides (n : nat) (M : mat F) (A : seq nat) : Prop :=
  forall c : nat -> F, (forall s, (s < n)%N -> s \notin A -> \sum_(r < size (rows M)) c r * entry M r s = 0) ->
    forall r, (r < size (rows M))%N -> c r = 0.

(** The same for sums of rows. *)
Definition hides_bits (n : nat) (M : mat F) (A : seq nat) : Prop :=
  forall c : nat -> bool,
    (forall s, (s < n)%N -> s \notin A -> \sum_(r < size (rows M)) (if c r then entry M r s else 0) = 0) ->
    forall r, (r < size (rows M))%N -> c r = false.

End Spec.
