(** What it means for a vector of shares to be a packed sharing. *)

From mathcomp Require Import all_ssreflect all_algebra.
Set Implicit Arguments.
Unset Strict Implicit.
Unset Printing Implicit Defensive.
Import GRing.Theory.
Local Open Scope ring_scope.

Section Spec.
Variable F : fieldType.
Variable emb : nat -> F.

(** [shares] are the values at the points 0..n-1 of a polynomial of degree at
    most [d] whose values at the positions [pos] are [secrets]. *)
Definition is_sharing (n d : nat) (pos secrets shares : seq F) : Prop :=
  exists p : {poly F}, [/\ (size p <= d.+1)%N,
    shares = [seq p.[emb i] | i <- iota 0 n] & secrets = [seq p.[x] | x <- pos]].

(** Positions at which secrets and shares live are pairwise distinct. *)
Definition good_pos (n : nat) (pos : seq F) : Prop := uniq (pos ++ [seq emb i | i <- iota 0 n]).

End Spec.
