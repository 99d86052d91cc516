(** Changing coordinates by amounts that depend on earlier ones can be undone. *)

From mathcomp Require Import all_ssreflect all_algebra zify.
Set Implicit Arguments.
Unset Strict Implicit.
Unset Printing Implicit Defensive.
Import GRing.Theory.
Local Open Scope ring_scope.

Section Triangle.
Variables (J : finType) (R : zmodType) (lev : J -> nat) (D : {ffun J -> R} -> J -> R).
Hypothesis tri : forall (w w' : {ffun J -> R}) s, (forall s', (lev s' < lev s)%N -> w s' = w' s') -> D w s = D w' s.

Definition shear (w : {ffun J -> R}) : {ffun J -> R} := [ffun s => w s + D w s].

Fixpoint unshear (k : nat) (v : {ffun J -> R}) : {ffun J -> R} :=
  if k is k'.+1 then [ffun s => v s - D (unshear k' v) s] else v.

Lemma unshearK k w s : (lev s < k)%N -> unshear k (shear w) s = w s.
Proof.
  elim: k s => // k IH s Hs /=. rewrite !ffunE (tri (w' := w)) ?addrK // => s' Hs'. apply: IH. exact: leq_trans Hs' Hs.
Qed.

Lemma unshear_step k v s : (lev s < k)%N -> unshear k.+1 v s = unshear k v s.
Proof.
  elim: k s => // k IH s Hs. rewrite [unshear k.+2 v]/= [unshear k.+1 v in RHS]/= !ffunE. congr (_ - _).
  apply: tri => s' Hs'. apply: IH. exact: leq_trans Hs' Hs.
Qed.

Definition top : nat := (\max_s lev s).+1.
Definition shear_inv : {ffun J -> R} -> {ffun J -> R} := unshear top.+1.

Lemma top_ok s : (lev s < top)%N. Proof. by rewrite ltnS leq_bigmax. Qed.

Lemma shearK : cancel shear shear_inv.
Proof. move=> w. apply/ffunP => s. apply: unshearK. exact: leq_trans (top_ok s) _. Qed.

Lemma shear_invK : cancel shear_inv shear.
Proof.
  move=> w. apply/ffunP => s. rewrite /shear_inv ffunE [unshear top.+1 w in X in X + _]/= ffunE.
  suff -> : D (unshear top.+1 w) s = D (unshear top w) s by rewrite subrK.
  apply: tri => s' _. exact: unshear_step (top_ok s').
Qed.
End Triangle.
