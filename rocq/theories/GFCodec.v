(** The bincode codec of CodecModel on vectors of in-range elements. *)

From Coq Require Import NArith List.
From mathcomp Require Import all_ssreflect all_algebra.
From Verif Require Import GaloisModel CodecModel CodecProofs GFField.
Set Implicit Arguments.
Unset Strict Implicit.
Unset Printing Implicit Defensive.

Section Codec.
Variable w : width.

(** core.rs:47, 73 etc.: [bincode::serialize]. *)
Definition gser (x : seq (gf w)) : seq N := ser_vec w [seq gval v | v <- x].

(** core.rs:54, 79 etc.: [bincode::deserialize].  The code does not check the
    range of the elements (finding under C06); a value outside the field, which
    [gser] never produces, is rejected here. *)
Definition gde (d : seq N) : option (seq (gf w)) :=
  obind (fun vs => foldr (fun v acc => if insub v is Some x then omap (cons x) acc else None) (Some [::]) vs)
    (de_vec w d).

(** Lengths that fit the 64-bit length prefix. *)
Definition len_ok (m : nat) : Prop := (N.of_nat m < 2 ^ 64)%num.

Lemma gserK x : len_ok (size x) -> gde (gser x) = Some x.
Proof.
  move=> Hs. rewrite /gde /gser -[ser_vec _ _]app_nil_r de_ser_vec /=; last first.
  - have -> : length [seq gval v | v <- x] = size x by elim: x {Hs} => //= a x ->.
    exact: Hs.
  - elim: x {Hs} => [|a x IH] /=; first by constructor. constructor=> //. exact: gf_lt.
  - elim: x {Hs} => //= a x ->. by rewrite valK.
Qed.
End Codec.
