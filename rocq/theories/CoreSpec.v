(** What the outputs of the protocols are to be: vectors of sharings held by
    the parties. *)

From mathcomp Require Import all_ssreflect all_algebra.
From Verif Require Import SharingSpec.
Set Implicit Arguments.
Unset Strict Implicit.
Unset Printing Implicit Defensive.
Import GRing.Theory.
Local Open Scope ring_scope.

Section Spec.
Variable F : fieldType.
Variable emb : nat -> F.

(** Party [i] holds the vector [v i] of [num] elements; the [j]-th elements at
    all parties are a sharing of [sec j]. *)
Definition sharings (n d : nat) (pos : seq F) (num : nat) (v : nat -> seq F) (sec : nat -> seq F) : Prop :=
  (forall i, (i < n)%N -> size (v i) = num) /\
  forall j, (j < num)%N -> is_sharing emb n d pos (sec j) [seq nth 0 (v i) j | i <- iota 0 n].

(** Slotwise sum, difference and product. *)
Definition vadd (a b : seq F) : seq F := [seq x.1 + x.2 | x <- zip a b].
Definition vsub (a b : seq F) : seq F := [seq x.1 - x.2 | x <- zip a b].
Definition vmul (a b : seq F) : seq F := [seq x.1 * x.2 | x <- zip a b].

(** The values selected by an index list. *)
Definition pick (f : seq nat) (x : seq F) : seq F := [seq nth 0 x i | i <- f].

End Spec.

(** The parties' setting (bin/garble.rs, tests): packed sharing of degree
    t+l-1 and of degree n-1 at the default positions. *)
From Verif Require Import SharingModel.

Definition setting (F : fieldType) (emb : nat -> F) (n t l : nat) (P Pn : pss F) : Prop :=
  [/\ (0 < t + l)%N, pss_new emb (t + l).-1 n (default_pos emb n l) = Some P,
      pss_new emb n.-1 n (default_pos emb n l) = Some Pn & good_pos emb n (default_pos emb n l)].

(** What was serialized is deserialized, for the lengths the format can hold. *)
Definition codec_ok (F : fieldType) (D : Type) (ser : seq F -> D) (de : D -> option (seq F)) (fits : nat -> Prop) : Prop :=
  forall x, fits (size x) -> de (ser x) = Some x.
