(** All coins of [preproc] and [garble] drawn at random, as one finite family. *)

From Coq Require Import NArith List.
From Verif Require Import CircuitModel LpnModel.
From mathcomp Require Import all_ssreflect all_algebra.
From Verif Require Import MathModel SharingModel CoreModel PreprocModel GarbleModel GarbleSpec DiceSpec.
Set Implicit Arguments.
Unset Strict Implicit.
Unset Printing Implicit Defensive.
Import GRing.Theory.
Local Open Scope ring_scope.

Section Dice.
Variables (F : fieldType) (B : nat).

(** A die has a kind and four indices up to [B], the first of which is the party
    who throws it.  In the first family, kinds 0 and 1 are the coins of [rand]
    and [zero] (batch, coin), 2 and 3 those of a party who leads the
    transformation of an output block or an input block in [garble] (block,
    repetition, coin).  The second family has the coins of [randbit] besides the
    bits (batch, coin).  In the third, kinds 0 and 1 are the coins of a party who
    leads the first and the second product of an error task (task, product,
    coin), kinds 2 and 3 those of a party who leads the first and the last
    multiplication of a gate (gate, product, coin).  The fourth family are the
    random bits of [randbit] (batch, position). *)
Definition pipe_dice : Type :=
  ({ffun slot B 3 -> F} * ({ffun slot B 0 -> F} * {ffun slot B 3 -> F}) * {ffun slot B 0 -> bool})%type.

Definition bdie (w : {ffun slot B 0 -> bool}) (a b c : nat) : bool := w (inord 0, inord a, inord b, inord c, inord 0).

(** The coins of party [i] in [preproc] and in [garble]. *)
Definition cast_pre (w : pipe_dice) (i : nat) : coins F :=
  Coins (fun j c => die w.1.1 0 i j c 0) (fun j c => die w.1.1 1 i j c 0) (fun j q => bdie w.2 i j q) (fun j c => die w.1.2.1 0 i j c 0)
    (die w.1.2.2 0 i) (die w.1.2.2 1 i).
Definition cast_garble (w : pipe_dice) (i : nat) : gcoins F :=
  GCoins (die w.1.1 2 i) (die w.1.1 3 i) (die w.1.2.2 2 i) (die w.1.2.2 3 i).

(** Indices do not collide: there is a die of its own for everything. *)
Definition enough_dice (n : nat) (circ : pcircuit) (p : lpn) (cnt : count) (bR bZ bB : nat) : Prop :=
  [/\ (n <= B)%N, [/\ (bR <= B)%N, (bZ <= B)%N, (bB <= B)%N & (n_errors cnt <= B)%N] &
   [/\ (size (out_blocks circ) <= B)%N, (size (inp_blocks circ) <= B)%N, (size (p_gates circ) <= B)%N & (3 * (lpn_key_len p + 1) <= B)%N]].

(** The same coins in [preproc]. *)
Definition same_pre (c c' : coins F) : Prop :=
  [/\ forall j i, k_rand c j i = k_rand c' j i, forall j i, k_zero c j i = k_zero c' j i, forall j i, k_bit c j i = k_bit c' j i,
      forall j i, k_bitrand c j i = k_bitrand c' j i & forall q j i, k_mult1 c q j i = k_mult1 c' q j i /\ k_mult2 c q j i = k_mult2 c' q j i].
End Dice.
