(** What the nonce of a gate is to depend on. *)

From Coq Require Import NArith List.
From Verif Require Import CircuitModel LpnModel.
From mathcomp Require Import all_ssreflect.
Set Implicit Arguments.
Unset Strict Implicit.
Unset Printing Implicit Defensive.

(** How often wire [w] is at slot [q] of the inputs of a gate, of a list of
    gates. *)
Definition at_slot (q : nat) (w : N) (ws : seq N) : nat := if drop q ws is x :: _ then N.eqb x w else false.
Definition gate_uses (q : nat) (w : N) (g : pgate) : nat := sumn [seq at_slot q w ws | ws <- gate_inps g].
Definition uses (q : nat) (w : N) (gs : seq pgate) : nat := sumn [seq gate_uses q w g | g <- gs].

(** The numbers of earlier uses of the wires of one input list, padded. *)
Definition use_numbers (gs : seq pgate) (l : nat) (ws : seq N) : seq nat :=
  [seq (if q < size ws then (uses q (nth 0%num ws q) gs).-1 else 0) | q <- iota 0 l].

(** The bytes hashed for gate [g]: the use numbers of its (at most two) input
    lists after the gates up to and including [g], eight bytes each. *)
Definition nonce_bytes (gs : seq pgate) (l g : nat) : seq N :=
  let upto := take g.+1 gs in
  let inps := gate_inps (nth (PInv [::] [::]) gs g) in
  flatten [seq flatten [seq be_bytes8 v | v <- use_numbers upto l (nth [::] inps i)] | i <- [:: 0; 1]].

(** The wires at slot [q] of the inputs of a gate block, and that the slot is
    occupied. *)
Definition wires_at (q : nat) (g : pgate) : seq N := [seq nth 0%num ws q | ws <- gate_inps g].
Definition full_at (q : nat) (g : pgate) : bool := all (fun ws => q < size ws) (gate_inps g).
