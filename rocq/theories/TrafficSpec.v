(** How much the protocols send, by counting their messages.  The formulas are
    independent of the code of the model: they speak of the numbers of parties,
    blocks, gates and sharings. *)

From Coq Require Import NArith.
From Verif Require Import CircuitModel LpnModel.
From mathcomp Require Import all_ssreflect.
From Verif Require Import RouterModel RouteModel RouteSpec PreprocModel StackModel.
Set Implicit Arguments.
Unset Strict Implicit.
Unset Printing Implicit Defensive.

(** The messages received, each counted by a function of its number of bytes:
    [id] gives the number of bytes, [fun _ => 1] the number of messages. *)
Definition tally (f : nat -> nat) (msgs : seq payload) : nat := \sum_(x <- msgs) f (size x.2).

(** [T f j r] is what party [r] has received from party [j], whatever the price
    [f] of a message of so many bytes; and [r]'s statistics tell so. *)
Definition receives (n : nat) (D : eqType) (V X : Type) (out : X -> nat -> seq (nat * payload)) (s : stack D V X)
    (T : (nat -> nat) -> nat -> nat -> nat) : Prop :=
  (forall f j r, j < n -> r < n -> tally f (got_from (out (s_net s) r) j) = T f j r) /\
  (forall j r, j < n -> r < n -> (nth (0, 0) (rstats (p_router (s_party s r))) j).1 = T id j r).

(** A message to a leader and the leader's answers: how many of these messages
    go from [s] to [r]. *)
Definition via (L s r : nat) : nat := (r == L) + (s == L).

Definition ceil_div (a b : nat) : nat := (a + b - 1) %/ b.

Section Traffic.
(** The price of a message with so many field elements. *)
Variable cost : nat -> nat.

(** Gate [gid] of kind [x]: one product per slot for an AND, then the selection
    of the encrypted values. *)
Definition gate_traffic (K : nat) (x : pgate) (L1 L2 : nat) (s r : nat) : nat :=
  if x is PAnd _ _ _ then via L1 s r * cost 1 + via L2 s r * cost (3 * (K + 1)) else via L2 s r * cost (K + 1).

(** Garbling: from [s] to [r].  A batch of [l] transformations needs one message
    of two shares for each of the [2 K + 1] columns; transformation [i] is led by
    party [i mod n]; gates have arbitrary leaders. *)
Definition garble_traffic (n l K : nat) (circ : pcircuit) (L1 L2 : nat -> nat) (s r : nat) : nat :=
  let nb := size (p_inputs circ) + size (p_gates circ) in
  let ni := size (flatten [seq gate_inps x | x <- p_gates circ]) in
  let w := 2 * K + 1 in
  (ceil_div nb l + ceil_div ni l) * cost (2 * w) +
  (\sum_(i < nb) via (i %% n) s r * cost w + \sum_(i < ni) via (i %% n) s r * cost w) +
  \sum_(gid < size (p_gates circ)) gate_traffic K (nth (PInv [::] [::]) (p_gates circ) gid) (L1 gid) (L2 gid) s r.

(** Preprocessing: three dealings and two multiplications of every error; the
    errors are split evenly among [n] leaders, the last one takes the rest. *)
Definition preproc_traffic (n rows rowsb : nat) (d : count) (s r : nat) : nat :=
  let e := n_errors d in
  cost (ceil_div (keys_total d + n_randoms d + 3 * e) rows) + cost (ceil_div (n_zeros d + 2 * e) rows) +
  cost (ceil_div (n_masks d + 2 * e) rowsb) +
  \sum_(i < n) via i s r * (2 * cost (if i == n.-1 :> nat then e - n.-1 * (e %/ n) else e %/ n)).

(** All messages of a garbling, whoever leads. *)
Definition garble_total (n l K : nat) (circ : pcircuit) : nat :=
  let nb := size (p_inputs circ) + size (p_gates circ) in
  let ni := size (flatten [seq gate_inps x | x <- p_gates circ]) in
  let: (num_and, num_xor, num_inv) := get_gate_counts (p_gates circ) in
  let w := 2 * K + 1 in
  n * n * ((ceil_div nb l + ceil_div ni l) * cost (2 * w)) + 2 * n * ((nb + ni) * cost w) +
  2 * n * (num_and * (cost 1 + cost (3 * (K + 1))) + (num_xor + num_inv) * cost (K + 1)).

Definition preproc_total (n rows rowsb : nat) (d : count) : nat :=
  let e := n_errors d in
  n * n * (cost (ceil_div (keys_total d + n_randoms d + 3 * e) rows) + cost (ceil_div (n_zeros d + 2 * e) rows) +
           cost (ceil_div (n_masks d + 2 * e) rowsb)) +
  4 * n * (n.-1 * cost (e %/ n) + cost (e - n.-1 * (e %/ n))).

End Traffic.
