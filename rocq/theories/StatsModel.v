(** Model of src/lib.rs: [Stats], a measurement of the traffic between two
    points of a program.  The reads of the counters of different parties are
    separate [await]s, so they may see different states of the router:
    [view i] is the vector of counters when that of party [i] is read.  The
    wall-clock part is not modelled.  [None] is a panic: an index out of range,
    [i.try_into()] to [PartyID] (16 bits) failing, or an underflow. *)

From Coq Require Import NArith.
From mathcomp Require Import all_ssreflect.
From Verif Require Import RouterModel.
Set Implicit Arguments.
Unset Strict Implicit.
Unset Printing Implicit Defensive.

(** network.rs:48-50 [Stats::party] after [i.try_into().unwrap()]. *)
Definition read_party (view : nat -> seq (nat * nat)) (i : nat) : option (nat * nat) :=
  if (N.of_nat i <? 2 ^ 16)%num then stats_party (view i) i else None.

(** lib.rs:23-33 [Stats::now]: the loop over the parties from [i]. *)
Fixpoint now_from (view : nat -> seq (nat * nat)) (i num : nat) : option (seq (nat * nat)) :=
  if num is num'.+1 then
    if read_party view i is Some v then omap (cons v) (now_from view i.+1 num') else None
  else Some [::].
Definition stats_now (view : nat -> seq (nat * nat)) (n : nat) : option (seq (nat * nat)) := now_from view 0 n.

(** lib.rs:35-44 [Stats::elapsed]: the loop over [self.comm] from index [i]. *)
Fixpoint elapsed_from (view : nat -> seq (nat * nat)) (i : nat) (comm : seq (nat * nat)) : option (seq (nat * nat)) :=
  if comm is v :: comm' then
    if read_party view i is Some pcom then
      if (v.1 <= pcom.1) && (v.2 <= pcom.2) then
        omap (cons (pcom.1 - v.1, pcom.2 - v.2)) (elapsed_from view i.+1 comm')
      else None
    else None
  else Some [::].
Definition stats_elapsed (view : nat -> seq (nat * nat)) (comm : seq (nat * nat)) : option (seq (nat * nat)) :=
  elapsed_from view 0 comm.
