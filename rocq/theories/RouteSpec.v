(** What a network is supposed to do, without reference to how. *)

From Coq Require Import NArith.
From mathcomp Require Import all_ssreflect.
From Verif Require Import MachineModel RouteModel.
Set Implicit Arguments.
Unset Strict Implicit.
Unset Printing Implicit Defensive.

(** Is [j] a recipient? *)
Definition addressed (to : recipient) (j : nat) : bool :=
  match to with One p => p == j | All => true end.

(** What [j] should get from [i], in order, given the calls of [send]. *)
Definition expected (calls : seq (nat * smsg)) (i j : nat) : seq payload :=
  [seq c.2.2 | c <- calls & (c.1 == i) && addressed c.2.1 j].

(** What it has got. *)
Definition got_from (out : seq (nat * payload)) (i : nat) : seq payload :=
  [seq x.2 | x <- out & x.1 == i].

Section Runs.
Variables (S : Type) (step : S -> label -> S -> Prop).

(** [runs s calls k s']: from [s] to [s'] with the given calls of [send] and [k]
    steps of the network's own tasks, in any interleaving. *)
Inductive runs : S -> seq (nat * smsg) -> nat -> S -> Prop :=
| RunNil s : runs s [::] 0 s
| RunCall s i m s' cs k s'' : step s (Call i m) s' -> runs s' cs k s'' -> runs s ((i, m) :: cs) k s''
| RunTau s s' cs k s'' : step s Tau s' -> runs s' cs k s'' -> runs s cs k.+1 s''.

(** No task can make a step. *)
Definition quiescent (s : S) : Prop := forall s', ~ step s Tau s'.

(** In every run with calls allowed by [ok]: what a party has got from another
    is always a prefix of what it should get; nothing comes from outside; the
    network cannot work for ever without new calls; and when it rests everybody
    has got everything. *)
Definition delivers (n : nat) (s0 : S) (out : S -> nat -> seq (nat * payload)) (ok : smsg -> Prop) : Prop :=
  forall calls k s, runs s0 calls k s -> (forall i m, List.In (i, m) calls -> ok m) ->
    [/\ forall i j, i < n -> j < n -> exists rest, expected calls i j = got_from (out s j) i ++ rest,
        forall j x, List.In x (out s j) -> j < n /\ x.1 < n,
        exists B, forall k' s', runs s [::] k' s' -> k' <= B &
        quiescent s -> forall i j, i < n -> j < n -> got_from (out s j) i = expected calls i j].

End Runs.
