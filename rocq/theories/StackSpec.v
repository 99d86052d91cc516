(** What it means that code runs well on the network stack. *)

From Coq Require Import NArith.
From mathcomp Require Import all_ssreflect.
From Verif Require Import MachineModel RouterModel RouterSpec RouteModel RouteSpec StackModel.
Set Implicit Arguments.
Unset Strict Implicit.
Unset Printing Implicit Defensive.

(** Every execution from [s] is finite, and satisfies [Q] when no task can make
    a step any more. *)
Inductive ends_in (S : Type) (step : S -> S -> Prop) (Q : S -> Prop) (s : S) : Prop :=
| EndsIn : (forall s', step s s' -> ends_in step Q s') -> ((forall s', ~ step s s') -> Q s) -> ends_in step Q s.

(** The ids on which code awaits messages, concurrently. *)
Fixpoint listens (D : eqType) (V : Type) (p : proc [eqType of seq N] D V) : seq (seq N) :=
  match p with
  | Fork p q _ => listens p ++ listens q
  | p => if wanted p is Some id then [:: id] else [::]
  end.

(** Everybody has returned the given value, everybody has received what was sent
    to them and nothing else, and the statistics are those of all these messages. *)
Definition stack_done (n : nat) (D : eqType) (V X : Type) (out : X -> nat -> seq (nat * payload)) (res : nat -> V)
    (s : stack D V X) : Prop :=
  forall i, i < n -> let p := s_party s i in
    [/\ p_task p = TRun (Ret (res i)),
        p_chan p = [::] /\ p_slots p = [::],
        forall id, get id (mssg_pool (p_router p)) = None /\ get id (handle_pool (p_router p)) = None,
        p_read p = size (out (s_net s) i) &
        forall j, j < n -> got_from (out (s_net s) i) j = expected (s_calls s) j i /\
          nth (0, 0) (rstats (p_router p)) j = bytes_from j [seq msg_of x | x <- out (s_net s) i]].

(** The same, but the messages [left i] have not been awaited by party [i] and
    are in the pool of its router. *)
Definition stack_left (n : nat) (D : eqType) (enc : D -> seq N) (V X : Type) (out : X -> nat -> seq (nat * payload)) (res : nat -> V)
    (left : nat -> seq (seq N * (nat * D))) (s : stack D V X) : Prop :=
  forall i, i < n -> let p := s_party s i in
    [/\ p_task p = TRun (Ret (res i)),
        p_chan p = [::] /\ p_slots p = [::],
        forall id, let ms := [seq Msg m.1 m.2.1 (enc m.2.2) | m <- left i & m.1 == id] in
          get id (mssg_pool (p_router p)) = (if ms is [::] then None else Some ms) /\ get id (handle_pool (p_router p)) = None,
        p_read p = size (out (s_net s) i) &
        forall j, j < n -> got_from (out (s_net s) i) j = expected (s_calls s) j i /\
          nth (0, 0) (rstats (p_router p)) j = bytes_from j [seq msg_of x | x <- out (s_net s) i]].
