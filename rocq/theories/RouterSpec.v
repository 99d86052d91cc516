(** What a user expects of the receiving side, independent of the router's
    data structures. *)

From Coq Require Import NArith.
From mathcomp Require Import all_ssreflect.
From Verif Require Import RouterModel.
Set Implicit Arguments.
Unset Strict Implicit.
Unset Printing Implicit Defensive.

Section Spec.
Variable H : Type.

(** The messages that arrived for [id], in order. *)
Definition arrivals (id : seq N) (es : seq (event H)) : seq msg :=
  pmap (fun e => if e is Arrive m then if m_id m == id then Some m else None else None) es.

(** The calls of recv on [id], in order. *)
Definition requests (id : seq N) (es : seq (event H)) : seq H :=
  pmap (fun e => if e is Request i h then if i == id then Some h else None else None) es.

(** All messages that arrived. *)
Definition arrived (es : seq (event H)) : seq msg :=
  pmap (fun e => if e is Arrive m then Some m else None) es.

(** Every sender is one of the [n] parties. *)
Definition senders_ok (n : nat) (es : seq (event H)) : bool := all (fun m => m_from m < n) (arrived es).

(** Never two unanswered calls of recv on one id: at every moment at most one
    more call than messages. *)
Definition one_at_a_time (es : seq (event H)) : Prop :=
  forall k id, size (requests id (take k es)) <= (size (arrivals id (take k es))).+1.

(** Bytes received from one party: payload, and payload plus id. *)
Definition bytes_from (p : nat) (ms : seq msg) : nat * nat :=
  (sumn [seq size (m_data m) | m <- ms & m_from m == p],
   sumn [seq size (m_data m) + size (m_id m) | m <- ms & m_from m == p]).

End Spec.

(** The first message of party [i]. *)
Definition first_from (i : nat) (ms : seq msg) : seq N :=
  if [seq m_data m | m <- ms & m_from m == i] is d :: _ then d else [::].

(** Everybody has been heard. *)
Definition heard_all (n : nat) (ms : seq msg) : bool :=
  all (fun i => i \in [seq m_from m | m <- ms]) (iota 0 n).
