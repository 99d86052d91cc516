(** Model of the receiving side of the network (src/protocol/network.rs):
    [Stats], [receive_router], [message_from_each_party], and of
    [connect_to_peers].  Byte strings are [seq N].  Counters are unbounded
    (u64 in the code). *)

From Coq Require Import NArith.
From mathcomp Require Import all_ssreflect.
Set Implicit Arguments.
Unset Strict Implicit.
Unset Printing Implicit Defensive.

(** A [HashMap] is an association list.  network.rs:403. *)
Definition get (K : eqType) T (k : K) (m : seq (K * T)) : option T :=
  ohead [seq e.2 | e <- m & e.1 == k].
(** network.rs:393, 407. *)
Definition remove (K : eqType) T (k : K) (m : seq (K * T)) : seq (K * T) :=
  [seq e <- m | e.1 != k].
(** network.rs:398, 413. *)
Definition insert (K : eqType) T (k : K) (v : T) (m : seq (K * T)) : seq (K * T) :=
  (k, v) :: remove k m.

(** network.rs:27-32 [ReceivedMessage]. *)
Record msg := Msg { m_id : seq N; m_from : nat; m_data : seq N }.

(** network.rs:34-64 [Stats]. *)
Definition stats_new (n : nat) : seq (nat * nat) := nseq n (0, 0).
Definition stats_increment (st : seq (nat * nat)) (from pb nb : nat) : option (seq (nat * nat)) :=
  if from < size st then
    let v := nth (0, 0) st from in Some (set_nth (0, 0) st from (v.1 + pb, v.2 + nb))
  else None.
Definition stats_party (st : seq (nat * nat)) (from : nat) : option (nat * nat) :=
  ohead (drop from st).
Definition stats_total (st : seq (nat * nat)) : nat * nat :=
  foldl (fun a v => (a.1 + v.1, a.2 + v.2)) (0, 0) st.

Section Router.

(** The [oneshot::Sender] halves; each belongs to one call of [recv]. *)
Variable H : Type.

(** network.rs:383-384 and the statistics. *)
Record rstate := RState {
  mssg_pool : seq (seq N * seq msg);
  handle_pool : seq (seq N * H);
  rstats : seq (nat * nat) }.

Definition rinit (n : nat) : rstate := RState [::] [::] (stats_new n).

(** The two branches of the [select!]: a message from the network, or a call
    of [ProtoHandle::recv] (protocol/mod.rs:91-95). *)
Inductive event := Arrive of msg | Request of seq N & H.

(** network.rs:386-419, one iteration: the new state, the message handed over
    (if any) and the handle dropped (if any: its [rx.await.unwrap()] panics).
    [None] is a panic of the router.  [handle.send(..).unwrap()] cannot fail
    unless the future of [recv] is dropped, which the crate never does.  The
    loop after the [select!] loop (421-438) runs only when both channels are
    closed, so its first [recv] returns [None]. *)
Definition rstep (s : rstate) (e : event) : option (rstate * seq (H * msg) * seq H) :=
  match e with
  | Arrive m =>
      let pb := size (m_data m) in
      let nb := pb + size (m_id m) in
      if stats_increment (rstats s) (m_from m) pb nb is Some st then
        match get (m_id m) (handle_pool s) with
        | Some h => Some (RState (mssg_pool s) (remove (m_id m) (handle_pool s)) st, [:: (h, m)], [::])
        | None =>
            let buf := if get (m_id m) (mssg_pool s) is Some b then b else [::] in
            Some (RState (insert (m_id m) (rcons buf m) (mssg_pool s)) (handle_pool s) st, [::], [::])
        end
      else None
  | Request id h =>
      match get id (mssg_pool s) with
      | Some (m :: buf) =>
          let pool := if buf is [::] then remove id (mssg_pool s) else insert id buf (mssg_pool s) in
          Some (RState pool (handle_pool s) (rstats s), [:: (h, m)], [::])
      | Some [::] => None
      | None =>
          let old := if get id (handle_pool s) is Some h0 then [:: h0] else [::] in
          Some (RState (mssg_pool s) (insert id h (handle_pool s)) (rstats s), [::], old)
      end
  end.

(** A history of events: final state, hand-overs in order, dropped handles.
    network.rs:386-419. *)
Fixpoint rrun (s : rstate) (es : seq event) : option (rstate * seq (H * msg) * seq H) :=
  if es is e :: es' then
    if rstep s e is Some (s', d, x) then
      if rrun s' es' is Some (s'', d', x') then Some (s'', d ++ d', x ++ x') else None
    else None
  else Some (s, [::], [::]).

End Router.

Arguments RState {H}.
Arguments Arrive {H}.
Arguments Request {H}.

(** network.rs:191-210 [message_from_each_party] on the sequence of messages
    its [recv] calls obtain: it returns, waits for more, or panics.  On
    return the messages not consumed are given too. *)
Inductive mfep_result :=
| MDone of seq (seq N) & seq msg
| MWait
| MPanic.

Fixpoint mfep_loop (n : nat) (mssgs : seq (seq N)) (has_sent : seq bool) (counter : nat) (arr : seq msg)
    : mfep_result :=
  if counter == n then MDone mssgs arr
  else if arr is m :: arr' then
    if m_from m < size has_sent then
      if nth false has_sent (m_from m) then mfep_loop n mssgs has_sent counter arr'
      else mfep_loop n (set_nth [::] mssgs (m_from m) (m_data m)) (set_nth false has_sent (m_from m) true)
             counter.+1 arr'
    else MPanic
  else MWait.

Definition message_from_each_party (n : nat) (arr : seq msg) : mfep_result :=
  mfep_loop n (nseq n [::]) (nseq n false) 0 arr.

(** network.rs:212-274 [connect_to_peers] at party [me]: [accepted] are the
    incoming connections in the order of acceptance, with the party id read
    from each; [out j] is the outgoing connection to peer [j].  [None] is an
    out-of-range index. *)
Section Connect.
Variable S : Type.

Fixpoint accept_loop (streams : seq (option S)) (accepted : seq (nat * S)) : option (seq (option S)) :=
  if accepted is (pid, c) :: acc' then
    if pid < size streams then accept_loop (set_nth None streams pid (Some c)) acc' else None
  else Some streams.

Definition connect_to_peers (n me : nat) (accepted : seq (nat * S)) (out : nat -> S) : option (seq (option S)) :=
  if accept_loop (nseq n None) (take (n - me - 1) accepted) is Some streams then
    Some (foldl (fun s i => set_nth None s i (Some (out i))) streams (iota 0 me))
  else None.

End Connect.
