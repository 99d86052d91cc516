(** The whole network stack under the protocol code: the tasks of the code,
    [ProtoHandle::send]/[recv] (src/protocol/mod.rs:80-95) with their
    oneshot channels, the channel of requests to [receive_router], that
    router (RouterModel) and one of the two networks (RouteModel), all taking
    steps in any order. *)

From Coq Require Import NArith.
From mathcomp Require Import all_ssreflect.
From Verif Require Import MachineModel RouterModel RouteModel.
Set Implicit Arguments.
Unset Strict Implicit.
Unset Printing Implicit Defensive.

Section Stack.

(** The number of parties, the data handed to [send] and the bytes it is, the
    results of tasks. *)
Variables (n : nat) (D : eqType) (enc : D -> seq N) (V : Type).
Notation I := [eqType of seq N].
Notation proc := (proc I D V).

(** A network, with the messages ever put in the [party_out] channel of each
    party. *)
Variables (X : Type) (nstep : X -> label -> X -> Prop) (out : X -> nat -> seq (nat * payload)).

(** A oneshot channel is named by a number.  protocol/mod.rs:92. *)
Definition handle := nat.

(** ** Tasks *)

(** Code that runs; a task that has called [recv] and awaits the oneshot channel (the
    code is what it was at the call); two spawned tasks and what follows when both are
    awaited.  protocol/mod.rs:91-95 for [TWait]; [tokio::spawn], e.g.
    preproc.rs:354-378, for [TFork]. *)
Inductive task :=
| TRun of proc
| TWait of handle & I & proc
| TFork of task & task & (V -> V -> proc).

(** The id on which the code calls [recv] next.  network.rs:200-201. *)
Definition wanted (p : proc) : option I :=
  match p with
  | Recv id _ => Some id
  | Gath id got _ => if all isSome got then None else Some id
  | _ => None
  end.

(** What it does with the message.  network.rs:201-206. *)
Definition feed (p : proc) (s : nat) (d : D) : proc :=
  match p with
  | Recv _ k => k s d
  | Gath id got k => gath_step id got k s d
  | _ => p
  end.

(** protocol/mod.rs:87-95. *)
Inductive tact :=
| TTau
| TSend of recipient & I & D
(** recv creates the channel [h] and sends the request *)
| TReq of I & handle
(** the message comes out of [h] *)
| TGot of handle & nat & D
(** the other end of [h] has been dropped: [rx.await.unwrap()] panics *)
| TLost of handle.

(** protocol/mod.rs:87-95, network.rs:200-209. *)
Inductive tstep : task -> tact -> task -> Prop :=
(** protocol/mod.rs:87-89 *)
| TsSend to id d k : tstep (TRun (Send to id d k)) (TSend to id d) (TRun k)
(** protocol/mod.rs:91-95; network.rs:201 *)
| TsReq p id h : wanted p = Some id -> tstep (TRun p) (TReq id h) (TWait h id p)
| TsGot p id h s d : tstep (TWait h id p) (TGot h s d) (TRun (feed p s d))
| TsLost p id h : tstep (TWait h id p) (TLost h) (TRun Panic)
(** network.rs:200, 209: the loop is left *)
| TsDone id got k : all isSome got -> tstep (TRun (Gath id got k)) TTau (TRun (k (pmap (fun x => x) got)))
(** [tokio::spawn] *)
| TsFork p q k : tstep (TRun (Fork p q k)) TTau (TFork (TRun p) (TRun q) k)
| TsL a x a' b k : tstep a x a' -> tstep (TFork a b k) x (TFork a' b k)
| TsR a b x b' k : tstep b x b' -> tstep (TFork a b k) x (TFork a b' k)
| TsJoin a b k : tstep (TFork (TRun (Ret a)) (TRun (Ret b)) k) TTau (TRun (k a b))
(** [.await.unwrap()] on a task that has panicked *)
| TsPanicL b k : tstep (TFork (TRun Panic) b k) TTau (TRun Panic)
| TsPanicR a k : tstep (TFork a (TRun Panic) k) TTau (TRun Panic).

(** ** A party *)

(** network.rs:82-85, 110-117, 383-384. *)
Record party := Party {
  p_task : task;
  (** the next oneshot channel *)
  p_next : handle;
  (** the channel [net_out] of requests *)
  p_chan : seq (I * handle);
  (** the state of [receive_router] and how many messages it has taken from
      [party_out] *)
  p_router : rstate handle;
  p_read : nat;
  (** messages in oneshot channels, and channels whose sender was dropped *)
  p_slots : seq (handle * msg);
  p_lost : seq handle }.

(** No counterpart in the source: a party after a step of its task. *)
Definition with_task (p : party) (t : task) : party :=
  Party t (p_next p) (p_chan p) (p_router p) (p_read p) (p_slots p) (p_lost p).

(** ** All parties *)

(** [s_calls] is a history of the calls of [send], oldest first; no step reads it.
    network.rs:68-120 and 122-173. *)
Record stack := Stack { s_net : X; s_party : nat -> party; s_calls : seq (nat * smsg) }.

(** No counterpart in the source: the stack after a step of a party. *)
Definition set_party (s : stack) (i : nat) (p : party) : stack := Stack (s_net s) (upd (s_party s) i p) (s_calls s).

(** network.rs:151-155, 287-291, 368-372. *)
Definition msg_of (x : nat * payload) : msg := Msg x.2.1 x.1 x.2.2.

(** protocol/mod.rs:87-95, network.rs:276-419. *)
Inductive sstep (s : stack) : stack -> Prop :=
| StTau i t : i < n -> tstep (p_task (s_party s i)) TTau t ->
    sstep s (set_party s i (with_task (s_party s i) t))
| StSend i to id d t x : i < n -> tstep (p_task (s_party s i)) (TSend to id d) t ->
    nstep (s_net s) (Call i (to, (id, enc d))) x ->
    sstep s (Stack x (upd (s_party s) i (with_task (s_party s i) t)) (rcons (s_calls s) (i, (to, (id, enc d)))))
| StReq i id t : i < n -> let p := s_party s i in tstep (p_task p) (TReq id (p_next p)) t ->
    sstep s (set_party s i (Party t (p_next p).+1 (rcons (p_chan p) (id, p_next p)) (p_router p) (p_read p) (p_slots p) (p_lost p)))
| StGot i h id f d t a b : i < n -> let p := s_party s i in p_slots p = a ++ (h, Msg id f (enc d)) :: b ->
    tstep (p_task p) (TGot h f d) t ->
    sstep s (set_party s i (Party t (p_next p) (p_chan p) (p_router p) (p_read p) (a ++ b) (p_lost p)))
| StLost i h t : i < n -> let p := s_party s i in h \in p_lost p -> tstep (p_task p) (TLost h) t ->
    sstep s (set_party s i (with_task p t))
(** network.rs:388-401: [receive_router] takes the next message *)
| StArrive i x rest r hand gone : i < n -> let p := s_party s i in
    drop (p_read p) (out (s_net s) i) = x :: rest ->
    rstep (p_router p) (Arrive (msg_of x)) = Some (r, hand, gone) ->
    sstep s (set_party s i (Party (p_task p) (p_next p) (p_chan p) r (p_read p).+1 (p_slots p ++ hand) (p_lost p ++ gone)))
(** network.rs:402-416: or the next request *)
| StRequest i id h rest r hand gone : i < n -> let p := s_party s i in
    p_chan p = (id, h) :: rest ->
    rstep (p_router p) (Request id h) = Some (r, hand, gone) ->
    sstep s (set_party s i (Party (p_task p) (p_next p) rest r (p_read p) (p_slots p ++ hand) (p_lost p ++ gone)))
| StNet x : nstep (s_net s) Tau x -> sstep s (Stack x (s_party s) (s_calls s)).

(** bin/garble.rs:65-93, bin/preproc.rs:68-95 and the tests: the network is set
    up, then the code starts. *)
Definition stack_start (x0 : X) (P : nat -> proc) : stack :=
  Stack x0 (fun i => Party (TRun (P i)) 0 [::] (rinit handle n) 0 [::] [::]) [::].

End Stack.
