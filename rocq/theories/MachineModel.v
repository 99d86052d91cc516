(** Asynchronous execution of the protocol code at [n] parties.

    A party's code is a [proc]: local computation is functional, every use of
    the network is a constructor.  Tasks started with [tokio::spawn] and later
    awaited are a [Fork].  The network holds messages in flight and delivers
    them in any order; each party has a mailbox in arrival order.  The
    mailbox discipline of [Recv] is what [receive_router] provides when no
    two receives on one id are outstanding (theorem C22).
    Randomness is not a constructor: coins are arguments of the code. *)

From mathcomp Require Import all_ssreflect.
Set Implicit Arguments.
Unset Strict Implicit.
Unset Printing Implicit Defensive.

Section Machine.

(** Number of parties; ids; serialized data; results of tasks. *)
Variables (n : nat) (I D : eqType) (V : Type).

(** network.rs:14-18 [Recipient]. *)
Inductive recipient := One of nat | All.

Inductive proc :=
(** The task has finished with a value. *)
| Ret of V
(** The task has panicked. *)
| Panic
(** protocol/mod.rs:87-89 [ProtoHandle::send]. *)
| Send of recipient & I & D & proc
(** protocol/mod.rs:91-95 [ProtoHandle::recv]; the continuation gets sender and data. *)
| Recv of I & (nat -> D -> proc)
(** network.rs:191-210 [message_from_each_party]: the loop, with [mssgs] and
    [has_sent] as one list of optional messages; [counter] is the number of
    messages present. *)
| Gath of I & seq (option D) & (seq D -> proc)
(** Two concurrent tasks, both awaited. *)
| Fork of proc & proc & (V -> V -> proc).

(** Running [p] and continuing with its result ([.await] on a call).  E.g.
    preproc.rs:421, 437. *)
Fixpoint bind (p : proc) (f : V -> proc) : proc :=
  match p with
  | Ret v => f v
  | Panic => Panic
  | Send to id d k => Send to id d (bind k f)
  | Recv id k => Recv id (fun s d => bind (k s d) f)
  | Gath id got k => Gath id got (fun ds => bind (k ds) f)
  | Fork p q k => Fork p q (fun a b => bind (k a b) f)
  end.

(** Sending to each of the [n] parties in turn, [for i in 0..n].  core.rs:68-76,
    181-189; preproc.rs:55-63. *)
Definition send_each (id : I) (d : nat -> D) (k : proc) : proc :=
  foldr (fun i q => Send (One i) id (d i) q) k (iota 0 n).

(** network.rs:191-199: the initial state of [message_from_each_party]. *)
Definition gather (id : I) (k : seq D -> proc) : proc := Gath id (nseq n None) k.

(** network.rs:175-185 [sync]; [d] is the byte string "sync". *)
Definition sync (id : I) (d : D) (k : proc) : proc := Send All id d (gather id (fun _ => k)).

(** ** Local steps *)

(** mod.rs:87-95 and the steps inside a task. *)
Inductive act :=
| ATau
| ASend of recipient & I & D
| ARecv of I & nat & D.

(** network.rs:202-206: what the loop does with one message; a sender outside
    the range is an out-of-bounds panic. *)
Definition gath_step (id : I) (got : seq (option D)) (k : seq D -> proc) (s : nat) (d : D) : proc :=
  if s < size got then
    if nth None got s is Some _ then Gath id got k
    else Gath id (set_nth None got s (Some d)) k
  else Panic.

Inductive lstep : proc -> act -> proc -> Prop :=
| LSend to id d k : lstep (Send to id d k) (ASend to id d) k
| LRecv id k s d : lstep (Recv id k) (ARecv id s d) (k s d)
| LGathMsg id got k s d : ~~ all isSome got -> lstep (Gath id got k) (ARecv id s d) (gath_step id got k s d)
| LGathDone id got k : all isSome got -> lstep (Gath id got k) ATau (k (pmap (fun x => x) got))
| LForkL p a p' q k : lstep p a p' -> lstep (Fork p q k) a (Fork p' q k)
| LForkR p q a q' k : lstep q a q' -> lstep (Fork p q k) a (Fork p q' k)
| LJoin a b k : lstep (Fork (Ret a) (Ret b) k) ATau (k a b)
| LPanicL q k : lstep (Fork Panic q k) ATau Panic
| LPanicR p k : lstep (Fork p Panic k) ATau Panic.

(** ** Global steps *)

(** A message in flight is (recipient, (id, (sender, data))), a mailbox entry (id,
    (sender, data)).  Stands for the channels and streams of network.rs:68-173, which
    StackModel models one by one. *)
Record cfg := Cfg {
  procs : nat -> proc;
  net : seq (nat * (I * (nat * D)));
  mbox : nat -> seq (I * (nat * D)) }.

(** No counterpart in the source: a function changed at one place. *)
Definition upd {T} (f : nat -> T) (i : nat) (x : T) : nat -> T := fun j => if j == i then x else f j.

(** network.rs:283-310 and 149-171: the recipients of a message. *)
Definition outgoing (i : nat) (to : recipient) (id : I) (d : D) : seq (nat * (I * (nat * D))) :=
  match to with
  | One r => [:: (r, (id, (i, d)))]
  | All => [seq (r, (id, (i, d))) | r <- iota 0 n]
  end.

Inductive gstep (c : cfg) : cfg -> Prop :=
| GTau i p : i < n -> lstep (procs c i) ATau p ->
    gstep c (Cfg (upd (procs c) i p) (net c) (mbox c))
| GSend i to id d p : i < n -> lstep (procs c i) (ASend to id d) p ->
    gstep c (Cfg (upd (procs c) i p) (net c ++ outgoing i to id d) (mbox c))
| GRecv i id s d p a b : i < n -> mbox c i = a ++ (id, (s, d)) :: b -> id \notin [seq m.1 | m <- a] ->
    lstep (procs c i) (ARecv id s d) p ->
    gstep c (Cfg (upd (procs c) i p) (net c) (upd (mbox c) i (a ++ b)))
| GDeliver to m a b : to < n -> net c = a ++ (to, m) :: b ->
    gstep c (Cfg (procs c) (a ++ b) (upd (mbox c) to (rcons (mbox c to) m))).

(** [k] steps.  No counterpart in the source. *)
Inductive gsteps : nat -> cfg -> cfg -> Prop :=
| GS0 c : gsteps 0 c c
| GSS k c c' c'' : gstep c c' -> gsteps k c' c'' -> gsteps k.+1 c c''.

(** All parties at the start of their code, nothing sent.  bin/garble.rs:65-93,
    bin/preproc.rs:68-95. *)
Definition start (P : nat -> proc) : cfg := Cfg P [::] (fun _ => [::]).

(** Every schedule is finite and ends in a state satisfying [Q]: runs have bounded
    length, and a state in which no step is possible satisfies [Q].  No counterpart in
    the source. *)
Definition every_run_ends (c : cfg) (Q : cfg -> Prop) : Prop :=
  exists B, forall k c', gsteps k c c' ->
    k <= B /\ ((exists c'', gstep c' c'') \/ Q c').

(** Everybody has returned the given value and no message is left over.  No
    counterpart in the source. *)
Definition all_done (res : nat -> V) (c : cfg) : Prop :=
  (forall i, i < n -> procs c i = Ret (res i)) /\ net c = [::] /\ (forall i, i < n -> mbox c i = [::]).

End Machine.

Arguments Ret {I D V} _.
Arguments Panic {I D V}.
