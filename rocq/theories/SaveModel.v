(** Model of the last step of the programs, which collects the figures of all
    parties at party 0, and of what becomes of messages when a process ends. *)

From mathcomp Require Import all_ssreflect.
From Verif Require Import MachineModel PipeModel.
Set Implicit Arguments.
Unset Strict Implicit.
Unset Printing Implicit Defensive.

Section Save.

Variables (n : nat) (I D : eqType) (V : Type).
Notation proc := (proc I D V).

(** bin/garble.rs:143-187, bin/preproc.rs:147-189, the branch with [--save]: every
    party sends its figures [rep] to party 0, which waits for all of them, writes
    the file (here: continues with them) and sends [fin] ("done") to everybody;
    the others wait for one message.  Rendering and parsing JSON and the file
    system are left out. *)
Definition save_step (b : I) (fin : D) (me : nat) (rep : D) (k : option (seq D) -> proc) : proc :=
  Send (One 0) b rep
    (if me == 0 then gather n b (fun ds => Send All b fin (k (Some ds)))
     else Recv b (fun _ _ => k None)).

(** ** Processes that end

    bin/garble.rs:211-215, bin/preproc.rs:215-219: the program is the future
    given to [block_on] of a runtime with one thread.  [net.send]
    (protocol/mod.rs:87-89) only puts the message into a queue; [send_router]
    (network.rs:276-312) is another task of the same runtime, which takes messages
    out of the queue when it is scheduled.  No task is scheduled any more when the
    program has returned (or panicked).  Messages that have left the queue are
    taken to arrive whatever happens to the sender. *)
Record xcfg := XCfg {
  xprocs : nat -> proc;
  xqueue : nat -> seq (recipient * (I * D));
  xnet : seq (nat * (I * (nat * D)));
  xmbox : nat -> seq (I * (nat * D)) }.

(** The main future of the process is still there.  bin/garble.rs:215,
    bin/preproc.rs:219. *)
Definition alive (p : proc) : bool :=
  match p with Ret _ => false | Panic => false | _ => true end.

(** network.rs:283-311 for [XRoute]; the other steps as in MachineModel. *)
Inductive xstep (c : xcfg) : xcfg -> Prop :=
| XTau i p : i < n -> lstep (xprocs c i) (@ATau I D) p ->
    xstep c (XCfg (upd (xprocs c) i p) (xqueue c) (xnet c) (xmbox c))
| XSend i to id d p : i < n -> lstep (xprocs c i) (ASend to id d) p ->
    xstep c (XCfg (upd (xprocs c) i p) (upd (xqueue c) i (rcons (xqueue c i) (to, (id, d)))) (xnet c) (xmbox c))
| XRoute i to id d q : i < n -> alive (xprocs c i) -> xqueue c i = (to, (id, d)) :: q ->
    xstep c (XCfg (xprocs c) (upd (xqueue c) i q) (xnet c ++ outgoing n i to id d) (xmbox c))
| XRecv i id s d p a b : i < n -> xmbox c i = a ++ (id, (s, d)) :: b -> id \notin [seq m.1 | m <- a] ->
    lstep (xprocs c i) (ARecv id s d) p ->
    xstep c (XCfg (upd (xprocs c) i p) (xqueue c) (xnet c) (upd (xmbox c) i (a ++ b)))
| XDeliver to m a b : to < n -> xnet c = a ++ (to, m) :: b ->
    xstep c (XCfg (xprocs c) (xqueue c) (a ++ b) (upd (xmbox c) to (rcons (xmbox c to) m))).

(** No counterpart in the source: [k] steps. *)
Inductive xsteps : nat -> xcfg -> xcfg -> Prop :=
| XS0 c : xsteps 0 c c
| XSS k c c' c'' : xstep c c' -> xsteps k c' c'' -> xsteps k.+1 c c''.

(** bin/garble.rs:65-93, bin/preproc.rs:68-95: nothing sent yet. *)
Definition xstart (P : nat -> proc) : xcfg := XCfg P (fun _ => [::]) [::] (fun _ => [::]).

End Save.
