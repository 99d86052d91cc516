(** Sending through the two networks of src/protocol/network.rs, as transition
    systems in which the tasks take steps in any order.  An unbounded channel
    is a list; [out j] is everything ever put into the [party_out] channel of
    party [j], the input of its [receive_router] (modelled in RouterModel).
    A task that has panicked takes no further step. *)

From Coq Require Import NArith.
From mathcomp Require Import all_ssreflect.
From Verif Require Import MachineModel FrameModel.
Set Implicit Arguments.
Unset Strict Implicit.
Unset Printing Implicit Defensive.

(** Protocol id and data.  network.rs:20-32. *)
Definition payload : Type := seq N * seq N.
(** network.rs:20-25 [SendMessage]. *)
Definition smsg : Type := recipient * payload.

(** [Call i m]: party [i] calls [ProtoHandle::send] with [m]; [Tau]: a task of the
    network makes a step.  protocol/mod.rs:87-89 for [Call]. *)
Inductive label := Call of nat & smsg | Tau.

(** The parties a message is put in the channels of, in order.  network.rs:148-168,
    284-310. *)
Definition targets (n : nat) (to : recipient) : seq nat :=
  match to with One p => [:: p] | All => iota 0 n end.

(** No counterpart in the source: a function of two arguments changed at one place. *)
Definition upd2 {T} (f : nat -> nat -> T) (i j : nat) (x : T) : nat -> nat -> T :=
  fun a b => if (a == i) && (b == j) then x else f a b.

(** ** [setup_local_network] (network.rs:122-173) *)

Record lnet := LNet {
  (** net_inp of every party *)
  l_inp : nat -> seq smsg;
  (** the router channel *)
  l_router : seq (nat * smsg);
  (** what the router task has yet to send for its current message *)
  l_cur : seq (nat * (nat * payload));
  l_out : nat -> seq (nat * payload) }.

(** network.rs:122-144. *)
Definition linit : lnet := LNet (fun _ => [::]) [::] [::] (fun _ => [::]).

(** network.rs:135-139, 146-170. *)
Inductive lnstep (n : nat) (s : lnet) : label -> lnet -> Prop :=
| LnCall i m : i < n ->
    lnstep n s (Call i m) (LNet (upd (l_inp s) i (rcons (l_inp s i) m)) (l_router s) (l_cur s) (l_out s))
(** network.rs:137-141 *)
| LnForward i m q : i < n -> l_inp s i = m :: q ->
    lnstep n s Tau (LNet (upd (l_inp s) i q) (rcons (l_router s) (i, m)) (l_cur s) (l_out s))
(** network.rs:149-150: the router task takes the next message ... *)
| LnPick i m q : l_cur s = [::] -> l_router s = (i, m) :: q ->
    lnstep n s Tau (LNet (l_inp s) q [seq (r, (i, m.2)) | r <- targets n m.1] (l_out s))
(** ... and (151-168) sends it to one recipient after the other; a recipient
    outside the range is an index panic. *)
| LnPush r x q : l_cur s = (r, x) :: q -> r < n ->
    lnstep n s Tau (LNet (l_inp s) (l_router s) q (upd (l_out s) r (rcons (l_out s r) x))).

(** ** [setup_tcp_network] (network.rs:68-120) at every party *)

Record tnet := TNet {
  (** net_inp of every party *)
  t_inp : nat -> seq smsg;
  (** what its send_router has yet to send for its current message *)
  t_cur : nat -> seq (nat * payload);
  (** party_inp channel at the first party for the second *)
  t_link : nat -> nat -> seq payload;
  (** bytes written to the stream and not yet arrived *)
  t_flight : nat -> nat -> seq N;
  (** bytes arrived at the second party and not yet handed over as messages *)
  t_buf : nat -> nat -> seq N;
  t_out : nat -> seq (nat * payload) }.

(** network.rs:82-117. *)
Definition tinit : tnet :=
  TNet (fun _ => [::]) (fun _ => [::]) (fun _ _ => [::]) (fun _ _ => [::]) (fun _ _ => [::]) (fun _ => [::]).

(** network.rs:276-376. *)
Inductive tnstep (n : nat) (s : tnet) : label -> tnet -> Prop :=
| TnCall i m : i < n ->
    tnstep n s (Call i m) (TNet (upd (t_inp s) i (rcons (t_inp s i) m)) (t_cur s) (t_link s) (t_flight s) (t_buf s) (t_out s))
(** network.rs:283-284, send_router takes the next message *)
| TnPick i m q : i < n -> t_cur s i = [::] -> t_inp s i = m :: q ->
    tnstep n s Tau (TNet (upd (t_inp s) i q) (upd (t_cur s) i [seq (r, m.2) | r <- targets n m.1])
                         (t_link s) (t_flight s) (t_buf s) (t_out s))
(** network.rs:285-293, 297-304: to itself *)
| TnSelf i pl q : i < n -> t_cur s i = (i, pl) :: q ->
    tnstep n s Tau (TNet (t_inp s) (upd (t_cur s) i q) (t_link s) (t_flight s) (t_buf s)
                         (upd (t_out s) i (rcons (t_out s i) (i, pl))))
(** network.rs:294, 306: to a peer; out of range is an index panic *)
| TnPeer i r pl q : i < n -> r < n -> r != i -> t_cur s i = (r, pl) :: q ->
    tnstep n s Tau (TNet (t_inp s) (upd (t_cur s) i q) (upd2 (t_link s) i r (rcons (t_link s i r) pl))
                         (t_flight s) (t_buf s) (t_out s))
(** network.rs:318-337 party_sender: writes one frame (a long id panics) *)
| TnWrite i j pl q b : i < n -> j < n -> t_link s i j = pl :: q -> frame pl = Some b ->
    tnstep n s Tau (TNet (t_inp s) (t_cur s) (upd2 (t_link s) i j q)
                         (upd2 (t_flight s) i j (t_flight s i j ++ b)) (t_buf s) (t_out s))
(** TCP delivers any number of the bytes, in order *)
| TnCarry i j k : i < n -> j < n -> 0 < k <= size (t_flight s i j) ->
    tnstep n s Tau (TNet (t_inp s) (t_cur s) (t_link s)
                         (upd2 (t_flight s) i j (drop k (t_flight s i j)))
                         (upd2 (t_buf s) i j (t_buf s i j ++ take k (t_flight s i j))) (t_out s))
(** network.rs:347-374 party_receiver of party [j] for the stream of [i]: a
    message is handed over when its bytes have arrived *)
| TnRecv i j pl rest : i < n -> j < n -> recv_one [:: t_buf s i j] = RMsg pl rest ->
    tnstep n s Tau (TNet (t_inp s) (t_cur s) (t_link s) (t_flight s)
                         (upd2 (t_buf s) i j (List.concat rest)) (upd (t_out s) j (rcons (t_out s j) (i, pl)))).
